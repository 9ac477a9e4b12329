(** The four search trees with an arbitrary comparison. *)
From Verif Require Export AnyOrderSpec AvlProofs RbProofs SplayProofs TreapProofs.

Section BstAny.
  Context {A K V : Type} `{Cmp K}.
  Notation tr := (tree A K V).
  Implicit Types (t l r : tr) (e : K * V) (k : K) (P M Q L : list (K * V)).

  Lemma found_nil k : found (V := V) _ k [].
  Proof. exact I. Qed.
  Lemma found_one k e : cmp k (fst e) = Eq -> found _ k [e].
  Proof. intros E. right. exact E. Qed.

  Lemma bst_get_any t k : exists P M Q, inorder t = P ++ M ++ Q /\ bst_get t k = hd_error M /\ found _ k M.
  Proof.
    induction t as [|a l IHl e r IHr]; cbn [bst_get inorder].
    - exists [], [], []. repeat split.
    - destruct (cmp k (fst e)) eqn:C.
      + exists (inorder l), [e], (inorder r). repeat split. now apply found_one.
      + destruct IHl as (P & M & Q & -> & -> & F). exists P, M, (Q ++ e :: inorder r). rewrite <- !app_assoc. auto.
      + destruct IHr as (P & M & Q & -> & -> & F). exists (inorder l ++ e :: P), M, Q. rewrite <- app_assoc. auto.
  Qed.
  Lemma bst_get_mut_any t k v : exists P M Q, inorder t = P ++ M ++ Q /\ snd (bst_get_mut_set t k v) = hd_error M /\ found _ k M
    /\ inorder (fst (bst_get_mut_set t k v)) = P ++ map (fun p => (fst p, v)) M ++ Q.
  Proof.
    induction t as [|a l IHl e r IHr]; cbn [bst_get_mut_set inorder].
    - exists [], [], []. repeat split.
    - destruct (cmp k (fst e)) eqn:C.
      + exists (inorder l), [e], (inorder r). repeat split. now apply found_one.
      + destruct IHl as (P & M & Q & E1 & E2 & F & E3). destruct (bst_get_mut_set l k v) as [l' o]. cbn [fst snd inorder] in *.
        exists P, M, (Q ++ e :: inorder r). rewrite E1, E3, <- !app_assoc. auto.
      + destruct IHr as (P & M & Q & E1 & E2 & F & E3). destruct (bst_get_mut_set r k v) as [r' o]. cbn [fst snd inorder] in *.
        exists (inorder l ++ e :: P), M, Q. rewrite E1, E3, <- !app_assoc. auto.
  Qed.
  Lemma bst_ceil_any t k e : bst_ceil t k = Some e -> In e (inorder t).
  Proof.
    induction t as [|a l IHl x r IHr]; cbn [bst_ceil inorder]; [discriminate|]. rewrite in_app_iff. simpl.
    destruct (cmp k (fst x)); [intros E; injection E as ->; auto| |auto].
    destruct (bst_ceil l k); [auto|]. intros E. injection E as ->. auto.
  Qed.
  Lemma bst_floor_any t k e : bst_floor t k = Some e -> In e (inorder t).
  Proof.
    induction t as [|a l IHl x r IHr]; cbn [bst_floor inorder]; [discriminate|]. rewrite in_app_iff. simpl.
    destruct (cmp k (fst x)); [intros E; injection E as ->; auto|auto|].
    destruct (bst_floor r k); [auto|]. intros E. injection E as ->. auto.
  Qed.
  Lemma key_in (o : option (K * V)) L : (forall e, o = Some e -> In e L) -> forall a, option_map fst o = Some a -> In a (map fst L).
  Proof. intros I a. destruct o as [e|]; [|discriminate]. intros E. injection E as <-. now apply in_map, I. Qed.

  Lemma found_length (c : Cmp K) k M : found c k M -> length M = match hd_error M with Some _ => 1 | None => 0 end.
  Proof. destruct M as [|p [|q M]]; simpl; tauto. Qed.
  Lemma write_vals_length L vs : length (write_vals L vs) = length L.
  Proof. rewrite <- (map_length fst (write_vals _ _)), write_vals_keys. apply map_length. Qed.

  (** Calls that change the tree: pairs are replaced, taken out or updated in place. *)
  Definition ins_any t k v t' (o : option (K * V)) : Prop :=
    exists P M Q, inorder t = P ++ M ++ Q /\ o = hd_error M /\ found _ k M /\ inorder t' = P ++ (k, v) :: Q.
  Definition rem_any t k t' (o : option (K * V)) : Prop :=
    exists P M Q, inorder t = P ++ M ++ Q /\ o = hd_error M /\ found _ k M /\ inorder t' = P ++ Q.
  Definition set_any t k v t' (o : option (K * V)) : Prop :=
    exists P M Q, inorder t = P ++ M ++ Q /\ o = hd_error M /\ found _ k M /\ inorder t' = P ++ map (fun p => (fst p, v)) M ++ Q.

  Lemma ins_any_eq a l k v e r b : cmp k (fst e) = Eq -> ins_any (Node a l e r) k v (Node b l (k, v) r) (Some e).
  Proof. intros C. exists (inorder l), [e], (inorder r). repeat split. now apply found_one. Qed.
  Lemma ins_any_left a l k v e r l' o t' : ins_any l k v l' o -> inorder t' = inorder l' ++ e :: inorder r ->
    ins_any (Node a l e r) k v t' o.
  Proof.
    intros (P & M & Q & E1 & E2 & F & E3) E. exists P, M, (Q ++ e :: inorder r). cbn [inorder].
    rewrite E, E1, E3, <- !app_assoc. auto.
  Qed.
  Lemma ins_any_right a l k v e r r' o t' : ins_any r k v r' o -> inorder t' = inorder l ++ e :: inorder r' ->
    ins_any (Node a l e r) k v t' o.
  Proof.
    intros (P & M & Q & E1 & E2 & F & E3) E. exists (inorder l ++ e :: P), M, Q. cbn [inorder].
    rewrite E, E1, E3, <- !app_assoc. auto.
  Qed.
  Lemma rem_any_eq a l k e r t' : cmp k (fst e) = Eq -> inorder t' = inorder l ++ inorder r -> rem_any (Node a l e r) k t' (Some e).
  Proof. intros C E. exists (inorder l), [e], (inorder r). repeat split; auto. now apply found_one. Qed.
  Lemma rem_any_left a l k e r l' o t' : rem_any l k l' o -> inorder t' = inorder l' ++ e :: inorder r ->
    rem_any (Node a l e r) k t' o.
  Proof.
    intros (P & M & Q & E1 & E2 & F & E3) E. exists P, M, (Q ++ e :: inorder r). cbn [inorder].
    rewrite E, E1, E3, <- !app_assoc. auto.
  Qed.
  Lemma rem_any_right a l k e r r' o t' : rem_any r k r' o -> inorder t' = inorder l ++ e :: inorder r' ->
    rem_any (Node a l e r) k t' o.
  Proof.
    intros (P & M & Q & E1 & E2 & F & E3) E. exists (inorder l ++ e :: P), M, Q. cbn [inorder].
    rewrite E, E1, E3, <- !app_assoc. auto.
  Qed.
  Lemma rem_any_none t k t' : inorder t' = inorder t -> rem_any t k t' None.
  Proof. intros E. exists [], [], (inorder t). repeat split; auto. Qed.
  Lemma rem_any_same s t k t' o : inorder s = inorder t -> rem_any s k t' o -> rem_any t k t' o.
  Proof. intros E. unfold rem_any. now rewrite E. Qed.
  Lemma set_any_search t k v : set_any t k v (fst (bst_get_mut_set t k v)) (snd (bst_get_mut_set t k v)).
  Proof. destruct (bst_get_mut_any t k v) as (P & M & Q & E1 & E2 & F & E3). exists P, M, Q. auto. Qed.

  (** ** The map around the tree. *)
  Variable t_ins : tr -> K -> V -> res (tr * option (K * V)).
  Variable t_rem : tr -> K -> res (tr * option (K * V)).
  Variable t_set : tr -> K -> V -> res (tr * option (K * V)).
  Hypothesis Hins : forall t k v t' o, t_ins t k v = Ok (t', o) -> ins_any t k v t' o.
  Hypothesis Hset : forall t k v t' o, t_set t k v = Ok (t', o) -> set_any t k v t' o.

  Definition any_rel (m : bmap A K V) L : Prop := inorder (bm_tree m) = L /\ bm_len m = length L.

  Lemma bmap_any m L o m' out : any_rel m L ->
    (forall k, o = MRemove k -> forall t t' o, t_rem t k = Ok (t', o) -> rem_any t k t' o) ->
    bmap_step t_ins t_rem t_set m o = Ok (m', out) ->
    exists L', loose_step _ L o L' out /\ any_rel m' L'.
  Proof.
    intros [E Ln] Hrem St. destruct m as [t n]. cbn [bm_tree bm_len] in *. subst L n.
    destruct o; cbn [bmap_step bm_tree bm_len] in St.
    - unfold bmap_insert in St. cbn [bm_tree bm_len] in St. destruct (t_ins t k v) as [[t' o]| |] eqn:E1; try discriminate. cbn [bind] in St.
      destruct (Hins _ _ _ _ _ E1) as (P & M & Q & D1 & -> & F & D2). pose proof (found_length _ _ _ F) as Lm.
      exists (P ++ (k, v) :: Q). rewrite D1. destruct (hd_error M) as [e|] eqn:Hm; cbn [bind checked_pred] in St; injection St as <- <-;
        rewrite <- Hm; (split; [now constructor|]); (split; [exact D2|]); cbn [bm_len]; rewrite D1, !app_length; cbn [length]; lia.
    - unfold bmap_remove in St. cbn [bm_tree bm_len] in St. destruct (t_rem t k) as [[t' o]| |] eqn:E1; try discriminate. cbn [bind] in St.
      destruct (Hrem k eq_refl _ _ _ E1) as (P & M & Q & D1 & -> & F & D2). pose proof (found_length _ _ _ F) as Lm.
      exists (P ++ Q). rewrite D1. destruct (hd_error M) as [e|] eqn:Hm; cbn [bind] in St.
      + destruct (length (inorder t)) as [|n] eqn:En; [discriminate|]. cbn [checked_pred bind] in St. injection St as <- <-.
        rewrite <- Hm. split; [now constructor|]. split; [exact D2|]. cbn [bm_len]. rewrite D1, !app_length in En. rewrite app_length. lia.
      + injection St as <- <-. rewrite <- Hm. split; [now constructor|]. split; [exact D2|]. cbn [bm_len].
        rewrite D1, !app_length. lia.
    - injection St as <- <-. destruct (bst_get_any t k) as (P & M & Q & E1 & E2 & F). unfold bmap_get. cbn [bm_tree].
      rewrite E2. exists (inorder t). split; [|split; auto]. rewrite E1. now constructor.
    - unfold bmap_get_mut_set in St. cbn [bm_tree bm_len] in St. destruct (t_set t k v) as [[t' o]| |] eqn:E1; try discriminate. cbn [bind] in St.
      injection St as <- <-. destruct (Hset _ _ _ _ _ E1) as (P & M & Q & D1 & -> & F & D2).
      eexists. rewrite D1. split; [now constructor|]. split; [exact D2|]. cbn [bm_len].
      now rewrite !app_length, map_length.
    - injection St as <- <-. destruct (bst_get_any t k) as (P & M & Q & E1 & E2 & F). unfold bmap_get. cbn [bm_tree].
      rewrite E2. exists (inorder t). split; [|split; auto]. rewrite E1. now constructor.
    - injection St as <- <-. destruct (bst_get_any t k) as (P & M & Q & E1 & E2 & F). unfold bmap_get. cbn [bm_tree].
      rewrite E2. exists (inorder t). split; [|split; auto]. rewrite E1.
      replace (match option_map snd (hd_error M) with Some _ => true | None => false end)
        with (match M with [] => false | _ => true end) by now destruct M.
      now constructor.
    - injection St as <- <-. exists (inorder t). split; [|split; auto]. constructor. apply key_in. intros e. apply bst_floor_any.
    - injection St as <- <-. exists (inorder t). split; [|split; auto]. constructor. apply key_in. intros e. apply bst_ceil_any.
    - injection St as <- <-. exists (inorder t). split; [|split; auto]. rewrite bst_min_spec. constructor.
    - injection St as <- <-. exists (inorder t). split; [|split; auto]. rewrite bst_max_spec. constructor.
    - injection St as <- <-. exists (inorder t). split; [|split; auto]. constructor.
    - injection St as <- <-. exists (inorder t). split; [|split; auto]. constructor.
    - injection St as <- <-. exists []. split; [|split; auto]. constructor.
    - rewrite iter_all_spec in St. injection St as <- <-. exists (inorder t). split; [|split; auto]. constructor.
    - destruct (itermut_run_spec t vs) as (t' & E1 & E2 & E3). rewrite E1 in St. injection St as <- <-.
      exists (write_vals (inorder t) vs). split; [constructor|]. split; [exact E3|]. cbn [bm_len]. now rewrite write_vals_length.
    - rewrite iter_all_spec in St. injection St as <- <-. exists []. split; [|split; auto]. constructor.
  Qed.

  (** No call fails if the three do not. *)
  Lemma bmap_total m L o : any_rel m L ->
    (forall t k v, exists res, t_ins t k v = Ok res) -> (forall t k v, exists res, t_set t k v = Ok res) ->
    (forall k, o = MRemove k -> exists res, bmap_remove t_rem m k = Ok res) ->
    exists res, bmap_step t_ins t_rem t_set m o = Ok res.
  Proof.
    intros [E Ln] T1 T2 T3. destruct m as [t n]. cbn [bm_tree bm_len] in *.
    destruct o; cbn [bmap_step bm_tree]; try (eexists; reflexivity).
    - unfold bmap_insert. cbn [bm_tree bm_len]. destruct (T1 t k v) as ([t' o] & ->). cbn [bind]. destruct o; eexists; reflexivity.
    - destruct (T3 k eq_refl) as ([m' o] & ->). eexists. reflexivity.
    - unfold bmap_get_mut_set. cbn [bm_tree bm_len]. destruct (T2 t k v) as ([t' o] & ->). eexists. reflexivity.
    - rewrite iter_all_spec. eexists. reflexivity.
    - destruct (itermut_run_spec t vs) as (t' & -> & _). eexists. reflexivity.
    - rewrite iter_all_spec. eexists. reflexivity.
  Qed.
End BstAny.

(** ** AVL *)
Section AvlAny.
  Context {K V : Type} `{Cmp K}.
  Notation avl := (tree nat K V).
  Implicit Types (t l r : avl) (e : K * V) (k : K).

  Lemma avl_insert_any t k v : exists t' o, avl_insert t k v = Ok (t', o) /\ ins_any t k v t' o.
  Proof.
    induction t as [|h l (l' & ol & El & Il) e r (r' & or & Er & Ir)]; cbn [avl_insert].
    - do 2 eexists. split; [reflexivity|]. exists [], [], []. repeat split.
    - destruct (cmp k (fst e)) eqn:C.
      + do 2 eexists. split; [reflexivity|]. now apply ins_any_eq.
      + rewrite El. cbn [bind]. destruct (avl_balance_ok (Node h l' e r)) as (t' & -> & B2). cbn [bind].
        do 2 eexists. split; [reflexivity|]. eapply ins_any_left; eauto.
      + rewrite Er. cbn [bind]. destruct (avl_balance_ok (Node h l e r')) as (t' & -> & B2). cbn [bind].
        do 2 eexists. split; [reflexivity|]. eapply ins_any_right; eauto.
  Qed.
  Lemma avl_remove_any t k : exists t' o, avl_remove t k = Ok (t', o) /\ rem_any t k t' o.
  Proof.
    induction t as [|h l (l' & ol & El & Il) e r (r' & or & Er & Ir)]; cbn [avl_remove].
    - do 2 eexists. split; [reflexivity|]. now apply rem_any_none.
    - destruct (cmp k (fst e)) eqn:C.
      + assert (Hc : exists t1, match l, r with
                       | Leaf, _ => Ok r
                       | _, Leaf => Ok l
                       | _, _ => avl_combine l r
                       end = Ok t1 /\ inorder t1 = inorder l ++ inorder r).
        { clear. destruct l as [|hl ll le lr]; [eexists; split; reflexivity|].
          destruct r as [|hr rl re rr]; [eexists; split; [reflexivity|]; now rewrite app_nil_r|].
          unfold avl_combine.
          destruct (avl_remove_min_ok (Node hr rl re rr)) as (r' & h' & m & M1 & M2); [discriminate|].
          rewrite M1. cbn [bind]. eexists; split; [reflexivity|]. rewrite M2. reflexivity. }
        destruct Hc as (t1 & -> & C2). cbn [bind]. destruct (avl_balance_ok t1) as (t' & -> & B2). cbn [bind].
        do 2 eexists. split; [reflexivity|]. apply rem_any_eq; auto. congruence.
      + rewrite El. cbn [bind]. destruct (avl_balance_ok (Node h l' e r)) as (t' & -> & B2). cbn [bind].
        do 2 eexists. split; [reflexivity|]. eapply rem_any_left; eauto.
      + rewrite Er. cbn [bind]. destruct (avl_balance_ok (Node h l e r')) as (t' & -> & B2). cbn [bind].
        do 2 eexists. split; [reflexivity|]. eapply rem_any_right; eauto.
  Qed.

  Lemma avl_step_any m (L : list (K * V)) o : any_rel m L ->
    exists m' out L', avl_step m o = Ok (m', out) /\ loose_step _ L o L' out /\ any_rel m' L'.
  Proof.
    intros R.
    assert (Rm : forall k t t' o, avl_remove t k = Ok (t', o) -> rem_any t k t' o).
    { intros k t t' o' E. destruct (avl_remove_any t k) as (t1 & o1 & E1 & I1). rewrite E in E1. injection E1 as -> ->. exact I1. }
    destruct (bmap_total avl_insert avl_remove avl_get_mut_set m L o R) as ([m' out] & E).
    - intros t k v. destruct (avl_insert_any t k v) as (t' & o' & E & _). eauto.
    - intros t k v. eexists. reflexivity.
    - intros k _. unfold bmap_remove. destruct (avl_remove_any (bm_tree m) k) as (t' & o' & -> & P & M & Q & D1 & -> & F & D2).
      cbn [bind]. destruct R as [R1 R2]. destruct M as [|e M]; [eexists; reflexivity|]. cbn [hd_error].
      rewrite <- R1, D1, !app_length in R2. cbn [length] in R2. destruct (bm_len m); [lia|]. eexists. reflexivity.
    - enough (X : exists L', loose_step _ L o L' out /\ any_rel m' L') by (destruct X as (L' & X1 & X2); exists m', out, L'; auto).
      refine (bmap_any (V := V) avl_insert avl_remove avl_get_mut_set _ _ m L o m' out R _ E).
      + intros t k v t' o' E1. destruct (avl_insert_any t k v) as (t1 & o1 & E2 & I1). rewrite E1 in E2. injection E2 as -> ->. exact I1.
      + intros t k v t' o' E1. unfold avl_get_mut_set in E1. pose proof (set_any_search t k v) as Sa.
        injection E1 as E1. rewrite E1 in Sa. exact Sa.
      + intros k _. apply Rm.
  Qed.
End AvlAny.

(** ** Treap *)
Section TreapAny.
  Context {K V : Type} `{Cmp K}.
  Notation treap := (tree (N * nat) K V).
  Implicit Types (t l r : treap) (e : K * V) (k : K) (p : N).

  Lemma t_split_any t k : let '(l, (d, g)) := t_split t k in
    inorder t = inorder l ++ inorder d ++ inorder g /\ found _ k (inorder d) /\ t_entry d = hd_error (inorder d).
  Proof.
    induction t as [|[p n] l IHl e r IHr]; cbn [t_split]; [repeat split|].
    destruct (cmp k (fst e)) eqn:C.
    - repeat split. now apply found_one.
    - destruct (t_split l k) as [l' [d g]]. destruct IHl as (E & F & T). cbn [inorder t_upd]. rewrite E, <- !app_assoc. auto.
    - destruct (t_split r k) as [r' [d g]]. destruct IHr as (E & F & T). cbn [inorder t_upd]. rewrite E, <- !app_assoc. auto.
  Qed.
  Lemma t_insert_any t k v p : ins_any t k v (fst (t_insert t k v p)) (snd (t_insert t k v p)).
  Proof.
    induction t as [|[q n] l IHl e r IHr]; cbn [t_insert].
    - exists [], [], []. repeat split.
    - destruct (p <=? q)%N.
      + destruct (cmp k (fst e)) eqn:C.
        * now apply ins_any_eq.
        * destruct (t_insert l k v p) as [l' o]. eapply ins_any_left; [exact IHl|reflexivity].
        * destruct (t_insert r k v p) as [r' o]. eapply ins_any_right; [exact IHr|reflexivity].
      + pose proof (t_split_any (Node (q, n) l e r) k) as S. destruct (t_split (Node (q, n) l e r) k) as [l' [d g]].
        destruct S as (E & F & T). exists (inorder l'), (inorder d), (inorder g). auto.
  Qed.
  Lemma t_remove_any t k : rem_any t k (fst (t_remove t k)) (snd (t_remove t k)).
  Proof.
    induction t as [|[q n] l IHl e r IHr]; cbn [t_remove].
    - now apply rem_any_none.
    - destruct (cmp k (fst e)) eqn:C.
      + apply rem_any_eq; auto. apply t_merge_inorder.
      + destruct (t_remove l k) as [l' o]. eapply rem_any_left; [exact IHl|reflexivity].
      + destruct (t_remove r k) as [r' o]. eapply rem_any_right; [exact IHr|reflexivity].
  Qed.

  Definition treap_any_rel t (L : list (K * V)) : Prop := inorder t = L /\ len_ok t.
  Lemma treap_step_any t (L : list (K * V)) o p : treap_any_rel t L ->
    exists t' out L', treap_step t (o, p) = Ok (t', out) /\ loose_step _ L o L' out /\ treap_any_rel t' L'.
  Proof.
    intros [<- W]. assert (Ln : t_len t = length (inorder t)) by (rewrite size_inorder; now apply len_ok_size).
    destruct o; cbn [treap_step].
    - destruct (t_insert_any t k v p) as (P & M & Q & E1 & E2 & F & E3). pose proof (t_insert_len t k v p W) as W'.
      destruct (t_insert t k v p) as [t' o]. cbn [fst snd] in *. do 3 eexists. split; [reflexivity|]. split; [|split; [exact E3|exact W']].
      rewrite E1, E2. now constructor.
    - destruct (t_remove_any t k) as (P & M & Q & E1 & E2 & F & E3). pose proof (t_remove_len t k W) as W'.
      destruct (t_remove t k) as [t' o]. cbn [fst snd] in *. do 3 eexists. split; [reflexivity|]. split; [|split; [exact E3|exact W']].
      rewrite E1, E2. now constructor.
    - destruct (bst_get_any t k) as (P & M & Q & E1 & E2 & F). exists t. do 2 eexists. split; [reflexivity|]. split; [|split; [reflexivity|exact W]].
      rewrite E2, E1. now constructor.
    - destruct (bst_get_mut_any t k v) as (P & M & Q & E1 & E2 & F & E3). pose proof (bst_get_mut_set_shape t k v) as Sh.
      destruct (bst_get_mut_set t k v) as [t' o]. cbn [fst snd] in *. do 3 eexists. split; [reflexivity|]. split; [|split; [exact E3|]].
      + rewrite E1, E2. now constructor.
      + eapply len_ok_shape; [symmetry; exact Sh|exact W].
    - destruct (bst_get_any t k) as (P & M & Q & E1 & E2 & F). exists t. do 2 eexists. split; [reflexivity|]. split; [|split; [reflexivity|exact W]].
      rewrite E2, E1. now constructor.
    - destruct (bst_get_any t k) as (P & M & Q & E1 & E2 & F). exists t. do 2 eexists. split; [reflexivity|]. split; [|split; [reflexivity|exact W]].
      rewrite E2, E1.
      replace (match option_map snd (hd_error M) with Some _ => true | None => false end)
        with (match M with [] => false | _ => true end) by now destruct M.
      now constructor.
    - exists t. do 2 eexists. split; [reflexivity|]. split; [|split; [reflexivity|exact W]].
      constructor. apply key_in. intros e. apply bst_floor_any.
    - exists t. do 2 eexists. split; [reflexivity|]. split; [|split; [reflexivity|exact W]].
      constructor. apply key_in. intros e. apply bst_ceil_any.
    - exists t. do 2 eexists. split; [reflexivity|]. split; [|split; [reflexivity|exact W]]. rewrite bst_min_spec. constructor.
    - exists t. do 2 eexists. split; [reflexivity|]. split; [|split; [reflexivity|exact W]]. rewrite bst_max_spec. constructor.
    - exists t. do 2 eexists. split; [reflexivity|]. split; [|split; [reflexivity|exact W]]. rewrite Ln. constructor.
    - exists t. do 2 eexists. split; [reflexivity|]. split; [|split; [reflexivity|exact W]]. rewrite Ln. constructor.
    - exists Leaf. do 2 eexists. split; [reflexivity|]. split; [constructor|]. split; [reflexivity|]. exact I.
    - rewrite iter_all_spec. exists t. do 2 eexists. split; [reflexivity|]. split; [constructor|]. split; [reflexivity|exact W].
    - destruct (itermut_run_spec t vs) as (t' & -> & E2 & E3). do 3 eexists. split; [reflexivity|]. split; [constructor|].
      split; [exact E3|]. eapply len_ok_shape; [symmetry; exact E2|exact W].
    - rewrite iter_all_spec. exists Leaf. do 2 eexists. split; [reflexivity|]. split; [constructor|]. split; [reflexivity|]. exact I.
  Qed.
End TreapAny.

(** ** Red-black: nothing is lost, as long as the calls return. *)
Section RbAny.
  Context {K V : Type} `{Cmp K}.
  Notation rb := (tree color K V).
  Implicit Types (t l r : rb) (e : K * V) (k : K).

  Lemma rb_ins_any t k v : forall t' o, rb_ins t k v = Ok (t', o) -> ins_any t k v t' o.
  Proof.
    induction t as [|c l IHl e r IHr]; cbn [rb_ins]; intros t' o E.
    - injection E as <- <-. exists [], [], []. repeat split.
    - inv_bind E. destruct a as [t1 o1]. inv_bind E. injection E as <- <-. apply rb_insert_fix_inorder in R0.
      destruct (cmp k (fst e)) eqn:Ck.
      + injection R as <- <-. destruct (ins_any_eq c l k v e r c Ck) as (P & M & Q & X). exists P, M, Q. now rewrite R0.
      + inv_bind R. destruct a0 as [l' ol]. injection R as <- <-. eapply ins_any_left; [now apply IHl|exact R0].
      + inv_bind R. destruct a0 as [r' or]. injection R as <- <-. eapply ins_any_right; [now apply IHr|exact R0].
  Qed.

  Lemma rb_rem_any f : forall t k t' o, rb_rem f t k = Ok (t', o) -> rem_any t k t' o.
  Proof.
    induction f as [|f IH]; intros t k t' o; [discriminate|]. cbn [rb_rem].
    destruct t as [|c l e r]; [intros E; injection E as <- <-; now apply rem_any_none|].
    destruct (is_lt (cmp k (fst e))) eqn:Ck; intros E.
    - inv_bind E. inv_bind E. destruct a0 as [l' ol]. inv_bind E. injection E as <- <-.
      assert (X : exists c1 l1 e1 r1, a = Node c1 l1 e1 r1 /\ inorder a = inorder l ++ e :: inorder r).
      { destruct (should_shift l).
        - destruct (shift_left_inorder _ _ _ _ _ R) as (c1 & l1 & e1 & r1 & X1 & X2 & _). eauto 6.
        - injection R as <-. repeat eexists. }
      destruct X as (c1 & l1 & e1 & r1 & -> & X). cbn [left_of set_left] in *.
      apply (rem_any_same (Node c1 l1 e1 r1)); [exact X|]. eapply rem_any_left; [eapply IH; exact R0|].
      now apply rb_balance_inorder in R1.
    - inv_bind E.
      assert (X : exists c1 l1 e1 r1, a = Node c1 l1 e1 r1 /\ inorder a = inorder l ++ e :: inorder r).
      { destruct (is_red l).
        - destruct (rotate_right_root _ _ _ _ _ R) as (c1 & l1 & e1 & r1 & X1 & X2 & _). eauto 6.
        - injection R as <-. repeat eexists. }
      destruct X as (c1 & l1 & e1 & r1 & -> & X). cbn [right_of left_of] in E.
      apply (rem_any_same (Node c1 l1 e1 r1)); [exact X|]. clear X R.
      destruct (key_is k (Node c1 l1 e1 r1) && is_none r1) eqn:Kn.
      + inv_bind E. injection E as <- <-. destruct l1; [|discriminate R]. destruct r1; [|rewrite andb_false_r in Kn; discriminate Kn].
        rewrite andb_true_r in Kn. cbn [key_is entry_of] in *. apply rem_any_eq; [|reflexivity].
        destruct (cmp k (fst e1)); auto; discriminate.
      + inv_bind E.
        assert (X : exists c2 l2 e2 r2, a = Node c2 l2 e2 r2 /\ inorder a = inorder l1 ++ e1 :: inorder r1).
        { destruct (should_shift r1).
          - destruct (shift_right_inorder _ _ _ _ _ R) as (c2 & l2 & e2 & r2 & X1 & X2 & _). eauto 6.
          - injection R as <-. repeat eexists. }
        destruct X as (c2 & l2 & e2 & r2 & -> & X). apply (rem_any_same (Node c2 l2 e2 r2)); [exact X|].
        destruct (key_is k (Node c2 l2 e2 r2)) eqn:Kk.
        * inv_bind E. inv_bind E. injection E as <- <-. unfold rb_combine in R0. inv_bind R0. destruct a1 as [r' mm]. injection R0 as <-.
          apply rb_remove_min_inorder in R2. apply rb_balance_inorder in R1. cbn [key_is] in Kk.
          apply rem_any_eq; [destruct (cmp k (fst e2)); auto; discriminate|]. rewrite R1. cbn [inorder]. now rewrite R2.
        * cbn [right_of set_right] in E. inv_bind E. destruct a as [r' or]. inv_bind E. injection E as <- <-.
          eapply rem_any_right; [eapply IH; exact R0|]. now apply rb_balance_inorder in R1.
  Qed.

  Lemma blacken_any t : inorder (blacken t) = inorder t.
  Proof. destruct t; reflexivity. Qed.
  Lemma fix_root_any t : inorder (fix_root t) = inorder t.
  Proof. destruct t as [|c l e r]; cbn [fix_root]; auto. now destruct (_ && _). Qed.

  Lemma rb_step_any m (L : list (K * V)) o m' out : any_rel m L -> rb_step m o = Ok (m', out) ->
    exists L', loose_step _ L o L' out /\ any_rel m' L'.
  Proof.
    intros R E. refine (bmap_any (V := V) rb_insert rb_remove rb_get_mut_set _ _ m L o m' out R _ E).
    - intros t k v t' o' E1. unfold rb_insert in E1. inv_bind E1. destruct a as [t1 o1]. injection E1 as <- <-.
      destruct (rb_ins_any _ _ _ _ _ R0) as (P & M & Q & X). exists P, M, Q. now rewrite blacken_any.
    - intros t k v t' o' E1. unfold rb_get_mut_set in E1. pose proof (set_any_search t k v) as Sa.
      injection E1 as E1. rewrite E1 in Sa. exact Sa.
    - intros k _ t t' o' E1. unfold rb_remove in E1. inv_bind E1. destruct a as [t1 o1]. injection E1 as <- <-.
      apply rb_rem_any in R0. apply (rem_any_same (fix_root t)); [apply fix_root_any|].
      destruct R0 as (P & M & Q & X). exists P, M, Q. now rewrite blacken_any.
  Qed.
End RbAny.

(** ** Splay: every call returns; only [remove] can lose pairs. *)
Section SplayAny.
  Context {K V : Type} `{Cmp K}.
  Notation sp := (tree unit K V).
  Notation N l e r := (Node tt l e r).
  Implicit Types (t l r : sp) (e : K * V) (k : K).

  Lemma splay_loop_any fuel : forall k l e r zl zr, size l + size r < fuel ->
    exists t', splay_loop fuel k l e r zl zr = Ok t' /\ t' <> Leaf /\
      inorder t' = zl_list zl ++ (inorder l ++ e :: inorder r) ++ zr_list zr.
  Proof.
    induction fuel as [|f IH]; intros k l e r zl zr Hf; [lia|].
    assert (Fin : forall l e r, inorder (splay_finish zl zr l e r) =
              zl_list zl ++ (inorder l ++ e :: inorder r) ++ zr_list zr).
    { intros l0 e0 r0. unfold splay_finish. simpl. rewrite plug_left_inorder, plug_right_inorder.
      lnorm. reflexivity. }
    assert (Nl : forall l e r, splay_finish zl zr l e r <> Leaf) by discriminate.
    cbn [splay_loop]. destruct (cmp k (fst e)).
    - eexists. split; [reflexivity|]. split; [apply Nl|]. apply Fin.
    - destruct l as [|[] cl ce cr]; [eexists; split; [reflexivity|]; split; [apply Nl|]; apply Fin|].
      destruct (is_lt (cmp k (fst ce))).
      + destruct cl as [|[] ll le lr].
        * eexists. split; [reflexivity|]. split; [apply Nl|]. rewrite Fin. lnorm. reflexivity.
        * destruct (IH k ll le lr zl ((ce, N cr e r) :: zr)) as (t' & E1 & E2 & E3); [simpl in *; lia|].
          exists t'. split; [exact E1|]. split; [exact E2|]. rewrite E3. lnorm. reflexivity.
      + destruct (IH k cl ce cr zl ((e, r) :: zr)) as (t' & E1 & E2 & E3); [simpl in *; lia|].
        exists t'. split; [exact E1|]. split; [exact E2|]. rewrite E3. lnorm. reflexivity.
    - destruct r as [|[] cl ce cr]; [eexists; split; [reflexivity|]; split; [apply Nl|]; apply Fin|].
      destruct (is_gt (cmp k (fst ce))).
      + destruct cr as [|[] rl re rr].
        * eexists. split; [reflexivity|]. split; [apply Nl|]. rewrite Fin. lnorm. reflexivity.
        * destruct (IH k rl re rr ((N l e cl, ce) :: zl) zr) as (t' & E1 & E2 & E3); [simpl in *; lia|].
          exists t'. split; [exact E1|]. split; [exact E2|]. rewrite E3. lnorm. reflexivity.
      + destruct (IH k cl ce cr ((l, e) :: zl) zr) as (t' & E1 & E2 & E3); [simpl in *; lia|].
        exists t'. split; [exact E1|]. split; [exact E2|]. rewrite E3. lnorm. reflexivity.
  Qed.
  Lemma splay_any t k : t <> Leaf -> exists l e r, splay t k = Ok (N l e r) /\ inorder l ++ e :: inorder r = inorder t.
  Proof.
    destruct t as [|[] l e r]; [congruence|]. intros _. unfold splay.
    destruct (splay_loop_any (size (N l e r)) k l e r [] []) as (t' & E1 & E2 & E3); [simpl; lia|].
    destruct t' as [|[] l' e' r']; [congruence|]. exists l', e', r'. split; [exact E1|]. simpl in *. now rewrite E3, app_nil_r.
  Qed.

  Lemma splay_insert_any t k v : exists t' o, splay_insert t k v = Ok (t', o) /\ ins_any t k v t' o.
  Proof.
    destruct t as [|a0 l0 e0 r0]; [do 2 eexists; split; [reflexivity|]; exists [], [], []; repeat split|].
    unfold splay_insert. remember (Node a0 l0 e0 r0) as t eqn:Et.
    destruct (splay_any t k) as (l & e & r & E1 & E2); [now subst|]. clear Et. rewrite E1. cbn [bind].
    destruct (cmp k (fst e)) eqn:C; do 2 eexists; (split; [reflexivity|]); unfold ins_any; rewrite <- E2.
    - exists (inorder l), [e], (inorder r). repeat split. now apply found_one.
    - exists (inorder l), [], (e :: inorder r). repeat split.
    - exists (inorder l ++ [e]), [], (inorder r). cbn [hd_error app inorder]. rewrite <- !app_assoc. repeat split.
  Qed.
  Lemma splay_get_mut_any t k v : exists t' o, splay_get_mut_set t k v = Ok (t', o) /\ set_any t k v t' o.
  Proof.
    destruct t as [|a0 l0 e0 r0]; [do 2 eexists; split; [reflexivity|]; exists [], [], []; repeat split|].
    unfold splay_get_mut_set. remember (Node a0 l0 e0 r0) as t eqn:Et.
    destruct (splay_any t k) as (l & e & r & E1 & E2); [now subst|]. clear Et. rewrite E1. cbn [bind].
    destruct (cmp k (fst e)) eqn:C; cbn [is_eq]; do 2 eexists; (split; [reflexivity|]); unfold set_any; rewrite <- E2.
    - exists (inorder l), [e], (inorder r). repeat split. now apply found_one.
    - exists [], [], (inorder l ++ e :: inorder r). repeat split.
    - exists [], [], (inorder l ++ e :: inorder r). repeat split.
  Qed.
  (** What a removal keeps is a part of what was there. *)
  Lemma splay_remove_any t k : exists t' o, splay_remove t k = Ok (t', o) /\ length (inorder t') + (if o then 1 else 0) <= length (inorder t).
  Proof.
    destruct t as [|a0 l0 e0 r0]; [do 2 eexists; split; [reflexivity|]; simpl; lia|].
    unfold splay_remove. remember (Node a0 l0 e0 r0) as t eqn:Et.
    destruct (splay_any t k) as (l & e & r & E1 & E2); [now subst|]. clear Et. rewrite E1. cbn [bind].
    destruct (is_eq (cmp k (fst e))).
    - destruct l as [|al ll le lr].
      + do 2 eexists. split; [reflexivity|]. rewrite <- E2. simpl. lia.
      + remember (Node al ll le lr) as l eqn:El.
        destruct (splay_any l k) as (l1 & e1 & r1 & G1 & G2); [now subst|]. clear El. rewrite G1. cbn [bind].
        do 2 eexists. split; [reflexivity|]. rewrite <- E2, <- G2. cbn [inorder]. rewrite !app_length. cbn [length]. lia.
    - do 2 eexists. split; [reflexivity|]. cbn [inorder]. rewrite E2. lia.
  Qed.

  Lemma splay_step_any m (L : list (K * V)) o : any_rel m L -> (forall k, o <> MRemove k) ->
    exists m' out L', splay_step m o = Ok (m', out) /\ loose_step _ L o L' out /\ any_rel m' L'.
  Proof.
    intros R Nr. destruct (bmap_total splay_insert splay_remove splay_get_mut_set m L o R) as ([m' out] & E).
    - intros t k v. destruct (splay_insert_any t k v) as (t' & o' & E & _). eauto.
    - intros t k v. destruct (splay_get_mut_any t k v) as (t' & o' & E & _). eauto.
    - intros k Eo. now apply Nr in Eo.
    - enough (X : exists L', loose_step _ L o L' out /\ any_rel m' L') by (destruct X as (L' & X1 & X2); exists m', out, L'; auto).
      refine (bmap_any (V := V) splay_insert splay_remove splay_get_mut_set _ _ m L o m' out R _ E).
      + intros t k v t' o' E1. destruct (splay_insert_any t k v) as (t1 & o1 & E2 & I1). rewrite E1 in E2. injection E2 as -> ->. exact I1.
      + intros t k v t' o' E1. destruct (splay_get_mut_any t k v) as (t1 & o1 & E2 & I1). rewrite E1 in E2. injection E2 as -> ->. exact I1.
      + intros k Eo. now apply Nr in Eo.
  Qed.

  (** The stored length never falls below the number of pairs, so no call fails. *)
  Definition splay_over (m : bmap unit K V) : Prop := length (inorder (bm_tree m)) <= bm_len m.
  Lemma splay_step_total m o : splay_over m -> exists m' out, splay_step m o = Ok (m', out) /\ splay_over m'.
  Proof.
    unfold splay_over, splay_step. intros W. destruct m as [t n]. cbn [bm_tree bm_len] in *.
    destruct o; cbn [bmap_step bm_tree bm_len]; try (do 2 eexists; split; [reflexivity|]; cbn [bm_tree bm_len]; first [exact W | simpl; lia]).
    - unfold bmap_insert. cbn [bm_tree bm_len]. destruct (splay_insert_any t k v) as (t' & o & -> & P & M & Q & D1 & -> & F & D2).
      cbn [bind]. pose proof (found_length _ _ _ F) as Lm. rewrite D1, !app_length in W.
      destruct (hd_error M); cbn [checked_pred bind]; do 2 eexists; (split; [reflexivity|]); cbn [bm_tree bm_len]; rewrite D2, app_length; cbn [length]; lia.
    - unfold bmap_remove. cbn [bm_tree bm_len]. destruct (splay_remove_any t k) as (t' & o & -> & Le). cbn [bind].
      destruct o as [e|]; [|do 2 eexists; split; [reflexivity|]; cbn [bm_tree bm_len]; lia].
      destruct n as [|n]; [lia|]. cbn [checked_pred bind]. do 2 eexists. split; [reflexivity|]. cbn [bm_tree bm_len]. lia.
    - unfold bmap_get_mut_set. cbn [bm_tree bm_len]. destruct (splay_get_mut_any t k v) as (t' & o & -> & P & M & Q & D1 & -> & F & D2).
      cbn [bind]. do 2 eexists. split; [reflexivity|]. cbn [bm_tree bm_len]. rewrite D2, !app_length, map_length. rewrite D1, !app_length in W. lia.
    - rewrite iter_all_spec. do 2 eexists. split; [reflexivity|]. exact W.
    - destruct (itermut_run_spec t vs) as (t' & -> & E2 & E3). do 2 eexists. split; [reflexivity|]. cbn [bm_tree bm_len].
      rewrite E3, write_vals_length. exact W.
    - rewrite iter_all_spec. do 2 eexists. split; [reflexivity|]. simpl. lia.
  Qed.
End SplayAny.
