(** Depth of the trees of [AvlMap] in histories with removals: balanced if only ends are removed; otherwise a tree of
    depth h may have no more than h * (h + 1) / 2 keys. *)
From Verif Require Export AvlProofs KeyInstances.

Local Arguments Nat.max : simpl never.

(** ** Removing from the ends *)
Section Ends.
  Context {K V : Type} `{CmpLaws K}.
  Notation avl := (tree nat K V).
  Implicit Types (t : avl) (e : K * V) (k : K).

  Definition ends k (x : list (K * V)) : Prop := at_key k x = [] \/ below k x = [] \/ above k x = [].

  Lemma inorder_nil t : inorder t = [] -> t = Leaf.
  Proof. destruct t; [reflexivity|]. cbn. intros E. destruct (inorder t1); discriminate. Qed.

  Lemma avl_remove_wf t k t' o : avl_wf t -> sorted (inorder t) -> ends k (inorder t) -> avl_remove t k = Ok (t', o) ->
    avl_wf t' /\ height t' <= height t <= S (height t').
  Proof.
    revert t' o. induction t as [|h l IHl e r IHr]; cbn [avl_remove]; intros t' o.
    - intros _ _ _ E. injection E as <- <-. simpl. auto.
    - intros (W1 & W2 & Eh & B1 & B2) So D. cbn [inorder] in *. pose proof (proj1 (sorted_mid _ _ _) So) as (S1 & S2 & F1 & F2).
      destruct (cmp k (fst e)) eqn:Ck.
      + destruct (pieces_eq _ _ _ _ So Ck) as (E1 & E2 & E3). unfold ends in D. rewrite E1, E2, E3 in D.
        assert (X : exists t1, match l, r with Leaf, _ => Base.Ok r | _, Leaf => Base.Ok l | _, _ => avl_combine l r end = Ok t1 /\
                      avl_wf t1 /\ S (height t1) = h).
        { destruct D as [D|[D|D]]; [discriminate D| |]; apply inorder_nil in D; subst.
          - exists r. split; [reflexivity|]. split; [exact W2|]. cbn [height] in *. lia.
          - exists l. split; [now destruct l|]. split; [exact W1|]. cbn [height] in *. lia. }
        destruct X as (t1 & -> & Wt & Ht). cbn [bind]. cbn [height].
        destruct t1 as [|h1 l1 e1 r1]; [cbn; intros E; injection E as <- <-; cbn in *; split; [exact I|]; lia|].
        destruct Wt as (Wa & Wb & Eh1 & Ba & Bb).
        destruct (avl_balance (Node h1 l1 e1 r1)) as [t2| |] eqn:Eb; cbn [bind]; try discriminate. intros E. injection E as <- <-.
        destruct (avl_balance_wf h1 l1 e1 r1 t2) as (Wt & Hs & Hb); auto; try lia. split; [exact Wt|]. cbn [height] in *. lia.
      + destruct (pieces_lt _ _ _ _ So Ck) as (E1 & E2 & E3). unfold ends in D. rewrite E1, E2, E3 in D.
        assert (D' : ends k (inorder l)). { destruct D as [D|[D|D]]; [now left|now right; left|]. now destruct (above k (inorder l)). }
        destruct (avl_remove l k) as [[l' ol]| |] eqn:El; cbn [bind]; try discriminate.
        destruct (IHl l' ol W1 S1 D' eq_refl) as (Wl' & Hl').
        destruct (avl_balance (Node h l' e r)) as [t1| |] eqn:Eb; cbn [bind]; try discriminate. intros E. injection E as <- <-.
        destruct (avl_balance_wf h l' e r t1) as (Wt & Hs & Hb); auto; try lia. split; [exact Wt|]. cbn [height]. lia.
      + destruct (pieces_gt _ _ _ _ So Ck) as (E1 & E2 & E3). unfold ends in D. rewrite E1, E2, E3 in D.
        assert (D' : ends k (inorder r)). { destruct D as [D|[D|D]]; [now left| |now right; right]. now destruct (inorder l). }
        destruct (avl_remove r k) as [[r' or]| |] eqn:El; cbn [bind]; try discriminate.
        destruct (IHr r' or W2 S2 D' eq_refl) as (Wr' & Hr').
        destruct (avl_balance (Node h l e r')) as [t1| |] eqn:Eb; cbn [bind]; try discriminate. intros E. injection E as <- <-.
        destruct (avl_balance_wf h l e r' t1) as (Wt & Hs & Hb); auto; try lia. split; [exact Wt|]. cbn [height]. lia.
  Qed.

  Definition avl_rel (m : avl_map) (x : list (K * V)) : Prop := bmap_rel (fun _ => True) m x /\ avl_wf (bm_tree m).

  Lemma avl_any_step (m : avl_map) x (o : map_op K V) : bmap_rel (fun _ => True) m x ->
    exists m', avl_step m o = Ok (m', snd (map_spec_step x o)) /\ bmap_rel (fun _ => True) m' (fst (map_spec_step x o)).
  Proof.
    apply bmap_step_ok; auto.
    - intros t k v _ S. destruct (avl_insert_ok t k v S) as (t' & E1 & E2). eauto.
    - intros t k _ S. destruct (avl_remove_ok t k S) as (t' & E1 & E2). eauto.
    - intros t k v _ S. destruct (avl_get_mut_ok t k v S) as (t' & E1 & E2 & _). eauto.
  Qed.
  Lemma avl_ends_step (m : avl_map) x (o : map_op K V) : avl_rel m x -> (forall k, o = MRemove k -> ends k x) ->
    exists m', avl_step m o = Ok (m', snd (map_spec_step x o)) /\ avl_rel m' (fst (map_spec_step x o)).
  Proof.
    intros (R & W) D. destruct (avl_any_step m x o R) as (m' & E & R'). exists m'. split; [exact E|]. split; [exact R'|].
    destruct (is_remove o) eqn:Eo; [|eapply avl_step_wf; eauto].
    destruct o; try discriminate Eo. specialize (D k eq_refl). destruct R as (Ei & Sx & L & _). subst x.
    unfold avl_step, bmap_step, bmap_remove in E. destruct (avl_remove (bm_tree m) k) as [[t' old]| |] eqn:Er; try discriminate.
    destruct (avl_remove_wf _ _ _ _ W Sx D Er) as (W' & _). cbn [bind] in E. destruct old; [destruct (checked_pred (bm_len m)); cbn [bind] in E; try discriminate|];
      injection E as <- _; exact W'.
  Qed.

  Lemma avl_ends_run (ops : list (map_op K V)) : forall x (m : avl_map), avl_rel m x -> removes_ends x ops ->
    forall m' outs, run avl_step m ops = Ok (m', outs) -> avl_wf (bm_tree m').
  Proof.
    induction ops as [|o ops IH]; intros x m R D m' outs E.
    - injection E as <- <-. apply R.
    - cbn [run] in E. destruct D as (D & D'). destruct (avl_ends_step m _ o R) as (m1 & E1 & R1).
      { intros k ->. exact D. }
      rewrite E1 in E. cbn [bind] in E. destruct (run avl_step m1 ops) as [[m2 rs]| |] eqn:E2; try discriminate. cbn [bind] in E. injection E as <- <-.
      exact (IH _ m1 R1 D' _ _ E2).
  Qed.

  Lemma avl_ends_balanced (ops : list (map_op K V)) (m : avl_map) outs : removes_ends [] ops ->
    run avl_step avl_new ops = Ok (m, outs) -> avl_balanced (bm_tree m) /\ fib_depth (bm_tree m).
  Proof.
    intros D E. assert (W : avl_wf (bm_tree m)).
    { apply (avl_ends_run ops [] avl_new) with (outs := outs); auto. split; [|exact I]. repeat split; cbn; auto using sorted_nil. }
    split; [now apply avl_wf_balanced | apply avl_balanced_fib, avl_wf_balanced, W].
  Qed.
End Ends.

(** ** Removing elsewhere *)
Section Erosion.
  Notation avl := (tree nat nat unit).

  Lemma balance_id (h : nat) (l : avl) e r : height l <= S (height r) -> height r <= S (height l) ->
    avl_balance (Node h l e r) = Ok (Node (S (Nat.max (height l) (height r))) l e r).
  Proof.
    intros A B. unfold avl_balance. cbn [avl_update avl_bal]. rewrite (proj2 (Z.ltb_ge _ _)) by lia. now rewrite (proj2 (Z.ltb_ge _ _)) by lia.
  Qed.
  Lemma cmp_lt' (x y : nat) : x < y -> cmp x y = Lt.
  Proof. intros. now apply Nat.compare_lt_iff. Qed.
  Lemma cmp_gt' (x y : nat) : y < x -> cmp x y = Gt.
  Proof. intros. now apply Nat.compare_gt_iff. Qed.

  (** Insertions of keys between [a] and [b], the stored height being [d] or [d + 1] *)
  Inductive grows (d a b : nat) : avl -> avl -> list nat -> Prop :=
  | g_nil t : grows d a b t t []
  | g_cons t t1 t' k ks o : avl_insert t k tt = Ok (t1, o) -> a < k < b -> d <= height t1 <= S d -> grows d a b t1 t' ks ->
      grows d a b t t' (k :: ks).
  Lemma grows_app d a b t t1 t' ks ks' : grows d a b t t1 ks -> grows d a b t1 t' ks' -> grows d a b t t' (ks ++ ks').
  Proof. induction 1; cbn; [auto|]. intros G. econstructor; eauto. Qed.

  Lemma grows_left d a m b l l' (r : avl) ks : grows d a m l l' ks -> d <= height l <= S d -> height r = d -> m < b ->
    grows (S d) a b (Node (S (Nat.max (height l) (height r))) l (m, tt) r) (Node (S (Nat.max (height l') (height r))) l' (m, tt) r) ks.
  Proof.
    intros G Hl Hr Hm. induction G as [l|l l1 l' k ks o E Rk H1 G IH]; [constructor|].
    econstructor; [| | |apply IH, H1].
    - cbn [avl_insert fst]. rewrite (cmp_lt' k m) by lia. rewrite E. cbn [bind]. rewrite balance_id by lia. reflexivity.
    - lia.
    - cbn [height]. lia.
  Qed.
  Lemma grows_right d a m b (l r : avl) r' ks : grows d m b r r' ks -> d <= height r <= S d -> height l = S d -> a < m ->
    grows (S d) a b (Node (S (Nat.max (height l) (height r))) l (m, tt) r) (Node (S (Nat.max (height l) (height r'))) l (m, tt) r') ks.
  Proof.
    intros G Hl Hr Hm. induction G as [r|r r1 r' k ks o E Rk H1 G IH]; [constructor|].
    econstructor; [| | |apply IH, H1].
    - cbn [avl_insert fst]. rewrite (cmp_gt' k m) by lia. rewrite E. cbn [bind]. rewrite balance_id by lia. reflexivity.
    - lia.
    - cbn [height]. lia.
  Qed.

  (** The perfect tree of depth [d] with the keys a + s, a + 2 s, ... *)
  Fixpoint perfect (d a s : nat) : avl :=
    match d with
    | O => Leaf
    | S d' => Node d (perfect d' a s) (a + s * 2 ^ d', tt) (perfect d' (a + s * 2 ^ d') s)
    end.
  Lemma perfect_height d a s : height (perfect d a s) = d.
  Proof. destruct d; reflexivity. Qed.
  Lemma pow2_pos d : 1 <= 2 ^ d.
  Proof. pose proof (Nat.pow_nonzero 2 d). lia. Qed.
  Lemma perfect_grows d : forall a s, 1 <= s -> exists ks, grows d a (a + 2 * s * 2 ^ d) (perfect d a (2 * s)) (perfect (S d) a s) ks.
  Proof.
    induction d as [|d IH]; intros a s Hs.
    - exists [a + s * 1]. econstructor; [reflexivity| |cbn; lia|constructor]. cbn. lia.
    - destruct (IH a s Hs) as (ks1 & G1). destruct (IH (a + 2 * s * 2 ^ d) s Hs) as (ks2 & G2). exists (ks1 ++ ks2).
      pose proof (pow2_pos d). pose proof (perfect_height d) as Ph. pose proof (perfect_height (S d)) as Ph'.
      assert (Hp : 1 <= s * 2 ^ d) by nia.
      assert (E : s * 2 ^ S d = 2 * s * 2 ^ d) by (cbn; lia).
      change (perfect (S (S d)) a s) with (Node (S (S d)) (perfect (S d) a s) (a + s * 2 ^ S d, tt) (perfect (S d) (a + s * 2 ^ S d) s)).
      change (perfect (S d) a (2 * s)) with (Node (S d) (perfect d a (2 * s)) (a + 2 * s * 2 ^ d, tt) (perfect d (a + 2 * s * 2 ^ d) (2 * s))).
      rewrite E. eapply grows_app.
      + eapply (grows_left d a _ (a + 2 * s * 2 ^ S d) _ _ (perfect d (a + 2 * s * 2 ^ d) (2 * s))) in G1; rewrite ?Ph, ?Ph' in *; try lia.
        replace (S (Nat.max d d)) with (S d) in G1 by lia. exact G1.
      + replace (2 * s * 2 ^ S d) with (2 * s * 2 ^ d + 2 * s * 2 ^ d) by (cbn [Nat.pow]; lia). rewrite Nat.add_assoc.
        eapply (grows_right d a _ _ (perfect (S d) a s)) in G2; rewrite ?Ph, ?Ph' in *; try lia.
        replace (S (Nat.max (S d) (S d))) with (S (S d)) in G2 by lia. exact G2.
  Qed.

  (** Removals of keys between [a] and [b], the stored height being [h] *)
  Inductive erodes (h a b : nat) : avl -> avl -> list nat -> Prop :=
  | e_nil t : erodes h a b t t []
  | e_cons t t1 t' k ks o : avl_remove t k = Ok (t1, o) -> a < k < b -> height t1 = h -> erodes h a b t1 t' ks ->
      erodes h a b t t' (k :: ks).
  Lemma erodes_app h a b t t1 t' ks ks' : erodes h a b t t1 ks -> erodes h a b t1 t' ks' -> erodes h a b t t' (ks ++ ks').
  Proof. induction 1; cbn; [auto|]. intros G. econstructor; eauto. Qed.
  Lemma erodes_left h a m b l l' (r : avl) ks : erodes h a m l l' ks -> height r = h -> m < b ->
    erodes (S h) a b (Node (S h) l (m, tt) r) (Node (S h) l' (m, tt) r) ks.
  Proof.
    intros G Hr Hm. induction G as [l|l l1 l' k ks o E Rk H1 G IH]; [constructor|].
    econstructor; [| | |exact IH].
    - cbn [avl_remove fst]. rewrite (cmp_lt' k m) by lia. rewrite E. cbn [bind]. rewrite balance_id by lia. cbn [bind].
      rewrite H1, Hr, Nat.max_id. reflexivity.
    - lia.
    - reflexivity.
  Qed.
  Lemma erodes_right h a m b (l r : avl) r' ks : erodes h m b r r' ks -> height l = h -> a < m ->
    erodes (S h) a b (Node (S h) l (m, tt) r) (Node (S h) l (m, tt) r') ks.
  Proof.
    intros G Hr Hm. induction G as [r|r r1 r' k ks o E Rk H1 G IH]; [constructor|].
    econstructor; [| | |exact IH].
    - cbn [avl_remove fst]. rewrite (cmp_gt' k m) by lia. rewrite E. cbn [bind]. rewrite balance_id by lia. cbn [bind].
      rewrite H1, Hr, Nat.max_id. reflexivity.
    - lia.
    - reflexivity.
  Qed.

  (** Removing the root again and again empties the left subtree of its right child. *)
  Lemma pops h a b l re (rr : avl) n : height l = S h -> forall rl m, length (inorder rl) = n -> a < m < b ->
    (forall p, In p (inorder rl) -> a < fst p < b) ->
    exists m' ks, a < m' < b /\
      erodes (S (S h)) a b (Node (S (S h)) l (m, tt) (Node (S h) rl re rr)) (Node (S (S h)) l (m', tt) (Node (S h) Leaf re rr)) ks.
  Proof.
    intros Hl. induction n as [|n IH]; intros rl m En Hm Hr.
    - apply length_zero_iff_nil, inorder_nil in En. subst rl. exists m, []. split; [exact Hm|]. constructor.
    - destruct (avl_remove_min_ok rl) as (rl' & hm & (m1, []) & E1 & E2). { intros ->. discriminate En. }
      rewrite E2 in En, Hr. injection En as En. destruct (IH rl' m1 En) as (m' & ks & Hm' & G).
      { apply (Hr (m1, tt)). now left. }
      { intros p J. apply Hr. now right. }
      exists m', (m :: ks). split; [exact Hm'|]. econstructor; [|exact Hm| |exact G].
      + cbn [avl_remove fst]. unfold cmp, nat_cmp. rewrite Nat.compare_refl.
        destruct l as [|hl ll le lr] eqn:El; [discriminate Hl|]. rewrite <- El in *. unfold avl_combine.
        assert (X : avl_remove_min (Node (S h) rl re rr) = Ok (Node (S h) rl' re rr, (hm, (m1, tt)))).
        { cbn [avl_remove_min]. destruct rl; [discriminate E1|]. now rewrite E1. }
        rewrite X. cbn [bind]. rewrite balance_id by (cbn [height]; lia). cbn [bind height]. rewrite Hl, Nat.max_id. reflexivity.
      + reflexivity.
  Qed.

  Inductive chain : nat -> avl -> Prop :=
  | ch_leaf : chain 0 Leaf
  | ch_node d e c : chain d c -> chain (S d) (Node (S d) Leaf e c).
  Inductive comb : nat -> avl -> Prop :=
  | co_leaf : comb 0 Leaf
  | co_node d l e c : comb d l -> chain d c -> comb (S d) (Node (S d) l e c).

  Lemma perfect_keys d : forall a p, In p (inorder (perfect d a 1)) -> a < fst p < a + 2 ^ d.
  Proof.
    induction d as [|d IH]; intros a p; [intros []|]. cbn [perfect inorder]. rewrite in_app_iff. cbn [In Nat.pow].
    pose proof (pow2_pos d). intros [J|[<-|J]]; [apply IH in J; lia| cbn [fst]; lia |apply IH in J; lia].
  Qed.

  Lemma erode_chain d : forall lo hi m l, height l = d -> lo < m -> m + 2 ^ d <= hi ->
    exists m' c ks, chain d c /\ lo < m' < hi /\
      erodes (S d) lo hi (Node (S d) l (m, tt) (perfect d m 1)) (Node (S d) l (m', tt) c) ks.
  Proof.
    induction d as [|d IH]; intros lo hi m l Hl Hm Hh.
    - exists m, Leaf, []. cbn in Hh. repeat split; try lia; constructor.
    - cbn [perfect]. rewrite Nat.mul_1_l. pose proof (pow2_pos d) as Hp. cbn [Nat.pow] in Hh.
      destruct (IH m hi (m + 2 ^ d) (perfect d m 1) (perfect_height d m 1)) as (m1 & c & ks & Hc & Hm1 & G); try lia.
      apply (erodes_right (S d) lo m hi l) in G; auto.
      destruct (pops d lo hi l (m1, tt) c _ Hl (perfect d m 1) m eq_refl) as (m' & ks' & Hm' & G'); try lia.
      { intros p J. apply perfect_keys in J. lia. }
      exists m', (Node (S d) Leaf (m1, tt) c), (ks ++ ks'). split; [now constructor|]. split; [exact Hm'|]. eapply erodes_app; eauto.
  Qed.
  Lemma chain_height d c : chain d c -> height c = d.
  Proof. now intros []. Qed.
  Lemma comb_height d c : comb d c -> height c = d.
  Proof. now intros []. Qed.
  Lemma erode_comb d : forall a, exists t' ks, comb d t' /\ erodes d a (a + 2 ^ d) (perfect d a 1) t' ks.
  Proof.
    induction d as [|d IH]; intros a.
    - exists Leaf, []. split; constructor.
    - destruct (IH a) as (l & ks & Hl & G). cbn [perfect Nat.pow]. rewrite Nat.mul_1_l. pose proof (pow2_pos d) as Hp.
      apply (erodes_left d a (a + 2 ^ d) (a + (2 ^ d + (2 ^ d + 0))) _ _ (perfect d (a + 2 ^ d) 1)) in G; [|apply perfect_height|lia].
      destruct (erode_chain d a (a + (2 ^ d + (2 ^ d + 0))) (a + 2 ^ d) l (comb_height _ _ Hl)) as (m' & c & ks' & Hc & Hm' & G'); try lia.
      exists (Node (S d) l (m', tt) c), (ks ++ ks'). split; [now constructor|]. eapply erodes_app; eauto.
  Qed.

  Lemma chain_size d c : chain d c -> size c = d /\ depth c = d.
  Proof. induction 1 as [|d e c J [I1 I2]]; [now split|]. cbn [size depth]. rewrite I1, I2. lia. Qed.
  Lemma comb_size d c : comb d c -> 2 * size c = d * (d + 1) /\ depth c = d.
  Proof.
    induction 1 as [|d l e c J [I1 I2] Hc]; [now split|]. destruct (chain_size _ _ Hc) as (C1 & C2). cbn [size depth]. split; lia.
  Qed.

  (** As calls *)
  Lemma grows_run d a b t t' ks : grows d a b t t' ks -> forall (m m' : avl_map) outs, bm_tree m = t ->
    run avl_step m (map (fun k => MInsert k tt) ks) = Ok (m', outs) -> bm_tree m' = t'.
  Proof.
    induction 1 as [t|t t1 t' k ks o E Rk H1 G IH]; intros m m' outs Em; cbn [map run].
    - intros X. injection X as <- <-. exact Em.
    - unfold avl_step at 1, bmap_step, bmap_insert. rewrite Em, E. cbn [bind].
      destruct o; cbn [bind checked_pred]; match goal with |- context [run avl_step ?m1 _] => destruct (run avl_step m1 (map (fun k => MInsert k tt) ks)) as [[m2 rs]| |] eqn:E2; try discriminate end;
        cbn [bind]; intros X; injection X as <- <-; eapply IH in E2; eauto.
  Qed.
  Lemma erodes_run h a b t t' ks : erodes h a b t t' ks -> forall (m m' : avl_map) outs, bm_tree m = t ->
    run avl_step m (map MRemove ks) = Ok (m', outs) -> bm_tree m' = t'.
  Proof.
    induction 1 as [t|t t1 t' k ks o E Rk H1 G IH]; intros m m' outs Em; cbn [map run].
    - intros X. injection X as <- <-. exact Em.
    - unfold avl_step at 1, bmap_step, bmap_remove. rewrite Em, E. cbn [bind].
      destruct o; [destruct (checked_pred (bm_len m)); cbn [bind]; try discriminate|cbn [bind]];
        match goal with |- context [run avl_step ?m1 _] => destruct (run avl_step m1 (map MRemove ks)) as [[m2 rs]| |] eqn:E2; try discriminate end;
        cbn [bind]; intros X; injection X as <- <-; eapply IH in E2; eauto.
  Qed.

  Lemma run_split {S O R} (step : S -> O -> res (S * R)) a b : forall s s' rs, run step s (a ++ b) = Ok (s', rs) ->
    exists s1 r1 r2, run step s a = Ok (s1, r1) /\ run step s1 b = Ok (s', r2).
  Proof.
    induction a as [|o a IH]; intros s s' rs E.
    - exists s, [], rs. now split.
    - cbn [app run] in E |- *. destruct (step s o) as [[s1 r]| |]; try discriminate. cbn [bind] in *.
      destruct (run step s1 (a ++ b)) as [[s2 rs2]| |] eqn:E2; try discriminate. cbn [bind] in E. injection E as <- <-.
      destruct (IH _ _ _ E2) as (s3 & r1 & r2 & Ea & Eb). exists s3, (r :: r1), r2. rewrite Ea. now split.
  Qed.

  Lemma reach_perfect h : forall j, j <= h -> exists ops : list (map_op nat unit), forall m outs,
    run avl_step avl_new ops = Ok (m, outs) -> bm_tree m = perfect j 0 (2 ^ (h - j)).
  Proof.
    induction j as [|j IH]; intros L.
    - exists []. intros m outs E. injection E as <- <-. reflexivity.
    - destruct (IH ltac:(lia)) as (ops & P). destruct (perfect_grows j 0 (2 ^ (h - S j)) (pow2_pos _)) as (ks & G).
      exists (ops ++ map (fun k => MInsert k tt) ks). intros m outs E. destruct (run_split _ _ _ _ _ _ E) as (m1 & r1 & r2 & E1 & E2).
      eapply grows_run; [exact G| |exact E2]. rewrite (P _ _ E1). f_equal. rewrite <- Nat.pow_succ_r'. f_equal. lia.
  Qed.

  Lemma avl_sparse h : exists (ops : list (map_op nat unit)) (m : avl_map) outs,
    run avl_step avl_new ops = Ok (m, outs) /\ comb h (bm_tree m).
  Proof.
    destruct (reach_perfect h h (le_n h)) as (ops & P). destruct (erode_comb h 0) as (t' & ks & Ct & G).
    exists (ops ++ map MRemove ks). pose proof (avl_refines (ops ++ map MRemove ks)) as R. unfold outputs, rmap in R.
    destruct (run avl_step avl_new (ops ++ map MRemove ks)) as [[m outs]| |] eqn:E; try discriminate R. exists m, outs. split; [reflexivity|].
    destruct (run_split _ _ _ _ _ _ E) as (m1 & r1 & r2 & E1 & E2).
    assert (X : bm_tree m = t'). { eapply erodes_run; [exact G| |exact E2]. rewrite (P _ _ E1), Nat.sub_diag. reflexivity. }
    now rewrite X.
  Qed.

  Lemma pow_beats c : c * (8 * c + 11) < 2 ^ (4 * c + 4).
  Proof.
    induction c as [|c IH]; [cbn; lia|]. replace (4 * S c + 4) with (4 + (4 * c + 4)) by lia. rewrite Nat.pow_add_r. change (2 ^ 4) with 16.
    destruct c; [cbn; lia|]. nia.
  Qed.
  Lemma avl_not_logarithmic c : exists (ops : list (map_op nat unit)) (m : avl_map) outs,
    run avl_step avl_new ops = Ok (m, outs) /\ c * Nat.log2 (S (size (bm_tree m))) < depth (bm_tree m).
  Proof.
    destruct (avl_sparse (2 ^ (4 * c + 4))) as (ops & m & outs & E & Cm). destruct (comb_size _ _ Cm) as (Sz & D). exists ops, m, outs. split; [exact E|].
    rewrite D. pose proof (pow_beats c) as B. set (j := 4 * c + 4) in *. pose proof (pow2_pos j).
    assert (L : Nat.log2 (S (size (bm_tree m))) <= 2 * j + 1).
    { rewrite <- (Nat.log2_pow2 (2 * j + 1)) by lia. apply Nat.log2_le_mono.
      replace (2 * j + 1) with (j + j + 1) by lia. rewrite !Nat.pow_add_r. change (2 ^ 1) with 2. nia. }
    assert (c * Nat.log2 (S (size (bm_tree m))) <= c * (2 * j + 1)) by (apply Nat.mul_le_mono_l, L). unfold j in *. nia.
  Qed.
End Erosion.
