(** Proofs about TreapCostModel.v: C60. *)
From Verif Require Export TreapCostModel TreapProofs TreapListProofs CostSpec RandomLemmas KeyInstances.
From Coq Require Import Permutation.

(** ** Records *)
Lemma recs_app : forall x seen y, recs seen (x ++ y) = recs seen x + recs (seen ++ x) y.
Proof.
  induction x as [|p x IH]; intros seen y; simpl; [now rewrite app_nil_r|]. rewrite IH, <- app_assoc. simpl. lia.
Qed.
Lemma recs_top x p y : Forall (fun q => (q <= p)%N) x -> S (recs [] x) <= recs [] (x ++ p :: y).
Proof.
  intros F. rewrite recs_app. simpl app. cbn [recs]. replace (forallb (fun q => (q <=? p)%N) x) with true; [simpl; lia|].
  symmetry. apply forallb_forall. intros q i. rewrite Forall_forall in F. apply N.leb_le, F, i.
Qed.
Lemma recs_more x y : recs [] x <= recs [] (x ++ y).
Proof. rewrite recs_app. lia. Qed.

Section TreapCostProofs.
  Context {K V : Type} `{CmpLaws K}.
  Notation treap := (tree (N * nat) K V).
  Implicit Types (t lt rt : treap) (e : K * V) (k : K) (p q : N).
  Notation ip := (inorder_prio tprio).
  Notation heap := (heap_ordered tprio).
  Notation rle := (root_le tprio).

  (** ** The counting functions compute what the others do *)
  Fixpoint merge_steps lt : treap -> nat :=
    fix merge_r rt : nat :=
      match lt, rt with
      | Node (pl, _) _ _ lr, Node (pr, _) rl _ _ => S (if (pr <? pl)%N then merge_steps lr rt else merge_r rl)
      | _, _ => 0
      end.
  Lemma t_merge_c_eq lt : forall rt, t_merge_c lt rt = (t_merge lt rt, merge_steps lt rt).
  Proof.
    induction lt as [|[pl nl] ll IHll le lr IHlr]; intros rt; [now destruct rt|].
    induction rt as [|[pr nr] rl IHrl re rr IHrr]; [reflexivity|].
    simpl. simpl in IHrl. destruct (pr <? pl)%N; [now rewrite IHlr|]. now rewrite IHrl.
  Qed.
  Lemma t_split_c_eq t k : t_split_c t k = (t_split t k, search_steps t k).
  Proof.
    induction t as [|[p n] l IHl e r IHr]; simpl; [reflexivity|]. destruct (cmp k (fst e)); [reflexivity| |].
    - rewrite IHl. destruct (t_split l k) as [l' [d g]]. reflexivity.
    - rewrite IHr. destruct (t_split r k) as [r' dg]. reflexivity.
  Qed.
  Fixpoint insert_steps t k p : nat :=
    match t with
    | Leaf => 0
    | Node (q, _) l e r =>
        if (p <=? q)%N then match cmp k (fst e) with Lt => 2 + insert_steps l k p | Gt => 2 + insert_steps r k p | Eq => 2 end
        else 1 + search_steps t k
    end.
  Lemma t_insert_c_eq t k v p : t_insert_c t k v p = (t_insert t k v p, insert_steps t k p).
  Proof.
    induction t as [|[q n] l IHl e r IHr]; cbn [t_insert_c t_insert insert_steps]; [reflexivity|]. destruct (p <=? q)%N.
    - destruct (cmp k (fst e)); [reflexivity| |].
      + rewrite IHl. destruct (t_insert l k v p). reflexivity.
      + rewrite IHr. destruct (t_insert r k v p). reflexivity.
    - rewrite t_split_c_eq. destruct (t_split _ k) as [l' [d g]]. reflexivity.
  Qed.
  Fixpoint remove_steps t k : nat :=
    match t with
    | Leaf => 0
    | Node _ l e r => 2 + match cmp k (fst e) with Lt => remove_steps l k | Gt => remove_steps r k | Eq => merge_steps l r end
    end.
  Lemma t_remove_c_eq t k : t_remove_c t k = (t_remove t k, remove_steps t k).
  Proof.
    induction t as [|[q n] l IHl e r IHr]; cbn [t_remove_c t_remove remove_steps]; [reflexivity|]. destruct (cmp k (fst e)).
    - now rewrite t_merge_c_eq.
    - rewrite IHl. destruct (t_remove l k). reflexivity.
    - rewrite IHr. destruct (t_remove r k). reflexivity.
  Qed.
  Definition treap_steps t (op : map_op K V * N) : nat :=
    match fst op with
    | MInsert k _ => insert_steps t k (snd op)
    | MRemove k => remove_steps t k
    | MGet k | MGetMut k _ | MIndex k | MContains k | MFloor k | MCeil k => search_steps t k
    | MMin => min_steps t
    | MMax => max_steps t
    | _ => 0
    end.
  Lemma treap_step_c_eq t op : treap_step_c t op = let* (t', out) := treap_step t op in Ok (t', (out, treap_steps t op)).
  Proof.
    destruct op as [o p]; destruct o; unfold treap_step_c, treap_steps; cbn [fst snd]; try reflexivity.
    - rewrite t_insert_c_eq. cbn [treap_step]. now destruct (t_insert t k v p).
    - rewrite t_remove_c_eq. cbn [treap_step]. now destruct (t_remove t k).
  Qed.

  (** ** Steps are bounded by the records on both sides of the key *)
  Notation prios l := (map (fun x => snd (snd x)) l).
  Lemma heap_prios t p : heap t -> rle p t -> Forall (fun q => (q <= p)%N) (prios (ip t)).
  Proof. intros Hh R. apply Forall_map. now apply heap_all. Qed.
  Lemma filter_prios (f : K * (V * N) -> bool) l p : Forall (fun q => (q <= p)%N) (prios l) -> Forall (fun q => (q <= p)%N) (prios (filter f l)).
  Proof. rewrite !Forall_map, !Forall_forall. intros F x i. apply filter_In in i as [i _]. now apply F. Qed.

  Definition right_recs k (l : list (K * (V * N))) : nat := recs [] (prios (above k l)).
  Definition left_recs k (l : list (K * (V * N))) : nat := recs [] (rev (prios (below k l))).

  Lemma recs_rev_top (x y : list (K * (V * N))) (a : K * (V * N)) : Forall (fun q => (q <= snd (snd a))%N) (prios y) ->
    S (recs [] (rev (prios y))) <= recs [] (rev (prios (x ++ a :: y))).
  Proof. intros F. rewrite map_app, rev_app_distr. simpl. rewrite <- app_assoc. simpl. apply recs_top. now apply Forall_rev. Qed.
  Lemma recs_fwd_top (x y : list (K * (V * N))) (a : K * (V * N)) : Forall (fun q => (q <= snd (snd a))%N) (prios x) ->
    S (recs [] (prios x)) <= recs [] (prios (x ++ a :: y)).
  Proof. intros F. rewrite map_app. simpl. now apply recs_top. Qed.

  Lemma min_records t : heap t -> min_steps t <= recs [] (prios (ip t)).
  Proof.
    induction t as [|a l IHl e r IHr]; [simpl; lia|]. intros (R1 & R2 & H1 & H2). cbn [min_steps inorder_prio].
    specialize (IHl H1). pose proof (recs_fwd_top (ip l) (ip r) (fst e, (snd e, tprio a)) (heap_prios _ _ H1 R1)). lia.
  Qed.
  Lemma max_records t : heap t -> max_steps t <= recs [] (rev (prios (ip t))).
  Proof.
    induction t as [|a l IHl e r IHr]; [simpl; lia|]. intros (R1 & R2 & H1 & H2). cbn [max_steps inorder_prio].
    specialize (IHr H2). pose proof (recs_rev_top (ip l) (ip r) (fst e, (snd e, tprio a)) (heap_prios _ _ H2 R2)). lia.
  Qed.
  Lemma merge_bound lt : forall rt, merge_steps lt rt <= max_steps lt + min_steps rt.
  Proof.
    induction lt as [|[pl nl] ll IHll le lr IHlr]; intros rt; [now destruct rt; simpl; lia|].
    induction rt as [|[pr nr] rl IHrl re rr IHrr]; [simpl; lia|].
    specialize (IHlr (Node (pr, nr) rl re rr)). cbn [merge_steps]. cbn [merge_steps] in IHrl. cbn [max_steps min_steps] in *. destruct (pr <? pl)%N; lia.
  Qed.

  (** A path down to [k], with something at its end *)
  Lemma path_bound (g : treap -> nat) t k : (forall l r, heap l -> heap r -> forall a e, cmp k (fst e) = Eq -> sorted (ip (Node a l e r)) ->
      g (Node a l e r) <= 2 + 2 * (recs [] (prios (ip r)) + recs [] (rev (prios (ip l))))) ->
    g Leaf = 0 ->
    (forall a l e r, cmp k (fst e) = Lt -> g (Node a l e r) <= 2 + g l) -> (forall a l e r, cmp k (fst e) = Gt -> g (Node a l e r) <= 2 + g r) ->
    sorted (inorder t) -> heap t -> g t <= 2 + 2 * (right_recs k (ip t) + left_recs k (ip t)).
  Proof.
    intros GE G0 GL GR S0. pose proof (ip_sorted t S0) as S. clear S0. revert S.
    induction t as [|a l IHl e r IHr]; intros S Hh; [rewrite G0; lia|].
    destruct Hh as (R1 & R2 & H1 & H2). cbn [inorder_prio] in *.
    pose proof (proj1 (sorted_mid _ _ _) S) as (S1 & S2 & F1 & F2). unfold right_recs, left_recs.
    destruct (cmp k (fst e)) eqn:Ck.
    - destruct (pieces_eq _ _ _ _ S Ck) as (E1 & E2 & E3). rewrite E1, E3. now apply GE.
    - destruct (pieces_lt _ _ _ _ S Ck) as (E1 & E2 & E3). rewrite E1, E3. specialize (IHl S1 H1). specialize (GL a l e r Ck).
      pose proof (recs_fwd_top (above k (ip l)) (ip r) (fst e, (snd e, tprio a)) (filter_prios _ _ _ (heap_prios _ _ H1 R1))) as T.
      unfold right_recs, left_recs in IHl. lia.
    - destruct (pieces_gt _ _ _ _ S Ck) as (E1 & E2 & E3). rewrite E1, E3. specialize (IHr S2 H2). specialize (GR a l e r Ck).
      pose proof (recs_rev_top (ip l) (below k (ip r)) (fst e, (snd e, tprio a)) (filter_prios _ _ _ (heap_prios _ _ H2 R2))) as T.
      unfold right_recs, left_recs in IHr. lia.
  Qed.
  Lemma search_bound t k : sorted (inorder t) -> heap t -> search_steps t k <= 2 + 2 * (right_recs k (ip t) + left_recs k (ip t)).
  Proof.
    apply path_bound with (g := fun t => search_steps t k); [|reflexivity|..].
    - intros l r _ _ a e Ck _. cbn [search_steps]. rewrite Ck. lia.
    - intros a l e r Ck. cbn [search_steps]. rewrite Ck. lia.
    - intros a l e r Ck. cbn [search_steps]. rewrite Ck. lia.
  Qed.
  Lemma insert_search t k p : insert_steps t k p <= 1 + search_steps t k.
  Proof.
    induction t as [|[q n] l IHl e r IHr]; cbn [insert_steps search_steps]; [lia|]. destruct (p <=? q)%N; [|lia].
    destruct (cmp k (fst e)); lia.
  Qed.
  Lemma remove_bound t k : sorted (inorder t) -> heap t -> remove_steps t k <= 2 + 2 * (right_recs k (ip t) + left_recs k (ip t)).
  Proof.
    apply path_bound with (g := fun t => remove_steps t k); [|reflexivity|..].
    - intros l r Hl Hr a e Ck _. cbn [remove_steps]. rewrite Ck. pose proof (merge_bound l r). pose proof (max_records l Hl).
      pose proof (min_records r Hr). lia.
    - intros a l e r Ck. cbn [remove_steps]. rewrite Ck. lia.
    - intros a l e r Ck. cbn [remove_steps]. rewrite Ck. lia.
  Qed.

  (** What lies before and after the place a call looks at *)
  Definition cut {W} (o : map_op K V) (l : list (K * W)) : list (K * W) * list (K * W) :=
    match o with
    | MInsert k _ | MRemove k | MGet k | MGetMut k _ | MIndex k | MContains k | MFloor k | MCeil k => (below k l, above k l)
    | MMax => (l, [])
    | _ => ([], l)
    end.
  Lemma steps_bound t o p : tinv t -> looks_up o = true ->
    treap_steps t (o, p) <= 3 + 2 * (recs [] (prios (snd (cut o (ip t)))) + recs [] (rev (prios (fst (cut o (ip t)))))).
  Proof.
    intros (S & _ & Hh) Lo. destruct o as [k v|k|k|k v|k|k|k|k| | | | | | |vs|]; try discriminate Lo; unfold treap_steps; cbn [fst snd cut];
      try (pose proof (search_bound t k S Hh) as B; unfold right_recs, left_recs in B; lia).
    - pose proof (search_bound t k S Hh) as B. pose proof (insert_search t k p). unfold right_recs, left_recs in B. lia.
    - pose proof (remove_bound t k S Hh) as B. unfold right_recs, left_recs in B. lia.
    - pose proof (min_records t Hh). lia.
    - pose proof (max_records t Hh). lia.
  Qed.

  (** ** Runs *)
  Lemma treap_run_c (ops : list (map_op K V * N)) : forall t, tinv t -> exists t' outs,
    run treap_step_c t ops = Ok (t', outs) /\ map fst outs = snd (spec_run map_spec_step (inorder t) (map fst ops)) /\
    forall i o p, nth_error ops i = Some (o, p) -> exists ti, tinv ti /\ ip ti = fold_left prio_spec_step (firstn i ops) (ip t) /\
      nth i (map snd outs) 0 = treap_steps ti (o, p).
  Proof.
    induction ops as [|[o p] ops IH]; intros t T.
    - exists t, []. repeat split; auto. intros [|i] ? ?; discriminate.
    - destruct (treap_step_ok t (inorder t) o p (conj eq_refl T)) as (t1 & E1 & I1 & T1).
      destruct (IH t1 T1) as (t2 & outs & E2 & E3 & E4). exists t2, ((snd (map_spec_step (inorder t) o), treap_steps t (o, p)) :: outs).
      cbn [run]. rewrite treap_step_c_eq, E1. cbn [bind]. rewrite E2. cbn [bind]. split; [easy|]. split.
      + cbn [map fst spec_run]. rewrite E3, I1. destruct (map_spec_step (inorder t) o) as [l1 r1]. cbn [fst snd].
        now destruct (spec_run map_spec_step l1 (map fst ops)).
      + intros [|i] o' p' E.
        * injection E as <- <-. exists t. auto.
        * destruct (E4 i o' p' E) as (ti & T' & Ei & En). exists ti. split; [easy|]. split; [|easy].
          rewrite Ei. cbn [firstn fold_left]. now rewrite <- (treap_step_prio _ _ _ _ _ T E1).
  Qed.

  (** ** The draws that make up the priority of each key *)
  Definition blocks_step (n : nat) (l : list (K * list nat)) (o : map_op K V) : list (K * list nat) :=
    match o with
    | MInsert k _ => below k l ++ (k, n :: match at_key k l with (_, b) :: _ => b | [] => [] end) :: above k l
    | MRemove k => below k l ++ above k l
    | MClear | MIntoIter => []
    | _ => l
    end.
  Fixpoint blocks (n : nat) (l : list (K * list nat)) (ops : list (map_op K V)) : list (K * list nat) :=
    match ops with [] => l | o :: r => blocks (S n) (blocks_step n l o) r end.

  Definition on2 {A B} (f : A -> B) (x : K * A) : K * B := (fst x, f (snd x)).
  Notation kp l := (map (on2 snd) l).

  Lemma blocks_prio_step ps n l (m : list (K * (V * N))) (o : map_op K V) : sorted m ->
    kp m = map (on2 (most ps)) l -> kp (prio_spec_step m (o, nth n ps 0%N)) = map (on2 (most ps)) (blocks_step n l o).
  Proof.
    intros S E.
    assert (Eb : forall k, kp (below k m) = map (on2 (most ps)) (below k l)).
    { intros k. unfold on2. rewrite (map_below snd), (map_below (most ps)). now f_equal. }
    assert (Ea : forall k, kp (above k m) = map (on2 (most ps)) (above k l)).
    { intros k. unfold on2. rewrite (map_above snd), (map_above (most ps)). now f_equal. }
    assert (Ee : forall k, kp (at_key k m) = map (on2 (most ps)) (at_key k l)).
    { intros k. unfold on2. rewrite (map_at snd), (map_at (most ps)). now f_equal. }
    destruct o as [k v|k|k|k v|k|k|k|k| | | | | | |vs|]; cbn [prio_spec_step blocks_step]; auto.
    - rewrite !map_app. cbn [map]. rewrite Eb, Ea. do 2 f_equal. unfold on2 at 1 2. cbn [fst snd]. f_equal. unfold old_prio.
      specialize (Ee k). destruct (at_key k m) as [|[k1 [v1 q1]] m1], (at_key k l) as [|[k2 b2] l2]; try discriminate.
      + simpl. lia.
      + unfold on2 in Ee. simpl in Ee. injection Ee as -> ->. reflexivity.
    - rewrite !map_app, Eb, Ea. reflexivity.
    - transitivity (kp m); [|exact E]. transitivity (kp (below k m ++ at_key k m ++ above k m)).
      + rewrite !map_app. do 2 f_equal. rewrite map_map. reflexivity.
      + now rewrite <- sorted_split.
    - rewrite <- E. clear. revert m. induction vs as [|v vs IH]; intros [|[k [v' p]] m]; simpl; auto. now rewrite IH.
  Qed.

  Lemma prio_spec_step_sorted (m : list (K * (V * N))) op : sorted m -> sorted (prio_spec_step m op).
  Proof.
    intros S. destruct op as [o p]. destruct o as [k v|k|k|k v|k|k|k|k| | | | | | |vs|]; cbn [prio_spec_step]; auto using sorted_nil.
    - now apply sorted_insert.
    - now apply sorted_delete.
    - clear p. 
      assert (X : map fst (below k m ++ map (fun x => (fst x, (v, snd (snd x)))) (at_key k m) ++ above k m) = map fst m).
      { rewrite (sorted_split m k S) at 4. rewrite !map_app, map_map. reflexivity. }
      revert X S. generalize (below k m ++ map (fun x => (fst x, (v, snd (snd x)))) (at_key k m) ++ above k m). clear -C.
      induction m as [|x m IH]; intros [|y m'] E S; try discriminate; [exact S|]. injection E as E1 E2.
      apply sorted_cons in S as [F S]. apply sorted_cons. split; [|now apply IH]. clear -E1 E2 F. unfold all_gt in *.
      rewrite <- Forall_map with (f := fst) (P := fun k' => cmp (fst y) k' = Lt). rewrite E2, E1. now apply Forall_map.
    - revert vs S. induction m as [|[k [v p']] m IH]; intros [|v' vs] S; simpl; auto. apply sorted_cons in S as [F S].
      apply sorted_cons. split; [|now apply IH]. clear -F. unfold all_gt in *. revert vs. cbn [fst] in *.
      induction m as [|[k1 [v1 p1]] m IH]; intros [|v2 vs]; simpl; auto. inversion F; subst. constructor; auto.
  Qed.

  Lemma blocks_prio ps : forall ops qs n l (m : list (K * (V * N))), sorted m -> length qs = length ops ->
    (forall j, j < length ops -> nth j qs 0%N = nth (n + j) ps 0%N) ->
    kp m = map (on2 (most ps)) l -> kp (fold_left prio_spec_step (combine ops qs) m) = map (on2 (most ps)) (blocks n l ops).
  Proof.
    induction ops as [|o ops IH]; intros [|q qs] n l m S El En Em; try discriminate; [exact Em|]. cbn [combine fold_left blocks].
    pose proof (En 0 ltac:(simpl; lia)) as E0. rewrite Nat.add_0_r in E0. cbn [nth] in E0. subst q.
    apply IH.
    - now apply prio_spec_step_sorted.
    - simpl in El. lia.
    - intros j Lj. rewrite Nat.add_succ_comm. apply (En (Datatypes.S j)). simpl. lia.
    - now apply blocks_prio_step.
  Qed.

  Lemma parts_perm {W} k (l : list (K * W)) : Permutation l (below k l ++ at_key k l ++ above k l).
  Proof.
    induction l as [|x l IH]; [reflexivity|]. rewrite below_cons, at_cons, above_cons. destruct (cmp (fst x) k); simpl.
    - eapply Permutation_trans; [apply perm_skip, IH|]. apply Permutation_middle.
    - now apply perm_skip.
    - eapply Permutation_trans; [apply perm_skip, IH|]. rewrite !app_assoc. apply Permutation_middle.
  Qed.

  Definition draws_of (l : list (K * list nat)) : list nat := concat (map snd l).
  Definition blocks_ok (n : nat) (l : list (K * list nat)) : Prop :=
    Forall (fun b => b <> []) (map snd l) /\ NoDup (draws_of l) /\ (forall w, In w (draws_of l) -> w < n).
  Lemma draws_app l l' : draws_of (l ++ l') = draws_of l ++ draws_of l'.
  Proof. unfold draws_of. now rewrite map_app, concat_app. Qed.
  Lemma draws_perm l l' : Permutation l l' -> Permutation (draws_of l) (draws_of l').
  Proof.
    unfold draws_of. induction 1; simpl; auto.
    - now apply Permutation_app_head.
    - rewrite !app_assoc. apply Permutation_app_tail, Permutation_app_comm.
    - eapply Permutation_trans; eauto.
  Qed.
  Lemma blocks_ok_perm n l l' : Permutation l l' -> blocks_ok n l -> blocks_ok n l'.
  Proof.
    intros P (F & D & L). repeat split.
    - eapply Permutation_Forall; [apply Permutation_map, P | easy].
    - eapply Permutation_NoDup; [apply draws_perm, P | easy].
    - intros w i. apply L. eapply Permutation_in; [symmetry; apply draws_perm, P | easy].
  Qed.
  Lemma blocks_ok_app n l l' : blocks_ok n (l ++ l') -> blocks_ok n l /\ blocks_ok n l'.
  Proof.
    intros (F & D & L). rewrite map_app in F. rewrite draws_app in D, L. apply Forall_app in F as [F1 F2].
    apply nodup_parts in D as [D1 D2]. split; repeat split; auto; intros w i; apply L, in_app_iff; auto.
  Qed.
  Lemma blocks_ok_less n l : blocks_ok n l -> blocks_ok (S n) l.
  Proof. intros (F & D & L). repeat split; auto. intros w i. specialize (L w i). lia. Qed.

  Lemma blocks_step_ok n l o : blocks_ok n l -> blocks_ok (S n) (blocks_step n l o).
  Proof.
    intros B. pose proof (blocks_ok_less n l B) as B'. assert (B0 : blocks_ok (S n) []) by (split; [constructor | split; [constructor | intros ? []]]).
    destruct o as [k v|k|k|k v|k|k|k|k| | | | | | |vs|]; cbn [blocks_step]; auto.
    - apply (blocks_ok_perm n l _ (parts_perm k l)) in B. destruct B as (F & D & L).
      assert (PX : forall b, Permutation ((k, n :: b) :: below k l ++ above k l) (below k l ++ (k, n :: b) :: above k l)) by (intros; apply Permutation_middle).
      eapply blocks_ok_perm; [apply PX|]. rewrite !map_app in F. rewrite !draws_app in D, L.
      apply Forall_app in F as [F1 F2]. apply Forall_app in F2 as [_ F3].
      assert (Ln : forall w, In w (draws_of (below k l) ++ draws_of (above k l)) -> w < n).
      { intros w i. apply L. rewrite !in_app_iff in *. tauto. }
      repeat split.
      + cbn [map snd]. constructor; [easy|]. rewrite map_app. now apply Forall_app.
      + unfold draws_of. cbn [map concat snd]. fold (draws_of (below k l ++ above k l)). rewrite draws_app. simpl. constructor.
        * rewrite in_app_iff. intros [i|i]; [|specialize (Ln _ i); lia].
          specialize (L n). rewrite !in_app_iff in L. enough (n < n) by lia. apply L. right. left.
          destruct (at_key k l) as [|[k' b] l']; [easy|]. unfold draws_of. simpl. apply in_app_iff. now left.
        * eapply Permutation_NoDup in D; [|rewrite app_assoc; apply Permutation_app_tail, Permutation_app_comm].
          rewrite <- app_assoc in D. destruct (at_key k l) as [|[k' b] l']; [exact D|]. unfold draws_of at 1 in D. simpl in D.
          fold (draws_of l') in D. rewrite <- app_assoc in D.
          eapply Permutation_NoDup in D; [|rewrite app_assoc; apply Permutation_app_tail, Permutation_app_comm]. rewrite <- app_assoc in D.
          now apply nodup_parts in D as [_ D].
      + intros w. unfold draws_of. cbn [map concat snd]. fold (draws_of (below k l ++ above k l)). rewrite draws_app. simpl.
        intros [->|i]; [lia|]. apply in_app_iff in i as [i|i]; [|specialize (Ln _ i); lia].
        specialize (L w). rewrite !in_app_iff in L. enough (w < n) by lia. apply L. right. left.
        destruct (at_key k l) as [|[k' b] l']; [easy|]. unfold draws_of. simpl. apply in_app_iff. now left.
    - apply (blocks_ok_perm _ _ _ (parts_perm k l)) in B'. 
      eapply blocks_ok_perm in B'; [|rewrite app_assoc; apply Permutation_app_tail, Permutation_app_comm].
      rewrite <- app_assoc in B'. now apply blocks_ok_app in B' as [_ B'].
  Qed.
  Lemma blocks_all_ok ops : forall n l, blocks_ok n l -> blocks_ok (n + length ops) (blocks n l ops).
  Proof.
    induction ops as [|o ops IH]; intros n l B; simpl; [now rewrite Nat.add_0_r|]. rewrite <- Nat.add_succ_comm. apply IH. now apply blocks_step_ok.
  Qed.

  (** ** How many draws there are *)
  Lemma blocks_count ops : forall n l m, map (on2 (@length nat)) l = m ->
    map (on2 (@length nat)) (blocks n l ops) = fold_left insertions_step ops m.
  Proof.
    induction ops as [|o ops IH]; intros n l m E; [exact E|]. cbn [blocks fold_left]. apply IH. subst m.
    destruct o as [k v|k|k|k v|k|k|k|k| | | | | | |vs|]; cbn [blocks_step insertions_step]; auto.
    - rewrite map_app. cbn [map]. unfold on2 at 1 3. rewrite (map_below (@length nat)), (map_above (@length nat)). do 2 f_equal.
      unfold on2 at 1. cbn [fst snd length]. do 2 f_equal. unfold on2. rewrite <- (map_at (@length nat)).
      destruct (at_key k l) as [|[k' b] l']; reflexivity.
    - rewrite map_app. unfold on2. now rewrite (map_below (@length nat)), (map_above (@length nat)).
  Qed.
  Lemma draws_count l : length (draws_of l) = list_sum (map snd (map (on2 (@length nat)) l)).
  Proof. unfold draws_of. induction l as [|x l IH]; simpl; [reflexivity|]. now rewrite app_length, IH. Qed.
  Lemma blocks_insertions ops : length (draws_of (blocks 0 [] ops)) = insertions ops.
  Proof. rewrite draws_count, (blocks_count ops 0 [] []) by reflexivity. reflexivity. Qed.

  (** ** The average *)
  Lemma cut_parts {W} (o : map_op K V) (l : list (K * W)) : exists r, Permutation l (r ++ fst (cut o l) ++ snd (cut o l)).
  Proof.
    destruct o as [k v|k|k|k v|k|k|k|k| | | | | | |vs|]; cbn [cut fst snd];
      try (exists (at_key k l); eapply Permutation_trans; [apply (parts_perm k l)|]; rewrite !app_assoc; apply Permutation_app_tail, Permutation_app_comm);
      exists []; simpl; now rewrite ?app_nil_r.
  Qed.
  Lemma cut_on2 {A B} (f : A -> B) (o : map_op K V) (l : list (K * A)) :
    fst (cut o (map (on2 f) l)) = map (on2 f) (fst (cut o l)) /\ snd (cut o (map (on2 f) l)) = map (on2 f) (snd (cut o l)).
  Proof. destruct o; cbn [cut fst snd]; auto; unfold on2; now rewrite (map_below f), (map_above f). Qed.

  Lemma cut_average M (t : nat) (o : map_op K V) l n : 0 < M -> blocks_ok n l -> n <= t ->
    total (fun ps => 3 + 2 * (recs [] (map (most ps) (map snd (snd (cut o l)))) + recs [] (map (most ps) (map snd (rev (fst (cut o l))))))) (draws M t)
    <= M ^ t * (4 * Nat.log2 (length (draws_of l)) + 7) + 2 * length (draws_of l) * M ^ (t - 1).
  Proof.
    intros PM B Lt. destruct (cut_parts o l) as (r & P). pose proof (blocks_ok_perm n _ _ P B) as B1.
    apply blocks_ok_app in B1 as [_ B1]. pose proof (draws_perm _ _ P) as PD. apply Permutation_length in PD.
    rewrite !draws_app, !app_length in PD.
    apply blocks_ok_app in B1 as [B1 B2]. apply (blocks_ok_perm _ _ _ (Permutation_rev (fst (cut o l)))) in B1.
    assert (ER : length (draws_of (rev (fst (cut o l)))) = length (draws_of (fst (cut o l)))).
    { apply Permutation_length, draws_perm. symmetry. apply Permutation_rev. }
    destruct B1 as (F1 & D1 & L1), B2 as (F2 & D2 & L2).
    pose proof (recs_average M t (map snd (rev (fst (cut o l)))) PM F1 D1 (fun w i => Nat.lt_le_trans _ _ _ (L1 w i) Lt)) as A1.
    pose proof (recs_average M t (map snd (snd (cut o l))) PM F2 D2 (fun w i => Nat.lt_le_trans _ _ _ (L2 w i) Lt)) as A2.
    fold (draws_of (rev (fst (cut o l)))) in A1. fold (draws_of (snd (cut o l))) in A2. rewrite ER in A1.
    rewrite total_plus, total_mul, total_plus, total_const, draws_length.
    set (x := length (draws_of l)) in *. set (x1 := length (draws_of (fst (cut o l)))) in *. set (x2 := length (draws_of (snd (cut o l)))) in *.
    pose proof (Nat.log2_le_mono x1 x ltac:(lia)) as G1. pose proof (Nat.log2_le_mono x2 x ltac:(lia)) as G2.
    set (A := M ^ t) in *. set (A' := M ^ (t - 1)) in *.
    assert (A * S (Nat.log2 x1) <= A * S (Nat.log2 x)) by nia. assert (A * S (Nat.log2 x2) <= A * S (Nat.log2 x)) by nia.
    assert (x1 * A' + x2 * A' <= x * A') by nia. nia.
  Qed.

  Lemma treap_steps_average (M : nat) (ops : list (map_op K V)) : 0 < M -> exists steps : list N -> list nat,
    (forall ps, length ps = length ops -> outputs treap_step_c Leaf (combine ops ps) = Ok (combine (map_spec_outputs ops) (steps ps)) /\ length (steps ps) = length ops) /\
    forall i o, nth_error ops i = Some o -> looks_up o = true ->
      average_within M (length ops) (4 * Nat.log2 (insertions (firstn i ops)) + 7) (2 * insertions (firstn i ops)) (fun ps => nth i (steps ps) 0).
  Proof.
    intros PM.
    set (steps := fun ps => match run treap_step_c (Leaf : treap) (combine ops ps) with Ok (_, outs) => map snd outs | _ => [] end).
    exists steps.
    assert (A : forall ps, length ps = length ops -> outputs treap_step_c Leaf (combine ops ps) = Ok (combine (map_spec_outputs ops) (steps ps)) /\
      length (steps ps) = length ops /\
      forall i o, nth_error ops i = Some o -> looks_up o = true -> let l := blocks 0 [] (firstn i ops) in
        nth i (steps ps) 0 <= 3 + 2 * (recs [] (map (most ps) (map snd (snd (cut o l)))) + recs [] (map (most ps) (map snd (rev (fst (cut o l))))))).
    { intros ps El. destruct (treap_run_c (combine ops ps) Leaf tinv_leaf) as (t' & outs & E1 & E2 & E3).
      unfold outputs, steps. rewrite E1. simpl rmap.
      assert (Ef : map fst (combine ops ps) = ops).
      { clear -El. revert ps El. induction ops as [|o ops' IH]; intros [|p ps] El; try discriminate; auto. simpl. rewrite IH; auto. }
      rewrite Ef in E2. split; [|split].
      - f_equal. unfold map_spec_outputs, spec_outputs. simpl in E2. rewrite <- E2. clear. induction outs as [|[a c] outs IH]; simpl; congruence.
      - rewrite map_length, <- (map_length fst outs), E2. simpl inorder. clear. generalize (@nil (K * V)). induction ops as [|o r IH]; intros l; [reflexivity|].
        cbn [spec_run]. destruct (map_spec_step l o) as [l1 r1]. specialize (IH l1). destruct (spec_run map_spec_step l1 r). simpl in *. congruence.
      - intros i o Ei Lo. set (l := blocks 0 [] (firstn i ops)).
        assert (Ein : nth_error (combine ops ps) i = Some (o, nth i ps 0%N)).
        { clear -El Ei. revert ps El i Ei. induction ops as [|o' ops' IH]; intros [|p ps] El [|i] Ei; try discriminate; simpl in *.
          - now injection Ei as ->.
          - apply IH; auto. }
        destruct (E3 i o (nth i ps 0%N) Ein) as (ti & T & Ep & En). simpl inorder_prio in Ep. rewrite En.
        eapply Nat.le_trans; [now apply steps_bound|]. apply Nat.add_le_mono_l, Nat.mul_le_mono_l.
        assert (Ek : kp (ip ti) = map (on2 (most ps)) l).
        { rewrite Ep, combine_firstn. apply blocks_prio; [apply sorted_nil | rewrite !firstn_length; lia | | reflexivity].
          intros j Lj. simpl. rewrite firstn_length in Lj. rewrite <- (firstn_skipn i ps) at 2. rewrite app_nth1; [easy|]. rewrite firstn_length. lia. }
        assert (X : forall (y : list (K * (V * N))) z, kp y = map (on2 (most ps)) z -> map (fun x => snd (snd x)) y = map (most ps) (map snd z)).
        { intros y z E. apply (f_equal (map snd)) in E. rewrite !map_map in E. rewrite map_map. exact E. }
        destruct (cut_on2 snd o (ip ti)) as [C1 C2]. destruct (cut_on2 (most ps) o l) as [C3 C4]. rewrite Ek in C1, C2. rewrite C3 in C1. rewrite C4 in C2.
        rewrite (X _ _ (eq_sym C2)), (X _ _ (eq_sym C1)). rewrite <- map_rev, map_rev, <- map_rev, <- (map_rev snd). lia. }
    split; [intros ps El; destruct (A ps El) as (A1 & A2 & _); auto|]. intros i o Ei Lo. unfold average_within.
    assert (Li : i < length ops) by (apply nth_error_Some; congruence).
    pose proof (blocks_all_ok (firstn i ops) 0 []) as B. simpl in B. rewrite firstn_length_le in B by lia.
    specialize (B (conj (Forall_nil _) (conj (NoDup_nil _) (fun w (f : In w (draws_of [])) => match f with end)))).
    pose proof (cut_average M (length ops) o (blocks 0 [] (firstn i ops)) i PM B ltac:(lia)) as Av.
    rewrite blocks_insertions in Av.
    assert (Le : total (fun ps => nth i (steps ps) 0) (draws M (length ops)) <= M ^ length ops * (4 * Nat.log2 (insertions (firstn i ops)) + 7) + 2 * insertions (firstn i ops) * M ^ (length ops - 1)).
    { eapply Nat.le_trans; [|exact Av]. apply total_le. intros ps ip'. apply draws_in in ip' as [El _]. now apply A. }
    apply (Nat.mul_le_mono_l _ _ M) in Le. replace (M ^ length ops * (M * (4 * Nat.log2 (insertions (firstn i ops)) + 7) + 2 * insertions (firstn i ops)))
      with (M * (M ^ length ops * (4 * Nat.log2 (insertions (firstn i ops)) + 7) + 2 * insertions (firstn i ops) * M ^ (length ops - 1))); [exact Le|].
    replace (M ^ length ops) with (M * M ^ (length ops - 1)); [lia|]. rewrite <- Nat.pow_succ_r'. f_equal. lia.
  Qed.
End TreapCostProofs.

(** ** Histories that insert absent keys only *)
Section Fresh.
  Context {K V : Type} `{CmpLaws K}.

  Lemma on2_below {A B} (f : A -> B) k (l : list (K * A)) : map (on2 f) (below k l) = below k (map (on2 f) l).
  Proof. exact (map_below f k l). Qed.
  Lemma on2_at {A B} (f : A -> B) k (l : list (K * A)) : map (on2 f) (at_key k l) = at_key k (map (on2 f) l).
  Proof. exact (map_at f k l). Qed.
  Lemma on2_above {A B} (f : A -> B) k (l : list (K * A)) : map (on2 f) (above k l) = above k (map (on2 f) l).
  Proof. exact (map_above f k l). Qed.

  Lemma insertions_fresh (ops : list (map_op K V)) : forall l i n, sorted l -> inserts_absent l ops ->
    nth_error (lengths_before l ops) i = Some n ->
    list_sum (map snd (fold_left insertions_step (firstn i ops) (map (on2 (fun _ => 1)) l))) = n.
  Proof.
    induction ops as [|o ops IH]; intros l [|i] n S A E; try discriminate.
    - injection E as <-. simpl. clear. induction l; simpl; congruence.
    - destruct A as [A1 A2]. cbn [lengths_before nth_error] in E. cbn [firstn fold_left].
      assert (S' : sorted (fst (map_spec_step l o))).
      { destruct o as [k v|k|k|k v|k|k|k|k| | | | | | |vs|]; cbn [map_spec_step fst]; auto using sorted_nil, sorted_insert, sorted_delete, sorted_update, sorted_write_vals. }
      rewrite <- (IH _ i n S' A2 E). do 3 f_equal.
      destruct o as [k v|k|k|k v|k|k|k|k| | | | | | |vs|]; cbn [map_spec_step insertions_step fst]; auto.
      + rewrite map_app. cbn [map]. now rewrite <- on2_at, <- on2_below, <- on2_above, A1.
      + now rewrite map_app, <- on2_below, <- on2_above.
      + rewrite (sorted_split l k S) at 1. rewrite !map_app, map_map. reflexivity.
      + clear. revert vs. induction l as [|[k v] l IH]; intros [|v' vs]; simpl; auto. now rewrite <- IH.
  Qed.

  Lemma treap_steps_fresh (M : nat) (ops : list (map_op K V)) : 0 < M -> inserts_absent [] ops -> exists steps : list N -> list nat,
    (forall ps, length ps = length ops -> outputs treap_step_c Leaf (combine ops ps) = Ok (combine (map_spec_outputs ops) (steps ps)) /\ length (steps ps) = length ops) /\
    forall i o n, nth_error ops i = Some o -> looks_up o = true -> nth_error (lengths_before [] ops) i = Some n ->
      average_within M (length ops) (4 * Nat.log2 n + 7) (2 * n) (fun ps => nth i (steps ps) 0).
  Proof.
    intros PM A. destruct (treap_steps_average M ops PM) as (steps & E1 & E2). exists steps. split; [exact E1|].
    intros i o n Eo Lo En. pose proof (insertions_fresh ops [] i n sorted_nil A En) as X. simpl in X. fold (insertions (firstn i ops)) in X.
    rewrite <- X. now apply (E2 i o).
  Qed.
End Fresh.

(** ** Overwriting makes a path *)
Lemma pow_beats a b : exists k, a * k + b < 2 ^ k.
Proof.
  exists (2 * (2 * (a + b) + 1)). set (m := 2 * (a + b) + 1). rewrite Nat.mul_comm, Nat.mul_shuffle0 || idtac.
  replace (2 ^ (2 * m)) with (2 ^ m * 2 ^ m) by (rewrite <- Nat.pow_add_r; f_equal; lia).
  pose proof (Nat.pow_gt_lin_r 2 m ltac:(lia)) as G. assert (m * m < 2 ^ m * 2 ^ m) by nia. nia.
Qed.

Fixpoint srecs (seen l : list N) : nat :=
  match l with
  | [] => 0
  | p :: r => b2n (forallb (fun q => (q <? p)%N) seen) + srecs (seen ++ [p]) r
  end.
Lemma srecs_app : forall x seen y, srecs seen (x ++ y) = srecs seen x + srecs (seen ++ x) y.
Proof. induction x as [|p x IH]; intros seen y; simpl; [now rewrite app_nil_r|]. rewrite IH, <- app_assoc. simpl. lia. Qed.
Lemma srecs_none p : forall y seen, In p seen -> Forall (fun q => (q <= p)%N) y -> srecs seen y = 0.
Proof.
  induction y as [|q y IH]; intros seen i F; [reflexivity|]. inversion F; subst. cbn [srecs]. rewrite IH; auto; [|apply in_app_iff; auto].
  destruct (forallb _ _) eqn:E; [|reflexivity]. rewrite forallb_forall in E. specialize (E p i). apply N.ltb_lt in E. lia.
Qed.
Lemma srecs_top x p y : Forall (fun q => (q <= p)%N) y -> srecs [] (x ++ p :: y) <= S (srecs [] x).
Proof.
  intros F. rewrite srecs_app. cbn [srecs app]. rewrite (srecs_none p y); auto; [|apply in_app_iff; right; now left].
  destruct (forallb _ _); simpl; lia.
Qed.

Section Lower.
  Context {K V : Type} `{CmpLaws K}.
  Notation ip := (inorder_prio tprio).
  Notation prios l := (map (fun x => snd (snd x)) l).
  Lemma search_lower (t : tree (N * nat) K V) k : sorted (inorder t) -> heap_ordered tprio t ->
    2 * srecs [] (prios (at_key k (ip t) ++ above k (ip t))) <= search_steps t k.
  Proof.
    intros S0. pose proof (ip_sorted t S0) as S. clear S0. revert S.
    induction t as [|a l IHl e r IHr]; intros S Hh; [reflexivity|].
    destruct Hh as (R1 & R2 & H1 & H2). cbn [inorder_prio search_steps] in *.
    pose proof (proj1 (sorted_mid _ _ _) S) as (S1 & S2 & F1 & F2).
    pose proof (heap_prios r (tprio a) H2 R2) as P2.
    destruct (cmp k (fst e)) eqn:Ck.
    - destruct (pieces_eq _ _ _ _ S Ck) as (E1 & E2 & E3). rewrite E2, E3. cbn [app map snd].
      pose proof (srecs_top [] (tprio a) _ P2) as X. simpl in X. simpl. lia.
    - destruct (pieces_lt _ _ _ _ S Ck) as (E1 & E2 & E3). rewrite E2, E3. specialize (IHl S1 H1).
      rewrite app_assoc, map_app. cbn [map snd]. pose proof (srecs_top (prios (at_key k (ip l) ++ above k (ip l))) (tprio a) _ P2). lia.
    - destruct (pieces_gt _ _ _ _ S Ck) as (E1 & E2 & E3). rewrite E2, E3. specialize (IHr S2 H2). lia.
  Qed.
End Lower.

(** The draws in which the largest of the first [s] numbers is smaller than the largest of the next [s] *)
Lemma bernoulli_low v m : S m * v ^ m + v ^ S m <= S v ^ S m.
Proof.
  induction m as [|m IH]; [simpl; lia|]. change (S v ^ S (S m)) with (S v * S v ^ S m). change (v ^ S (S m)) with (v * (v * v ^ m)).
  change (v ^ S m) with (v * v ^ m) in *. pose proof (Nat.mul_le_mono_l _ _ (S v) IH). nia.
Qed.
Lemma bernoulli_high v m : S v ^ S m <= v ^ S m + S m * S v ^ m.
Proof.
  induction m as [|m IH]; [simpl; lia|]. change (S v ^ S (S m)) with (S v * S v ^ S m).
  change (v ^ S (S m)) with (v * v ^ S m). pose proof (Nat.pow_le_mono_l v (S v) (S m) ltac:(lia)) as P.
  pose proof (Nat.mul_le_mono_l _ _ (S v) IH). change (S v ^ S m) with (S v * S v ^ m) in *. nia.
Qed.

Lemma block_record M t s g A B : g * (2 * s) = M -> 0 < s -> 0 < g -> NoDup (A ++ B) -> length A = s -> length B = s -> (forall w, In w (A ++ B) -> w < t) ->
  M ^ t <= 6 * total (fun ps => b2n (forallb (fun w => (nth w ps 0 <? N.of_nat (g * (2 * s - 1)))%N) A &&
                                     negb (forallb (fun w => (nth w ps 0 <? N.of_nat (g * (2 * s - 1)))%N) B))) (draws M t).
Proof.
  intros EM Ps Pg D LA LB L. set (th := g * (2 * s - 1)).
  set (low := fun W ps => forallb (fun w => (nth w ps 0 <? N.of_nat th)%N) W).
  set (Q := fun W j x => if in_dec Nat.eq_dec j W then (x <? N.of_nat th)%N else true).
  assert (F : forall W ps, length ps = t -> (forall w, In w W -> w < t) -> low W ps = fits (Q W) 0 ps).
  { intros W ps El LW. apply eq_true_iff_eq. unfold low. rewrite forallb_forall. split.
    - intros E. apply fits_nth. intros j Lj. simpl. unfold Q. destruct (in_dec Nat.eq_dec j W); auto.
    - intros E w i. pose proof (fits_nth_inv _ _ _ w E) as X. simpl in X. rewrite El in X. specialize (X (LW w i)). unfold Q in X.
      destruct (in_dec Nat.eq_dec w W); [exact X|contradiction]. }
  assert (C : forall W, NoDup W -> (forall w, In w W -> w < t) -> total (fun ps => b2n (low W ps)) (draws M t) = th ^ length W * M ^ (t - length W)).
  { intros W DW LW. rewrite (total_ext _ (fun ps => b2n (fits (Q W) 0 ps))).
    - rewrite fits_count, (product_perm _ _ _ (seq_split_perm W t DW LW)), product_app. f_equal.
      + apply product_pow. intros w i. unfold Q. destruct (in_dec Nat.eq_dec w W); [|contradiction].
        rewrite card_below; [apply Nat2N.id|]. unfold th. nia.
      + destruct (filter_rest_length W t DW LW) as [E _]. rewrite <- E. apply product_pow. intros w i. apply filter_In in i as [_ i].
        unfold Q. destruct (in_dec Nat.eq_dec w W); [discriminate|]. apply card_true.
    - intros ps i. apply draws_in in i as [El _]. now rewrite F. }
  assert (DA : NoDup A) by now apply nodup_parts in D.
  assert (LA' : forall w, In w A -> w < t) by (intros; apply L, in_app_iff; auto).
  pose proof (C A DA LA') as CA. pose proof (C (A ++ B) D L) as CAB.
  assert (E : total (fun ps => b2n (low A ps)) (draws M t) = total (fun ps => b2n (low A ps && negb (low B ps))) (draws M t) + total (fun ps => b2n (low (A ++ B) ps)) (draws M t)).
  { rewrite <- total_plus. apply total_ext. intros ps _. unfold low at 4. rewrite forallb_app. fold (low A ps) (low B ps).
    destruct (low A ps), (low B ps); reflexivity. }
  assert (LT : 2 * s <= t). { destruct (filter_rest_length (A ++ B) t D L) as [_ X]. rewrite app_length in X. lia. }
  rewrite app_length, LA, LB in CAB. rewrite LA in CA. rewrite CA, CAB in E.
  fold th. fold (low A) (low B). set (X := total (fun ps => b2n (low A ps && negb (low B ps))) (draws M t)) in *.
  change (total _ (draws M t)) with X.
  replace (M ^ t) with (M ^ s * M ^ s * M ^ (t - (s + s))) by (rewrite <- !Nat.pow_add_r; f_equal; lia).
  replace (M ^ (t - s)) with (M ^ s * M ^ (t - (s + s))) in E by (rewrite <- Nat.pow_add_r; f_equal; lia).
  rewrite Nat.pow_add_r in E. set (u := M ^ (t - (s + s))) in *.
  (* with a = th ^ s and m = M ^ s: m <= 2 a and 3 a <= 2 m *)
  destruct s as [|m]; [lia|].
  assert (B1 : M ^ S m <= 2 * th ^ S m /\ 3 * th ^ S m <= 2 * M ^ S m).
  { unfold th. rewrite <- EM. rewrite !Nat.pow_mul_l. pose proof (bernoulli_low (2 * S m - 1) m) as G1. pose proof (bernoulli_high (2 * S m - 1) m) as G2.
    replace (S (2 * S m - 1)) with (2 * S m) in * by lia. rewrite <- Nat.pow_mul_l.
    set (y := 2 * S m) in *. change (y ^ S m) with (y * y ^ m) in *. change ((y - 1) ^ S m) with ((y - 1) * (y - 1) ^ m) in *.
    set (ym := y ^ m) in *. set (xm := (y - 1) ^ m) in *. set (gm := g ^ S m).
    assert (U1 : y * ym <= 2 * ((y - 1) * xm)) by (unfold y in *; nia).
    assert (U2 : 3 * ((y - 1) * xm) <= 2 * (y * ym)) by (unfold y in *; nia).
    split; nia. }
  destruct B1 as [B1 B2]. set (a := th ^ S m) in *. set (mm := M ^ S m) in *.
  clearbody X a mm u. assert (Ez : exists z, mm = a + z) by (exists (mm - a); lia). destruct Ez as (z & ->).
  assert (Q1 : (a + z) * (a + z) <= 6 * (a * z)) by nia.
  assert (Q2 : X = a * z * u) by nia. rewrite Q2. pose proof (Nat.mul_le_mono_r _ _ u Q1). lia.
Qed.

(** Key [j] is inserted as often as all keys before it together. *)
Fixpoint doubling (n : nat) : list (map_op nat unit) :=
  match n with
  | 0 => [MInsert 0 tt]
  | S m => doubling m ++ repeat (MInsert n tt) (2 ^ m)
  end.
Lemma doubling_length n : length (doubling n) = 2 ^ n.
Proof. induction n as [|n IH]; [reflexivity|]. simpl. rewrite app_length, IH, repeat_length. lia. Qed.

Lemma blocks_app {K V} `{Cmp K} (ops ops' : list (map_op K V)) : forall n l, blocks n l (ops ++ ops') = blocks (n + length ops) (blocks n l ops) ops'.
Proof. induction ops as [|o ops IH]; intros n l; simpl; [now rewrite Nat.add_0_r|]. now rewrite IH, Nat.add_succ_comm. Qed.

Lemma parts_less {W} k (l : list (nat * W)) r : (forall x, In x l -> fst x < k) -> (forall x, In x r -> fst x = k) ->
  below k (l ++ r) = l /\ at_key k (l ++ r) = r /\ above k (l ++ r) = [].
Proof.
  intros A B. unfold below, at_key, above. rewrite !filter_app.
  assert (X : forall x, In x l -> cmp (fst x) k = Lt) by (intros x i; apply Nat.compare_lt_iff; auto).
  assert (Y : forall x, In x r -> cmp (fst x) k = Eq) by (intros x i; apply Nat.compare_eq_iff; auto).
  clear A B. induction l as [|x l IH].
  - simpl. induction r as [|y r IHr]; [auto|]. simpl. rewrite (Y y (or_introl eq_refl)). simpl.
    destruct IHr as (I1 & I2 & I3); [intros; apply Y; now right|]. rewrite I1, I2, I3. auto.
  - simpl. rewrite (X x (or_introl eq_refl)). simpl. destruct IH as (I1 & I2 & I3); [intros; apply X; now right|]. rewrite I1, I2, I3. auto.
Qed.

Lemma blocks_repeat k (l : list (nat * list nat)) : (forall x, In x l -> fst x < k) -> forall r n b,
  blocks n (l ++ [(k, b)]) (repeat (MInsert k tt) r) = l ++ [(k, rev (seq n r) ++ b)].
Proof.
  intros A. induction r as [|r IH]; intros n b; [reflexivity|]. cbn [repeat blocks blocks_step].
  destruct (parts_less k l [(k, b)] A) as (E1 & E2 & E3); [intros x [<-|[]]; reflexivity|]. rewrite E1, E2, E3, IH.
  cbn [seq rev]. now rewrite <- app_assoc.
Qed.
Definition doubled (n : nat) : list (nat * list nat) := (0, [0]) :: map (fun j => (S j, rev (seq (2 ^ j) (2 ^ j)))) (seq 0 n).
Lemma doubled_less n x : In x (doubled n) -> fst x < S n.
Proof. intros [<-|i]; [simpl; lia|]. apply in_map_iff in i as (j & <- & i). apply in_seq in i. simpl. lia. Qed.
Lemma doubled_S n : doubled (S n) = doubled n ++ [(S n, rev (seq (2 ^ n) (2 ^ n)))].
Proof. unfold doubled. now rewrite seq_S, map_app. Qed.
Lemma blocks_doubling n : blocks 0 [] (doubling n) = doubled n.
Proof.
  induction n as [|n IH]; [reflexivity|]. cbn [doubling]. rewrite blocks_app, IH, doubling_length, doubled_S. simpl Nat.add.
  destruct (2 ^ n) as [|r] eqn:E; [exfalso; eapply Nat.pow_nonzero; [|exact E]; lia|]. clear E. rename n into m.
  generalize (S r) at 1 3. intros a. rename m into n.
  cbn [repeat blocks blocks_step]. destruct (parts_less (S n) (doubled n) [] (doubled_less n)) as (E1 & E2 & E3); [easy|].
  rewrite app_nil_r in E1, E2, E3. rewrite E1, E2, E3, (blocks_repeat (S n) _ (doubled_less n)). reflexivity.
Qed.
Lemma doubled_draws n : Permutation (draws_of (doubled n)) (seq 0 (2 ^ n)).
Proof.
  induction n as [|n IH]; [reflexivity|]. rewrite doubled_S, draws_app. unfold draws_of at 2. simpl map. simpl concat. rewrite app_nil_r.
  replace (2 ^ S n) with (2 ^ n + 2 ^ n) by (simpl; lia). rewrite seq_app. apply Permutation_app; [exact IH|]. symmetry. apply Permutation_rev.
Qed.

Lemma most_less ps b m : (0 < m)%N -> (forall w, In w b -> (nth w ps 0 < m)%N) -> (most ps b < m)%N.
Proof. intros P. induction b as [|w b IH]; intros E; simpl; [exact P|]. pose proof (E w (or_introl eq_refl)). specialize (IH (fun y i => E y (or_intror i))). lia. Qed.

Lemma srecs_doubled M t N : M = 2 ^ N -> forall n, n < N -> 2 ^ n <= t -> n * M ^ t <= 6 * total (fun ps => srecs [] (map (most ps) (map snd (doubled n)))) (draws M t).
Proof.
  intros EM. induction n as [|n IH]; intros LN Lt; [lia|].
  assert (P2 : 2 ^ n + 2 ^ n <= t) by (simpl in Lt; lia).
  specialize (IH ltac:(lia) ltac:(lia)).
  rewrite (total_ext _ (fun ps => srecs [] (map (most ps) (map snd (doubled n))) +
     b2n (forallb (fun q => (q <? most ps (rev (seq (2 ^ n) (2 ^ n))))%N) (map (most ps) (map snd (doubled n)))))).
  2: { intros ps _. rewrite doubled_S, !map_app, srecs_app. cbn [map snd srecs app]. lia. }
  rewrite total_plus.
  assert (P0 : 0 < 2 ^ n) by (pose proof (Nat.pow_nonzero 2 n); lia).
  assert (Eg : 2 ^ (N - S n) * (2 * 2 ^ n) = M) by (rewrite EM, <- Nat.pow_succ_r', <- Nat.pow_add_r; f_equal; lia).
  assert (Pg : 0 < 2 ^ (N - S n)) by (pose proof (Nat.pow_nonzero 2 (N - S n)); lia).
  pose proof (block_record M t (2 ^ n) (2 ^ (N - S n)) (seq 0 (2 ^ n)) (seq (2 ^ n) (2 ^ n)) Eg P0 Pg) as R.
  rewrite <- seq_app with (start := 0) in R. specialize (R (seq_NoDup _ _) (seq_length _ _) (seq_length _ _)).
  specialize (R ltac:(intros w i; apply in_seq in i; lia)).
  set (th := N.of_nat (2 ^ (N - S n) * (2 * 2 ^ n - 1))) in *.
  assert (Pt : (0 < th)%N) by (unfold th; nia).
  match type of R with _ <= 6 * total ?f _ => assert (G : total f (draws M t) <=
     total (fun ps => b2n (forallb (fun q => (q <? most ps (rev (seq (2 ^ n) (2 ^ n))))%N) (map (most ps) (map snd (doubled n))))) (draws M t)) end.
  { apply total_le. intros ps _. destruct (forallb _ (seq 0 (2 ^ n))) eqn:E1; [|simpl; lia].
    destruct (forallb _ (seq (2 ^ n) (2 ^ n))) eqn:E2; [simpl; lia|].
    enough (X : forallb (fun q => (q <? most ps (rev (seq (2 ^ n) (2 ^ n))))%N) (map (most ps) (map snd (doubled n))) = true) by (rewrite X; simpl; lia).
    rewrite forallb_forall in E1. assert (E3 : exists w, In w (seq (2 ^ n) (2 ^ n)) /\ (th <= nth w ps 0)%N).
    { clear -E2. induction (seq (2 ^ n) (2 ^ n)) as [|w W IH]; [discriminate|]. simpl in E2. destruct (N.ltb_spec (nth w ps 0%N) th).
      - destruct (IH E2) as (w' & i & L). exists w'. split; [now right|easy].
      - exists w. split; [now left|easy]. }
    destruct E3 as (w & iw & Lw). assert (Lm : (th <= most ps (rev (seq (2 ^ n) (2 ^ n))))%N).
    { pose proof (most_ge ps (rev (seq (2 ^ n) (2 ^ n))) w) as X. rewrite <- in_rev in X. specialize (X iw). lia. }
    apply forallb_forall. intros q iq. apply in_map_iff in iq as (b & <- & ib). apply N.ltb_lt. eapply N.lt_le_trans; [|exact Lm].
    apply most_less; [exact Pt|]. intros w' iw'. apply N.ltb_lt, E1.
    eapply Permutation_in; [apply doubled_draws|]. unfold draws_of. apply in_concat. eauto. }
  rewrite Nat.mul_add_distr_l, Nat.mul_succ_l. lia.
Qed.

Lemma lengths_before_app {K V} `{Cmp K} (ops ops' : list (map_op K V)) : forall l,
  lengths_before l (ops ++ ops') = lengths_before l ops ++ lengths_before (fst (spec_run map_spec_step l ops)) ops'.
Proof.
  induction ops as [|o ops IH]; intros l; [reflexivity|]. cbn [app lengths_before spec_run]. rewrite IH.
  destruct (map_spec_step l o) as [l1 r1]. cbn [fst]. now destruct (spec_run map_spec_step l1 ops).
Qed.
Lemma lengths_before_length {K V} `{Cmp K} (ops : list (map_op K V)) : forall l, length (lengths_before l ops) = length ops.
Proof. induction ops as [|o ops IH]; intros l; simpl; auto. Qed.
Lemma spec_run_app {S O R} (step : S -> O -> S * R) (ops ops' : list O) : forall s,
  fst (spec_run step s (ops ++ ops')) = fst (spec_run step (fst (spec_run step s ops)) ops').
Proof.
  induction ops as [|o ops IH]; intros s; [reflexivity|]. cbn [app spec_run]. destruct (step s o) as [s1 r1].
  specialize (IH s1). destruct (spec_run step s1 (ops ++ ops')), (spec_run step s1 ops). exact IH.
Qed.
Lemma spec_run_length {S O R} (step : S -> O -> S * R) (ops : list O) : forall s, length (snd (spec_run step s ops)) = length ops.
Proof.
  induction ops as [|o ops IH]; intros s; [reflexivity|]. cbn [spec_run]. destruct (step s o) as [s1 r1].
  specialize (IH s1). destruct (spec_run step s1 ops). simpl in *. congruence.
Qed.
Lemma spec_repeat k (l : list (nat * unit)) : (forall x, In x l -> fst x < k) -> forall r,
  fst (spec_run map_spec_step (l ++ [(k, tt)]) (repeat (MInsert k tt) r)) = l ++ [(k, tt)].
Proof.
  intros A. induction r as [|r IH]; [reflexivity|]. cbn [repeat spec_run map_spec_step].
  destruct (parts_less k l [(k, tt)] A) as (E1 & E2 & E3); [intros x [<-|[]]; reflexivity|]. rewrite E1, E3.
  destruct (spec_run map_spec_step (l ++ [(k, tt)]) (repeat (MInsert k tt) r)). exact IH.
Qed.
Lemma doubling_keys n : fst (spec_run map_spec_step [] (doubling n)) = map (fun j => (j, tt)) (seq 0 (S n)).
Proof.
  induction n as [|n IH]; [reflexivity|]. cbn [doubling]. rewrite spec_run_app, IH. rewrite (seq_S (S n)), map_app. cbn [map].
  destruct (2 ^ n) as [|r] eqn:E; [exfalso; eapply Nat.pow_nonzero; [|exact E]; lia|]. clear E IH. simpl (0 + S n).
  assert (A : forall x, In x (map (fun j => (j, tt)) (seq 0 (S n))) -> fst x < S n).
  { intros x i. apply in_map_iff in i as (j & <- & i). apply in_seq in i. simpl. lia. }
  set (l := map (fun j => (j, tt)) (seq 0 (S n))) in *. cbn [repeat spec_run map_spec_step].
  destruct (parts_less (S n) l [] A) as (E1 & E2 & E3); [easy|]. rewrite app_nil_r in E1, E2, E3. rewrite E1, E3.
  pose proof (spec_repeat (S n) l A r) as X. destruct (spec_run map_spec_step (l ++ [(S n, tt)]) (repeat (MInsert (S n) tt) r)). exact X.
Qed.

Lemma treap_slow (c : nat) : exists (M : nat) (ops : list (map_op nat unit)) (i n : nat),
  0 < M /\ nth_error ops i = Some (MGet 0) /\ nth_error (lengths_before [] ops) i = Some n /\
  forall steps : list N -> list nat,
    (forall ps, length ps = length ops -> outputs treap_step_c Leaf (combine ops ps) = Ok (combine (map_spec_outputs ops) (steps ps)) /\ length (steps ps) = length ops) ->
    ~ average_within M (length ops) (c * Nat.log2 (n + 1) + c) (c * n) (fun ps => nth i (steps ps) 0).
Proof.
  destruct (pow_beats (3 * c) (6 * c + 2)) as (k & Ek). set (n := 2 ^ k - 2). set (M := 2 ^ S n). set (ops := doubling n ++ [MGet 0]).
  assert (PM : 0 < M) by (unfold M; pose proof (Nat.pow_nonzero 2 (S n)); lia).
  assert (Ei : nth_error ops (2 ^ n) = Some (MGet 0)).
  { unfold ops. rewrite nth_error_app2; rewrite doubling_length; [|lia]. now rewrite Nat.sub_diag. }
  assert (Elen : length ops = S (2 ^ n)) by (unfold ops; rewrite app_length, doubling_length; simpl; lia).
  exists M, ops, (2 ^ n), (S n). split; [exact PM|]. split; [exact Ei|]. split.
  { unfold ops. rewrite lengths_before_app, nth_error_app2; rewrite lengths_before_length, doubling_length; [|lia].
    rewrite Nat.sub_diag, doubling_keys. simpl. now rewrite map_length, seq_length. }
  intros steps Hs Av. unfold average_within in Av.
  assert (L : 2 * total (fun ps => srecs [] (map (most ps) (map snd (doubled n)))) (draws M (length ops)) <=
              total (fun ps => nth (2 ^ n) (steps ps) 0) (draws M (length ops))).
  { rewrite <- total_mul. apply total_le. intros ps ips. apply draws_in in ips as [El _].
    destruct (Hs ps El) as [E0 E0']. destruct (treap_run_c (combine ops ps) Leaf tinv_leaf) as (t' & outs & E1 & E2 & E3).
    unfold outputs in E0. rewrite E1 in E0. simpl in E0. injection E0 as E0.
    assert (Est : steps ps = map snd outs).
    { rewrite E0. assert (Lo : length (map_spec_outputs ops) = length (steps ps)).
      { rewrite E0'. unfold map_spec_outputs, spec_outputs. apply spec_run_length. }
      clear -Lo. revert Lo. generalize (map_spec_outputs ops). intros l. revert l. generalize (steps ps). clear.
      induction l as [|x l IH]; intros [|y l'] E; try discriminate; auto. simpl. rewrite <- IH; auto. }
    rewrite Est.
    assert (Ein : nth_error (combine ops ps) (2 ^ n) = Some (MGet 0, nth (2 ^ n) ps 0%N)).
    { clear -El Ei. revert ps El Ei. generalize (2 ^ n). induction ops as [|o' ops' IH]; intros [|i] [|p ps] El; try discriminate; simpl in *; intros E.
      - now injection E as ->.
      - apply IH; auto. }
    destruct (E3 _ _ _ Ein) as (ti & T & Ep & En). rewrite En. unfold treap_steps. cbn [fst].
    destruct T as (S & _ & Hh). eapply Nat.le_trans; [|apply search_lower; [exact S | exact Hh]]. apply Nat.mul_le_mono_l.
    assert (Ek2 : map (on2 snd) (inorder_prio tprio ti) = map (on2 (most ps)) (doubled n)).
    { rewrite Ep, combine_firstn, <- blocks_doubling. simpl inorder_prio.
      assert (Ef : firstn (2 ^ n) ops = doubling n) by (unfold ops; rewrite <- (doubling_length n); rewrite firstn_app, Nat.sub_diag, firstn_all; now rewrite app_nil_r).
      rewrite Ef. apply blocks_prio; [apply sorted_nil | rewrite firstn_length, doubling_length; lia | | reflexivity].
      intros j Lj. simpl. rewrite doubling_length in Lj. rewrite <- (firstn_skipn (2 ^ n) ps) at 2. rewrite app_nth1; [easy|]. rewrite firstn_length. lia. }
    assert (Eall : map (fun x => snd (snd x)) (at_key 0 (inorder_prio tprio ti) ++ above 0 (inorder_prio tprio ti)) = map (most ps) (map snd (doubled n))).
    { assert (Eb : at_key 0 (inorder_prio tprio ti) ++ above 0 (inorder_prio tprio ti) = inorder_prio tprio ti).
      { rewrite (sorted_split (inorder_prio tprio ti) 0 (ip_sorted _ S)) at 3.
        replace (below 0 (inorder_prio tprio ti)) with (@nil (nat * (unit * N))); [reflexivity|]. symmetry. clear.
        induction (inorder_prio tprio ti) as [|x l IH]; [reflexivity|]. rewrite below_cons, IH. now destruct (fst x). }
      rewrite Eb. apply (f_equal (map snd)) in Ek2. rewrite !map_map in Ek2. rewrite map_map. exact Ek2. }
    rewrite Eall. lia. }
  assert (Pn : n < S n) by lia. pose proof (srecs_doubled M (length ops) (S n) eq_refl n Pn ltac:(lia)) as R.
  set (T := total (fun ps => nth (2 ^ n) (steps ps) 0) (draws M (length ops))) in *.
  assert (R2 : n * M ^ length ops <= 3 * T) by lia. clear R L.
  assert (Ps : 0 < M ^ length ops) by (pose proof (Nat.pow_nonzero M (length ops)); lia).
  assert (E2 : S n + 1 = 2 ^ k) by (unfold n; lia).
  rewrite E2, Nat.log2_pow2 in Av by lia.
  pose proof (Nat.pow_gt_lin_r 2 (S n) ltac:(lia)) as G. fold M in G.
  set (P := M ^ length ops) in *.
  assert (F : M * n <= 3 * (M * (c * k + c) + c * S n)).
  { apply (Nat.mul_le_mono_pos_l _ _ P Ps). nia. }
  assert (F2 : n <= 3 * (c * k + c + c)).
  { apply (Nat.mul_le_mono_pos_l _ _ M PM). nia. }
  nia.
Qed.
