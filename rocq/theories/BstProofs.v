(** Proofs about the code shared by the four binary search tree modules (BstModel.v). *)
From Verif Require Export BstModel OrdLemmas.

(** ** Generic simulation lemmas for [run]. *)
Section Sim.
  Context {S T O R : Type}.
  Variable step : S -> O -> res (S * R).
  Variable spec : T -> O -> T * R.
  Variable Rel : S -> T -> Prop.
  Hypothesis step_ok : forall s a o, Rel s a ->
    exists s', step s o = Ok (s', snd (spec a o)) /\ Rel s' (fst (spec a o)).

  Lemma run_sim ops : forall s a, Rel s a ->
    exists s', run step s ops = Ok (s', snd (spec_run spec a ops)) /\
               Rel s' (fst (spec_run spec a ops)).
  Proof.
    induction ops as [|o ops IH]; intros s a HR; simpl.
    - exists s. split; auto.
    - destruct (step_ok s a o HR) as (s1 & E1 & R1). rewrite E1. simpl.
      destruct (spec a o) as [a1 r1]. simpl in *.
      destruct (IH s1 a1 R1) as (s2 & E2 & R2). rewrite E2. simpl.
      destruct (spec_run spec a1 ops) as [a2 rs]. simpl in *. exists s2. auto.
  Qed.

  Lemma outputs_sim ops s a : Rel s a -> outputs step s ops = Ok (spec_outputs spec a ops).
  Proof.
    intros HR. unfold outputs, spec_outputs. destruct (run_sim ops s a HR) as (s' & E & _).
    now rewrite E.
  Qed.
End Sim.

Lemma spec_run_map {S O O' R} (spec : S -> O' -> S * R) (g : O -> O') ops : forall s,
  spec_run (fun s o => spec s (g o)) s ops = spec_run spec s (map g ops).
Proof.
  induction ops as [|o ops IH]; intros s; simpl; [reflexivity|].
  destruct (spec s (g o)) as [s1 r]. now rewrite IH.
Qed.

Section BstProofs.
  Context {A K V : Type} `{CmpLaws K}.
  Notation tr := (tree A K V).
  Implicit Types (t l r : tr) (e : K * V) (k : K).

  Lemma size_inorder t : length (inorder t) = size t.
  Proof. induction t as [|a l IHl e r IHr]; simpl; [reflexivity|]. rewrite app_length. simpl. lia. Qed.

  Lemma bst_get_spec t k : sorted (inorder t) -> bst_get t k = hd_error (at_key k (inorder t)).
  Proof.
    induction t as [|a l IHl e r IHr]; simpl; intros S; [reflexivity|].
    pose proof (proj1 (sorted_mid _ _ _) S) as (S1 & S2 & F1 & F2).
    destruct (cmp k (fst e)) eqn:Ck.
    - destruct (pieces_eq _ _ _ _ S Ck) as (E1 & E2 & E3). now rewrite E2.
    - destruct (pieces_lt _ _ _ _ S Ck) as (E1 & E2 & E3). rewrite E2. auto.
    - destruct (pieces_gt _ _ _ _ S Ck) as (E1 & E2 & E3). rewrite E2. auto.
  Qed.

  Lemma bst_ceil_spec t k : sorted (inorder t) ->
    bst_ceil t k = hd_error (at_key k (inorder t) ++ above k (inorder t)).
  Proof.
    induction t as [|a l IHl e r IHr]; simpl; intros S; [reflexivity|].
    pose proof (proj1 (sorted_mid _ _ _) S) as (S1 & S2 & F1 & F2).
    destruct (cmp k (fst e)) eqn:Ck.
    - destruct (pieces_eq _ _ _ _ S Ck) as (E1 & E2 & E3). now rewrite E2.
    - destruct (pieces_lt _ _ _ _ S Ck) as (E1 & E2 & E3). rewrite E2, E3, IHl by auto.
      rewrite app_assoc. destruct (at_key k (inorder l) ++ above k (inorder l)); reflexivity.
    - destruct (pieces_gt _ _ _ _ S Ck) as (E1 & E2 & E3). rewrite E2, E3. auto.
  Qed.

  Lemma bst_floor_spec t k : sorted (inorder t) ->
    bst_floor t k = last_error (below k (inorder t) ++ at_key k (inorder t)).
  Proof.
    induction t as [|a l IHl e r IHr]; simpl; intros S; [reflexivity|].
    pose proof (proj1 (sorted_mid _ _ _) S) as (S1 & S2 & F1 & F2).
    destruct (cmp k (fst e)) eqn:Ck.
    - destruct (pieces_eq _ _ _ _ S Ck) as (E1 & E2 & E3). rewrite E1, E2. now rewrite last_error_app.
    - destruct (pieces_lt _ _ _ _ S Ck) as (E1 & E2 & E3). rewrite E1, E2. auto.
    - destruct (pieces_gt _ _ _ _ S Ck) as (E1 & E2 & E3). rewrite E1, E2, IHr by auto.
      rewrite <- app_assoc. simpl. rewrite (last_error_app2 (inorder l)) by discriminate. simpl.
      destruct (below k (inorder r) ++ at_key k (inorder r)) as [|x xs] eqn:E; [reflexivity|].
      destruct (last_error (x :: xs)) eqn:E'; [reflexivity|]. now apply last_error_none in E'.
  Qed.

  Lemma bst_min_spec t : bst_min t = hd_error (inorder t).
  Proof.
    induction t as [|a l IHl e r IHr]; simpl; [reflexivity|].
    destruct l as [|a' l1 e' r1]; [reflexivity|]. rewrite IHl. simpl.
    destruct (inorder l1); reflexivity.
  Qed.

  Lemma bst_max_spec t : bst_max t = last_error (inorder t).
  Proof.
    induction t as [|a l IHl e r IHr]; simpl; [reflexivity|].
    rewrite last_error_app2 by discriminate. destruct r as [|a' l1 e' r1]; [reflexivity|].
    rewrite IHr. simpl. destruct (inorder l1 ++ e' :: inorder r1) eqn:E; [|reflexivity].
    destruct (inorder l1); discriminate E.
  Qed.

  (** Erase entries: what iter_mut / get_mut may not change. *)
  Fixpoint shape (t : tr) : tree A unit unit :=
    match t with
    | Leaf => Leaf
    | Node a l _ r => Node a (shape l) (tt, tt) (shape r)
    end.

  Lemma bst_get_mut_set_shape t k v : shape (fst (bst_get_mut_set t k v)) = shape t.
  Proof.
    induction t as [|a l IHl e r IHr]; simpl; [reflexivity|].
    destruct (cmp k (fst e)); simpl; [reflexivity| |].
    - destruct (bst_get_mut_set l k v); simpl in *. now rewrite IHl.
    - destruct (bst_get_mut_set r k v); simpl in *. now rewrite IHr.
  Qed.

  Lemma bst_get_mut_set_spec t k v : sorted (inorder t) ->
    snd (bst_get_mut_set t k v) = hd_error (at_key k (inorder t)) /\
    inorder (fst (bst_get_mut_set t k v)) =
      below k (inorder t) ++ map (fun p => (fst p, v)) (at_key k (inorder t)) ++ above k (inorder t) /\
    shape (fst (bst_get_mut_set t k v)) = shape t.
  Proof.
    induction t as [|a l IHl e r IHr]; simpl; intros S; [auto|].
    pose proof (proj1 (sorted_mid _ _ _) S) as (S1 & S2 & F1 & F2).
    destruct (cmp k (fst e)) eqn:Ck.
    - destruct (pieces_eq _ _ _ _ S Ck) as (E1 & E2 & E3). rewrite E1, E2, E3. simpl. auto.
    - destruct (pieces_lt _ _ _ _ S Ck) as (E1 & E2 & E3). rewrite E1, E2, E3.
      destruct (IHl S1) as (I1 & I2 & I3). destruct (bst_get_mut_set l k v) as [l' o]. simpl in *.
      rewrite I2, I3. repeat split; auto. rewrite <- !app_assoc. reflexivity.
    - destruct (pieces_gt _ _ _ _ S Ck) as (E1 & E2 & E3). rewrite E1, E2, E3.
      destruct (IHr S2) as (I1 & I2 & I3). destruct (bst_get_mut_set r k v) as [r' o]. simpl in *.
      rewrite I2, I3. repeat split; auto. rewrite <- !app_assoc. reflexivity.
  Qed.

  (** ** Iterators *)
  Definition stack_list (s : list ((K * V) * tr)) : list (K * V) :=
    concat (map (fun er => fst er :: inorder (snd er)) s).
  Definition iter_list (s : @iter_state A K V) : list (K * V) := inorder (fst s) ++ stack_list (snd s).

  Lemma push_left_list t s : stack_list (push_left t s) = inorder t ++ stack_list s.
  Proof.
    revert s. induction t as [|a l IHl e r IHr]; simpl; intros s; [reflexivity|].
    rewrite IHl. unfold stack_list at 1. simpl. rewrite <- app_assoc. reflexivity.
  Qed.

  Lemma iter_next_spec (s : iter_state) :
    fst (iter_next s) = hd_error (iter_list s) /\ iter_list (snd (iter_next s)) = tl (iter_list s).
  Proof.
    unfold iter_next, iter_list. destruct s as [t st]. simpl.
    pose proof (push_left_list t st) as E. destruct (push_left t st) as [|[e r] st'].
    - rewrite <- E. simpl. auto.
    - rewrite <- E. simpl. auto.
  Qed.

  Lemma iter_drain_spec fuel (s : iter_state) :
    length (iter_list s) < fuel -> iter_drain fuel s = Ok (iter_list s).
  Proof.
    revert s. induction fuel as [|f IH]; intros s Hf; [lia|]. simpl.
    pose proof (iter_next_spec s) as [E1 E2]. destruct (iter_next s) as [o s']. simpl in *.
    destruct (iter_list s) as [|e rest] eqn:E; subst o; simpl; [reflexivity|].
    rewrite IH; rewrite E2; simpl in *; [reflexivity | lia].
  Qed.

  Lemma iter_all_spec t : iter_all t = Ok (inorder t).
  Proof.
    unfold iter_all. rewrite iter_drain_spec.
    - unfold iter_list, iter_new, stack_list. simpl. now rewrite app_nil_r.
    - unfold iter_list, iter_new, stack_list. simpl. rewrite app_nil_r, size_inorder. lia.
  Qed.

  Lemma iter_nth_spec n (s : iter_state) : iter_nth n s = nth_error (iter_list s) n.
  Proof.
    revert s. induction n as [|n IH]; intros s; simpl; pose proof (iter_next_spec s) as [E1 E2].
    - rewrite E1. destruct (iter_list s); reflexivity.
    - rewrite IH, E2. destruct (iter_list s); simpl; [now destruct n | reflexivity].
  Qed.

  Lemma iter_nth_new t n : iter_nth n (iter_new t) = nth_error (inorder t) n.
  Proof. rewrite iter_nth_spec. unfold iter_list, iter_new, stack_list. simpl. now rewrite app_nil_r. Qed.

  (** ** iter_mut: references are paths. *)
  Fixpoint subtree_at (p : list bool) (t : tr) : option tr :=
    match p, t with
    | [], _ => Some t
    | false :: p', Node _ l _ _ => subtree_at p' l
    | true :: p', Node _ _ _ r => subtree_at p' r
    | _ :: _, Leaf => None
    end.

  Lemma subtree_at_app p q t : subtree_at (p ++ q) t =
    match subtree_at p t with Some t' => subtree_at q t' | None => None end.
  Proof.
    revert t. induction p as [|b p IH]; intros t; simpl; [reflexivity|].
    destruct b, t; simpl; auto.
  Qed.

  (** Number of entries strictly before the node at path [p] (in-order index). *)
  Fixpoint index_of (p : list bool) (t : tr) {struct t} : nat :=
    match t with
    | Leaf => 0
    | Node _ l _ r =>
        match p with
        | [] => size l
        | false :: p' => index_of p' l
        | true :: p' => S (size l + index_of p' r)
        end
    end.

  (** Overwrite the value at one position of a list. *)
  Fixpoint set_nth_val (n : nat) (v : V) (l : list (K * V)) {struct l} : list (K * V) :=
    match l, n with
    | [], _ => []
    | (k, _) :: l', O => (k, v) :: l'
    | e :: l', S m => e :: set_nth_val m v l'
    end.

  Lemma set_nth_val_app1 n v (l1 l2 : list (K * V)) : n < length l1 ->
    set_nth_val n v (l1 ++ l2) = set_nth_val n v l1 ++ l2.
  Proof.
    revert n. induction l1 as [|[k w] l1 IH]; intros [|n] Hn; simpl in *; try lia; [reflexivity|].
    f_equal. apply IH. lia.
  Qed.

  Lemma set_nth_val_app2 n v (l1 l2 : list (K * V)) :
    set_nth_val (length l1 + n) v (l1 ++ l2) = l1 ++ set_nth_val n v l2.
  Proof. induction l1 as [|[k w] l1 IH]; simpl; [reflexivity|]. now f_equal. Qed.

  Lemma write_at_spec p v t a l e r : subtree_at p t = Some (Node a l e r) ->
    exists t', write_at p v t = Ok t' /\ shape t' = shape t /\
      inorder t' = set_nth_val (index_of p t) v (inorder t) /\ index_of p t < size t.
  Proof.
    revert t. induction p as [|b p IH]; intros t E.
    - simpl in E. injection E as ->. simpl. eexists; repeat split; simpl; auto.
      + rewrite <- (size_inorder l). rewrite <- (Nat.add_0_r (length (inorder l))).
        rewrite set_nth_val_app2. simpl. destruct e; reflexivity.
      + lia.
    - destruct t as [|a0 l0 e0 r0]; [destruct b; discriminate E|]. destruct b; simpl in E.
      + destruct (IH _ E) as (t' & W & Sh & In & Lt). simpl. rewrite W. simpl.
        eexists; repeat split; simpl; [now rewrite Sh | | lia].
        rewrite In, <- (size_inorder l0).
        change (S (length (inorder l0) + index_of p r0)) with (S (length (inorder l0)) + index_of p r0).
        rewrite Nat.add_succ_comm. rewrite set_nth_val_app2. simpl. destruct e0; reflexivity.
      + destruct (IH _ E) as (t' & W & Sh & In & Lt). simpl. rewrite W. simpl.
        eexists; repeat split; simpl; [now rewrite Sh | | lia].
        rewrite In. now rewrite set_nth_val_app1 by (rewrite size_inorder; exact Lt).
  Qed.

  (** The shape determines paths and indices. *)
  Lemma shape_size t t' : shape t = shape t' -> size t = size t'.
  Proof.
    revert t'. induction t as [|a l IHl e r IHr]; intros [|a' l' e' r'] E; simpl in E; try discriminate; auto.
    injection E as _ E1 E2. simpl. now rewrite (IHl _ E1), (IHr _ E2).
  Qed.

  Lemma shape_index t t' p : shape t = shape t' -> index_of p t = index_of p t'.
  Proof.
    revert t' p. induction t as [|a l IHl e r IHr]; intros [|a' l' e' r'] p E; simpl in E; try discriminate; auto.
    injection E as _ E1 E2. simpl. destruct p as [|[|] p]; auto using shape_size.
  Qed.

  Lemma shape_subtree t t' p : shape t = shape t' ->
    option_map shape (subtree_at p t) = option_map shape (subtree_at p t').
  Proof.
    revert t' p. induction t as [|a l IHl e r IHr]; intros [|a' l' e' r'] p E; simpl in E; try discriminate; auto.
    injection E as -> E1 E2. destruct p as [|[|] p]; simpl; auto. rewrite E1, E2. reflexivity.
  Qed.

  (** What an iter_mut state still has to visit, as (path, entry) pairs. *)
  Fixpoint visits (p : path) (t : tr) : list (path * (K * V)) :=
    match t with
    | Leaf => []
    | Node _ l e r => visits (false :: p) l ++ (p, e) :: visits (true :: p) r
    end.
  Definition mstack_list (s : list (path * (K * V) * (path * tr))) : list (path * (K * V)) :=
    concat (map (fun x => fst x :: visits (fst (snd x)) (snd (snd x))) s).
  Definition itermut_list (s : @itermut_state A K V) : list (path * (K * V)) :=
    visits (fst (fst s)) (snd (fst s)) ++ mstack_list (snd s).

  Lemma push_left_mut_list p t s : mstack_list (push_left_mut p t s) = visits p t ++ mstack_list s.
  Proof.
    revert p s. induction t as [|a l IHl e r IHr]; simpl; intros p s; [reflexivity|].
    rewrite IHl. unfold mstack_list at 1. simpl. rewrite <- app_assoc. reflexivity.
  Qed.

  Lemma itermut_next_spec (s : itermut_state) :
    fst (itermut_next s) = hd_error (itermut_list s) /\
    itermut_list (snd (itermut_next s)) = tl (itermut_list s).
  Proof.
    unfold itermut_next, itermut_list. destruct s as [[p t] st]. simpl.
    pose proof (push_left_mut_list p t st) as E. destruct (push_left_mut p t st) as [|[[q e] r] st'].
    - rewrite <- E. simpl. auto.
    - rewrite <- E. simpl. auto.
  Qed.

  (** The i-th visited reference denotes the i-th entry in order. *)
  Lemma visits_spec t : forall p i q e, nth_error (visits p t) i = Some (q, e) ->
    exists d a l r, q = d ++ p /\ subtree_at (rev d) t = Some (Node a l e r) /\ index_of (rev d) t = i.
  Proof.
    induction t as [|a l IHl e r IHr]; intros p i q e0 E; simpl in E.
    - destruct i; discriminate E.
    - assert (LV : forall p t, length (visits p t) = size t).
      { clear. intros p t. revert p. induction t as [|a l IHl e r IHr]; intros p; simpl; [reflexivity|].
        rewrite app_length. simpl. rewrite IHl, IHr. lia. }
      destruct (Nat.lt_ge_cases i (size l)) as [Hi|Hi].
      + rewrite nth_error_app1 in E by now rewrite LV.
        destruct (IHl _ _ _ _ E) as (d & a' & l' & r' & Eq & Es & Ei).
        exists (d ++ [false]), a', l', r'. rewrite <- app_assoc. split; [exact Eq|].
        rewrite rev_app_distr. simpl. auto.
      + rewrite nth_error_app2 in E by now rewrite LV. rewrite LV in E.
        destruct (i - size l) as [|j] eqn:Ej; simpl in E.
        * injection E as <- <-. exists [], a, l, r. simpl. repeat split. lia.
        * destruct (IHr _ _ _ _ E) as (d & a' & l' & r' & Eq & Es & Ei).
          exists (d ++ [true]), a', l', r'. rewrite <- app_assoc. split; [exact Eq|].
          rewrite rev_app_distr. simpl. split; [exact Es | lia].
  Qed.

  Lemma visits_entries t p : map snd (visits p t) = inorder t.
  Proof.
    revert p. induction t as [|a l IHl e r IHr]; intros p; simpl; [reflexivity|].
    rewrite map_app. simpl. now rewrite IHl, IHr.
  Qed.

  (** Write [vs] to consecutive positions starting at [n]. *)
  Fixpoint write_from (n : nat) (vs : list V) (l : list (K * V)) : list (K * V) :=
    match vs with
    | [] => l
    | v :: vs' => write_from (S n) vs' (set_nth_val n v l)
    end.

  Lemma set_nth_val_length n v (l : list (K * V)) : length (set_nth_val n v l) = length l.
  Proof. revert n. induction l as [|[k w] l IH]; intros [|n]; simpl; auto. Qed.

  Lemma set_nth_val_over n v (l : list (K * V)) : length l <= n -> set_nth_val n v l = l.
  Proof. revert n. induction l as [|[k w] l IH]; intros [|n] Hn; simpl in *; auto; [lia|]. f_equal. apply IH; lia. Qed.

  Lemma write_from_app (l1 l2 : list (K * V)) vs : write_from (length l1) vs (l1 ++ l2) = l1 ++ write_vals l2 vs.
  Proof.
    revert l1 l2. induction vs as [|v vs IH]; intros l1 l2; simpl.
    - destruct l2 as [|[k w] l2]; reflexivity.
    - rewrite <- (Nat.add_0_r (length l1)) at 2. rewrite set_nth_val_app2.
      destruct l2 as [|[k w] l2]; simpl.
      + rewrite app_nil_r. clear IH. assert (G : forall n, length l1 <= n -> write_from n vs l1 = l1).
        { clear. induction vs as [|v vs IH]; intros n Hn; simpl; [reflexivity|].
          rewrite set_nth_val_over by exact Hn. apply IH. lia. }
        apply G. lia.
      + replace (l1 ++ (k, v) :: l2) with ((l1 ++ [(k, v)]) ++ l2) by now rewrite <- app_assoc.
        replace (S (length l1)) with (length (l1 ++ [(k, v)])) by (rewrite app_length; simpl; lia).
        rewrite IH, <- app_assoc. reflexivity.
  Qed.

  Lemma itermut_writes_spec vs : forall (s : itermut_state) t0 t n,
    shape t = shape t0 -> itermut_list s = skipn n (visits [] t0) -> n <= size t0 ->
    exists t', itermut_writes s vs t = Ok (t', map snd (firstn (length vs) (itermut_list s))) /\
      shape t' = shape t0 /\ inorder t' = write_from n vs (inorder t).
  Proof.
    assert (LV : forall p t, length (visits p t) = size t).
    { clear. intros p t. revert p. induction t as [|a l IHl e r IHr]; intros p; simpl; [reflexivity|].
      rewrite app_length. simpl. rewrite IHl, IHr. lia. }
    induction vs as [|v vs IH]; intros s t0 t n Sh Ls Hn; simpl.
    - exists t. auto.
    - pose proof (itermut_next_spec s) as [E1 E2]. destruct (itermut_next s) as [o s']. simpl in *.
      destruct (itermut_list s) as [|[p e] rest] eqn:E; subst o.
      + simpl. exists t. repeat split; auto.
        assert (n = size t0).
        { symmetry in Ls. apply (f_equal (@length _)) in Ls. rewrite skipn_length, LV in Ls. simpl in Ls. lia. }
        subst n. rewrite (set_nth_val_over _ _ (inorder t)) by (rewrite size_inorder, (shape_size _ _ Sh); lia).
        assert (G : forall n, length (inorder t) <= n -> write_from n vs (inorder t) = inorder t).
        { clear. induction vs as [|v vs IH]; intros n Hn; simpl; [reflexivity|].
          rewrite set_nth_val_over by exact Hn. apply IH. lia. }
        symmetry. apply G. rewrite size_inorder, (shape_size _ _ Sh). lia.
      + simpl in *.
        assert (N0 : nth_error (visits [] t0) n = Some (p, e)).
        { rewrite <- (firstn_skipn n (visits [] t0)), <- Ls.
          rewrite nth_error_app2 by (rewrite firstn_length, LV; lia).
          rewrite firstn_length, LV. replace (n - Nat.min n (size t0)) with 0 by lia. reflexivity. }
        destruct (visits_spec _ _ _ _ _ N0) as (d & a & l & r & Ep & Es & Ei).
        rewrite app_nil_r in Ep. subst d.
        pose proof (shape_subtree t t0 (rev p) Sh) as Esh. rewrite Es in Esh. simpl in Esh.
        destruct (subtree_at (rev p) t) as [[|a1 l1 e1 r1]|] eqn:Et; try discriminate Esh.
        destruct (write_at_spec _ v _ _ _ _ _ Et) as (t1 & W & Sh1 & In1 & Lt1).
        rewrite W. simpl.
        rewrite (shape_index t t0 _ Sh), Ei in In1, Lt1.
        assert (Hn1 : S n <= size t0) by (rewrite <- (shape_size _ _ Sh); lia).
        assert (Ls1 : itermut_list s' = skipn (S n) (visits [] t0)).
        { rewrite E2. clear -Ls. revert Ls. generalize (visits [] t0). intros vis. revert n.
          induction vis as [|x vis IHv]; intros [|n] Ls; simpl in *; try discriminate; [now injection Ls | ].
          rewrite (IHv n Ls). destruct vis; reflexivity. }
        destruct (IH s' t0 t1 (S n) (eq_trans Sh1 Sh) Ls1 Hn1) as (t2 & W2 & Sh2 & In2).
        rewrite W2. simpl. exists t2. rewrite E2. repeat split; auto. now rewrite In2, In1.
  Qed.

  Lemma itermut_run_spec t vs : exists t',
    itermut_run t vs = Ok (t', firstn (length vs) (inorder t)) /\
    shape t' = shape t /\ inorder t' = write_vals (inorder t) vs.
  Proof.
    unfold itermut_run.
    destruct (itermut_writes_spec vs (itermut_new t) t t 0) as (t' & W & Sh & In); auto.
    - unfold itermut_list, itermut_new, mstack_list. simpl. now rewrite app_nil_r.
    - lia.
    - exists t'. rewrite W. repeat split; auto.
      + unfold itermut_list, itermut_new, mstack_list. simpl. rewrite app_nil_r.
        now rewrite <- firstn_map, visits_entries.
      + rewrite In. apply (write_from_app []).
  Qed.

  (** ** Refinement of the whole map, for any tree with the right insert / remove / get_mut. *)
  Variable t_insert : tr -> K -> V -> res (tr * option (K * V)).
  Variable t_remove : tr -> K -> res (tr * option (K * V)).
  Variable t_get_mut_set : tr -> K -> V -> res (tr * option (K * V)).
  Variable P : tr -> Prop.   (* extra invariant of the tree, independent of the stored entries *)

  Definition insert_ok := forall t k v, P t -> sorted (inorder t) ->
    exists t', t_insert t k v = Ok (t', hd_error (at_key k (inorder t))) /\
      inorder t' = below k (inorder t) ++ (k, v) :: above k (inorder t) /\ P t'.
  Definition remove_ok := forall t k, P t -> sorted (inorder t) ->
    exists t', t_remove t k = Ok (t', hd_error (at_key k (inorder t))) /\
      inorder t' = below k (inorder t) ++ above k (inorder t) /\ P t'.
  Definition get_mut_ok := forall t k v, P t -> sorted (inorder t) ->
    exists t', t_get_mut_set t k v = Ok (t', hd_error (at_key k (inorder t))) /\
      inorder t' = below k (inorder t) ++ map (fun p => (fst p, v)) (at_key k (inorder t)) ++
                   above k (inorder t) /\ P t'.

  Hypothesis P_leaf : P Leaf.
  Hypothesis P_shape : forall t t', shape t = shape t' -> P t -> P t'.
  Hypothesis Hins : insert_ok.
  Hypothesis Hrem : remove_ok.
  Hypothesis Hgm : get_mut_ok.

  Definition bmap_rel (m : bmap A K V) (l : list (K * V)) : Prop :=
    inorder (bm_tree m) = l /\ sorted l /\ bm_len m = length l /\ P (bm_tree m).

  Lemma sorted_at_length (l : list (K * V)) k : sorted l ->
    length l = length (below k l) + length (at_key k l) + length (above k l).
  Proof. intros S. rewrite (sorted_split l k S) at 1. rewrite !app_length. lia. Qed.

  Lemma bmap_step_ok (m : bmap A K V) (l : list (K * V)) o : bmap_rel m l ->
    exists m', bmap_step t_insert t_remove t_get_mut_set m o = Ok (m', snd (map_spec_step l o)) /\
               bmap_rel m' (fst (map_spec_step l o)).
  Proof.
    intros (E & S & L & HP).
    destruct m as [t n]; simpl in E, L, HP; subst l n.
    destruct o as [k v|k|k|k v|k|k|k|k| | | | | | |vs|]; simpl.
    - (* insert *)
      unfold bmap_insert. simpl. destruct (Hins t k v HP S) as (t' & E1 & E2 & HP'). rewrite E1. simpl.
      pose proof (sorted_at_length (inorder t) k S) as SL.
      destruct (at_key_cases (inorder t) k S) as [Ea | (e & Ea & Ck)]; rewrite Ea in *; simpl in *.
      + eexists; split; [reflexivity|]. repeat split; simpl; auto using sorted_insert.
        rewrite app_length. simpl. lia.
      + eexists; split; [reflexivity|]. repeat split; simpl; auto using sorted_insert.
        rewrite app_length. simpl. lia.
    - (* remove *)
      unfold bmap_remove. simpl. destruct (Hrem t k HP S) as (t' & E1 & E2 & HP'). rewrite E1. simpl.
      pose proof (sorted_at_length (inorder t) k S) as SL.
      destruct (at_key_cases (inorder t) k S) as [Ea | (e & Ea & Ck)]; rewrite Ea in *; simpl in *.
      + eexists; split; [reflexivity|]. repeat split; simpl; auto using sorted_delete.
        rewrite app_length. lia.
      + destruct (length (inorder t)) as [|n] eqn:En; [lia|]. simpl.
        eexists; split; [reflexivity|]. repeat split; simpl; auto using sorted_delete.
        rewrite app_length. lia.
    - unfold bmap_get. simpl. rewrite bst_get_spec by exact S. eexists; split; [reflexivity|].
      repeat split; simpl; auto.
    - (* get_mut *)
      unfold bmap_get_mut_set. simpl. destruct (Hgm t k v HP S) as (t' & E1 & E2 & HP'). rewrite E1. simpl.
      eexists; split; [reflexivity|]. repeat split; simpl; auto using sorted_update.
      rewrite !app_length, map_length. rewrite (sorted_at_length (inorder t) k S). lia.
    - unfold bmap_get. simpl. rewrite bst_get_spec by exact S. eexists; split; [reflexivity|].
      repeat split; simpl; auto.
    - unfold bmap_get. simpl. rewrite bst_get_spec by exact S. eexists; split.
      + destruct (at_key k (inorder t)); reflexivity.
      + repeat split; simpl; auto.
    - rewrite bst_floor_spec by exact S. eexists; split; [reflexivity|]. repeat split; simpl; auto.
    - rewrite bst_ceil_spec by exact S. eexists; split; [reflexivity|]. repeat split; simpl; auto.
    - rewrite bst_min_spec. eexists; split; [reflexivity|]. repeat split; simpl; auto.
    - rewrite bst_max_spec. eexists; split; [reflexivity|]. repeat split; simpl; auto.
    - eexists; split; [reflexivity|]. repeat split; simpl; auto.
    - eexists; split; [reflexivity|]. repeat split; simpl; auto.
    - eexists; split; [reflexivity|]. repeat split; simpl; auto using sorted_nil.
    - rewrite iter_all_spec. simpl. eexists; split; [reflexivity|]. repeat split; simpl; auto.
    - destruct (itermut_run_spec t vs) as (t' & E1 & E2 & E3). rewrite E1. simpl.
      eexists; split; [reflexivity|]. repeat split; simpl; auto using sorted_write_vals.
      + rewrite <- (map_length fst (write_vals _ _)), write_vals_keys, map_length. reflexivity.
      + eapply P_shape; [symmetry; exact E2 | exact HP].
    - rewrite iter_all_spec. simpl. eexists; split; [reflexivity|].
      repeat split; simpl; auto using sorted_nil.
  Qed.

  Lemma bmap_rel_new : bmap_rel bmap_new [].
  Proof. repeat split; simpl; auto using sorted_nil. Qed.

  Theorem bmap_refines ops :
    outputs (bmap_step t_insert t_remove t_get_mut_set) bmap_new ops = Ok (map_spec_outputs ops).
  Proof.
    apply (outputs_sim _ _ bmap_rel); [intros s a o; apply bmap_step_ok | apply bmap_rel_new].
  Qed.

  Theorem bmap_reachable ops m outs :
    run (bmap_step t_insert t_remove t_get_mut_set) bmap_new ops = Ok (m, outs) ->
    sorted (inorder (bm_tree m)) /\ P (bm_tree m) /\ bm_len m = size (bm_tree m).
  Proof.
    intros E. destruct (run_sim _ _ bmap_rel (fun s a o => bmap_step_ok s a o) ops bmap_new [] bmap_rel_new)
      as (m' & E' & HR). rewrite E in E'. injection E' as <- _.
    destruct HR as (E1 & S & L & HP). rewrite <- E1 in S, L. rewrite size_inorder in L. auto.
  Qed.
End BstProofs.
