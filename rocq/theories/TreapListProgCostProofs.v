(** Proofs about the list half of TreapCostModel.v, programs over several lists: C68. *)
From Verif Require Export TreapListCostProofs.
From Coq Require Import Permutation.

Section ListProg.
  Context {T : Type}.
  Notation itree := (tree (N * nat) unit T).
  Implicit Types (t : itree) (o : sprog_op T) (r : nat -> list nat).

  (** ** The draws the elements of every list carry *)
  Definition ptags_step (n : nat) r o : nat -> list nat :=
    match o with
    | QPOp i o => update r i (fst (seq_spec_step (r i) (retag n o)))
    | QPAdd d i j =>
        let a := r i in let r1 := update r i [] in
        let b := r1 j in let r2 := update r1 j [] in
        update r2 d (a ++ b)
    end.
  Fixpoint ptags (n : nat) r (ops : list (sprog_op T)) : nat -> list nat :=
    match ops with [] => r | o :: ops' => ptags (S n) (ptags_step n r o) ops' end.

  Definition pinv (n : nat) r : Prop :=
    (forall i, tags_ok n (r i)) /\ forall i j w, In w (r i) -> In w (r j) -> i = j.

  Lemma upd_cases {X} (f : nat -> X) i x j : (j = i /\ update f i x j = x) \/ (j <> i /\ update f i x j = f j).
  Proof. unfold update. destruct (Nat.eqb_spec j i); auto. Qed.
  Lemma upd_map {X Y Z} (f : X -> Z) (g : Y -> Z) (r : nat -> X) (c : nat -> Y) i x y : (forall u, f (r u) = g (c u)) -> f x = g y ->
    forall u, f (update r i x u) = g (update c i y u).
  Proof. intros E E1 u. unfold update. now destruct (u =? i). Qed.
  Lemma tags_ok_less n l : tags_ok n l -> tags_ok (S n) l.
  Proof. intros [D L]. split; [exact D|]. intros w i. specialize (L w i). lia. Qed.
  Lemma tags_step_in (n : nat) (l : list nat) (o : seq_op T) (w : nat) : In w (fst (seq_spec_step l (retag n o))) -> In w l \/ w = n.
  Proof.
    destruct (retag_state n o l) as [P | (i & j & Lij & E)].
    - intros X. eapply Permutation_in in X; [|symmetry; exact P]. destruct X as [->|X]; auto.
    - rewrite E. destruct (gap_perm l i j Lij) as [x P]. intros X. left. eapply Permutation_in; [symmetry; exact P|]. apply in_app_iff. now right.
  Qed.

  Lemma ptags_step_inv n r o : pinv n r -> pinv (S n) (ptags_step n r o).
  Proof.
    intros [A D]. destruct o as [i o|d i j]; cbn [ptags_step].
    - split.
      + intros u. destruct (upd_cases r i (fst (seq_spec_step (r i) (retag n o))) u) as [[-> ->]|[_ ->]]; [now apply tags_step_ok | now apply tags_ok_less].
      + assert (X : forall u w, In w (update r i (fst (seq_spec_step (r i) (retag n o))) u) -> In w (r u) \/ (w = n /\ u = i)).
        { intros u w. destruct (upd_cases r i (fst (seq_spec_step (r i) (retag n o))) u) as [[-> ->]|[_ ->]]; auto. intros W. apply tags_step_in in W as [W|W]; auto. }
        intros u v w Wu Wv. apply X in Wu, Wv. destruct Wu as [Wu|[Eu1 Eu2]], Wv as [Wv|[Ev1 Ev2]]; try congruence; eauto.
        * destruct (A u) as [_ L]. specialize (L _ Wu). lia.
        * destruct (A v) as [_ L]. specialize (L _ Wv). lia.
    - assert (S1 : forall u w, In w (update r i [] u) -> In w (r u) /\ u <> i).
      { intros u w. destruct (upd_cases r i [] u) as [[_ ->]|[N ->]]; [intros [] | auto]. }
      assert (S2 : forall u w, In w (update (update r i []) j [] u) -> In w (r u) /\ u <> i /\ u <> j).
      { intros u w. destruct (upd_cases (update r i []) j [] u) as [[_ ->]|[N ->]]; [intros []|]. intros W. apply S1 in W as [? ?]. auto. }
      assert (T1 : forall u, tags_ok n (update r i [] u)).
      { intros u. destruct (upd_cases r i [] u) as [[_ ->]|[_ ->]]; [|apply A]. split; [constructor | intros ? []]. }
      assert (T2 : forall u, tags_ok n (update (update r i []) j [] u)).
      { intros u. destruct (upd_cases (update r i []) j [] u) as [[_ ->]|[_ ->]]; [|apply T1]. split; [constructor | intros ? []]. }
      assert (X : forall u w, In w (update (update (update r i []) j []) d (r i ++ update r i [] j) u) -> exists v, In w (r v) /\ u = (if (v =? i) || (v =? j) then d else v)).
      { intros u w. destruct (upd_cases (update (update r i []) j []) d (r i ++ update r i [] j) u) as [[-> ->]|[_ ->]].
        - rewrite in_app_iff. intros [W|W].
          + exists i. rewrite Nat.eqb_refl. auto.
          + apply S1 in W as [W _]. exists j. rewrite Nat.eqb_refl, Bool.orb_true_r. auto.
        - intros W. apply S2 in W as (W & N1 & N2). exists u. apply Nat.eqb_neq in N1, N2. rewrite N1, N2. auto. }
      split.
      + intros u. apply tags_ok_less. destruct (upd_cases (update (update r i []) j []) d (r i ++ update r i [] j) u) as [[-> ->]|[_ ->]]; [|apply T2].
        destruct (A i) as [D1 L1], (T1 j) as [D2 L2]. split.
        * clear -D1 D2 S1 D. assert (Y : forall w, In w (r i) -> ~ In w (update r i [] j)).
          { intros w W1 W2. apply S1 in W2 as [W2 N]. apply N. symmetry. eapply D; eauto. }
          induction (r i) as [|x l IH]; [exact D2|]. inversion D1; subst. simpl. constructor.
          -- rewrite in_app_iff. intros [W|W]; [easy|]. apply (Y x); [now left | exact W].
          -- apply IH; auto. intros w W. apply Y. now right.
        * intros w. rewrite in_app_iff. intros [W|W]; auto.
      + intros u v w Wu Wv. destruct (X u w Wu) as (u' & Wu' & ->). destruct (X v w Wv) as (v' & Wv' & ->). now rewrite (D u' v' w Wu' Wv').
  Qed.
  Lemma ptags_all ops : forall n r (st : nat -> list T), pinv n r -> (forall u, length (r u) = length (st u)) ->
    pinv (n + length ops) (ptags n r ops) /\ forall u, length (ptags n r ops u) = length (fst (spec_run sprog_spec_step st ops) u).
  Proof.
    induction ops as [|o ops IH]; intros n r st B E; cbn [ptags length spec_run]; [now rewrite Nat.add_0_r|].
    rewrite <- Nat.add_succ_comm. destruct (IH (S n) (ptags_step n r o) (fst (sprog_spec_step st o))) as [I1 I2]; [now apply ptags_step_inv| |].
    - destruct o as [i o|d i j]; cbn [ptags_step sprog_spec_step].
      + pose proof (seq_step_length n o (st i) (r i) (eq_sym (E i))) as X. destruct (seq_spec_step (st i) o) as [l out]. cbn [fst] in *.
        apply (upd_map (@length nat) (@length T)); auto.
      + cbn [fst].
        assert (E1 : forall u, length (update r i [] u) = length (update st i [] u)) by (now apply (upd_map (@length nat) (@length T))).
        apply (upd_map (@length nat) (@length T)); [now apply (upd_map (@length nat) (@length T))|]. now rewrite !app_length, E, E1.
    - split; [exact I1|]. intros u. rewrite I2. destruct (sprog_spec_step st o) as [st1 out]. cbn [fst]. now destruct (spec_run sprog_spec_step st1 ops).
  Qed.

  (** ** Runs *)
  Notation mq ps := (map (fun d => nth d ps 0%N)).
  Definition lcall_bound (ps : list N) r o : nat :=
    match o with
    | QPOp i o => around o (mq ps (r i))
    | QPAdd d i j => recs [] (rev (mq ps (r i))) + recs [] (mq ps (update r i [] j))
    end.
  Definition lbounded o : bool := match o with QPOp _ o => seeks o | _ => true end.

  Lemma lprog_step_c ps n r (rs : nat -> itree) o : (forall u, linv (rs u)) -> (forall u, pri (rs u) = mq ps (r u)) ->
    let sp := fun u => vals (rs u) in
    exists rs' c, tl_prog_step_c rs (o, nth n ps 0%N) = Ok (rs', (snd (sprog_spec_step sp o), c)) /\ (forall u, linv (rs' u)) /\
      (forall u, vals (rs' u) = fst (sprog_spec_step sp o) u) /\
      (forall u, pri (rs' u) = mq ps (ptags_step n r o u)) /\ (lbounded o = true -> c <= lcall_bound ps r o).
  Proof.
    intros I E sp. destruct o as [i o|d i j]; cbn [tl_prog_step_c sprog_spec_step ptags_step lbounded lcall_bound].
    - destruct (tl_step_bound (rs i) o (nth n ps 0%N) (I i)) as (t & c & E1 & I1 & V1 & P1 & B1). rewrite E1. cbn [bind].
      fold (sp i) in V1 |- *. destruct (seq_spec_step (sp i) o) as [l out]. cbn [fst snd] in *. exists (update rs i t), c. split; [reflexivity|]. split; [|split; [|split]].
      + intros u. destruct (upd_cases rs i t u) as [[_ ->]|[_ ->]]; auto.
      + apply (upd_map (fun t => vals t) (fun l => l)); auto.
      + apply (upd_map (fun t => pri t) (mq ps)); auto. rewrite P1, E. symmetry. apply (seq_step_map (fun d => nth d ps 0%N)).
      + intros So. rewrite <- E. auto.
    - rewrite t_merge_c_eq. cbn [fst snd].
      assert (I1 : forall u, linv (update rs i Leaf u)) by (intros u; destruct (upd_cases rs i Leaf u) as [[_ ->]|[_ ->]]; [now repeat split | auto]).
      assert (I2 : forall u, linv (update (update rs i Leaf) j Leaf u)) by (intros u; destruct (upd_cases (update rs i Leaf) j Leaf u) as [[_ ->]|[_ ->]]; [now repeat split | auto]).
      assert (E1 : forall u, pri (update rs i Leaf u) = mq ps (update r i [] u)) by (now apply (upd_map (fun t => pri t) (mq ps))).
      assert (V1 : forall u, vals (update rs i Leaf u) = update sp i [] u) by (now apply (upd_map (fun t => vals t) (fun l => l))).
      destruct (I i) as [La Ha], (I1 j) as [Lb Hb].
      eexists _, _. split; [reflexivity|]. split; [|split; [|split]].
      + intros u. destruct (upd_cases (update (update rs i Leaf) j Leaf) d (t_merge (rs i) (update rs i Leaf j)) u) as [[_ ->]|[_ ->]]; auto.
        split; [now apply t_merge_len | now apply t_merge_heap].
      + apply (upd_map (fun t => vals t) (fun l => l)); [now apply (upd_map (fun t => vals t) (fun l => l))|]. rewrite vals_merge, V1. reflexivity.
      + apply (upd_map (fun t => pri t) (mq ps)); [now apply (upd_map (fun t => pri t) (mq ps))|].
        rewrite map_app, <- E, <- E1. unfold pri. now rewrite t_merge_prio, map_app.
      + intros _. rewrite <- E, <- E1. pose proof (merge_bound (rs i) (update rs i Leaf j)). pose proof (max_records _ Ha) as X1. pose proof (min_records _ Hb) as X2. unfold pri. lia.
  Qed.

  Lemma spec_run_ext (ops : list (sprog_op T)) : forall st st', (forall u, st u = st' u) -> snd (spec_run sprog_spec_step st ops) = snd (spec_run sprog_spec_step st' ops).
  Proof.
    induction ops as [|o ops IH]; intros st st' E; [reflexivity|]. cbn [spec_run].
    assert (X : snd (sprog_spec_step st o) = snd (sprog_spec_step st' o) /\ forall u, fst (sprog_spec_step st o) u = fst (sprog_spec_step st' o) u).
    { destruct o as [i o|d i j]; cbn [sprog_spec_step].
      - rewrite E. destruct (seq_spec_step (st' i) o) as [l out]. cbn [fst snd]. split; [reflexivity|]. now apply (upd_map (fun l => l) (fun l => l)).
      - cbn [fst snd]. split; [reflexivity|]. rewrite E.
        assert (E1 : forall u, update st i [] u = update st' i [] u) by (now apply (upd_map (fun l : list T => l) (fun l => l))). rewrite E1.
        apply (upd_map (fun l : list T => l) (fun l => l)); [|reflexivity]. now apply (upd_map (fun l : list T => l) (fun l => l)). }
    destruct X as [X1 X2]. destruct (sprog_spec_step st o) as [s1 o1], (sprog_spec_step st' o) as [s2 o2]. cbn [fst snd] in *. specialize (IH s1 s2 X2).
    destruct (spec_run sprog_spec_step s1 ops), (spec_run sprog_spec_step s2 ops). cbn [snd] in *. congruence.
  Qed.

  Lemma lprog_run_c ps : forall ops qs n r (rs : nat -> itree), length qs = length ops -> (forall j, j < length ops -> nth j qs 0%N = nth (n + j) ps 0%N) ->
    (forall u, linv (rs u)) -> (forall u, pri (rs u) = mq ps (r u)) ->
    exists rs' outs, run tl_prog_step_c rs (combine ops qs) = Ok (rs', outs) /\ map fst outs = snd (spec_run sprog_spec_step (fun u => vals (rs u)) ops) /\
      forall i o, nth_error ops i = Some o -> lbounded o = true -> nth i (map snd outs) 0 <= lcall_bound ps (ptags n r (firstn i ops)) o.
  Proof.
    induction ops as [|o ops IH]; intros [|q qs] n r rs El En HR E; try discriminate.
    - exists rs, []. repeat split. intros [|i] ? X; discriminate X.
    - pose proof (En 0 ltac:(simpl; lia)) as E0. rewrite Nat.add_0_r in E0. cbn [nth] in E0. subst q.
      destruct (lprog_step_c ps n r rs o HR E) as (rs1 & c & E1 & R1 & V1 & K1 & B1).
      destruct (IH qs (S n) (ptags_step n r o) rs1) as (rs2 & outs & E2 & E3 & E4); auto.
      + intros j Lj. rewrite Nat.add_succ_comm. apply (En (S j)). simpl. lia.
      + eexists _, _. split; [cbn [combine run]; rewrite E1; cbn [bind]; rewrite E2; reflexivity|]. split.
        * cbn [map fst spec_run]. rewrite E3, (spec_run_ext ops _ _ V1). destruct (sprog_spec_step (fun u => vals (rs u)) o) as [l1 r1]. cbn [fst snd]. now destruct (spec_run sprog_spec_step l1 ops).
        * intros [|i] o' Eo Bo.
          -- injection Eo as <-. cbn [map nth firstn ptags]. auto.
          -- cbn [map nth firstn ptags]. now apply E4.
  Qed.

  (** ** Averages *)
  Lemma place_average M (t : nat) (o : seq_op T) l n : 0 < M -> tags_ok n l -> n <= t ->
    total (fun ps => around o (mq ps l)) (draws M t) <= M ^ t * (8 * Nat.log2 (length l) + 10) + 4 * length l * M ^ (t - 1).
  Proof.
    intros PM [D L] Lt. destruct (place o (length l)) as [a b] eqn:Ep.
    assert (Lab : a <= b) by (destruct o; simpl in Ep; injection Ep as <- <-; lia).
    destruct (gap_perm l a b Lab) as [r P]. pose proof (Permutation_NoDup P D) as D'. apply nodup_parts in D' as [_ D']. apply nodup_parts in D' as [D1 D2].
    pose proof (Permutation_length P) as Pl. rewrite !app_length in Pl.
    assert (L1 : forall w, In w (rev (firstn a l)) -> w < t).
    { intros w X. apply in_rev in X. enough (w < n) by lia. apply L. eapply Permutation_in; [symmetry; exact P|]. rewrite !in_app_iff. auto. }
    assert (L2 : forall w, In w (skipn b l) -> w < t).
    { intros w X. enough (w < n) by lia. apply L. eapply Permutation_in; [symmetry; exact P|]. rewrite !in_app_iff. auto. }
    pose proof (tags_recs M t (rev (firstn a l)) PM (NoDup_rev D1) L1) as T1. pose proof (tags_recs M t (skipn b l) PM D2 L2) as T2.
    rewrite rev_length in T1. set (x1 := length (firstn a l)) in *. set (x2 := length (skipn b l)) in *. set (m := length l) in *.
    pose proof (Nat.log2_le_mono x1 m ltac:(lia)) as G1. pose proof (Nat.log2_le_mono x2 m ltac:(lia)) as G2.
    rewrite (total_ext _ (fun ps => 2 + 4 * (recs [] (mq ps (skipn b l)) + recs [] (mq ps (rev (firstn a l)))))).
    2: { intros ps _. unfold around. rewrite map_length. fold m. rewrite Ep, skipn_map, firstn_map, <- map_rev. reflexivity. }
    rewrite total_plus, total_mul, total_plus, total_const, draws_length.
    set (B := M ^ t) in *. set (B' := M ^ (t - 1)) in *.
    assert (B * S (Nat.log2 x1) <= B * S (Nat.log2 m)) by (apply Nat.mul_le_mono_l; lia). assert (B * S (Nat.log2 x2) <= B * S (Nat.log2 m)) by (apply Nat.mul_le_mono_l; lia).
    assert (x1 * B' + x2 * B' <= m * B') by (rewrite <- Nat.mul_add_distr_r; apply Nat.mul_le_mono_r; lia). nia.
  Qed.
  Lemma add_average M (t : nat) l l' n : 0 < M -> tags_ok n l -> tags_ok n l' -> n <= t ->
    total (fun ps => recs [] (rev (mq ps l)) + recs [] (mq ps l')) (draws M t) <= M ^ t * (2 * Nat.log2 (length l + length l') + 2) + (length l + length l') * M ^ (t - 1).
  Proof.
    intros PM [D1 L1] [D2 L2] Lt. rewrite total_plus.
    assert (X1 : forall w, In w (rev l) -> w < t) by (intros w X; apply in_rev in X; specialize (L1 w X); lia).
    assert (X2 : forall w, In w l' -> w < t) by (intros w X; specialize (L2 w X); lia).
    pose proof (tags_recs M t (rev l) PM (NoDup_rev D1) X1) as T1. pose proof (tags_recs M t l' PM D2 X2) as T2. rewrite rev_length in T1.
    rewrite (total_ext (fun ps => recs [] (rev (mq ps l))) (fun ps => recs [] (mq ps (rev l)))) by (intros ps _; now rewrite map_rev).
    pose proof (Nat.log2_le_mono (length l) (length l + length l') ltac:(lia)) as G1. pose proof (Nat.log2_le_mono (length l') (length l + length l') ltac:(lia)) as G2.
    set (B := M ^ t) in *. set (B' := M ^ (t - 1)) in *. nia.
  Qed.

  Lemma lprog_steps_average (M : nat) (ops : list (sprog_op T)) : 0 < M -> exists steps : list N -> list nat,
    (forall ps, length ps = length ops ->
       outputs tl_prog_step_c (fun _ => Leaf) (combine ops ps) = Ok (combine (sprog_spec_outputs ops) (steps ps)) /\ length (steps ps) = length ops) /\
    forall q o, nth_error ops q = Some o -> let st := fst (spec_run sprog_spec_step (fun _ => []) (firstn q ops)) in
      match o with
      | QPOp i o' => seeks o' = true ->
          average_within M (length ops) (8 * Nat.log2 (length (st i)) + 10) (4 * length (st i)) (fun ps => nth q (steps ps) 0)
      | QPAdd _ i j => let n := length (st i) + length (update st i [] j) in
          average_within M (length ops) (2 * Nat.log2 n + 2) n (fun ps => nth q (steps ps) 0)
      end.
  Proof.
    intros PM.
    set (steps := fun ps => match run tl_prog_step_c (fun _ => Leaf : itree) (combine ops ps) with Ok (_, outs) => map snd outs | _ => [] end).
    exists steps.
    assert (A : forall ps, length ps = length ops ->
      outputs tl_prog_step_c (fun _ => Leaf) (combine ops ps) = Ok (combine (sprog_spec_outputs ops) (steps ps)) /\ length (steps ps) = length ops /\
      forall q o, nth_error ops q = Some o -> lbounded o = true -> nth q (steps ps) 0 <= lcall_bound ps (ptags 0 (fun _ => []) (firstn q ops)) o).
    { intros ps El. destruct (lprog_run_c ps ops ps 0 (fun _ => []) (fun _ => Leaf) El) as (rs' & outs & E1 & E2 & E3); auto.
      { intros i. now repeat split. }
      unfold outputs, steps. rewrite E1. split; [|split; [|exact E3]].
      - unfold sprog_spec_outputs, spec_outputs. change (fun u : nat => vals (Leaf : itree)) with (fun _ : nat => @nil T) in E2.
        rewrite <- E2. cbn [rmap bind snd]. f_equal. clear. induction outs as [|[a c] outs IH]; [reflexivity|]. simpl. now rewrite <- IH.
      - rewrite map_length, <- (map_length fst outs), E2. apply spec_run_length. }
    split; [intros ps El; destruct (A ps El) as (A1 & A2 & _); auto|].
    intros q o Eq st. assert (Lq : q < length ops) by (apply nth_error_Some; congruence).
    destruct (ptags_all (firstn q ops) 0 (fun _ => []) (fun _ => [])) as [B Ec]; [split; [intros i; split; [constructor | intros ? []] | intros i j w []] | reflexivity |].
    simpl in B. rewrite firstn_length_le in B by lia. fold st in Ec. set (r := ptags 0 (fun _ => []) (firstn q ops)) in *.
    assert (Tt : lbounded o = true -> total (fun ps => nth q (steps ps) 0) (draws M (length ops)) <= total (fun ps => lcall_bound ps r o) (draws M (length ops))).
    { intros Bo. apply total_le. intros ps ip'. apply draws_in in ip' as [El _]. now apply A. }
    assert (Av : forall a b x, x <= M ^ length ops * a + b * M ^ (length ops - 1) -> M * x <= M ^ length ops * (M * a + b)).
    { intros a b x L. apply (Nat.mul_le_mono_l _ _ M) in L. eapply Nat.le_trans; [exact L|].
      replace (M ^ length ops) with (M * M ^ (length ops - 1)); [nia|]. rewrite <- Nat.pow_succ_r'. f_equal. lia. }
    unfold average_within. destruct B as [B _]. destruct o as [i o|d i j]; cbn [lbounded lcall_bound] in Tt; [intros So; specialize (Tt So) | specialize (Tt eq_refl)]; apply Av; (eapply Nat.le_trans; [exact Tt|]).
    - rewrite <- Ec. apply (place_average M (length ops) o (r i) q PM (B i)). lia.
    - assert (Eb : length (update r i [] j) = length (update st i [] j)) by (apply (upd_map (@length nat) (@length T)); auto).
      rewrite <- Eb, <- Ec. apply (add_average M (length ops) (r i) (update r i [] j) q PM (B i)); [|lia].
      destruct (upd_cases r i [] j) as [[_ ->]|[_ ->]]; [|apply B]. split; [constructor | intros ? []].
  Qed.
End ListProg.
