(** How often calls on treaps are slow and treaps deep, lists: C82. *)
From Verif Require Export TreapListProgCostProofs TreapDepthLemmas.
From Coq Require Import Permutation.

Section ListRare.
  Context {T : Type}.
  Notation itree := (tree (N * nat) unit T).
  Notation mq ps := (map (fun d => nth d ps 0%N)).

  Lemma tags_rare M t n s (x y z l : list nat) : 0 < M -> tags_ok n l -> n <= t -> Permutation l (z ++ x ++ y) -> 2 * length l <= M ->
    rarely_above M t s (2 * Nat.log2 (length l + 2) + s) (fun ps => recs [] (mq ps y) + recs [] (mq ps (rev x))).
  Proof.
    intros PM [D L] Lt P LM. pose proof (Permutation_length P) as Pl. rewrite !app_length in Pl.
    assert (P2 : Permutation (x ++ y) (y ++ rev x)) by (rewrite Permutation_app_comm; apply Permutation_app_head, Permutation_rev).
    apply (two_recs_rare M t y (rev x) (length l) s PM).
    - apply (Permutation_NoDup P2). pose proof (Permutation_NoDup P D) as D'. now apply nodup_parts in D'.
    - intros w i. enough (w < n) by lia. apply L. eapply Permutation_in; [symmetry; exact P|]. apply in_app_iff. right. eapply Permutation_in; [symmetry; exact P2|]. exact i.
    - rewrite rev_length. lia.
    - exact LM.
  Qed.

  Lemma lprog_run_end ps : forall (ops : list (sprog_op T)) qs n r (rs : nat -> itree), length qs = length ops -> (forall j, j < length ops -> nth j qs 0%N = nth (n + j) ps 0%N) ->
    (forall u, linv (rs u)) -> (forall u, pri (rs u) = mq ps (r u)) ->
    exists rs' outs, run tl_prog_step_c rs (combine ops qs) = Ok (rs', outs) /\ (forall u, linv (rs' u)) /\ forall u, pri (rs' u) = mq ps (ptags n r ops u).
  Proof.
    induction ops as [|o ops IH]; intros [|q qs] n r rs El En HR E; try discriminate.
    - exists rs, []. repeat split; auto; apply HR.
    - pose proof (En 0 ltac:(simpl; lia)) as E0. rewrite Nat.add_0_r in E0. cbn [nth] in E0. subst q.
      destruct (lprog_step_c ps n r rs o HR E) as (rs1 & c & E1 & R1 & V1 & K1 & _).
      destruct (IH qs (S n) (ptags_step n r o) rs1) as (rs2 & outs & E2 & E3 & E4); auto.
      + intros j Lj. rewrite Nat.add_succ_comm. apply (En (S j)). simpl. lia.
      + eexists _, _. split; [cbn [combine run]; rewrite E1; cbn [bind]; rewrite E2; reflexivity|]. split; [exact E3 | exact E4].
  Qed.

  Lemma lprog_rare (M : nat) (ops : list (sprog_op T)) : 0 < M -> exists (lists : list N -> nat -> itree) (steps : list N -> list nat),
    (forall ps, length ps = length ops ->
       run tl_prog_step_c (fun _ => Leaf) (combine ops ps) = Ok (lists ps, combine (sprog_spec_outputs ops) (steps ps)) /\ length (steps ps) = length ops) /\
    (forall (q : nat) o s, nth_error ops q = Some o -> let st := fst (spec_run sprog_spec_step (fun _ => []) (firstn q ops)) in
      match o with
      | QPOp i o' => let n := length (st i) in seeks o' = true -> 2 * n <= M ->
          rarely_above M (length ops) s (8 * Nat.log2 (n + 2) + 4 * s + 2) (fun ps => nth q (steps ps) 0)
      | QPAdd _ i j => let n := length (st i) + length (update st i [] j) in 2 * n <= M ->
          rarely_above M (length ops) s (2 * Nat.log2 (n + 2) + s) (fun ps => nth q (steps ps) 0)
      end) /\
    forall i, let n := length (fst (spec_run sprog_spec_step (fun _ => []) ops) i) in 2 * n <= M ->
      (forall s, rarely_above M (length ops) s (3 * Nat.log2 (n + 2) + s + 2) (fun ps => depth (lists ps i))) /\
      average_within M (length ops) (3 * Nat.log2 (n + 2) + 4) 0 (fun ps => depth (lists ps i)).
  Proof.
    intros PM.
    set (lists := fun ps => match run tl_prog_step_c (fun _ => Leaf : itree) (combine ops ps) with Ok (rs, _) => rs | _ => fun _ => Leaf end).
    set (steps := fun ps => match run tl_prog_step_c (fun _ => Leaf : itree) (combine ops ps) with Ok (_, outs) => map snd outs | _ => [] end).
    exists lists, steps.
    assert (A : forall ps, length ps = length ops ->
      run tl_prog_step_c (fun _ => Leaf) (combine ops ps) = Ok (lists ps, combine (sprog_spec_outputs ops) (steps ps)) /\ length (steps ps) = length ops /\
      (forall q o, nth_error ops q = Some o -> lbounded o = true -> nth q (steps ps) 0 <= lcall_bound ps (ptags 0 (fun _ => []) (firstn q ops)) o) /\
      forall u, linv (lists ps u) /\ pri (lists ps u) = mq ps (ptags 0 (fun _ => []) ops u)).
    { intros ps El. assert (I0 : forall i : nat, linv (Leaf : itree)) by (intros i; now repeat split).
      destruct (lprog_run_c ps ops ps 0 (fun _ => []) (fun _ => Leaf) El) as (rs' & outs & E1 & E2 & E3); auto.
      destruct (lprog_run_end ps ops ps 0 (fun _ => []) (fun _ => Leaf) El) as (rs2 & outs2 & E4 & E5 & E6); auto.
      assert (rs2 = rs') by congruence. subst rs2.
      unfold lists, steps. rewrite E1. split; [|split; [|split; [exact E3 | auto]]].
      - unfold sprog_spec_outputs, spec_outputs. change (fun u : nat => vals (Leaf : itree)) with (fun _ : nat => @nil T) in E2.
        rewrite <- E2. do 2 f_equal. clear. induction outs as [|[a c] outs IH]; [reflexivity|]. simpl. now rewrite <- IH.
      - rewrite map_length, <- (map_length fst outs), E2. apply spec_run_length. }
    split; [intros ps El; destruct (A ps El) as (A1 & A2 & _); auto|].
    assert (P0 : pinv 0 (fun _ => [])) by (split; [intros i; split; [constructor | intros ? []] | intros i j w []]).
    split.
    - intros q o s Eq st. assert (Lq : q < length ops) by (apply nth_error_Some; congruence).
      destruct (ptags_all (firstn q ops) 0 (fun _ => []) (fun _ => []) P0) as [B Ec]; [reflexivity|].
      simpl in B. rewrite firstn_length_le in B by lia. fold st in Ec. set (r := ptags 0 (fun _ => []) (firstn q ops)) in *.
      assert (Tt : lbounded o = true -> forall ps, In ps (draws M (length ops)) -> nth q (steps ps) 0 <= lcall_bound ps r o).
      { intros Bo ps ip'. apply draws_in in ip' as [El _]. now apply A. }
      destruct o as [i o|d i j]; cbn [lbounded lcall_bound] in Tt.
      + intros n So LM. specialize (Tt So). unfold n in *. rewrite <- Ec in *.
        destruct (place o (length (r i))) as [a b] eqn:Ep.
        assert (Lab : a <= b) by (destruct o; simpl in Ep; injection Ep as <- <-; lia).
        destruct (gap_perm (r i) a b Lab) as [z P].
        eapply rare_le; [|exact (tags_rare M (length ops) q s (firstn a (r i)) (skipn b (r i)) z (r i) PM (proj1 B i) ltac:(lia) P LM)].
        cbv beta. intros ps ips X. specialize (Tt ps ips). unfold around in Tt. rewrite map_length, Ep, skipn_map, firstn_map, <- map_rev in Tt. lia.
      + intros n LM. specialize (Tt eq_refl).
        assert (Eb : length (update r i [] j) = length (update st i [] j)) by (apply (upd_map (@length nat) (@length T)); auto).
        pose proof (ptags_step_inv (T := T) q r (QPAdd i i j) B) as B'. destruct B' as [B' _]. specialize (B' i). cbn [ptags_step] in B'.
        destruct (upd_cases (update (update r i []) j []) i (r i ++ update r i [] j) i) as [[_ Eu]|[N0 _]]; [|easy]. rewrite Eu in B'.
        assert (El : length (r i ++ update r i [] j) = n) by (rewrite app_length, Eb, Ec; reflexivity). rewrite <- El in *.
        eapply rare_le; [|exact (tags_rare M (length ops) (S q) s (r i) (update r i [] j) [] (r i ++ update r i [] j) PM B' ltac:(lia) (Permutation_refl _) LM)].
        cbv beta. intros ps ips X. specialize (Tt ps ips). rewrite <- map_rev in Tt. lia.
    - intros i n LM.
      destruct (ptags_all ops 0 (fun _ => []) (fun _ => []) P0) as [B Ec]; [reflexivity|]. simpl in B. set (r := ptags 0 (fun _ => []) ops) in *.
      specialize (Ec i). fold n in Ec. destruct (proj1 B i) as [D L].
      assert (Ecc : forall l : list nat, concat (map (fun d => [d]) l) = l) by (induction l as [|x l IH]; [reflexivity|]; simpl; now rewrite IH).
      assert (R : forall s, rarely_above M (length ops) s (3 * Nat.log2 (n + 2) + s + 2) (fun ps => depth (lists ps i))).
      { intros s. rewrite <- Ec. pose proof (depth_rare M (length ops) (map (fun d => [d]) (r i)) s (fun ps => depth (lists ps i)) PM) as X. rewrite Ecc in X. apply X; auto; [|lia|].
        - clear. induction (r i); simpl; constructor; auto; discriminate.
        - intros ps ips Pd. apply draws_in in ips as [El _]. destruct (A ps El) as (_ & _ & _ & Au). destruct (Au i) as [[_ Hh] Ki].
          assert (Eq : map (fun x => snd (snd x)) (inorder_prio tprio (lists ps i)) = map (most ps) (map (fun d => [d]) (r i))).
          { unfold pri in Ki. rewrite Ki, map_map. apply map_ext. intros d. unfold most. simpl. now rewrite N.max_0_r. }
          destruct (deep_place (lists ps i) Hh) as (u & Lu & Du); [intros E; rewrite E in Pd; simpl in Pd; lia|].
          rewrite Eq in Lu, Du. rewrite map_length in Lu. eauto. }
      split; [exact R|]. replace (3 * Nat.log2 (n + 2) + 4) with (3 * Nat.log2 (n + 2) + 2 + 2) by lia. apply rare_average. intros s.
      replace (3 * Nat.log2 (n + 2) + 2 + s) with (3 * Nat.log2 (n + 2) + s + 2) by lia. apply R.
  Qed.

  (** ** One list *)
  Lemma lrun_one : forall (ops : list (seq_op T * N)) (rs : nat -> itree),
    match run tl_step_c (rs 0) ops with
    | Ok (t, outs) => exists rs', run tl_prog_step_c rs (map (fun op => (QPOp 0 (fst op), snd op)) ops) = Ok (rs', outs) /\ rs' 0 = t
    | Panic => run tl_prog_step_c rs (map (fun op => (QPOp 0 (fst op), snd op)) ops) = Panic
    | Timeout => run tl_prog_step_c rs (map (fun op => (QPOp 0 (fst op), snd op)) ops) = Timeout
    end.
  Proof.
    induction ops as [|[o p] ops IH]; intros rs; [simpl; eauto|]. cbn [run map fst snd]. cbn [tl_prog_step_c].
    destruct (tl_step_c (rs 0) (o, p)) as [[t1 out]| |]; cbn [bind]; [|reflexivity..].
    specialize (IH (update rs 0 t1)). change (update rs 0 t1 0) with t1 in IH. destruct (run tl_step_c t1 ops) as [[t2 outs]| |]; cbn [bind].
    - destruct IH as (rs' & E & E0). exists rs'. rewrite E. auto.
    - now rewrite IH.
    - now rewrite IH.
  Qed.
  Lemma lspec_run_one (ops : list (seq_op T)) : forall sp, let a := spec_run sprog_spec_step sp (map (fun o => QPOp 0 o) ops) in let b := spec_run seq_spec_step (sp 0) ops in
    snd a = snd b /\ fst a 0 = fst b.
  Proof.
    induction ops as [|o ops IH]; intros sp; [now split|]. cbn [map spec_run sprog_spec_step]. destruct (seq_spec_step (sp 0) o) as [l out].
    specialize (IH (update sp 0 l)). change (update sp 0 l 0) with l in IH. destruct (spec_run sprog_spec_step (update sp 0 l) (map (fun o => QPOp 0 o) ops)), (spec_run seq_spec_step l ops).
    cbn [fst snd] in *. destruct IH as [-> ->]. now split.
  Qed.
  Lemma seq_lengths_nth (ops : list (seq_op T)) : forall l i n, nth_error (seq_lengths_before l ops) i = Some n -> length (fst (spec_run seq_spec_step l (firstn i ops))) = n.
  Proof.
    induction ops as [|o ops IH]; intros l [|i] n E; cbn [seq_lengths_before nth_error] in E; try discriminate.
    - injection E as <-. reflexivity.
    - cbn [firstn spec_run]. specialize (IH _ i n E). destruct (seq_spec_step l o) as [l1 out]. cbn [fst] in *. now destruct (spec_run seq_spec_step l1 (firstn i ops)).
  Qed.

  Lemma tl_rare (M : nat) (ops : list (seq_op T)) : 0 < M -> exists (lists : list N -> itree) (steps : list N -> list nat),
    (forall ps, length ps = length ops ->
       run tl_step_c Leaf (combine ops ps) = Ok (lists ps, combine (spec_outputs seq_spec_step [] ops) (steps ps)) /\ length (steps ps) = length ops) /\
    (forall (i : nat) o s n, nth_error ops i = Some o -> seeks o = true -> nth_error (seq_lengths_before [] ops) i = Some n -> 2 * n <= M ->
       rarely_above M (length ops) s (8 * Nat.log2 (n + 2) + 4 * s + 2) (fun ps => nth i (steps ps) 0)) /\
    let n := length (fst (spec_run seq_spec_step [] ops)) in 2 * n <= M ->
      (forall s, rarely_above M (length ops) s (3 * Nat.log2 (n + 2) + s + 2) (fun ps => depth (lists ps))) /\
      average_within M (length ops) (3 * Nat.log2 (n + 2) + 4) 0 (fun ps => depth (lists ps)).
  Proof.
    intros PM. destruct (lprog_rare M (map (fun o => QPOp 0 o) ops) PM) as (lists & steps & R1 & R2 & R3). rewrite map_length in *.
    exists (fun ps => lists ps 0), steps. split; [|split].
    - intros ps El. destruct (R1 ps El) as [E1 E2]. split; [|exact E2].
      pose proof (lrun_one (combine ops ps) (fun _ => Leaf)) as X.
      assert (Ec : map (fun op => (QPOp 0 (fst op), snd op)) (combine ops ps) = combine (map (fun o : seq_op T => QPOp 0 o) ops) ps).
      { clear. revert ps. induction ops as [|o ops' IH]; intros [|p ps]; [reflexivity..|]. simpl. now rewrite IH. }
      rewrite Ec, E1 in X. destruct (run tl_step_c Leaf (combine ops ps)) as [[t outs]| |]; [|discriminate..].
      destruct X as (rs' & Er & E0). injection Er as <- <-. rewrite <- E0. unfold sprog_spec_outputs, spec_outputs.
      now rewrite (proj1 (lspec_run_one ops (fun _ => []))).
    - intros i o s n Eo Lo En LM. specialize (R2 i (QPOp 0 o) s). rewrite nth_error_map, Eo in R2. specialize (R2 eq_refl). cbv zeta in R2.
      rewrite firstn_map, (proj2 (lspec_run_one (firstn i ops) (fun _ => []))), (seq_lengths_nth ops [] i n En) in R2. exact (R2 Lo LM).
    - intros n LM. specialize (R3 0). cbv zeta in R3. rewrite (proj2 (lspec_run_one ops (fun _ => []))) in R3. exact (R3 LM).
  Qed.
End ListRare.
