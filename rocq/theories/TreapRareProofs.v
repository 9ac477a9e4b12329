(** How often calls on treaps are slow and treaps deep, maps: C82. *)
From Verif Require Export TreapProgCostProofs TreapDepthLemmas.
From Coq Require Import Permutation.

Section ProgRare.
  Context {K V : Type} `{CmpLaws K}.
  Notation treap := (tree (N * nat) K V).
  Notation blks := (list (K * list nat)).
  Notation ip := (inorder_prio tprio).
  Notation kp l := (map (on2 snd) l).

  Lemma blocks_two M t n m s (x y z l : blks) : 0 < M -> blocks_ok n l -> n <= t -> Permutation l (z ++ x ++ y) -> length (draws_of l) <= m -> 2 * m <= M ->
    rarely_above M t s (2 * Nat.log2 (m + 2) + s) (fun ps => recs [] (map (most ps) (map snd y)) + recs [] (map (most ps) (map snd (rev x)))).
  Proof.
    intros PM B Lt P Lm LM. pose proof (blocks_ok_perm n _ _ P B) as B1. apply blocks_ok_app in B1 as [_ B1].
    pose proof (draws_perm _ _ P) as PD. apply Permutation_length in PD. rewrite !draws_app, !app_length in PD.
    assert (P2 : Permutation (x ++ y) (y ++ rev x)) by (rewrite Permutation_app_comm; apply Permutation_app_head, Permutation_rev).
    apply (blocks_ok_perm n _ _ P2) in B1. destruct B1 as (F & D & L).
    assert (ER : length (draws_of (rev x)) = length (draws_of x)) by (apply Permutation_length, draws_perm; symmetry; apply Permutation_rev).
    apply blocks_rare; auto.
    - now rewrite <- map_app.
    - rewrite <- map_app. exact D.
    - rewrite <- map_app. intros w i. specialize (L w i). lia.
    - fold (draws_of y). fold (draws_of (rev x)). lia.
  Qed.
  Lemma cut_rare M t n m s (o : map_op K V) (l : blks) : 0 < M -> blocks_ok n l -> n <= t -> length (draws_of l) <= m -> 2 * m <= M ->
    rarely_above M t s (2 * Nat.log2 (m + 2) + s)
      (fun ps => recs [] (map (most ps) (map snd (snd (cut o l)))) + recs [] (map (most ps) (map snd (rev (fst (cut o l)))))).
  Proof. intros PM B Lt Lm LM. destruct (cut_parts o l) as (r & P). now apply (blocks_two M t n m s _ _ r l). Qed.
  Lemma around_rare M t n m s k (l : blks) : 0 < M -> blocks_ok n l -> n <= t -> length (draws_of l) <= m -> 2 * m <= M ->
    rarely_above M t s (2 * Nat.log2 (m + 2) + s) (fun ps => around k (mp ps l)).
  Proof.
    intros PM B Lt Lm LM. eapply rare_le; [|exact (cut_rare M t n m s (MGet k) l PM B Lt Lm LM)]. cbv beta. cbn [cut fst snd]. intros ps _ X.
    unfold around, mp in X. rewrite <- (on2_above (most ps)), <- (on2_below (most ps)) in X. rewrite !map_map in X. rewrite !map_map, map_rev. exact X.
  Qed.

  Lemma prog_run_end ps : forall (ops : list (prog_op K V)) qs n r (rs : nat -> treap) sp, length qs = length ops -> (forall j, j < length ops -> nth j qs 0%N = nth (n + j) ps 0%N) ->
    regs_rel rs sp -> binv n r -> (forall u, kp (ip (rs u)) = mp ps (r u)) ->
    exists rs' outs sp', run treap_prog_step_c rs (combine ops qs) = Ok (rs', outs) /\ regs_rel rs' sp' /\ forall u, kp (ip (rs' u)) = mp ps (pblocks n r ops u).
  Proof.
    induction ops as [|o ops IH]; intros [|q qs] n r rs sp El En HR B E; try discriminate.
    - exists rs, [], sp. repeat split; auto; apply HR.
    - pose proof (En 0 ltac:(simpl; lia)) as E0. rewrite Nat.add_0_r in E0. cbn [nth] in E0. subst q.
      destruct (prog_step_c ps n r rs sp o HR B E) as (rs1 & c & E1 & R1 & K1 & _).
      destruct (IH qs (S n) (pblocks_step n r o) rs1 (fst (prog_spec_step sp o))) as (rs2 & outs & sp' & E2 & E3 & E4); auto.
      + intros j Lj. rewrite Nat.add_succ_comm. apply (En (S j)). simpl. lia.
      + now apply pblocks_step_inv.
      + eexists _, _, _. split; [cbn [combine run]; rewrite E1; cbn [bind]; rewrite E2; reflexivity|]. split; [exact E3 | exact E4].
  Qed.

  Lemma prog_rare (M : nat) (ops : list (prog_op K V)) : 0 < M -> exists (maps : list N -> nat -> treap) (steps : list N -> list nat),
    (forall ps, length ps = length ops ->
       run treap_prog_step_c (fun _ => Leaf) (combine ops ps) = Ok (maps ps, combine (prog_spec_outputs ops) (steps ps)) /\ length (steps ps) = length ops) /\
    (forall (q : nat) o s, nth_error ops q = Some o -> let c := counts (firstn q ops) in
      match o with
      | POp i o' => let m := inserted (c i) in looks_up o' = true -> 2 * m <= M ->
          rarely_above M (length ops) s (4 * Nat.log2 (m + 2) + 2 * s + 3) (fun ps => nth q (steps ps) 0)
      | PSplit _ i _ _ => let m := inserted (c i) in 2 * m <= M ->
          rarely_above M (length ops) s (6 * Nat.log2 (m + 2) + 3 * s + 3) (fun ps => nth q (steps ps) 0)
      | PSet _ _ i j => let a := c i in let b := update c i [] j in let keys := length a + length b in let m := inserted a + inserted b in 2 * m <= M ->
          rarely_above M (length ops) s (keys * (10 * Nat.log2 (m + 2) + 5 * Nat.log2_up keys + 5 * s + 19)) (fun ps => nth q (steps ps) 0)
      end) /\
    forall i, let m := inserted (counts ops i) in 2 * m <= M ->
      (forall s, rarely_above M (length ops) s (3 * Nat.log2 (m + 2) + s + 2) (fun ps => depth (maps ps i))) /\
      average_within M (length ops) (3 * Nat.log2 (m + 2) + 4) 0 (fun ps => depth (maps ps i)).
  Proof.
    intros PM. pose proof (sorted_nil : sorted ([] : list (K * V))) as Sn.
    set (maps := fun ps => match run treap_prog_step_c (fun _ => Leaf : treap) (combine ops ps) with Ok (rs, _) => rs | _ => fun _ => Leaf end).
    set (steps := fun ps => match run treap_prog_step_c (fun _ => Leaf : treap) (combine ops ps) with Ok (_, outs) => map snd outs | _ => [] end).
    exists maps, steps.
    assert (R0 : regs_rel (fun _ => Leaf : treap) (fun _ => [])) by (intros i; split; [reflexivity | apply tinv_leaf]).
    assert (A : forall ps, length ps = length ops ->
      run treap_prog_step_c (fun _ => Leaf) (combine ops ps) = Ok (maps ps, combine (prog_spec_outputs ops) (steps ps)) /\ length (steps ps) = length ops /\
      (forall (q : nat) o, nth_error ops q = Some o -> bounded o = true -> nth q (steps ps) 0 <= call_bound ps (pblocks 0 (fun _ => []) (firstn q ops)) o) /\
      forall u, tinv (maps ps u) /\ kp (ip (maps ps u)) = mp ps (pblocks 0 (fun _ => []) ops u)).
    { intros ps El. destruct (prog_run_c ps ops ps 0 (fun _ => []) (fun _ => Leaf) (fun _ => []) El) as (rs' & outs & E1 & E2 & E3); auto using binv_0.
      destruct (prog_run_end ps ops ps 0 (fun _ => []) (fun _ => Leaf) (fun _ => []) El) as (rs2 & outs2 & sp' & E4 & E5 & E6); auto using binv_0.
      assert (rs2 = rs') by congruence. subst rs2.
      unfold maps, steps. rewrite E1. split; [|split; [|split; [exact E3|]]].
      - do 2 f_equal. unfold prog_spec_outputs, spec_outputs. rewrite <- E2. clear. induction outs as [|[a c] outs IH]; [reflexivity|]. simpl. now rewrite <- IH.
      - rewrite map_length, <- (map_length fst outs), E2. apply spec_run_length.
      - intros u. split; [apply E5 | apply E6]. }
    split; [intros ps El; destruct (A ps El) as (A1 & A2 & _); auto|]. split.
    - intros q o s Eq c. assert (Lq : q < length ops) by (apply nth_error_Some; congruence).
      destruct (pblocks_all (firstn q ops) 0 (fun _ => []) (fun _ => []) binv_0 (fun _ => eq_refl)) as [B Ec]. simpl in B. rewrite firstn_length_le in B by lia.
      fold (counts (firstn q ops)) in Ec. fold c in Ec. set (r := pblocks 0 (fun _ => []) (firstn q ops)) in *.
      assert (Ei : forall u, length (draws_of (r u)) = inserted (c u)) by (intros u; rewrite draws_count; unfold inserted; now rewrite Ec).
      assert (En : forall u, length (r u) = length (c u)) by (intros u; rewrite <- Ec; now rewrite map_length).
      assert (T : bounded o = true -> forall ps, In ps (draws M (length ops)) -> nth q (steps ps) 0 <= call_bound ps r o).
      { intros Bo ps ip'. apply draws_in in ip' as [El _]. now apply A. }
      destruct o as [i o|s0 d i j|d i k inc]; cbn [bounded call_bound] in T.
      + intros m Lo LM. specialize (T Lo). eapply rare_le; [|exact (cut_rare M (length ops) q m s o (r i) PM (binv_ok q r i B) ltac:(lia) ltac:(rewrite Ei; unfold m; lia) LM)].
        cbv beta. intros ps ips X. specialize (T ps ips). lia.
      + intros a b keys m LM. specialize (T eq_refl).
        assert (Eb : length (draws_of (update r i [] j)) = inserted b) by (unfold b, update; destruct (j =? i); [reflexivity | apply Ei]).
        assert (Lb : length (update r i [] j) = length b) by (unfold b, update; destruct (j =? i); [reflexivity | apply En]).
        assert (Ba : blocks_ok q (r i)) by (now apply binv_ok).
        assert (Bb : blocks_ok q (update r i [] j)).
        { destruct (update_cases r i [] j) as [[_ ->]|[_ ->]]; [|now apply binv_ok]. split; [constructor|]. split; [constructor | intros ? []]. }
        assert (Br : blocks_ok (S q) (set_with (@app nat) s0 (r i) (update r i [] j))).
        { pose proof (pblocks_step_inv (V := V) q r (PSet s0 i i j) B) as B'. apply (binv_ok _ _ i) in B'. cbn [pblocks_step] in B'. now rewrite update_same in B'. }
        pose proof (set_draws (V := V) q r s0 i j B) as Ld. cbv zeta in Ld.
        set (ra := r i) in *. set (rb := update r i [] j) in *. set (x := set_with (@app nat) s0 ra rb) in *.
        assert (Ea : length (draws_of ra) = inserted a) by apply Ei. assert (La : length ra = length a) by apply En.
        assert (Lk : length (ra ++ rb) = keys) by (rewrite app_length; unfold keys; lia).
        set (h := 2 * Nat.log2 (m + 2) + (s + Nat.log2_up keys + 3)).
        replace (10 * Nat.log2 (m + 2) + 5 * Nat.log2_up keys + 5 * s + 19) with (4 + 5 * h) by (unfold h; lia). rewrite <- Lk.
        eapply rare_le; [|apply (rare_sum M (length ops) s (4 + 5 * h) (fun e ps => 4 + 2 * (around (fst e) (mp ps ra) + around (fst e) (mp ps rb)) + around (fst e) (mp ps x)) (ra ++ rb))].
        * cbv beta. intros ps ips X. specialize (T ps ips). unfold set_bound in T.
          assert (Ex : mp ps ra ++ mp ps rb = map (on2 (most ps)) (ra ++ rb)) by (unfold mp; now rewrite map_app). rewrite Ex, total_map in T. eapply Nat.lt_le_trans; [exact X | exact T].
        * intros e _. rewrite Lk.
          assert (G : forall y n', blocks_ok n' y -> n' <= length ops -> length (draws_of y) <= m -> rarely_above M (length ops) (s + Nat.log2_up keys + 3) h (fun ps => around (fst e) (mp ps y))).
          { intros y n' By Ly Lm. exact (around_rare M (length ops) n' m (s + Nat.log2_up keys + 3) (fst e) y PM By Ly Lm LM). }
          set (f1 := fun ps => around (fst e) (mp ps ra)). set (f2 := fun ps => around (fst e) (mp ps rb)). set (f3 := fun ps => around (fst e) (mp ps x)).
          eapply rare_le; [|apply (rare_sum M (length ops) (s + Nat.log2_up keys) h (fun (f : list N -> nat) ps => f ps) [f1; f1; f2; f2; f3])].
          -- cbv beta. intros ps _ X. fold (f1 ps) (f2 ps) (f3 ps) in X. cbn [length]. unfold total. cbn [map list_sum fold_right].
             change (list_sum [f1 ps; f1 ps; f2 ps; f2 ps; f3 ps]) with (f1 ps + (f1 ps + (f2 ps + (f2 ps + (f3 ps + 0))))). lia.
          -- change (Nat.log2_up (length [f1; f1; f2; f2; f3])) with 3.
             assert (G1 : rarely_above M (length ops) (s + Nat.log2_up keys + 3) h f1) by (apply (G ra q Ba ltac:(lia)); unfold m; lia).
             assert (G2 : rarely_above M (length ops) (s + Nat.log2_up keys + 3) h f2) by (apply (G rb q Bb ltac:(lia)); unfold m; lia).
             assert (G3 : rarely_above M (length ops) (s + Nat.log2_up keys + 3) h f3) by (apply (G x (S q) Br ltac:(lia)); unfold m; lia).
             intros f [<-|[<-|[<-|[<-|[<-|[]]]]]]; assumption.
      + intros m LM. specialize (T eq_refl). eapply rare_le; [|exact (around_rare M (length ops) q m s k (r i) PM (binv_ok q r i B) ltac:(lia) ltac:(rewrite Ei; unfold m; lia) LM)].
        cbv beta. intros ps ips X. specialize (T ps ips). lia.
    - intros i m LM.
      destruct (pblocks_all ops 0 (fun _ => []) (fun _ => []) binv_0 (fun _ => eq_refl)) as [B Ec]. simpl in B. fold (counts ops) in Ec.
      set (r := pblocks 0 (fun _ => []) ops) in *.
      assert (Ei : length (draws_of (r i)) = m) by (rewrite draws_count; unfold m, inserted; now rewrite Ec).
      destruct (binv_ok _ r i B) as (F & D & L).
      assert (R : forall s, rarely_above M (length ops) s (3 * Nat.log2 (m + 2) + s + 2) (fun ps => depth (maps ps i))).
      { intros s. rewrite <- Ei. apply (depth_rare M (length ops) (map snd (r i)) s); auto; [fold (draws_of (r i)); lia|].
        intros ps ips Pd. apply draws_in in ips as [El _]. destruct (A ps El) as (_ & _ & _ & Au). destruct (Au i) as [Ti Ki].
        assert (Eq : map (fun x => snd (snd x)) (ip (maps ps i)) = map (most ps) (map snd (r i))).
        { apply (f_equal (map snd)) in Ki. unfold mp in Ki. rewrite !map_map in Ki. rewrite map_map. exact Ki. }
        destruct Ti as (_ & _ & Hh). destruct (deep_place (maps ps i) Hh) as (u & Lu & Du); [intros E; rewrite E in Pd; simpl in Pd; lia|].
        rewrite Eq in Lu, Du. rewrite map_length in Lu. eauto. }
      split; [exact R|]. replace (3 * Nat.log2 (m + 2) + 4) with (3 * Nat.log2 (m + 2) + 2 + 2) by lia. apply rare_average. intros s.
      replace (3 * Nat.log2 (m + 2) + 2 + s) with (3 * Nat.log2 (m + 2) + s + 2) by lia. apply R.
  Qed.
End ProgRare.

(** ** One map *)
Section OneMap.
  Context {K V : Type} `{CmpLaws K}.
  Notation treap := (tree (N * nat) K V).

  Lemma run_one : forall (ops : list (map_op K V * N)) (rs : nat -> treap), 
    match run treap_step_c (rs 0) ops with
    | Ok (t, outs) => exists rs', run treap_prog_step_c rs (map (fun op => (POp 0 (fst op), snd op)) ops) = Ok (rs', outs) /\ rs' 0 = t
    | Panic => run treap_prog_step_c rs (map (fun op => (POp 0 (fst op), snd op)) ops) = Panic
    | Timeout => run treap_prog_step_c rs (map (fun op => (POp 0 (fst op), snd op)) ops) = Timeout
    end.
  Proof.
    induction ops as [|[o p] ops IH]; intros rs; [simpl; eauto|]. cbn [run map fst snd]. cbn [treap_prog_step_c].
    destruct (treap_step_c (rs 0) (o, p)) as [[t1 out]| |]; cbn [bind]; [|reflexivity..].
    specialize (IH (update rs 0 t1)). change (update rs 0 t1 0) with t1 in IH. destruct (run treap_step_c t1 ops) as [[t2 outs]| |]; cbn [bind].
    - destruct IH as (rs' & E & E0). exists rs'. rewrite E. auto.
    - now rewrite IH.
    - now rewrite IH.
  Qed.
  Lemma spec_run_one (ops : list (map_op K V)) : forall sp, snd (spec_run prog_spec_step sp (map (fun o => POp 0 o) ops)) = snd (spec_run map_spec_step (sp 0) ops).
  Proof.
    induction ops as [|o ops IH]; intros sp; [reflexivity|]. cbn [map spec_run prog_spec_step]. destruct (map_spec_step (sp 0) o) as [l out].
    specialize (IH (update sp 0 l)). change (update sp 0 l 0) with l in IH. destruct (spec_run prog_spec_step (update sp 0 l) (map (fun o => POp 0 o) ops)), (spec_run map_spec_step l ops).
    cbn [snd] in *. congruence.
  Qed.
  Lemma counts_one (ops : list (map_op K V)) : inserted (counts (map (fun o => POp 0 o) ops) 0) = insertions ops.
  Proof.
    unfold insertions, inserted, counts. do 2 f_equal.
    assert (E : forall rs, fold_left counts_step (map (fun o => POp 0 o) ops) rs 0 = fold_left insertions_step ops (rs 0)).
    { induction ops as [|o ops' IH]; intros rs; [reflexivity|]. cbn [map fold_left]. rewrite IH. reflexivity. }
    apply E.
  Qed.

  Lemma treap_rare (M : nat) (ops : list (map_op K V)) : 0 < M -> exists (maps : list N -> treap) (steps : list N -> list nat),
    (forall ps, length ps = length ops ->
       run treap_step_c Leaf (combine ops ps) = Ok (maps ps, combine (map_spec_outputs ops) (steps ps)) /\ length (steps ps) = length ops) /\
    (forall (i : nat) o s, nth_error ops i = Some o -> looks_up o = true -> let m := insertions (firstn i ops) in 2 * m <= M ->
       rarely_above M (length ops) s (4 * Nat.log2 (m + 2) + 2 * s + 3) (fun ps => nth i (steps ps) 0)) /\
    let m := insertions ops in 2 * m <= M ->
      (forall s, rarely_above M (length ops) s (3 * Nat.log2 (m + 2) + s + 2) (fun ps => depth (maps ps))) /\
      average_within M (length ops) (3 * Nat.log2 (m + 2) + 4) 0 (fun ps => depth (maps ps)).
  Proof.
    intros PM. destruct (prog_rare M (map (fun o => POp 0 o) ops) PM) as (maps & steps & R1 & R2 & R3). rewrite map_length in *.
    exists (fun ps => maps ps 0), steps. split; [|split].
    - intros ps El. destruct (R1 ps El) as [E1 E2]. split; [|exact E2].
      pose proof (run_one (combine ops ps) (fun _ => Leaf)) as X.
      assert (Ec : map (fun op => (POp 0 (fst op), snd op)) (combine ops ps) = combine (map (fun o : map_op K V => POp 0 o) ops) ps).
      { clear. revert ps. induction ops as [|o ops' IH]; intros [|p ps]; [reflexivity..|]. simpl. now rewrite IH. }
      rewrite Ec, E1 in X. destruct (run treap_step_c Leaf (combine ops ps)) as [[t outs]| |]; [|discriminate..].
      destruct X as (rs' & Er & E0). injection Er as <- <-. rewrite <- E0. unfold prog_spec_outputs, spec_outputs, map_spec_outputs. now rewrite spec_run_one.
    - intros i o s Eo Lo m LM. specialize (R2 i (POp 0 o) s). rewrite nth_error_map, Eo in R2. specialize (R2 eq_refl). cbn [firstn] in R2. cbv zeta in R2.
      rewrite firstn_map, counts_one in R2. exact (R2 Lo LM).
    - intros m LM. specialize (R3 0). cbv zeta in R3. rewrite counts_one in R3. exact (R3 LM).
  Qed.

  (** Histories that insert absent keys only *)
  Lemma treap_rare_fresh (M : nat) (ops : list (map_op K V)) : 0 < M -> inserts_absent [] ops -> exists (maps : list N -> treap) (steps : list N -> list nat),
    (forall ps, length ps = length ops ->
       run treap_step_c Leaf (combine ops ps) = Ok (maps ps, combine (map_spec_outputs ops) (steps ps)) /\ length (steps ps) = length ops) /\
    (forall (i : nat) o s n, nth_error ops i = Some o -> looks_up o = true -> nth_error (lengths_before [] ops) i = Some n -> 2 * n <= M ->
       rarely_above M (length ops) s (4 * Nat.log2 (n + 2) + 2 * s + 3) (fun ps => nth i (steps ps) 0)) /\
    let n := length (fst (spec_run map_spec_step [] ops)) in 2 * n <= M ->
      (forall s, rarely_above M (length ops) s (3 * Nat.log2 (n + 2) + s + 2) (fun ps => depth (maps ps))) /\
      average_within M (length ops) (3 * Nat.log2 (n + 2) + 4) 0 (fun ps => depth (maps ps)).
  Proof.
    intros PM Fr. destruct (treap_rare M ops PM) as (maps & steps & R1 & R2 & R3). exists maps, steps. split; [exact R1|]. split.
    - intros i o s n Eo Lo En LM. pose proof (insertions_fresh ops [] i n sorted_nil Fr En) as E. cbn [map] in E.
      specialize (R2 i o s Eo Lo). cbv zeta in R2. unfold insertions in R2. rewrite E in R2. exact (R2 LM).
    - intros n LM.
      assert (E : insertions ops = n).
      { (* one more call, at whose time all of [ops] are over *)
        assert (En : nth_error (lengths_before [] (ops ++ [MLen])) (length ops) = Some n).
        { rewrite lengths_before_app, nth_error_app2 by (rewrite lengths_before_length; lia). rewrite lengths_before_length, Nat.sub_diag. reflexivity. }
        assert (Fr' : inserts_absent [] (ops ++ [MLen])).
        { clear -Fr. revert Fr. generalize (@nil (K * V)). induction ops as [|o ops' IH]; intros l Fr; [split; exact Logic.I|]. destruct Fr as [F1 F2]. split; [exact F1 | now apply IH]. }
        pose proof (insertions_fresh (ops ++ [MLen]) [] (length ops) n sorted_nil Fr' En) as E. cbn [map] in E.
        rewrite firstn_app, Nat.sub_diag, firstn_all2, app_nil_r in E by lia. exact E. }
      cbv zeta in R3. rewrite E in R3. exact (R3 LM).
  Qed.
End OneMap.
