(** Proofs about SkipListProgCostModel.v: C71. *)
From Verif Require Export SkipListProgCostModel SkipListCostProofs TreapListProgCostProofs TreapSeedProofs.

Section SkipListProg.
  Context {T : Type}.
  Notation link := (option nat * nat)%type.
  Notation hp := (heap T link).
  Notation item := (sitem T).
  Implicit Types (h : hp) (X Y P Q R : list item) (m : skip_list T).

  (** ** Counting changes nothing *)
  Lemma tails_loop_c_fst fuel : forall h cur i tails, rmap fst (tails_loop_c fuel h cur i tails) = tails_loop fuel h cur i tails.
  Proof.
    induction fuel as [|f IH]; intros h cur i tails; [reflexivity|]. cbn [tails_loop_c tails_loop]. destruct (get_link h cur i) as [[[y|] d]| |]; try reflexivity; cbn [bind fst].
    - rewrite <- IH. now destruct (tails_loop_c f h y i tails) as [[? ?]| |].
    - destruct i as [|i]; [reflexivity|]. rewrite <- IH. now destruct (tails_loop_c f h cur i (list_set tails (S i) cur)) as [[? ?]| |].
  Qed.
  Lemma slist_add_c_fst (a b : skip_list T) : rmap fst (slist_add_c a b) = rmap fst (slist_add a b).
  Proof.
    unfold slist_add_c, slist_add. rewrite <- tails_loop_c_fst. destruct (tails_loop_c _ _ _ _ _) as [[t c]| |]; try reflexivity. cbn [rmap bind fst].
    destruct (join_loop _ _ _ _) as [h| |]; try reflexivity. cbn [bind]. now destruct (ldrop h _) as [[? ?]| |].
  Qed.
  Lemma slist_prog_step_c_fst rs (op : sprog_op T * N) : rmap (fun r => (fst r, fst (snd r))) (slist_prog_step_c rs op) = slist_prog_step rs op.
  Proof.
    destruct op as [[i o|c i j] d]; cbn [slist_prog_step_c slist_prog_step].
    - rewrite <- slist_step_c_fst. now destruct (slist_step_c (rs i) (o, d)) as [[? ?]| |].
    - pose proof (slist_add_c_fst (rs i) (update rs i slist_new j)) as E.
      destruct (slist_add_c _ _) as [[? ?]| |], (slist_add _ _) as [[? ?]| |]; try discriminate; cbn [rmap bind fst snd] in *; congruence.
  Qed.

  (** ** The walk to the end *)
  Definition ends (i : nat) Q : nat := S i + tall i (hs Q) + total (fun j => run_at j (rev (hs Q))) (seq 0 i).
  Lemma run_at_over j l y r : j < y -> run_at j (l ++ y :: r) = run_at j l.
  Proof.
    intros L. induction l as [|x l IH]; cbn [app run_at].
    - now rewrite (proj2 (Nat.ltb_lt _ _) L).
    - now rewrite IH.
  Qed.
  Lemma ends_down i Q : low (S i) Q -> ends (S i) Q = 1 + ends i Q.
  Proof. intros L. unfold ends. rewrite (tall_low _ _ L), total_seq, (run_cut i Q [] Q eq_refl L (or_introl eq_refl)). lia. Qed.
  Lemma ends_move i R y B : low i R -> i <= ht y -> ends i (R ++ y :: B) = 1 + ends i B.
  Proof.
    intros L Ly. unfold ends. unfold hs at 1. rewrite map_app, tall_app. fold (hs R). rewrite (tall_low _ _ L). cbn [map]. rewrite tall_cons, (proj2 (Nat.leb_le _ _) Ly).
    fold (hs B). rewrite (total_ext (fun j => run_at j (rev (hs (R ++ y :: B)))) (fun j => run_at j (rev (hs B)))); [cbn [b2n]; lia|].
    intros j ij. apply in_seq in ij. unfold hs. rewrite map_app. cbn [map]. rewrite rev_app_distr. cbn [rev]. rewrite <- app_assoc. apply run_at_over. lia.
  Qed.
  Lemma tails_c_count h k X g (e : nat -> nat) : srep h X g -> (forall i, i <= 32 -> links_ok g i (e i) 0 X) ->
    forall fuel i P Q tails, i <= 32 -> X = P ++ Q -> length Q + i < fuel ->
    (forall j, j <= i -> last_at j 0 P = last_at i 0 P) ->
    rmap snd (tails_loop_c fuel (h ++ k) (last_at i 0 P) i tails) = Ok (ends i Q).
  Proof.
    intros Rp HL. induction fuel as [|fuel IH]; intros i P Q tails Hi EX Hf HP; [lia|]. cbn [tails_loop_c].
    assert (O : onlevel X (last_at i 0 P) i) by (apply last_at_onlevel; auto; subst X; intros z Hz; apply in_app_iff; auto).
    rewrite get_link_l by (eapply onlevel_lt; eauto). rewrite (get_link_ok _ _ _ _ _ Rp O). cbn [bind].
    pose proof (HL i Hi) as L. rewrite EX in L. rewrite (links_last _ _ _ _ _ L). cbn [fst].
    destruct (first_cases i Q) as [LQ|(R & y & B & EQ & HR & Hy)].
    - rewrite (first_low _ _ _ LQ). cbn [fst]. destruct i as [|i].
      + unfold ends. rewrite (tall_low _ _ LQ). reflexivity.
      + rewrite (ends_down i Q LQ), <- (HP i ltac:(lia)).
        specialize (IH i P Q (list_set tails (S i) (last_at i 0 P)) ltac:(lia) EX ltac:(lia)).
        destruct (tails_loop_c fuel (h ++ k) (last_at i 0 P) i _) as [[r c]| |]; cbn [rmap bind snd] in *; try (specialize (IH ltac:(intros j Hj; rewrite (HP j) by lia; symmetry; apply HP; lia)); discriminate).
        assert (Ok c = Ok (ends i Q)) as Ec by (apply IH; intros j Hj; rewrite (HP j) by lia; symmetry; apply HP; lia). injection Ec as ->. reflexivity.
    - rewrite EQ, (first_tall _ _ _ _ _ HR Hy), (ends_move i R y B HR Hy). cbn [fst].
      assert (LY : forall j, j <= i -> last_at j 0 (P ++ R ++ [y]) = ad y).
      { intros j Hj. rewrite !last_at_app. cbn [last_at]. now rewrite (proj2 (Nat.leb_le _ _)) by lia. }
      rewrite <- (LY i (le_n i)). assert (Q1 : rmap snd (tails_loop_c fuel (h ++ k) (last_at i 0 (P ++ R ++ [y])) i tails) = Ok (ends i B)).
      { apply (IH i (P ++ R ++ [y]) B); auto.
        + rewrite EX, EQ, <- !app_assoc. reflexivity.
        + rewrite EQ, app_length in Hf. cbn [length] in Hf. lia.
        + intros j Hj. now rewrite !LY by lia. }
      destruct (tails_loop_c fuel (h ++ k) _ i tails) as [[r c]| |]; try discriminate. cbn [rmap bind snd] in *. injection Q1 as ->. reflexivity.
  Qed.
  Lemma slist_add_c_ok w1 w2 m1 m2 X Y : sl_at w1 m1 X -> sl_at w2 m2 Y -> w1 = false \/ Y = [] ->
    exists m Y', slist_add_c m1 m2 = Ok (m, 66 + passes 32 (rev (hs X))) /\ sl_at (w1 || w2) m (X ++ Y') /\ map dt Y' = map dt Y /\ hs Y' = hs Y.
  Proof.
    intros A1 A2 HW. destruct (slist_add_at _ _ _ _ _ _ A1 A2 HW) as (m & Y' & E & A & D & Ht). exists m, Y'. split; [|auto].
    destruct A1 as (g1 & e1 & (R1 & E1 & L1) & N1 & W1).
    pose proof (tails_c_count (sl_heap m1) (mv (length (sl_heap m1)) (sl_heap m2)) X g1 e1 R1 L1
      (S (length (sl_heap m1 ++ mv (length (sl_heap m1)) (sl_heap m2)) + S max_height)) 32 [] X (repeat 0 33) (le_n 32) eq_refl) as Q.
    destruct (tails_ok (sl_heap m1) (mv (length (sl_heap m1)) (sl_heap m2)) X g1 e1 R1 L1
      (S (length (sl_heap m1 ++ mv (length (sl_heap m1)) (sl_heap m2)) + S max_height)) 32 [] X (repeat 0 33)) as (tails & ET & LT & _); auto.
    { pose proof (srep_length _ _ _ R1). rewrite app_length. unfold max_height. lia. }
    assert (Hf : length X + 32 < S (length (sl_heap m1 ++ mv (length (sl_heap m1)) (sl_heap m2)) + S max_height)).
    { pose proof (srep_length _ _ _ R1). rewrite app_length. unfold max_height. lia. }
    specialize (Q Hf (fun _ _ => eq_refl)). cbn [last_at] in *. rewrite <- tails_loop_c_fst in ET.
    pose proof (slist_add_c_fst m1 m2) as F. rewrite E in F. unfold slist_add_c in *. fold (mv (length (sl_heap m1)) (sl_heap m2)) in *.
    change (S max_height) with 33 in *. change max_height with 32 in *.
    destruct (tails_loop_c _ _ 0 32 (repeat 0 33)) as [[t c]| |]; try discriminate. cbn [rmap bind fst snd] in *. injection ET as ->. injection Q as ->.
    destruct (join_loop _ _ _ _) as [h| |]; try discriminate. cbn [bind] in *. destruct (ldrop h _) as [[h2 vs]| |]; try discriminate. cbn [bind fst] in *.
    injection F as ->. rewrite LT. unfold ends, passes. do 2 f_equal.
    assert (Tr : tall 32 (hs X) = tall 32 (rev (hs X))); [|lia].
    unfold tall. clear. induction (hs X) as [|x l IH]; [reflexivity|]. cbn [rev filter]. rewrite filter_app, app_length, <- IH. cbn [filter]. destruct (32 <=? x); cbn [length]; lia.
  Qed.

  (** ** Programs *)
  Notation hq ps := (map (fun d => height_of (nth d ps 0%N))).
  Definition slbound (ps : list N) (r : nat -> list nat) (o : sprog_op T) : nat :=
    match o with
    | QPOp i o => cost_bound o (hq ps (r i))
    | QPAdd d i j => 66 + passes 32 (rev (hq ps (r i)))
    end.
  Definition slrel ps (ws : nat -> bool) (rs : nat -> skip_list T) (sp : nat -> list T) (r : nat -> list nat) : Prop :=
    forall u, exists X, sl_at (ws u) (rs u) X /\ map dt X = sp u /\ hs X = hq ps (r u).
  Lemma slrel_update ps ws rs sp r i w m X l : slrel ps ws rs sp r -> sl_at w m X -> hs X = hq ps l ->
    slrel ps (update ws i w) (update rs i m) (update sp i (map dt X)) (update r i l).
  Proof. intros R A E u. unfold update. destruct (u =? i); [now exists X|apply R]. Qed.
  Lemma slrel_length ps ws rs sp r u : slrel ps ws rs sp r -> length (sp u) = length (r u).
  Proof. intros R. destruct (R u) as (X & _ & D & E). rewrite <- D, map_length, <- (hs_length X), E. apply map_length. Qed.

  Lemma slist_prog_run_c ps : forall ops qs n ws r (rs : nat -> skip_list T) sp, length qs = length ops -> (forall j, j < length ops -> nth j qs 0%N = nth (n + j) ps 0%N) ->
    slrel ps ws rs sp r -> joins_fresh sp ws ops = true ->
    exists rs' outs, run slist_prog_step_c rs (combine ops qs) = Ok (rs', outs) /\ map fst outs = snd (spec_run sprog_spec_step sp ops) /\
      forall q o, nth_error ops q = Some o -> lbounded o = true -> nth q (map snd outs) 0 <= slbound ps (ptags n r (firstn q ops)) o.
  Proof.
    induction ops as [|o ops IH]; intros [|q qs] n ws r rs sp El En R HF; try discriminate.
    - exists rs, []. repeat split. intros [|i] ? X; discriminate X.
    - pose proof (En 0 ltac:(simpl; lia)) as E0. rewrite Nat.add_0_r in E0. cbn [nth] in E0. subst q. cbn [joins_fresh] in HF.
      assert (St : exists rs1 ws1 c, slist_prog_step_c rs (o, nth n ps 0%N) = Ok (rs1, (snd (sprog_spec_step sp o), c)) /\
        slrel ps ws1 rs1 (fst (sprog_spec_step sp o)) (ptags_step n r o) /\ joins_fresh (fst (sprog_spec_step sp o)) ws1 ops = true /\
        (lbounded o = true -> c <= slbound ps r o)).
      { destruct o as [i o|d i j]; cbn [slist_prog_step_c sprog_spec_step ptags_step lbounded slbound] in *.
        - destruct (R i) as (X & A & D & Hx). destruct (slist_step_c_ok (ws i) (rs i) X o (nth n ps 0%N) A) as (m1 & X1 & c & E1 & A1 & V1 & P1 & B1 & _).
          rewrite E1. cbn [bind]. rewrite <- D in *. destruct (seq_spec_step (map dt X) o) as [l out]. cbn [fst snd] in *. eexists _, _, c. split; [reflexivity|]. split; [|split; [exact HF|]].
          + rewrite <- V1. apply slrel_update; auto. rewrite P1, Hx. symmetry. apply (seq_step_map (fun d => height_of (nth d ps 0%N))).
          + now rewrite <- Hx.
        - cbv zeta in *. apply andb_true_iff in HF as [HF1 HF2]. cbn [fst snd] in *. destruct (R i) as (X & A & D & Hx).
          assert (R1 : slrel ps (update ws i false) (update rs i slist_new) (update sp i []) (update r i [])) by (apply (slrel_update ps ws rs sp r i false slist_new [] []); auto; apply slist_at_new).
          assert (R2 : slrel ps (update (update ws i false) j false) (update (update rs i slist_new) j slist_new) (update (update sp i []) j []) (update (update r i []) j []))
            by (apply (slrel_update ps _ _ _ _ j false slist_new [] []); auto; apply slist_at_new).
          destruct (R1 j) as (Y & A' & D' & Hy). rewrite <- D, <- D' in *.
          destruct (slist_add_c_ok _ _ _ _ X Y A A') as (m & Y' & E & A2 & D2 & H2).
          { apply orb_true_iff in HF1 as [HF1|HF1]; [left; now apply negb_true_iff|right]. apply Nat.eqb_eq in HF1. rewrite map_length in HF1. now apply length_zero_iff_nil. }
          rewrite E. cbn [bind]. eexists _, _, _. split; [reflexivity|]. split; [|split; [exact HF2|]].
          + rewrite <- D2, <- map_app. apply slrel_update; auto. unfold hs. rewrite map_app. fold (hs X) (hs Y'). now rewrite H2, Hx, Hy, map_app.
          + intros _. rewrite Hx. lia. }
      destruct St as (rs1 & ws1 & c & E1 & R1 & HF1 & B1).
      destruct (IH qs (S n) ws1 (ptags_step n r o) rs1 (fst (sprog_spec_step sp o))) as (rs2 & outs & E2 & E3 & E4); auto.
      + intros j Lj. rewrite Nat.add_succ_comm. apply (En (S j)). simpl. lia.
      + eexists _, _. split; [cbn [combine run]; rewrite E1; cbn [bind]; rewrite E2; reflexivity|]. split.
        * cbn [map fst spec_run]. rewrite E3. destruct (sprog_spec_step sp o) as [l1 r1]. cbn [fst snd]. now destruct (spec_run sprog_spec_step l1 ops).
        * intros [|i] o' Eo Bo.
          -- injection Eo as <-. cbn [map nth firstn ptags]. auto.
          -- cbn [map nth firstn ptags]. now apply E4.
  Qed.
  Lemma slrel_new ps : slrel ps (fun _ => false) (fun _ => slist_new) (fun _ => []) (fun _ => []).
  Proof. intros u. exists []. split; [apply slist_at_new|auto]. Qed.

  (** ** Averages *)
  (** Each call moves to nodes whose heights were drawn by different calls. *)
  Lemma slist_prog_bound (ops : list (sprog_op T)) : joins_fresh (fun _ => []) (fun _ => false) ops = true -> exists steps : list N -> list nat,
    (forall ps, length ps = length ops ->
       outputs slist_prog_step_c (fun _ => slist_new) (combine ops ps) = Ok (combine (sprog_spec_outputs ops) (steps ps)) /\ length (steps ps) = length ops) /\
    forall q o, nth_error ops q = Some o -> lbounded o = true -> let st := fst (spec_run sprog_spec_step (fun _ => []) (firstn q ops)) in
      let (i, c) := match o with QPOp i _ => (i, 65) | QPAdd _ i _ => (i, 66) end in
      exists W, NoDup W /\ (forall w, In w W -> w < length ops) /\ length W <= length (st i) /\
        forall ps, length ps = length ops -> nth q (steps ps) 0 <= c + passes 32 (hq ps W).
  Proof.
    intros HF.
    set (steps := fun ps => match run slist_prog_step_c (fun _ => slist_new : skip_list T) (combine ops ps) with Ok (_, outs) => map snd outs | _ => [] end).
    exists steps.
    assert (A : forall ps, length ps = length ops -> outputs slist_prog_step_c (fun _ => slist_new) (combine ops ps) = Ok (combine (sprog_spec_outputs ops) (steps ps)) /\
      length (steps ps) = length ops /\
      forall q o, nth_error ops q = Some o -> lbounded o = true -> nth q (steps ps) 0 <= slbound ps (ptags 0 (fun _ => []) (firstn q ops)) o).
    { intros ps El. destruct (slist_prog_run_c ps ops ps 0 (fun _ => false) (fun _ => []) (fun _ => slist_new) (fun _ => [])) as (rs' & outs & E1 & E2 & E3); auto using slrel_new.
      unfold outputs, steps. rewrite E1. simpl rmap. split; [|split; [|exact E3]].
      - f_equal. unfold sprog_spec_outputs, spec_outputs. rewrite <- E2. clear. induction outs as [|[a c] outs IH]; simpl; congruence.
      - rewrite map_length, <- (map_length fst outs), E2. apply spec_run_length. }
    split; [intros ps El; destruct (A ps El) as (A1 & A2 & _); auto|]. intros q o Eq Lb st.
    assert (Lq : q < length ops) by (apply nth_error_Some; congruence).
    destruct (ptags_all (firstn q ops) 0 (fun _ => []) (fun _ => [])) as [B Ec]; [split; [intros i; split; [constructor | intros ? []] | intros i j w []] | reflexivity |].
    simpl in B. rewrite firstn_length_le in B by lia. fold st in Ec. set (r := ptags 0 (fun _ => []) (firstn q ops)) in *.
    assert (Bd : forall ps, length ps = length ops -> nth q (steps ps) 0 <= slbound ps r o).
    { intros ps Ep. destruct (A ps Ep) as (_ & _ & A3). now apply A3. }
    destruct B as [B _]. clearbody st. clear A HF.
    assert (G : forall c i a, (forall ps, length ps = length ops -> nth q (steps ps) 0 <= c + passes 32 (rev (hq ps (firstn a (r i))))) ->
      exists W, NoDup W /\ (forall w, In w W -> w < length ops) /\ length W <= length (st i) /\ forall ps, length ps = length ops -> nth q (steps ps) 0 <= c + passes 32 (hq ps W)).
    { intros c i a Bd'. destruct (B i) as [D L]. exists (rev (firstn a (r i))). split; [|split; [|split]].
      - apply NoDup_rev. rewrite <- (firstn_skipn a (r i)) in D. now apply nodup_parts in D.
      - intros w X. apply in_rev in X. enough (w < q) by lia. apply L. rewrite <- (firstn_skipn a (r i)). apply in_app_iff. auto.
      - rewrite rev_length, firstn_length, <- Ec. lia.
      - intros ps Ep. rewrite map_rev. auto. }
    destruct o as [i o|d i j].
    - apply (G 65 i (fst (place o (length (r i))))). intros ps Ep. specialize (Bd ps Ep). cbn [slbound] in Bd. unfold cost_bound in Bd.
      rewrite map_length, firstn_map in Bd. exact Bd.
    - apply (G 66 i (length (r i))). intros ps Ep. specialize (Bd ps Ep). cbn [slbound] in Bd. now rewrite firstn_all.
  Qed.
  Lemma slist_prog_average (M : nat) (ops : list (sprog_op T)) : N.of_nat M = two32 -> joins_fresh (fun _ => []) (fun _ => false) ops = true -> exists steps : list N -> list nat,
    (forall ps, length ps = length ops ->
       outputs slist_prog_step_c (fun _ => slist_new) (combine ops ps) = Ok (combine (sprog_spec_outputs ops) (steps ps)) /\ length (steps ps) = length ops) /\
    forall q o, nth_error ops q = Some o -> let st := fst (spec_run sprog_spec_step (fun _ => []) (firstn q ops)) in
      match o with
      | QPOp i o' => let n := length (st i) in (N.of_nat n < two32)%N -> seeks o' = true -> average_within M (length ops) (Nat.log2 n + 67) 0 (fun ps => nth q (steps ps) 0)
      | QPAdd _ i _ => let n := length (st i) in (N.of_nat n < two32)%N -> average_within M (length ops) (Nat.log2 n + 68) 0 (fun ps => nth q (steps ps) 0)
      end.
  Proof.
    intros EM HF. destruct (slist_prog_bound ops HF) as (steps & A & B). exists steps. split; [exact A|]. intros q o Eq st. specialize (B q o Eq). fold st in B. unfold average_within.
    assert (G : forall c (n : nat), (N.of_nat n < two32)%N -> (exists W, NoDup W /\ (forall w, In w W -> w < length ops) /\ length W <= n /\
        forall ps, length ps = length ops -> nth q (steps ps) 0 <= c + passes 32 (hq ps W)) ->
      M * total (fun ps => nth q (steps ps) 0) (draws M (length ops)) <= M ^ length ops * (M * (Nat.log2 n + (c + 2)) + 0)).
    { intros c n Ln (W & Nd & Lt & Lw & Bd). destruct (log_small n Ln) as [S3 S1].
      pose proof (passes_places M EM (length ops) W (S (Nat.log2 n)) Nd Lt S3 ltac:(lia)) as PP.
      assert (Le : total (fun ps => nth q (steps ps) 0) (draws M (length ops)) <= M ^ length ops * (Nat.log2 n + (c + 2))).
      { eapply Nat.le_trans; [apply total_le with (g := fun ps => c + passes (S (Nat.log2 n)) (hq ps W))|].
        - intros ps ip. apply draws_in in ip as [El _]. eapply Nat.le_trans; [exact (Bd ps El)|]. apply Nat.add_le_mono_l. now apply passes_less.
        - rewrite total_plus, total_const, draws_length. lia. }
      apply (Nat.mul_le_mono_l _ _ M) in Le. lia. }
    destruct o as [i o|d i j]; cbv zeta; intros Ln.
    - intros So. exact (G 65 _ Ln (B So)).
    - exact (G 66 _ Ln (B eq_refl)).
  Qed.
End SkipListProg.
