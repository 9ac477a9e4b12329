(** Proofs about TreapSeedModel.v: C68. *)
From Verif Require Export TreapSeedModel TreapProgCostProofs TreapListProgCostProofs RunLemmas KeyInstances.

(** ** A program with its generators is a program with some numbers drawn *)
Lemma map_seeded_plain {K V} `{Cmp K} (f : nat -> N) (ops : list (prog_op K V)) : forall rs g, exists ps, length ps = length ops /\
  outputs (map_seeded_step f) (rs, g) ops = outputs treap_prog_step_c rs (combine ops ps).
Proof.
  induction ops as [|o ops IH]; intros rs g; [now exists []|].
  set (p := match o with POp i _ => f (g i) | _ => 0%N end).
  destruct (treap_prog_step_c rs (o, p)) as [[rs1 out]| |] eqn:E.
  - destruct (IH rs1 (map_generators g o)) as (ps & L & X). exists (p :: ps). split; [simpl; now rewrite L|].
    unfold outputs in *. cbn [combine run map_seeded_step]. fold p. rewrite E. cbn [bind].
    destruct (run (map_seeded_step f) (rs1, map_generators g o) ops) as [[? ?]| |], (run treap_prog_step_c rs1 (combine ops ps)) as [[? ?]| |]; cbn [rmap bind snd] in *; congruence.
  - exists (p :: repeat 0%N (length ops)). split; [simpl; now rewrite repeat_length|]. unfold outputs. cbn [combine run map_seeded_step]. fold p. now rewrite E.
  - exists (p :: repeat 0%N (length ops)). split; [simpl; now rewrite repeat_length|]. unfold outputs. cbn [combine run map_seeded_step]. fold p. now rewrite E.
Qed.
Lemma list_seeded_plain {T} (f : nat -> N) (ops : list (sprog_op T)) : forall rs g, exists ps, length ps = length ops /\
  outputs (list_seeded_step f) (rs, g) ops = outputs tl_prog_step_c rs (combine ops ps).
Proof.
  induction ops as [|o ops IH]; intros rs g; [now exists []|].
  set (p := match o with QPOp i _ => f (g i) | _ => 0%N end).
  destruct (tl_prog_step_c rs (o, p)) as [[rs1 out]| |] eqn:E.
  - destruct (IH rs1 (list_generators g o)) as (ps & L & X). exists (p :: ps). split; [simpl; now rewrite L|].
    unfold outputs in *. cbn [combine run list_seeded_step]. fold p. rewrite E. cbn [bind].
    destruct (run (list_seeded_step f) (rs1, list_generators g o) ops) as [[? ?]| |], (run tl_prog_step_c rs1 (combine ops ps)) as [[? ?]| |]; cbn [rmap bind snd] in *; congruence.
  - exists (p :: repeat 0%N (length ops)). split; [simpl; now rewrite repeat_length|]. unfold outputs. cbn [combine run list_seeded_step]. fold p. now rewrite E.
  - exists (p :: repeat 0%N (length ops)). split; [simpl; now rewrite repeat_length|]. unfold outputs. cbn [combine run list_seeded_step]. fold p. now rewrite E.
Qed.
Lemma combine_fst {A B} (a : list A) (b : list B) : length a = length b -> map fst (combine a b) = a.
Proof. revert b. induction a as [|x a IH]; intros [|y b] L; try discriminate; [reflexivity|]. simpl. f_equal. apply IH. now injection L. Qed.
Lemma map_seeded_right (K V : Type) (C : Cmp K) (L : CmpLaws K) (f : nat -> N) (ops : list (prog_op K V)) :
  rmap (map fst) (outputs (map_seeded_step f) map_seeded ops) = Ok (prog_spec_outputs ops).
Proof.
  destruct (map_seeded_plain f ops (fun _ => Leaf) (fun _ => 0)) as (ps & Lp & E). unfold map_seeded. rewrite E.
  destruct (prog_steps_average 1 ops ltac:(lia)) as (steps & A & _). destruct (A ps Lp) as [A1 A2]. rewrite A1. cbn [rmap bind]. f_equal. apply combine_fst.
  rewrite A2. unfold prog_spec_outputs, spec_outputs. apply spec_run_length.
Qed.
Lemma list_seeded_right (T : Type) (f : nat -> N) (ops : list (sprog_op T)) :
  rmap (map fst) (outputs (list_seeded_step f) list_seeded ops) = Ok (sprog_spec_outputs ops).
Proof.
  destruct (list_seeded_plain f ops (fun _ => Leaf) (fun _ => 0)) as (ps & Lp & E). unfold list_seeded. rewrite E.
  destruct (lprog_steps_average 1 ops ltac:(lia)) as (steps & A & _). destruct (A ps Lp) as [A1 A2]. rewrite A1. cbn [rmap bind]. f_equal. apply combine_fst.
  rewrite A2. unfold sprog_spec_outputs, spec_outputs. apply spec_run_length.
Qed.

(** ** Maps with one key each, joined one after the other *)
Notation utree := (tree (N * nat) nat unit).
Fixpoint rchain (p : N) (ks : list nat) : utree :=
  match ks with [] => Leaf | k :: ks' => Node (p, 1 + length ks') Leaf (k, tt) (rchain p ks') end.
Lemma rchain_len p ks : t_len (rchain p ks) = length ks.
Proof. destruct ks; reflexivity. Qed.
Lemma rchain_size p ks : size (rchain p ks) = length ks.
Proof. induction ks; simpl; [reflexivity|]. now rewrite IHks. Qed.
Lemma rchain_union p k ks : Forall (fun x => x < k) ks -> forall fuel, length ks < fuel -> exists c, t_union_c fuel (rchain p ks) (rchain p [k]) false = Ok (rchain p (ks ++ [k]), c).
Proof.
  induction 1 as [|x ks Lx F IH]; intros [|fuel] Lf; cbn [length] in Lf; try lia; [now exists 0|].
  destruct (IH fuel ltac:(lia)) as [c E]. cbn [rchain t_union_c priority] in *. rewrite N.ltb_irrefl. cbn [t_split_c fst].
  assert (X : cmp x k = Lt) by (now apply Nat.compare_lt_iff). rewrite X.
  destruct fuel as [|fuel]; [lia|]. replace (t_union_c (S fuel) Leaf Leaf false) with (Ok (Leaf : utree, 0)) by reflexivity. cbn [bind].
  replace (t_upd p Leaf (k, tt) Leaf) with (Node (p, 1 + length (@nil nat)) Leaf (k, tt) (Leaf : utree)) by reflexivity. rewrite E. cbn [bind t_entry].
  eexists. f_equal. f_equal. unfold t_upd. rewrite rchain_len. cbn [app t_len rchain]. reflexivity.
Qed.
Lemma rchain_search p ks k : Forall (fun x => x < k) ks -> search_steps (rchain p (ks ++ [k])) k = 2 * S (length ks).
Proof.
  induction 1 as [|x ks Lx F IH]; simpl.
  - now rewrite Nat.compare_refl.
  - assert (X : cmp k x = Gt) by (now apply Nat.compare_gt_iff). change (Nat.compare k x) with (cmp k x). rewrite X, IH. simpl. lia.
Qed.

Definition joins (n : nat) : list (prog_op nat unit) := flat_map (fun k => [POp 1 (MInsert k tt); PSet SUnion 0 0 1]) (seq 0 n).
Lemma joins_S n : joins (S n) = joins n ++ [POp 1 (MInsert n tt); PSet SUnion 0 0 1].
Proof. unfold joins. rewrite seq_S, flat_map_app. reflexivity. Qed.
Lemma seq_below n k : n <= k -> Forall (fun x => x < k) (seq 0 n).
Proof. intros L. apply Forall_forall. intros x X. apply in_seq in X. lia. Qed.
Lemma joins_run (f : nat -> N) n : exists rs g outs, run (map_seeded_step f) map_seeded (joins n) = Ok ((rs, g), outs) /\ rs 0 = rchain (f 0) (seq 0 n) /\ rs 1 = Leaf /\ g 1 = 0.
Proof.
  induction n as [|n IH].
  - exists (fun _ => Leaf), (fun _ => 0), []. repeat split.
  - destruct IH as (rs & g & outs & E & E0 & E1 & Eg). rewrite joins_S.
    destruct (rchain_union (f 0) n (seq 0 n) (seq_below n n (le_n n)) (t_fuel (rchain (f 0) (seq 0 n)) (rchain (f 0) [n]))) as [c U].
    { unfold t_fuel. rewrite !rchain_size. simpl. lia. }
    assert (X : run (map_seeded_step f) (rs, g) [POp 1 (MInsert n tt); PSet SUnion 0 0 1] =
      Ok ((update (update (update (update rs 1 (rchain (f 0) [n])) 0 Leaf) 1 Leaf) 0 (rchain (f 0) (seq 0 (S n))), map_generators (map_generators g (POp 1 (MInsert n tt))) (PSet SUnion 0 0 1 : prog_op nat unit)), [(RPair None, 0); (RUnit, c)])).
    { cbn [run map_seeded_step treap_prog_step_c treap_step_c fst snd t_insert_c]. rewrite E1, Eg. cbn [t_insert_c bind].
      change (Node (f 0, 1) Leaf (n, tt) Leaf) with (rchain (f 0) [n]). cbn [map_seeded_step treap_prog_step_c]. change (update rs 1 (rchain (f 0) [n]) 0) with (rs 0).
      change (update (update rs 1 (rchain (f 0) [n])) 0 Leaf 1) with (rchain (f 0) [n]). rewrite E0. cbn [t_set_op_c]. rewrite U, seq_S. reflexivity. }
    eexists _, _, _. split; [exact (run_app_ok _ _ _ _ _ _ _ _ E X)|]. repeat split.
Qed.

Lemma above_all {W} k (m : list (nat * W)) : (forall x, In x m -> k < fst x) -> below k m = [] /\ above k m = m.
Proof.
  induction m as [|x m IH]; intros A; [now split|]. destruct IH as [B1 B2]; [intros y i; apply A; now right|].
  assert (X : cmp (fst x) k = Gt) by (apply Nat.compare_gt_iff; apply A; now left). unfold below, above in *. cbn [filter]. rewrite X. cbn. now rewrite B1, B2.
Qed.
Lemma union_seq n len : forall a, a + len <= n -> fold_right insert_pair [(n, 1)] (map (fun k => (k, 1)) (seq a len)) = map (fun k => (k, 1)) (seq a len) ++ [(n, 1)].
Proof.
  induction len as [|len IH]; intros a L; [reflexivity|]. cbn [seq map fold_right]. rewrite IH by lia. unfold insert_pair. cbn [fst].
  destruct (above_all a (map (fun k => (k, 1)) (seq (S a) len) ++ [(n, 1)])) as [B1 B2].
  - intros x. rewrite in_app_iff, in_map_iff. intros [(y & <- & X)|[<-|[]]]; [apply in_seq in X|]; simpl; lia.
  - now rewrite B1, B2.
Qed.
Lemma joins_counts n : counts (joins n) 0 = map (fun k => (k, 1)) (seq 0 n) /\ counts (joins n) 1 = [].
Proof.
  unfold counts. induction n as [|n [IH0 IH1]]; [now split|]. rewrite joins_S, fold_left_app. set (c := fold_left counts_step (joins n) (fun _ => [])) in *.
  cbn [fold_left counts_step]. change (update (update (update (update c 1 (insertions_step (c 1) (MInsert n tt))) 0 []) 1 []) 0
    (set_with Nat.add SUnion (update c 1 (insertions_step (c 1) (MInsert n tt)) 0) (update (update c 1 (insertions_step (c 1) (MInsert n tt))) 0 [] 1)) 0)
    with (set_with Nat.add SUnion (c 0) (insertions_step (c 1) (MInsert n tt))). split; [|reflexivity].
  rewrite IH0, IH1. cbn [insertions_step below above at_key filter app]. cbn [set_with spec_union].
  rewrite (map_ext_in _ (fun x => x)), map_id.
  - unfold spec_union. rewrite union_seq by lia. now rewrite seq_S, map_app.
  - intros x X. apply in_map_iff in X as (y & <- & X). apply in_seq in X. unfold joined, at_key. cbn [fst snd filter].
    assert (E : cmp n y = Gt) by (apply Nat.compare_gt_iff; lia). now rewrite E.
Qed.
Lemma inserted_ones l : inserted (map (fun k : nat => (k, 1)) l) = length l.
Proof. unfold inserted, list_sum. induction l; simpl; [reflexivity|]. now rewrite <- IHl. Qed.

Lemma map_seeded_slow (f : nat -> N) (n : nat) : exists (ops : list (prog_op nat unit)) outs out steps,
  outputs (map_seeded_step f) map_seeded (ops ++ [POp 0 (MGet n)]) = Ok (outs ++ [(out, steps)]) /\
  inserted (counts ops 0) = S n /\ S n <= steps.
Proof.
  destruct (joins_run f (S n)) as (rs & g & outs & E & E0 & _ & _).
  exists (joins (S n)), outs, (RVal (option_map snd (bst_get (rs 0) n))), (search_steps (rs 0) n). split; [|split].
  - apply (outputs_app _ _ _ _ _ _ _ E). reflexivity.
  - destruct (joins_counts (S n)) as [-> _]. now rewrite inserted_ones, seq_length.
  - rewrite E0, seq_S. rewrite rchain_search by (apply seq_below; lia). rewrite seq_length. lia.
Qed.

(** ** Lists with one element each, joined one after the other *)
Notation vtree := (tree (N * nat) unit unit).
Fixpoint lchain (p : N) (n : nat) : vtree := match n with O => Leaf | S n => Node (p, S n) (lchain p n) (tt, tt) Leaf end.
Lemma lchain_len p n : t_len (lchain p n) = n.
Proof. now destruct n. Qed.
Lemma lchain_get p n : i_get_steps (lchain p (S n)) 1 = 2 * S n.
Proof.
  induction n as [|n IH]; [reflexivity|]. remember (S n) as m eqn:Em. cbn [lchain i_get_steps]. unfold ikey. rewrite lchain_len.
  assert (X : (1 ?= m + 1) = Lt) by (apply Nat.compare_lt_iff; lia). rewrite X, IH. lia.
Qed.

Lemma lchain_value p n : i_get (lchain p (S n)) 1 = Ok (Some tt).
Proof.
  induction n as [|n IH]; [reflexivity|]. remember (S n) as m eqn:Em. cbn [lchain i_get]. unfold ikey. rewrite lchain_len.
  assert (X : (1 ?= m + 1) = Lt) by (apply Nat.compare_lt_iff; lia). rewrite X. exact IH.
Qed.

Definition ljoins (n : nat) : list (sprog_op unit) := flat_map (fun _ => [QPOp 1 (QPushBack tt); QPAdd 0 0 1]) (seq 0 n).
Lemma ljoins_S n : ljoins (S n) = ljoins n ++ [QPOp 1 (QPushBack tt); QPAdd 0 0 1].
Proof. unfold ljoins. rewrite seq_S, flat_map_app. reflexivity. Qed.
Lemma lchain_merge p n : exists c, t_merge_c (lchain p n) (Node (p, 1) Leaf (tt, tt) Leaf) = (lchain p (S n), c).
Proof.
  destruct n as [|n]; [now exists 0|]. exists 1. cbn [lchain t_merge_c]. rewrite N.ltb_irrefl. unfold t_upd. cbn [t_len]. do 3 f_equal. lia.
Qed.
Lemma ljoins_run (f : nat -> N) n : exists rs g outs, run (list_seeded_step f) list_seeded (ljoins n) = Ok ((rs, g), outs) /\ rs 0 = lchain (f 0) n /\ rs 1 = Leaf /\ g 1 = 0.
Proof.
  induction n as [|n IH].
  - exists (fun _ => Leaf), (fun _ => 0), []. repeat split.
  - destruct IH as (rs & g & outs & E & E0 & E1 & Eg). rewrite ljoins_S. destruct (lchain_merge (f 0) n) as [c U].
    set (x := Node (f 0, 1) Leaf (tt, tt) Leaf : vtree).
    assert (X : run (list_seeded_step f) (rs, g) [QPOp 1 (QPushBack tt); QPAdd 0 0 1] =
      Ok ((update (update (update (update rs 1 x) 0 Leaf) 1 Leaf) 0 (lchain (f 0) (S n)), list_generators (list_generators g (QPOp 1 (QPushBack tt))) (QPAdd 0 0 1 : sprog_op unit)), [(QDone (Ok tt), 0); (QDone (Ok tt), c)])).
    { cbn [run list_seeded_step tl_prog_step_c tl_step_c fst snd]. rewrite E1, Eg. replace (tl_insert_c (Leaf : vtree) (t_len (Leaf : vtree)) tt (f 0)) with (Ok (x, (QDone (Ok tt) : seq_out unit, 0))) by reflexivity.
      cbn [bind list_seeded_step tl_prog_step_c]. change (update rs 1 x 0) with (rs 0). change (update (update rs 1 x) 0 Leaf 1) with x. rewrite E0. fold x in U. rewrite U. reflexivity. }
    eexists _, _, _. split; [exact (run_app_ok _ _ _ _ _ _ _ _ E X)|]. repeat split.
Qed.
Lemma ljoins_length n : length (fst (spec_run sprog_spec_step (fun _ => []) (ljoins n)) 0) = n /\ fst (spec_run sprog_spec_step (fun _ => []) (ljoins n)) 1 = [].
Proof.
  induction n as [|n IH]; [now split|]. rewrite ljoins_S.
  assert (A : forall (ops ops' : list (sprog_op unit)) st, fst (spec_run sprog_spec_step st (ops ++ ops')) = fst (spec_run sprog_spec_step (fst (spec_run sprog_spec_step st ops)) ops')).
  { induction ops as [|o ops IHo]; intros ops' st; [reflexivity|]. cbn [app spec_run]. destruct (sprog_spec_step st o) as [s1 r]. specialize (IHo ops' s1).
    destruct (spec_run sprog_spec_step s1 (ops ++ ops')), (spec_run sprog_spec_step s1 ops). exact IHo. }
  rewrite A. destruct IH as [I0 I1]. set (st := fst (spec_run sprog_spec_step (fun _ => []) (ljoins n))) in *. cbn [spec_run sprog_spec_step seq_spec_step]. rewrite I1.
  split; [|reflexivity]. cbn [fst]. change (length (st 0 ++ [tt]) = S n). rewrite app_length, I0. simpl. lia.
Qed.
Lemma list_seeded_slow (f : nat -> N) (n : nat) : exists (ops : list (sprog_op unit)) outs out steps,
  outputs (list_seeded_step f) list_seeded (ops ++ [QPOp 0 (QGet 0)]) = Ok (outs ++ [(out, steps)]) /\
  length (fst (spec_run sprog_spec_step (fun _ => []) ops) 0) = S n /\ S n <= steps.
Proof.
  destruct (ljoins_run f (S n)) as (rs & g & outs & E & E0 & _ & _).
  exists (ljoins (S n)), outs, (QOpt (Some tt)), (i_get_steps (rs 0) 1). split; [|split].
  - apply (outputs_app _ _ _ _ _ _ _ E). unfold outputs. cbn [run list_seeded_step tl_prog_step_c tl_step_c tl_step fst snd Nat.add].
    rewrite E0, lchain_value. reflexivity.
  - apply ljoins_length.
  - rewrite E0, lchain_get. lia.
Qed.
