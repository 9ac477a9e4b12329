(** Concrete histories for PropertiesLsmSpace.v *)
From Verif Require Import ListLemmas RunLemmas.
From Verif Require Export LsmMemProofs SizeTieredSpaceProofs LeveledSpaceProofs SizeTieredInstances.

(** Every flush compacts; a table of one entry is too large already. *)
Definition litter_cfg : lconfig := mkLc 100 0 40 3 3.
Fixpoint litter_ops (n : nat) : list (lsm_op nat nat) := match n with 0 => [] | S n => litter_ops n ++ [LInsert 0 0; LFlush] end.
Definition litter_tab (i : nat) (a : N) : table nat nat := mkTab i [(0, put 0 a)] 1 0 44 (0, 0) (a, a).
Notation St := (leveled (K := nat) (V := nat) litter_cfg).

Lemma litter_merge has f i a b : (a < b)%N -> has f = true -> has i = true ->
  merge_tables has [[litter_tab f b]; [litter_tab i a]] = Ok [(0, put 0 b)].
Proof.
  intros L Hf Hi. assert (C1 : (b ?= a)%N = Gt) by now apply N.compare_gt_iff. assert (C2 : (a ?= b)%N = Lt) by now apply N.compare_lt_iff.
  unfold merge_tables, mi_new. cbn [map mi_fill r_next]. unfold d_next, read. cbn [litter_tab t_id t_es]. rewrite Hf, Hi. cbn [bind].
  lazy -[N.compare]. rewrite ?C1, ?C2. lazy -[N.compare]. rewrite ?C1, ?C2. reflexivity.
Qed.
Lemma litter_compact has f i a b : (a < b)%N -> has f = true -> has i = true ->
  lv_compact litter_cfg has (S f) (mkLm [litter_tab f b] [[(0, litter_tab i a)]]) = Ok (mkLm [] [[(0, litter_tab (S f) b)]], S (S (S f))).
Proof.
  intros L Hf Hi. unfold lv_compact, lv_compact_fuel. cbn [lm_levels lm_tabs nth_error expect bind map app length fold_left snd litter_tab t_count list_sum fold_right].
  change (mkTab f _ _ _ _ _ _) with (litter_tab f b). change (mkTab i _ _ _ _ _ _) with (litter_tab i a). unfold merge_into at 1. rewrite (litter_merge has f i a b L Hf Hi). cbn [bind]. reflexivity.
Qed.
Record littered (n : nat) (s : lsm nat nat (lmeta nat nat)) : Prop := mkLitter {
  lt_mem : mem s = []; lt_usage : usage s = 0%N; lt_nxt : nxt s = None; lt_thr : thr s = TIdle; lt_iters : iters s = []; lt_join : joinable s = false;
  lt_cur : exists i a, cur s = mkLm [] [[(0, litter_tab i a)]] /\ (a < time s)%N /\ In i (on_disk St s) /\ length (filter (fun x => negb (x =? i)) (on_disk St s)) = n;
  lt_old : forall x, In x (on_disk St s) -> x < fresh s }.
Lemma filter_others l x : (forall y, In y l -> y < x) -> filter (fun y => negb (y =? x)) l = l.
Proof.
  induction l as [|y l IH]; intros F; cbn [filter]; [reflexivity|]. destruct (Nat.eqb_spec y x) as [->|Ne]; [specialize (F x (or_introl eq_refl)); lia|]. cbn. f_equal. apply IH. intros; apply F; now right.
Qed.
Lemma litter_round n s : littered n s -> exists s', run (lsm_step St) s [LInsert 0 0; LFlush] = Ok (s', [OUnit; OUnit]) /\ littered (S n) s'.
Proof.
  destruct s as [me us ti cu nx th jo it fr lo]. intros [L1 L2 L3 L4 L5 L6 (i & a & L7 & L8 & L9 & L10) L11]. cbn [mem usage time cur nxt thr joinable iters fresh log] in *. subst me us nx th jo it cu.
  unfold on_disk in L9, L10, L11. cbn [log fresh] in L9, L10, L11. set (d := d_dirs (disk_of lo)) in *.
  set (lo1 := lo ++ [ETime (ti + 1)]). assert (D1 : d_dirs (disk_of lo1) = d) by (unfold lo1; rewrite disk_app; reflexivity).
  set (m1 := mkLm [litter_tab fr ti] [[(0, litter_tab i a)]]).
  set (lo2 := lo1 ++ [ETable fr; EMeta m1]). assert (D2 : d_dirs (disk_of lo2) = fr :: d) by (unfold lo2; rewrite disk_app; cbn [fold_left apply d_dirs]; now rewrite D1).
  set (lo3 := lo2 ++ map (@ETable (lmeta nat nat)) (seq (S fr) (S (S (S fr)) - S fr))). assert (D3 : d_dirs (disk_of lo3) = S (S fr) :: S fr :: fr :: d).
  { unfold lo3. rewrite disk_app. replace (S (S (S fr)) - S fr) with 2 by lia. cbn [seq map fold_left apply d_dirs]. now rewrite D2. }
  assert (If : i < fr) by now apply L11.
  set (m2 := mkLm [] [[(0, litter_tab (S fr) ti)]]). set (lo4 := lo3 ++ [ERemove fr; ERemove i] ++ [EMeta m2]).
  assert (D4 : d_dirs (disk_of lo4) = S (S fr) :: S fr :: filter (fun x => negb (x =? i)) d).
  { unfold lo4. rewrite disk_app. cbn [app fold_left apply d_dirs]. rewrite D3. cbn [filter]. replace (S (S fr) =? fr) with false by (symmetry; apply Nat.eqb_neq; lia).
    replace (S fr =? fr) with false by (symmetry; apply Nat.eqb_neq; lia). rewrite Nat.eqb_refl. cbn [negb]. rewrite (filter_others d fr L11). cbn [filter].
    replace (S (S fr) =? i) with false by (symmetry; apply Nat.eqb_neq; lia). replace (S fr =? i) with false by (symmetry; apply Nat.eqb_neq; lia). reflexivity. }
  set (s' := mkLsm [] 0%N (ti + 1)%N m2 None TIdle false [] (S (S (S fr))) lo4 : lsm nat nat (lmeta nat nat)). assert (D5 : on_disk St s' = S (S fr) :: S fr :: filter (fun x => negb (x =? i)) d) by exact D4.
  exists s'. split.
  - cbn [run]. set (s1 := mkLsm [(0, put 0 ti)] 11 (ti + 1) (mkLm [] [[(0, litter_tab i a)]]) None TIdle false [] fr lo1).
    assert (E1 : lsm_step St (mkLsm [] 0 ti (mkLm [] [[(0, litter_tab i a)]]) None TIdle false [] fr lo) (LInsert 0 0) = Ok (s1, OUnit)) by reflexivity.
    rewrite E1. cbn [bind]. cbn [lsm_step]. unfold LsmMapModel.flush. cbn [mem s1].
    assert (E2 : try_compact St s1 = Ok (mkLsm [] 0 (ti + 1) m1 None (TRun m1) true [] (S fr) lo2)) by reflexivity. rewrite E2. cbn [bind joinable].
    unfold join. cbn [joinable thr bind]. unfold work. cbn [mem usage time cur nxt thr joinable iters fresh log]. cbn [st_compact leveled].
    unfold m1 at 1. rewrite (litter_compact _ fr i a ti); [|exact L8| |].
    2:{ apply orb_true_iff. left. apply has_dir_in. change (In fr (d_dirs (disk_of lo2))). rewrite D2. now left. }
    2:{ apply orb_true_iff. left. apply has_dir_in. change (In i (d_dirs (disk_of lo2))). rewrite D2. now right. }
    cbn [bind]. unfold unjoin, try_replace. cbn [mem usage time cur nxt thr joinable iters fresh log]. fold lo3.
    change (st_replace St m1 _) with (mkLm (filter (fun t : table nat nat => match newest (level_tables [[(0, litter_tab (S fr) ti)]]) with Some x => (x <? fst (t_times t))%N | None => true end) [litter_tab fr ti]) [[(0, litter_tab (S fr) ti)]]).
    cbn [level_tables flat_map map snd app newest fold_left opt_max litter_tab t_times fst snd filter]. rewrite N.ltb_irrefl. fold m2.
    cbn [st_tables leveled]. unfold lv_tables at 1. cbn [m2 lm_tabs lm_levels level_tables flat_map map snd app litter_tab t_id]. unfold lv_tables. cbn [m1 lm_tabs lm_levels level_tables flat_map map snd app litter_tab t_id filter existsb].
    replace (fr =? S fr) with false by (symmetry; apply Nat.eqb_neq; lia). replace (i =? S fr) with false by (symmetry; apply Nat.eqb_neq; lia). cbn [orb negb].
    destruct (remove_dirs_ok [fr; i] (disk_of lo3)) as (es & E3 & ->).
    + constructor; [intros [J|[]]; lia|]. constructor; [intros []|constructor].
    + repeat apply Forall_cons; [| |constructor]; apply has_dir_in; rewrite D3; cbn; auto.
    + match goal with |- context [remove_dirs ?x ?y] => replace (remove_dirs x y) with (remove_dirs (disk_of lo3) [fr; i]) by reflexivity end. rewrite E3. reflexivity.
  - constructor; try reflexivity.
    + exists (S fr), ti. rewrite D5. split; [reflexivity|]. split; [cbn [s' time]; lia|]. split; [cbn; auto|]. cbn [filter]. rewrite Nat.eqb_refl.
      replace (S (S fr) =? S fr) with false by (symmetry; apply Nat.eqb_neq; lia). cbn [negb length]. f_equal. rewrite filter_others; [exact L10|].
      intros y J. apply filter_In in J. destruct J as [J _]. apply L11 in J. lia.
    + rewrite D5. cbn [s' fresh]. intros x [<-|[<-|J]]; [lia|lia|]. apply filter_In in J. destruct J as [J _]. apply L11 in J. lia.
Qed.
Lemma litter_run n : exists s outs, run (lsm_step St) (lsm_new St) (litter_ops (S n)) = Ok (s, outs) /\ littered (S n) s.
Proof.
  induction n as [|n (s & outs & E & L)].
  - eexists _, _. split; [vm_compute; reflexivity|]. constructor; try reflexivity.
    + exists 1, 0%N. repeat split; try reflexivity. right. now left.
    + vm_compute. intros x [<-|[<-|[]]]; lia.
  - destruct (litter_round _ _ L) as (s' & E' & L'). exists s', (outs ++ [OUnit; OUnit]). split; [|exact L']. change (litter_ops (S (S n))) with (litter_ops (S n) ++ [LInsert 0 0; LFlush]).
    exact (run_app_ok _ _ _ _ _ _ _ _ E E').
Qed.
Lemma used_always (ops : list (lsm_op nat nat)) : Forall (fun o => forall s, allowed s o = true) ops -> forall s, well_used s ops.
Proof. induction 1 as [|o ops A F IH]; intros s; [exact Logic.I|]. split; [apply A|apply IH]. Qed.
Lemma litter_used n : well_used sp_new (litter_ops n).
Proof. apply used_always. induction n as [|n IH]; cbn [litter_ops]; [constructor|]. apply Forall_app. split; [exact IH|]. repeat constructor. Qed.
Lemma litter_bad n : exists s outs, well_used sp_new (litter_ops (S n)) /\ run (lsm_step St) (lsm_new St) (litter_ops (S n)) = Ok (s, outs) /\
  length (in_use St s) = 1 /\ length (left_behind St s) = S n.
Proof.
  destruct (litter_run n) as (s & outs & E & L). exists s, outs. split; [apply litter_used|]. split; [exact E|]. destruct (lt_cur _ _ L) as (i & a & Ec & _ & _ & Ln).
  assert (U : in_use St s = [i]). { pose proof (lt_nxt _ _ L) as En. clear E L Ln. destruct s as [me us ti cu nx th jo it fr lo]. cbn [cur nxt] in Ec, En. subst cu nx. reflexivity. }
  split; [now rewrite U|]. unfold left_behind. rewrite U, <- Ln. f_equal. apply filter_ext. intros x. cbn [existsb]. now rewrite orb_false_r.
Qed.

(** Two entries fit. *)
Definition small_cfg : sconfig := mkSc 22 2 0 (rational 1 10 3 2).
Definition small_lcfg : lconfig := mkLc 22 1 60 2 2.
(** Tables are merged while the map is in use; it is flushed, reopened and used again. *)
Definition small_ops : list (lsm_op nat nat) :=
  puts 1 9 ++ [BgPublish; LGet 1; BgDone; LIterOpen; LIterNext 0; LInsert 1 7; LIterDrop 0; LFlush; LReopen; LInsert 1 8; LInsert 3 9; LInsert 10 1].
(** Six calls of [insert], a flush after each *)
Definition deep_litter : list (lsm_op nat nat) := flat_map (fun k => [LInsert k k; LFlush]) (seq 1 6).
Definition deep_litter_cfg : lconfig := mkLc 100 1 10 1 2.
Lemma tombs_litter : exists ops s outs, well_used sp_new ops /\ run (lsm_step (size_tiered small_cfg)) (lsm_new (size_tiered small_cfg)) ops = Ok (s, outs) /\
  thr s = TIdle /\ left_behind (size_tiered small_cfg) s <> [].
Proof.
  exists [LRemove 1; LFlush; LRemove 2; LFlush; LRemove 3; LFlush]. do 2 eexists. split; [vm_compute; intuition|]. split; [vm_compute; reflexivity|]. split; [reflexivity|]. vm_compute. discriminate.
Qed.
Lemma reopen_litters : exists ops s outs, run (lsm_step (size_tiered small_cfg)) (lsm_new (size_tiered small_cfg)) (ops ++ [LReopen]) = Ok (s, outs) /\
  Forall (@no_removal nat nat) ops /\ left_behind (size_tiered small_cfg) s <> [].
Proof.
  exists (puts 1 9 ++ [BgPublish; BgDone]). do 2 eexists. split; [vm_compute; reflexivity|]. split; [repeat constructor|]. vm_compute. discriminate.
Qed.
Lemma clear_forgets_not : exists ops s outs s' k v, run (lsm_step (size_tiered small_cfg)) (lsm_new (size_tiered small_cfg)) (ops ++ [LClear]) = Ok (s, outs) /\
  mem s = [] /\ lsm_step (size_tiered small_cfg) s (LInsert k v) = Ok (s', OUnit) /\ mem s' = [] /\
  (held_bytes (mem_put k (mkSval (Some v) (time s)) (mem s)) <= st_max_mem (size_tiered (K := nat) (V := nat) small_cfg))%N.
Proof.
  exists [LInsert 1 1; LInsert 2 2]. do 3 eexists. exists 3, 3. split; [vm_compute; reflexivity|]. split; [reflexivity|]. split; [vm_compute; reflexivity|]. split; [reflexivity|]. vm_compute. discriminate.
Qed.
