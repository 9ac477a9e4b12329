(** Properties of [LsmMap] with [LeveledStrategy]. *)
From Verif Require Import LsmClaims LeveledInstances.

(** ** C36: whatever is called and whenever the compaction thread gets on, the map returns what a sorted list of
    pairs would.  The limits of the levels are to be positive as far as they matter. *)
Theorem C36_leveled_map : forall (K V : Type) (C : Cmp K) (_ : CmpLaws K) (Z : Sizes K V) (cfg : lconfig),
  (forall k k' : K, cmp k k' = Eq -> ksize k = ksize k') ->
  forall ops : list (lsm_op K V), limits_positive cfg (N.of_nat (length ops)) -> well_used sp_new ops ->
  exists outs, outputs (lsm_step (leveled cfg)) (lsm_new (leveled cfg)) ops = Ok outs /\ agree sp_new ops outs.
Proof. exact @leveled_outputs. Qed.
Print Assumptions C36_leveled_map.

(** The limits are positive if nothing overflows ... *)
Theorem C36_limits_small : forall (cfg : lconfig) (n : N),
  (0 < lc_initial cfg < 2 ^ 64)%N -> (0 < lc_growth cfg)%N -> (n * lc_growth cfg <= 2 ^ 64)%N -> limits_positive cfg n.
Proof. exact limits_small. Qed.
Print Assumptions C36_limits_small.
(** ... and always if both numbers are odd. *)
Theorem C36_limits_odd : forall (cfg : lconfig) (n : N),
  N.odd (lc_initial cfg) = true -> N.odd (lc_growth cfg) = true -> limits_positive cfg n.
Proof. exact limits_odd. Qed.
Print Assumptions C36_limits_odd.

(** Two compactions, one of them while calls go on; an iterator kept across a flush; a reopening. *)
Example C36_example :
  limits_positive ex_cfg (N.of_nat (length ex_ops)) /\ well_used sp_new ex_ops /\
  outputs (lsm_step (leveled ex_cfg)) (lsm_new (leveled ex_cfg)) ex_ops =
    Ok [OUnit; OUnit; OUnit; OUnit; OUnit; OUnit; OVal (Some 20); OUnit; OUnit; OUnit; OUnit;
        OUnit; ONext (Some (2, 21)); OUnit; OUnit; OUnit; ONext (Some (3, 30)); ONext (Some (4, 40)); ONext (Some (5, 50)); ONext None; OUnit;
        OLen 4; OHint 5; OUnit; OUnit; OUnit; OList [(4, 40); (5, 50); (6, 60)]; OKey (Some 4); OKey (Some 6)].
Proof.
  split; [apply limits_small; vm_compute; intuition discriminate|]. split; [vm_compute; intuition|vm_compute; reflexivity].
Qed.
(** In the middle of it a compaction was running. *)
Example C36_example_running : exists s outs m,
  run (lsm_step (leveled ex_cfg)) (lsm_new (leveled ex_cfg)) (firstn 5 ex_ops) = Ok (s, outs) /\ thr s = TRun m /\ length (lm_tabs m) = 2.
Proof. do 3 eexists. split; [vm_compute; reflexivity|]. split; reflexivity. Qed.

(** ** C38: [min] and [max] find the smallest and the largest key if nothing was removed since the last flush ... *)
Theorem C38_min_max_partial : forall (K V : Type) (C : Cmp K) (_ : CmpLaws K) (Z : Sizes K V) (cfg : lconfig),
  (forall k k' : K, cmp k k' = Eq -> ksize k = ksize k') ->
  forall ops : list (lsm_op K V), limits_positive cfg (N.of_nat (S (length ops))) -> well_used sp_new ops -> sp_removed (sp_after ops) = false ->
  (exists outs k, outputs (lsm_step (leveled cfg)) (lsm_new (leveled cfg)) (ops ++ [LMin]) = Ok (outs ++ [OKey k]) /\
     same_opt (fun a b => cmp a b = Eq) k (option_map fst (hd_error (sp_map (sp_after ops))))) /\
  (exists outs k, outputs (lsm_step (leveled cfg)) (lsm_new (leveled cfg)) (ops ++ [LMax]) = Ok (outs ++ [OKey k]) /\
     same_opt (fun a b => cmp a b = Eq) k (option_map fst (last_error (sp_map (sp_after ops))))).
Proof. exact @leveled_min_max. Qed.
Print Assumptions C38_min_max_partial.
Example C38_example : sp_removed (sp_after ex_ops) = false /\ map fst (sp_map (sp_after ex_ops)) = [4; 5; 6].
Proof. split; vm_compute; reflexivity. Qed.
(** ... and otherwise need not: a key of the tables that was removed in memory is still reported. *)
Theorem C38_min_max_refuted : exists ops : list (lsm_op nat nat), well_used sp_new ops /\ sp_map (sp_after ops) = [] /\
  outputs (lsm_step (leveled ex_cfg)) (lsm_new (leveled ex_cfg)) (ops ++ [LLenHint; LMin; LMax; LIsEmpty; LMin]) =
    Ok [OUnit; OUnit; OUnit; OHint 2; OKey (Some 1); OKey (Some 1); OBool true; OKey None].
Proof. exact min_bad. Qed.
Print Assumptions C38_min_max_refuted.

(** What they always return: the smallest and the largest of the keys that are present and of those that were present at
    a certain moment since the last flush. *)
Theorem C38_min_max_exact : forall (K V : Type) (C : Cmp K) (_ : CmpLaws K) (Z : Sizes K V) (cfg : lconfig),
  (forall k k' : K, cmp k k' = Eq -> ksize k = ksize k') ->
  forall ops : list (lsm_op K V), limits_positive cfg (N.of_nat (S (length ops))) -> well_used sp_new ops ->
  (exists outs k m, outputs (lsm_step (leveled cfg)) (lsm_new (leveled cfg)) (ops ++ [LMin]) = Ok (outs ++ [OKey k]) /\
     In m (sp_recover (sp_after ops)) /\ smallest (sp_map (sp_after ops) ++ m) k) /\
  (exists outs k m, outputs (lsm_step (leveled cfg)) (lsm_new (leveled cfg)) (ops ++ [LMax]) = Ok (outs ++ [OKey k]) /\
     In m (sp_recover (sp_after ops)) /\ largest (sp_map (sp_after ops) ++ m) k).
Proof. exact @leveled_min_max_all. Qed.
Print Assumptions C38_min_max_exact.
Example C38_exact_example : let ops := [LInsert 1 10; LInsert 5 50; LFlush; LRemove 1] in
  map fst (sp_map (sp_after ops)) = [5] /\ map (map fst) (sp_recover (sp_after ops)) = [[1; 5]; [5]] /\
  outputs (lsm_step (leveled ex_cfg)) (lsm_new (leveled ex_cfg)) (ops ++ [LMin; LMax]) = Ok [OUnit; OUnit; OUnit; OUnit; OKey (Some 1); OKey (Some 5)].
Proof. split; [vm_compute; reflexivity|]. split; vm_compute; reflexivity. Qed.

(** ** C39: [len_hint] is at least the number of keys. *)
Theorem C39_len_hint : forall (K V : Type) (C : Cmp K) (_ : CmpLaws K) (Z : Sizes K V) (cfg : lconfig),
  (forall k k' : K, cmp k k' = Eq -> ksize k = ksize k') ->
  forall ops : list (lsm_op K V), limits_positive cfg (N.of_nat (S (length ops))) -> well_used sp_new ops ->
  exists outs n, outputs (lsm_step (leveled cfg)) (lsm_new (leveled cfg)) (ops ++ [LLenHint]) = Ok (outs ++ [OHint n]) /\
    length (sp_map (sp_after ops)) <= n.
Proof. exact @leveled_hint. Qed.
Print Assumptions C39_len_hint.
Example C39_example : limits_positive ex_cfg (N.of_nat (S (length ex_ops))) /\ well_used sp_new ex_ops /\ length (sp_map (sp_after ex_ops)) = 3.
Proof. split; [apply limits_small; vm_compute; intuition discriminate|]. split; vm_compute; intuition. Qed.

(** ** C40: a flushed directory that was ever written to opens to a map with the same contents, and whatever is called
    on that map goes on as specified ... *)
Theorem C40_reopen_partial : forall (K V : Type) (C : Cmp K) (_ : CmpLaws K) (Z : Sizes K V) (cfg : lconfig),
  (forall k k' : K, cmp k k' = Eq -> ksize k = ksize k') ->
  forall ops ops' : list (lsm_op K V), limits_positive cfg (N.of_nat (length ops + S (S (length ops')))) -> well_used sp_new ops ->
  sp_written (sp_after ops) = true -> well_used (reopened (sp_map (sp_after ops))) ops' ->
  exists outs outs', outputs (lsm_step (leveled cfg)) (lsm_new (leveled cfg)) (ops ++ LFlush :: LReopen :: ops') = Ok (outs ++ OUnit :: OUnit :: outs') /\
    length outs = length ops /\ agree (reopened (sp_map (sp_after ops))) ops' outs'.
Proof. exact @leveled_reopen. Qed.
Print Assumptions C40_reopen_partial.
Example C40_example : sp_written (sp_after ex_ops) = true /\ well_used (reopened (sp_map (sp_after ex_ops))) ex_ops /\
  sp_map (sp_after ex_ops) = [(4, 40); (5, 50); (6, 60)].
Proof. split; [reflexivity|]. split; [vm_compute; intuition|vm_compute; reflexivity]. Qed.
(** ... but one that was never written to does not open. *)
Theorem C40_reopen_refuted : exists ops : list (lsm_op nat nat), well_used sp_new ops /\
  outputs (lsm_step (leveled ex_cfg)) (lsm_new (leveled ex_cfg)) (ops ++ [LFlush]) = Ok [OUnit] /\
  outputs (lsm_step (leveled ex_cfg)) (lsm_new (leveled ex_cfg)) (ops ++ [LFlush; LReopen]) = Panic.
Proof. exact reopen_bad. Qed.
Print Assumptions C40_reopen_refuted.

(** ** C41: a crash that leaves the directory intact loses nothing that was flushed, and the reopened map goes on as
    specified, through further crashes ... *)
Theorem C41_crash_partial : forall (K V : Type) (C : Cmp K) (_ : CmpLaws K) (Z : Sizes K V) (cfg : lconfig),
  (forall k k' : K, cmp k k' = Eq -> ksize k = ksize k') ->
  forall n : nat, limits_positive cfg (N.of_nat n) -> survives (leveled cfg) any_call intact n (@sp_new K V) (lsm_new (leveled cfg)).
Proof. exact @leveled_survives. Qed.
Print Assumptions C41_crash_partial.
(** The call of [get] that installs the result of a compaction: of its four crash points two are intact. *)
Example C41_example : exists s outs s' out,
  run (lsm_step (leveled ex_cfg)) (lsm_new (leveled ex_cfg)) crash_ops = Ok (s, outs) /\ lsm_step (leveled ex_cfg) s (LGet 1) = Ok (s', out) /\
  length (log s') = length (log s) + 3 /\ intact (firstn (length (log s)) (log s')) /\ intact (log s') /\
  map (fun n => match lsm_open (leveled ex_cfg) (firstn (length (log s) + n) (log s')) (fresh s') with Ok _ => true | _ => false end) [0; 1; 2; 3] =
    [true; false; false; true].
Proof.
  do 4 eexists. split; [vm_compute; reflexivity|]. split; [vm_compute; reflexivity|]. split; [reflexivity|].
  split; [apply intactb; [vm_compute; reflexivity|vm_compute; discriminate]|]. split; [apply intactb; [vm_compute; reflexivity|vm_compute; discriminate]|].
  vm_compute. reflexivity.
Qed.
(** ... but a crash between the removal of the old tables and the writing of metadata.dat leaves a directory that does
    not open, though something had been flushed. *)
Theorem C41_crash_refuted : exists s outs s' out,
  run (lsm_step (leveled ex_cfg)) (lsm_new (leveled ex_cfg)) crash_ops = Ok (s, outs) /\
  Forall (fun m => m <> []) (sp_recover (sp_after crash_ops)) /\
  lsm_step (leveled ex_cfg) s (LGet 1) = Ok (s', out) /\ length (log s) < 11 < length (log s') /\
  lsm_open (leveled ex_cfg) (firstn 11 (log s')) (fresh s') = Panic.
Proof. exact crash_bad. Qed.
Print Assumptions C41_crash_refuted.

(** ** C42: an iterator yields what the map held when it was made, whatever is called and whatever the thread does in the
    meantime.  (A [clear] removes the files it reads.) *)
Theorem C42_iterator : forall (K V : Type) (C : Cmp K) (_ : CmpLaws K) (Z : Sizes K V) (cfg : lconfig),
  (forall k k' : K, cmp k k' = Eq -> ksize k = ksize k') ->
  forall ops ops' : list (lsm_op K V), limits_positive cfg (N.of_nat (length ops + S (length ops'))) -> well_used sp_new (ops ++ LIterOpen :: ops') ->
  Forall (keeps (length (sp_iters (sp_after ops)))) ops' ->
  exists outs outs', outputs (lsm_step (leveled cfg)) (lsm_new (leveled cfg)) (ops ++ LIterOpen :: ops') = Ok (outs ++ OUnit :: outs') /\
    length outs = length ops /\
    forall j e, nth_error (nexts (length (sp_iters (sp_after ops))) ops' outs') j = Some e ->
      same_opt same_pair e (nth_error (sp_map (sp_after ops)) j).
Proof. exact @leveled_iter. Qed.
Print Assumptions C42_iterator.
(** The second iterator of a map, read while the keys it has not reached are overwritten and removed and compactions
    are called for. *)
Example C42_example : well_used sp_new (before_iter ++ LIterOpen :: during_iter) /\ length (sp_iters (sp_after before_iter)) = 1 /\
    Forall (keeps 1) during_iter /\
    exists outs, outputs (lsm_step (leveled ex_cfg)) (lsm_new (leveled ex_cfg)) (before_iter ++ LIterOpen :: during_iter) = Ok outs /\
    nexts 1 during_iter (skipn 7 outs) = [Some (1, 10); Some (2, 20); Some (3, 30); Some (4, 40); None].
Proof.
  split; [vm_compute; intuition|]. split; [reflexivity|]. split; [repeat constructor; discriminate|].
  eexists. split; vm_compute; reflexivity.
Qed.

(** ** C43: the ranges of the tables of a level do not overlap. *)
Theorem C43_disjoint : forall (K V : Type) (C : Cmp K) (_ : CmpLaws K) (Z : Sizes K V) (cfg : lconfig),
  (forall k k' : K, cmp k k' = Eq -> ksize k = ksize k') ->
  forall (ops : list (lsm_op K V)) s outs, limits_positive cfg (N.of_nat (length ops)) -> well_used sp_new ops ->
  run (lsm_step (leveled cfg)) (lsm_new (leveled cfg)) ops = Ok (s, outs) ->
  levels_disjoint (cur s) /\ forall m, nxt s = Some m -> levels_disjoint m.
Proof. exact @leveled_disjoint. Qed.
Print Assumptions C43_disjoint.
Example C43_example : exists s outs,
  run (lsm_step (leveled ex_cfg)) (lsm_new (leveled ex_cfg)) ex_ops = Ok (s, outs) /\
    map (map (fun kt => t_range (snd kt))) (lm_levels (cur s)) = [[(4, 5); (6, 6)]].
Proof. do 2 eexists. split; vm_compute; reflexivity. Qed.

(** ** C44: with positive limits every compaction that is started finishes ... *)
Theorem C44_terminates_partial : forall (K V : Type) (C : Cmp K) (_ : CmpLaws K) (Z : Sizes K V) (cfg : lconfig),
  (forall k k' : K, cmp k k' = Eq -> ksize k = ksize k') ->
  forall ops : list (lsm_op K V), limits_positive cfg (N.of_nat (length ops)) -> well_used sp_new ops ->
  exists s outs, run (lsm_step (leveled cfg)) (lsm_new (leveled cfg)) ops = Ok (s, outs) /\
    forall m, thr s = TRun m -> exists m' id, lv_compact cfg (fun i => has (leveled cfg) s i || (fresh s <=? i)) (fresh s) m = Ok (m', id).
Proof. exact @leveled_terminates. Qed.
Print Assumptions C44_terminates_partial.
(** ... but the library accepts others.  With an initial limit of 0, and with a growth that makes the limit of a level 0
    modulo 2^64, a compaction never ends, however many rounds it is given. *)
Theorem C44_terminates_refuted :
  never_ends (mkLc 0 0 0 0 10) [LInsert 1 10] /\
  never_ends (mkLc 0 1 0 1 0) [LInsert 1 10; LInsert 2 20] /\
  never_ends (mkLc 0 2 0 2 (2 ^ 63)) [LInsert 1 10; LInsert 2 20; LInsert 3 30].
Proof. exact endless_bad. Qed.
Print Assumptions C44_terminates_refuted.
