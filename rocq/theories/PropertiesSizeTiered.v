(** Properties of [LsmMap] with [SizeTieredStrategy].  [unhurt]: no compaction takes in all tables while the newest entry is a
    tombstone; see SizeTieredSpec.v. *)
From Verif Require Import SizeTieredClaims SizeTieredLoose SizeTieredInstances.

(** ** C37: as long as no compaction takes in all tables while the newest entry is a tombstone, the map returns what a
    sorted list of pairs would, whatever is called and whenever the compaction thread gets on ... *)
Theorem C37_size_tiered_map_partial : forall (K V : Type) (C : Cmp K) (_ : CmpLaws K) (Z : Sizes K V) (cfg : sconfig),
  (forall k k' : K, cmp k k' = Eq -> ksize k = ksize k') ->
  forall ops : list (lsm_op K V), well_used sp_new ops -> unhurt cfg ops ->
  exists outs, outputs (lsm_step (size_tiered cfg)) (lsm_new (size_tiered cfg)) ops = Ok outs /\ agree sp_new ops outs.
Proof. exact @tiered_outputs. Qed.
Print Assumptions C37_size_tiered_map_partial.
(** ... which is so if nothing is removed. *)
Theorem C37_no_removal : forall (K V : Type) (C : Cmp K) (_ : CmpLaws K) (Z : Sizes K V) (cfg : sconfig),
  (forall k k' : K, cmp k k' = Eq -> ksize k = ksize k') ->
  forall ops : list (lsm_op K V), Forall no_removal ops -> well_used sp_new ops -> unhurt cfg ops.
Proof. exact @no_removal_unhurt. Qed.
Print Assumptions C37_no_removal.
(** Two compactions, with removals; an iterator kept across a flush; a reopening. *)
Example C37_example : well_used sp_new tier_ops /\ unhurt small_cfg tier_ops /\
  outputs (lsm_step (size_tiered small_cfg)) (lsm_new (size_tiered small_cfg)) tier_ops =
    Ok [OUnit; OUnit; OUnit; OUnit; OUnit; OUnit; OUnit; OUnit; OUnit; OVal (Some 21); OUnit; OUnit; OUnit; OUnit;
        ONext (Some (2, 21)); OUnit; OUnit; OUnit; ONext (Some (4, 40)); ONext (Some (5, 50)); ONext None; OUnit; OLen 3; OHint 5; OUnit; OUnit;
        OUnit; OUnit; OList [(5, 50); (6, 60); (8, 80)]; OKey (Some 5); OKey (Some 8)].
Proof. split; [vm_compute; intuition|]. split; [vm_compute; discriminate|vm_compute; reflexivity]. Qed.
Example C37_no_removal_example : well_used sp_new tier_crash /\ Forall no_removal tier_crash /\ exists s outs m,
  run (lsm_step (size_tiered small_cfg)) (lsm_new (size_tiered small_cfg)) tier_crash = Ok (s, outs) /\ thr s = TRun m /\ length m = 3.
Proof.
  split; [vm_compute; intuition|]. split; [repeat constructor|]. do 3 eexists. split; [vm_compute; reflexivity|]. split; reflexivity.
Qed.
(** ... but otherwise a removed key may come back: after everything was flushed [get] returns the value of a removed key. *)
Theorem C37_size_tiered_map_refuted : exists ops : list (lsm_op nat nat), well_used sp_new ops /\ sp_clean (sp_after ops) = true /\
  lookup 1 (sp_map (sp_after ops)) = None /\
  exists outs, outputs (lsm_step (size_tiered tier_cfg)) (lsm_new (size_tiered tier_cfg)) (ops ++ [LGet 1]) = Ok (outs ++ [OVal (Some 1)]).
Proof. exact resurrected. Qed.
Print Assumptions C37_size_tiered_map_refuted.

(** That is all that can go wrong.  Whatever is called and whenever the compaction thread gets on, every call returns what is
    specified for a map in which some removed pairs may have come back; pairs that were never inserted do not turn up, and
    pairs that were not removed are not lost. *)
Theorem C37_nothing_lost : forall (K V : Type) (C : Cmp K) (_ : CmpLaws K) (Z : Sizes K V) (cfg : sconfig),
  (forall k k' : K, cmp k k' = Eq -> ksize k = ksize k') ->
  forall ops : list (lsm_op K V), well_used sp_new ops ->
  exists outs a, outputs (lsm_step (size_tiered cfg)) (lsm_new (size_tiered cfg)) ops = Ok outs /\ loosely (revived (inserted ops)) sp_new ops outs a.
Proof. exact @tiered_loosely. Qed.
Print Assumptions C37_nothing_lost.
(** In particular [get] finds what is in the map, and finds nothing that was not once inserted ... *)
Theorem C37_get : forall (K V : Type) (C : Cmp K) (_ : CmpLaws K) (Z : Sizes K V) (cfg : sconfig),
  (forall k k' : K, cmp k k' = Eq -> ksize k = ksize k') ->
  forall (ops : list (lsm_op K V)) (k : K), well_used sp_new ops ->
  exists outs r, outputs (lsm_step (size_tiered cfg)) (lsm_new (size_tiered cfg)) (ops ++ [LGet k]) = Ok (outs ++ [OVal r]) /\
    (forall v, lookup k (sp_map (sp_after ops)) = Some v -> r = Some v) /\ (forall v, r = Some v -> inserted ops k v).
Proof. exact @tiered_get. Qed.
Print Assumptions C37_get.
(** ... and so does [iter], in order and each key once. *)
Theorem C37_iter : forall (K V : Type) (C : Cmp K) (_ : CmpLaws K) (Z : Sizes K V) (cfg : sconfig),
  (forall k k' : K, cmp k k' = Eq -> ksize k = ksize k') ->
  forall ops : list (lsm_op K V), well_used sp_new ops ->
  exists outs l, outputs (lsm_step (size_tiered cfg)) (lsm_new (size_tiered cfg)) (ops ++ [LIter]) = Ok (outs ++ [OList l]) /\
    strictly_ascending l /\ (forall k v, lookup k (sp_map (sp_after ops)) = Some v -> lookup k l = Some v) /\
    (forall k v, lookup k l = Some v -> inserted ops k v).
Proof. exact @tiered_list. Qed.
Print Assumptions C37_iter.
(** The map of the refutation: 28 pairs are specified, key 1 is not among them; 29 are returned. *)
Example C37_nothing_lost_example : well_used sp_new tier_bad /\ length (sp_map (sp_after tier_bad)) = 28 /\ lookup 1 (sp_map (sp_after tier_bad)) = None /\
  exists outs l, outputs (lsm_step (size_tiered tier_cfg)) (lsm_new (size_tiered tier_cfg)) (tier_bad ++ [LIter]) = Ok (outs ++ [OList l]) /\
    l = (1, 1) :: sp_map (sp_after tier_bad) /\ inserted tier_bad 1 1.
Proof.
  split; [vm_compute; intuition|]. split; [vm_compute; reflexivity|]. split; [vm_compute; reflexivity|].
  exists (repeat OUnit 44 ++ [OVal None] ++ repeat OUnit 7). eexists. split; [vm_compute; reflexivity|]. split; [vm_compute; reflexivity|].
  exists 1. split; [reflexivity|]. vm_compute. auto.
Qed.

(** ** C38 *)
Theorem C38_tiered_min_max_partial : forall (K V : Type) (C : Cmp K) (_ : CmpLaws K) (Z : Sizes K V) (cfg : sconfig),
  (forall k k' : K, cmp k k' = Eq -> ksize k = ksize k') ->
  forall ops : list (lsm_op K V), well_used sp_new ops -> sp_removed (sp_after ops) = false -> unhurt cfg (ops ++ [LMin]) -> unhurt cfg (ops ++ [LMax]) ->
  (exists outs k, outputs (lsm_step (size_tiered cfg)) (lsm_new (size_tiered cfg)) (ops ++ [LMin]) = Ok (outs ++ [OKey k]) /\
     same_opt (fun a b => cmp a b = Eq) k (option_map fst (hd_error (sp_map (sp_after ops))))) /\
  (exists outs k, outputs (lsm_step (size_tiered cfg)) (lsm_new (size_tiered cfg)) (ops ++ [LMax]) = Ok (outs ++ [OKey k]) /\
     same_opt (fun a b => cmp a b = Eq) k (option_map fst (last_error (sp_map (sp_after ops))))).
Proof. exact @tiered_min_max. Qed.
Print Assumptions C38_tiered_min_max_partial.
Example C38_tiered_example : sp_removed (sp_after tier_ops) = false /\ map fst (sp_map (sp_after tier_ops)) = [5; 6; 8] /\
  unhurt small_cfg (tier_ops ++ [LMin]) /\ unhurt small_cfg (tier_ops ++ [LMax]).
Proof. split; [vm_compute; reflexivity|]. split; [vm_compute; reflexivity|]. split; vm_compute; discriminate. Qed.

Theorem C38_tiered_min_max_exact_partial : forall (K V : Type) (C : Cmp K) (_ : CmpLaws K) (Z : Sizes K V) (cfg : sconfig),
  (forall k k' : K, cmp k k' = Eq -> ksize k = ksize k') ->
  forall ops : list (lsm_op K V), well_used sp_new ops -> unhurt cfg (ops ++ [LMin]) -> unhurt cfg (ops ++ [LMax]) ->
  (exists outs k m, outputs (lsm_step (size_tiered cfg)) (lsm_new (size_tiered cfg)) (ops ++ [LMin]) = Ok (outs ++ [OKey k]) /\
     In m (sp_recover (sp_after ops)) /\ smallest (sp_map (sp_after ops) ++ m) k) /\
  (exists outs k m, outputs (lsm_step (size_tiered cfg)) (lsm_new (size_tiered cfg)) (ops ++ [LMax]) = Ok (outs ++ [OKey k]) /\
     In m (sp_recover (sp_after ops)) /\ largest (sp_map (sp_after ops) ++ m) k).
Proof. exact @tiered_min_max_all. Qed.
Print Assumptions C38_tiered_min_max_exact_partial.

(** ** C39: [len_hint] is never too small, even if removed pairs come back. *)
Theorem C39_tiered_len_hint : forall (K V : Type) (C : Cmp K) (_ : CmpLaws K) (Z : Sizes K V) (cfg : sconfig),
  (forall k k' : K, cmp k k' = Eq -> ksize k = ksize k') ->
  forall ops : list (lsm_op K V), well_used sp_new ops ->
  exists outs n, outputs (lsm_step (size_tiered cfg)) (lsm_new (size_tiered cfg)) (ops ++ [LLenHint]) = Ok (outs ++ [OHint n]) /\
    length (sp_map (sp_after ops)) <= n.
Proof. exact @tiered_hint_all. Qed.
Print Assumptions C39_tiered_len_hint.
Example C39_tiered_example : well_used sp_new tier_ops /\ length (sp_map (sp_after tier_ops)) = 3 /\ well_used sp_new tier_bad.
Proof. split; [vm_compute; intuition|]. split; [vm_compute; reflexivity|vm_compute; intuition]. Qed.

(** ** C40 *)
Theorem C40_tiered_reopen_partial : forall (K V : Type) (C : Cmp K) (_ : CmpLaws K) (Z : Sizes K V) (cfg : sconfig),
  (forall k k' : K, cmp k k' = Eq -> ksize k = ksize k') ->
  forall ops ops' : list (lsm_op K V), well_used sp_new ops -> sp_written (sp_after ops) = true ->
  well_used (reopened (sp_map (sp_after ops))) ops' -> unhurt cfg (ops ++ LFlush :: LReopen :: ops') ->
  exists outs outs', outputs (lsm_step (size_tiered cfg)) (lsm_new (size_tiered cfg)) (ops ++ LFlush :: LReopen :: ops') = Ok (outs ++ OUnit :: OUnit :: outs') /\
    length outs = length ops /\ agree (reopened (sp_map (sp_after ops))) ops' outs'.
Proof. exact @tiered_reopen. Qed.
Print Assumptions C40_tiered_reopen_partial.
Example C40_tiered_example : sp_written (sp_after tier_ops) = true /\ well_used (reopened (sp_map (sp_after tier_ops))) tier_crash /\
  unhurt small_cfg (tier_ops ++ LFlush :: LReopen :: tier_crash).
Proof. split; [reflexivity|]. split; [vm_compute; intuition|vm_compute; discriminate]. Qed.

(** Without that condition: the map that is reopened holds what was there at the flush and perhaps removed pairs, and goes on
    as in C37_nothing_lost. *)
Theorem C40_tiered_reopen_loose : forall (K V : Type) (C : Cmp K) (_ : CmpLaws K) (Z : Sizes K V) (cfg : sconfig),
  (forall k k' : K, cmp k k' = Eq -> ksize k = ksize k') ->
  forall ops ops' : list (lsm_op K V), well_used sp_new ops -> sp_written (sp_after ops) = true ->
  well_used (reopened (sp_map (sp_after ops))) ops' ->
  exists outs outs' m a, outputs (lsm_step (size_tiered cfg)) (lsm_new (size_tiered cfg)) (ops ++ LFlush :: LReopen :: ops') = Ok (outs ++ OUnit :: OUnit :: outs') /\
    length outs = length ops /\ revives (inserted ops) (sp_map (sp_after ops)) m /\
    loosely (revived (inserted (ops ++ ops'))) (reopened m) ops' outs' a.
Proof. exact @tiered_reopen_all. Qed.
Print Assumptions C40_tiered_reopen_loose.
Example C40_tiered_loose_example : well_used sp_new tier_bad /\ sp_written (sp_after tier_bad) = true /\ well_used (reopened (sp_map (sp_after tier_bad))) [LGet 1; LGet 2] /\
  exists outs, outputs (lsm_step (size_tiered tier_cfg)) (lsm_new (size_tiered tier_cfg)) (tier_bad ++ [LFlush; LReopen; LGet 1; LGet 2]) = Ok (outs ++ [OVal (Some 1); OVal (Some 2)]).
Proof.
  split; [vm_compute; intuition|]. split; [vm_compute; reflexivity|]. split; [vm_compute; intuition|].
  exists (repeat OUnit 44 ++ [OVal None] ++ repeat OUnit 9). vm_compute. reflexivity.
Qed.

(** ** C41: if nothing is removed, a crash that leaves the directory intact loses nothing that was flushed, and the
    reopened map goes on as specified, through further crashes. *)
Theorem C41_tiered_crash_partial : forall (K V : Type) (C : Cmp K) (_ : CmpLaws K) (Z : Sizes K V) (cfg : sconfig),
  (forall k k' : K, cmp k k' = Eq -> ksize k = ksize k') ->
  forall n : nat, survives (size_tiered cfg) no_removal intact n (@sp_new K V) (lsm_new (size_tiered cfg)).
Proof. exact @tiered_survives. Qed.
Print Assumptions C41_tiered_crash_partial.
(** The call of [get] that installs the result of a compaction of three tables: of its five crash points two are intact. *)
Example C41_tiered_example : exists s outs s' out,
  run (lsm_step (size_tiered small_cfg)) (lsm_new (size_tiered small_cfg)) (tier_crash ++ [BgPublish]) = Ok (s, outs) /\ lsm_step (size_tiered small_cfg) s (LGet 3) = Ok (s', out) /\
  length (log s') = length (log s) + 4 /\ intact (firstn (length (log s)) (log s')) /\ intact (log s') /\
  map (fun n => match lsm_open (size_tiered small_cfg) (firstn (length (log s) + n) (log s')) (fresh s') with Ok _ => true | _ => false end) [0; 1; 2; 3; 4] =
    [true; false; false; false; true].
Proof.
  do 4 eexists. split; [vm_compute; reflexivity|]. split; [vm_compute; reflexivity|]. split; [reflexivity|].
  split; [apply intactb; [vm_compute; reflexivity|vm_compute; discriminate]|]. split; [apply intactb; [vm_compute; reflexivity|vm_compute; discriminate]|].
  vm_compute. reflexivity.
Qed.

(** With removals: the same, except that removed pairs may have come back. *)
Theorem C41_tiered_crash_loose_partial : forall (K V : Type) (C : Cmp K) (_ : CmpLaws K) (Z : Sizes K V) (cfg : sconfig),
  (forall k k' : K, cmp k k' = Eq -> ksize k = ksize k') ->
  forall (P : K -> V -> Prop) (n : nat), (forall k k' v, cmp k k' = Eq -> P k v -> P k' v) ->
  survives_loosely (size_tiered cfg) (inserts_only P) intact (revived P) n (@sp_new K V) (lsm_new (size_tiered cfg)).
Proof. exact @tiered_crashes. Qed.
Print Assumptions C41_tiered_crash_loose_partial.
(** Key 1 is removed, the tables are compacted; the crash happens before and after metadata.dat is written. *)
Example C41_tiered_loose_example : Forall (inserts_only (fun k v => v = 10 * k)) tier_crash2 /\ exists s outs s' out,
  run (lsm_step (size_tiered small_cfg)) (lsm_new (size_tiered small_cfg)) (tier_crash2 ++ [BgPublish]) = Ok (s, outs) /\ lsm_step (size_tiered small_cfg) s (LGet 3) = Ok (s', out) /\
  length (log s') = length (log s) + 4 /\ intact (firstn (length (log s)) (log s')) /\ intact (log s').
Proof.
  split; [repeat constructor|]. do 4 eexists. split; [vm_compute; reflexivity|]. split; [vm_compute; reflexivity|]. split; [reflexivity|].
  split; [apply intactb; [vm_compute; reflexivity|vm_compute; discriminate]|]. apply intactb; [vm_compute; reflexivity|vm_compute; discriminate].
Qed.

(** ** C42: an iterator yields what was in the map when it was made, plus perhaps removed pairs that had come back by then
    (none, under the condition of C37), however the map is changed and the tables are compacted meanwhile. *)
Theorem C42_tiered_iterator : forall (K V : Type) (C : Cmp K) (_ : CmpLaws K) (Z : Sizes K V) (cfg : sconfig),
  (forall k k' : K, cmp k k' = Eq -> ksize k = ksize k') ->
  forall ops ops' : list (lsm_op K V), well_used sp_new (ops ++ LIterOpen :: ops') -> Forall (keeps (length (sp_iters (sp_after ops)))) ops' ->
  exists outs outs' l, outputs (lsm_step (size_tiered cfg)) (lsm_new (size_tiered cfg)) (ops ++ LIterOpen :: ops') = Ok (outs ++ OUnit :: outs') /\
    length outs = length ops /\ revives (inserted ops) (sp_map (sp_after ops)) l /\
    forall j e, nth_error (nexts (length (sp_iters (sp_after ops))) ops' outs') j = Some e -> same_opt same_pair e (nth_error l j).
Proof. exact @tiered_iter_all. Qed.
Print Assumptions C42_tiered_iterator.
Theorem C42_tiered_iterator_unhurt : forall (K V : Type) (C : Cmp K) (_ : CmpLaws K) (Z : Sizes K V) (cfg : sconfig),
  (forall k k' : K, cmp k k' = Eq -> ksize k = ksize k') ->
  forall ops ops' : list (lsm_op K V), well_used sp_new (ops ++ LIterOpen :: ops') -> Forall (keeps (length (sp_iters (sp_after ops)))) ops' ->
  unhurt cfg (ops ++ LIterOpen :: ops') ->
  exists outs outs', outputs (lsm_step (size_tiered cfg)) (lsm_new (size_tiered cfg)) (ops ++ LIterOpen :: ops') = Ok (outs ++ OUnit :: outs') /\
    length outs = length ops /\
    forall j e, nth_error (nexts (length (sp_iters (sp_after ops))) ops' outs') j = Some e ->
      same_opt same_pair e (nth_error (sp_map (sp_after ops)) j).
Proof. exact @tiered_iter. Qed.
Print Assumptions C42_tiered_iterator_unhurt.
(** The iterator of the example for C37 *)
Example C42_tiered_example : tier_ops = firstn 13 tier_ops ++ LIterOpen :: skipn 14 tier_ops /\ length (sp_iters (sp_after (firstn 13 tier_ops))) = 0 /\
  Forall (keeps 0) (firstn 7 (skipn 14 tier_ops)) /\ sp_map (sp_after (firstn 13 tier_ops)) = [(2, 21); (4, 40); (5, 50)].
Proof. split; [reflexivity|]. split; [reflexivity|]. split; [repeat constructor|vm_compute; reflexivity]. Qed.
