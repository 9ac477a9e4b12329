(** Property theorems about BpMap when operations on its file fail and the caller goes on: C78. *)
From Verif Require Import BpMapModel BpNodeSpec BpFinalProofs BpIoModel BpIoSpec BpIoInstances BpIoProofs KeyInstances OrdLemmas.

(** ** C78: a BpMap after failed file operations.  Full statement: without the hypothesis [mild]; refuted below.
    If every failure comes before the first operation that touches the entries, or is that of the length written last
    by an insertion, then all calls give the results of an ordered map on which a failed call was carried out (when
    the length failed) or was not.  Opening the file again needs up-to-date metadata. *)
Theorem C78_io_partial : forall (K V : Type) (C : Cmp K) (_ : CmpLaws K) (m d : nat), 1 <= m -> 3 <= d ->
  forall (ksize : K -> N) (vsize : V -> N) (cfg : config), leaf_degree cfg = m -> internal_degree cfg = d ->
  forall (es : list (bp_op K V * option nat)) (s : store K V) (outs : list (outcome (bp_out K V))),
  m <= 4 \/ unharmed ksize vsize cfg es ->
  run (fault_step ksize vsize cfg) (new_store m) es = Ok (s, outs) -> mild true es outs = true ->
  agrees (valid ksize vsize cfg) [] es outs.
Proof. exact @io_agrees. Qed.
Print Assumptions C78_io_partial.

(** After such a history every call returns or fails with an error: it neither panics nor runs forever. *)
Theorem C78_returns : forall (K V : Type) (C : Cmp K) (_ : CmpLaws K) (m d : nat), 1 <= m -> 3 <= d ->
  forall (ksize : K -> N) (vsize : V -> N) (cfg : config), leaf_degree cfg = m -> internal_degree cfg = d ->
  forall (es : list (bp_op K V * option nat)) (o : bp_op K V) (f : option nat) (s : store K V) (outs : list (outcome (bp_out K V))),
  m <= 4 \/ unharmed ksize vsize cfg (es ++ [(o, f)]) ->
  run (fault_step ksize vsize cfg) (new_store m) es = Ok (s, outs) -> mild true es outs = true ->
  (o = BReopen -> saved true es outs = true) ->
  exists s' r, fault_step ksize vsize cfg s (o, f) = Ok (s', r).
Proof. exact @io_returns. Qed.
Print Assumptions C78_returns.

Example C78_example : exists s outs, run (nat_io_step 2 3) (new_store 2) io_history = Ok (s, outs) /\
  mild true io_history outs = true /\ saved true io_history outs = true /\
  outs =
    [Done (OPair None); Done (OPair None); Failed [] PGet; Failed [PGet] PGrow;
     Failed [PGrowMeta; PGrowNode; PGrow; PGet] PWrite; Done OUnit;
     Failed [PRoot; PGrowMeta; PGrowNode; PGrow; PWrite; PGrowMeta; PGrowNode; PGrow; PGet] PLen; Done (ONat 3);
     Done (OList [(0, 1000); (1, 1001); (2, 7)]); Failed [] PGet; Done (OPair (Some (0, 1000)));
     Done OUnit; Done (OPair (Some (1, 1001))); Done (OPair None); Failed [PReuseNode; PReuse; PGet] PReuseMeta;
     Done (OPair None); Failed [PGet; PGet] PGet; Done (OList [(0, 5); (1, 6); (2, 7)]); Done (ONat 3);
     Done OUnit; Done (OKey (Some 2))].
Proof. eexists _, _. split; [vm_compute; reflexivity|]. split; [reflexivity|]. split; reflexivity. Qed.

(** An insertion that needs no new page fails without harm, wherever it fails. *)
Theorem C78_insert_fits : forall (K V : Type) (C : Cmp K) (ksize : K -> N) (vsize : V -> N) (cfg : config)
    (s : store K V) (k : K) (v : V) (f : option nat) (s' : store K V) (before : list point) (p : point),
  fault_step ksize vsize cfg s (BInsert k v, f) = Ok (s', Failed before p) ->
  existsb (fun q => match q with PGrow | PGrowNode | PGrowMeta | PReuse | PReuseNode | PReuseMeta => true | _ => false end)
    (p :: before) = false ->
  harmless (BInsert (V := V) k v) before p = true.
Proof. exact @insert_fits. Qed.
Print Assumptions C78_insert_fits.

Example C78_insert_fits_example : later 3 (nat_io 4 4 (ok (fill 3) ++ [(BInsert 9 1, Some 1); (BInsert 9 1, Some 2); (BIter, None)])) =
  Ok [Failed [PGet] PWrite; Failed [PWrite; PGet] PLen; Done (OList [(0, 1000); (1, 1001); (2, 1002); (9, 1)])].
Proof. vm_compute. reflexivity. Qed.

(** A call that only reads leaves the map and its file alone, whether it fails or not, in any state. *)
Theorem C78_reads : forall (K V : Type) (C : Cmp K) (ksize : K -> N) (vsize : V -> N) (cfg : config)
    (s : store K V) (o : bp_op K V) (f : option nat) (s' : store K V) (r : outcome (bp_out K V)),
  match o with BInsert _ _ | BRemove _ | BClear | BReopen => False | _ => True end ->
  fault_step ksize vsize cfg s (o, f) = Ok (s', r) -> s' = s.
Proof. exact @read_fault. Qed.
Print Assumptions C78_reads.

Example C78_reads_example : later 3 (nat_io 2 3 (ok (fill 3) ++ [(BIter, Some 2); (BIter, None)])) =
  Ok [Failed [PGet; PGet] PGet; Done (OList [(0, 1000); (1, 1001); (2, 1002)])].
Proof. vm_compute. reflexivity. Qed.

(** *** Failures that do harm: each call below fails with an error, and the results after it are those of no map *)

(** [remove] moves an entry from the sibling to the leaf: it writes the parent, the sibling, the leaf.  If the second
    write fails, the entry of key 3, which nobody removed, is not found any more; if the third fails, it is gone, and
    [len] still counts it. *)
Theorem C78_borrow_refuted :
  later 7 (nat_io 4 4 (ok (fill 6 ++ [BRemove 0]) ++ [(BRemove 1, Some 4)] ++ ok [BIter; BLen; BGet 3])) =
    Ok [Failed [PWrite; PGet; PGet; PGet] PWrite; Done (OList [(1, 1001); (2, 1002); (3, 1003); (4, 1004); (5, 1005)]);
        Done (ONat 5); Done (OVal None)] /\
  later 7 (nat_io 4 4 (ok (fill 6 ++ [BRemove 0]) ++ [(BRemove 1, Some 5)] ++ ok [BIter; BLen; BGet 3])) =
    Ok [Failed [PWrite; PWrite; PGet; PGet; PGet] PWrite; Done (OList [(1, 1001); (2, 1002); (4, 1004); (5, 1005)]);
        Done (ONat 5); Done (OVal None)].
Proof. vm_compute. split; reflexivity. Qed.
Print Assumptions C78_borrow_refuted.

(** [remove] merges two leaves: the sibling's page is freed first; when the next write fails, the sibling's entries are
    gone and looking for one of them panics. *)
Theorem C78_merge_refuted :
  later 6 (nat_io 4 4 (ok (fill 5 ++ [BRemove 4]) ++ [(BRemove 0, Some 4)] ++ ok [BLen; BGet 1])) =
    Ok [Failed [PFree; PGet; PGet; PGet] PFreeMeta; Done (ONat 4); Done (OVal (Some 1001))] /\
  nat_io 4 4 (ok (fill 5 ++ [BRemove 4]) ++ [(BRemove 0, Some 4)] ++ ok [BGet 2]) = Panic.
Proof. vm_compute. split; reflexivity. Qed.
Print Assumptions C78_merge_refuted.

(** [insert] splits a leaf and fails before the parent knows of the new leaf: the entry is yielded by the iterator but
    not found, and [len] does not count it. *)
Theorem C78_split_refuted :
  later 2 (nat_io 2 3 (ok (fill 2) ++ [(BInsert 2 7, Some 5)] ++ ok [BIter; BLen; BGet 2])) =
    Ok [Failed [PWrite; PGrowMeta; PGrowNode; PGrow; PGet] PGrow; Done (OList [(0, 1000); (1, 1001); (2, 7)]);
        Done (ONat 2); Done (OVal None)].
Proof. vm_compute. reflexivity. Qed.
Print Assumptions C78_split_refuted.

(** [insert] splits the root and the page of the new root cannot be written to the metadata: in memory the new root counts, so that the entry is found,
    and [len] does not count it; after opening the file again it is not found, and inserting it again stores its key twice. *)
Theorem C78_root_refuted :
  later 2 (nat_io 2 3 (ok (fill 2) ++ [(BInsert 2 7, Some 8)] ++ ok [BIter; BLen; BGet 2; BReopen; BGet 2; BInsert 3 8; BInsert 2 9; BIter; BLen])) =
    Ok [Failed [PGrowMeta; PGrowNode; PGrow; PWrite; PGrowMeta; PGrowNode; PGrow; PGet] PRoot; Done (OList [(0, 1000); (1, 1001); (2, 7)]);
        Done (ONat 2); Done (OVal (Some 7)); Done OUnit; Done (OVal None); Done (OPair None); Done (OPair None);
        Done (OList [(0, 1000); (1, 1001); (2, 9); (3, 8); (2, 7)]); Done (ONat 4)].
Proof. vm_compute. reflexivity. Qed.
Print Assumptions C78_root_refuted.

(** [remove] writes the length before the leaf: the entry stays and is not counted; removing it then panics (an
    arithmetic overflow in debug builds). *)
Theorem C78_remove_len_refuted :
  later 1 (nat_io 2 3 (ok (fill 1) ++ [(BRemove 0, Some 1)] ++ ok [BIter; BLen])) =
    Ok [Failed [PGet] PLen; Done (OList [(0, 1000)]); Done (ONat 0)] /\
  nat_io 2 3 (ok (fill 1) ++ [(BRemove 0, Some 1)] ++ ok [BRemove 0]) = Panic.
Proof. vm_compute. split; reflexivity. Qed.
Print Assumptions C78_remove_len_refuted.

(** [clear] changes the metadata in memory first: the map says that it is empty and still finds entries; opening the
    file again brings all of them back. *)
Theorem C78_clear_refuted :
  later 3 (nat_io 2 3 (ok (fill 3) ++ [(BClear, Some 0)] ++ ok [BLen; BMin; BGet 0; BReopen; BLen])) =
    Ok [Failed [] PCut; Done (ONat 0); Done (OKey (Some 0)); Done (OVal (Some 1000)); Done OUnit; Done (ONat 3)].
Proof. vm_compute. reflexivity. Qed.
Print Assumptions C78_clear_refuted.

(** Opening the file again when its metadata is not up to date: [len] is wrong after the length could not be written,
    and after the metadata of a reused page could not be written the page stays on the free list while it holds a
    node: the next insertion that needs a page panics. *)
Theorem C78_reopen_refuted :
  later 1 (nat_io 2 3 (ok (fill 1) ++ [(BInsert 1 7, Some 2)] ++ ok [BLen; BReopen; BIter; BLen])) =
    Ok [Failed [PWrite; PGet] PLen; Done (ONat 2); Done OUnit; Done (OList [(0, 1000); (1, 7)]); Done (ONat 1)] /\
  later 6 (nat_io 2 3 (ok (fill 3 ++ [BRemove 0; BRemove 1; BInsert 0 5]) ++ [(BInsert 4 1, Some 3)] ++ ok [BReopen; BIter])) =
    Ok [Failed [PReuseNode; PReuse; PGet] PReuseMeta; Done OUnit; Done (OList [(0, 5); (2, 1002)])] /\
  nat_io 2 3 (ok (fill 3 ++ [BRemove 0; BRemove 1; BInsert 0 5]) ++ [(BInsert 4 1, Some 3)] ++ ok [BReopen; BInsert 4 1]) = Panic.
Proof. vm_compute. repeat split; reflexivity. Qed.
Print Assumptions C78_reopen_refuted.
