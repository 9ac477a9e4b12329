(** Property theorems about the iterator of BpMap when reads of the file fail: C81. *)
From Verif Require Import BpMapModel BpNodeSpec BpFinalProofs BpIoModel BpIoSpec BpIoInstances BpIterIoModel BpIterIoSpec BpIterIoInstances
  BpIterIoProofs BpIterIoRefuted KeyInstances OrdLemmas.

(** ** C81: an iterator whose reads fail.  After a history as in C78 (in particular, one without failures), a call of
    [next] whose read fails returns the error and the next call tries again: no entry is lost, repeated or out of
    order.  Only calls that need a new page fail, and never after the last entry. *)
Theorem C81_resumes : forall (K V : Type) (C : Cmp K) (_ : CmpLaws K) (m d : nat), 1 <= m -> 3 <= d ->
  forall (ksize : K -> N) (vsize : V -> N) (cfg : config), leaf_degree cfg = m -> internal_degree cfg = d ->
  forall (es : list (bp_op K V * option nat)) (s : store K V) (outs : list (outcome (bp_out K V))),
  m <= 4 \/ unharmed ksize vsize cfg es ->
  run (fault_step ksize vsize cfg) (new_store m) es = Ok (s, outs) -> mild true es outs = true ->
  let l := io_state (valid ksize vsize cfg) [] es outs in
  exists reads, (forall q, reads q = true -> 0 < q < length l) /\
    forall n, (exists b, open_io s n = Ok (Failed b PGet)) \/
      exists it, open_io s n = Ok (Done it) /\ forall fails, nexts_io s it fails = Ok (resumes l reads 0 fails).
Proof. exact @iter_io. Qed.
Print Assumptions C81_resumes.

(** The entries yielded before, between and after errors are a first part of the map; all of it if the iterator ended. *)
Theorem C81_entries : forall (K V : Type) (C : Cmp K) (_ : CmpLaws K) (m d : nat), 1 <= m -> 3 <= d ->
  forall (ksize : K -> N) (vsize : V -> N) (cfg : config), leaf_degree cfg = m -> internal_degree cfg = d ->
  forall (es : list (bp_op K V * option nat)) (s : store K V) (outs : list (outcome (bp_out K V))) n it fails ys,
  m <= 4 \/ unharmed ksize vsize cfg es ->
  run (fault_step ksize vsize cfg) (new_store m) es = Ok (s, outs) -> mild true es outs = true ->
  open_io s n = Ok (Done it) -> nexts_io s it fails = Ok ys ->
  let l := io_state (valid ksize vsize cfg) [] es outs in
  (exists k, entries_of ys = firstn k l) /\ (In End ys -> entries_of ys = l).
Proof. exact @iter_entries. Qed.
Print Assumptions C81_entries.

Example C81_example : exists s outs it, run (nat_io_step 2 3) (new_store 2) failing_start = Ok (s, outs) /\
  mild true failing_start outs = true /\ nth_error outs 3 = Some (Failed [PGet] PGet) /\
  io_state (valid (fun _ => 4%N) (fun _ => 8%N) (io_cfg 2 3)) [] failing_start outs = [(0, 1000); (1, 1001); (2, 1002); (3, 1003); (4, 1004)] /\
  open_io s 0 = Ok (Failed [] PGet) /\ open_io s 1 = Ok (Failed [PGet] PGet) /\ open_io s 2 = Ok (Done it) /\
  nexts_io s it [true; true; true; true; false; true; true; false; false; true] =
    Ok [Entry (0, 1000); Entry (1, 1001); Error; Error; Entry (2, 1002); Entry (3, 1003); Error; Entry (4, 1004); End; End].
Proof. do 3 eexists. split; [vm_compute; reflexivity|]. repeat (split; [vm_compute; reflexivity|]). vm_compute. reflexivity. Qed.

(** [iter_mut] returns an error when a read on the way to the first leaf fails; [into_iter], which a [for] loop over the
    map calls, panics in that case. *)
Theorem C81_into_iter_refuted :
  (forall (K V : Type) (C : Cmp K) (s : store K V) n b p, open_io s n = Ok (Failed b p) -> into_iter_io s n = Panic) /\
  exists s, rmap fst (run (nat_io_step 2 3) (new_store 2) (ok (fill 1))) = Ok s /\ open_io s 0 = Ok (Failed [] PGet).
Proof. exact into_iter_bad. Qed.
Print Assumptions C81_into_iter_refuted.

(** As long as reads fail the iterator does not end: a loop that skips errors runs for ever. *)
Theorem C81_ends_refuted : exists s it, rmap fst (run (nat_io_step 2 3) (new_store 2) (ok (fill 3))) = Ok s /\
  open_io s 2 = Ok (Done it) /\ forall n, nexts_io s it (repeat true (2 + n)) = Ok (Entry (0, 1000) :: Entry (1, 1001) :: repeat Error n).
Proof. exact iter_endless. Qed.
Print Assumptions C81_ends_refuted.
