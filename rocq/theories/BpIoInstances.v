(** Concrete histories of [BpMap] calls some of which fail. *)
From Verif Require Import BpIoModel BpIoSpec BpFinalProofs KeyInstances.

Definition io_cfg (m d : nat) : config := mkConfig 4 8 m d.
Definition nat_io_step (m d : nat) := fault_step (K := nat) (V := nat) (fun _ => 4%N) (fun _ => 8%N) (io_cfg m d).
Definition nat_io (m d : nat) (es : list (bp_op nat nat * option nat)) : res (list (outcome (bp_out nat nat))) :=
  outputs (nat_io_step m d) (new_store m) es.
(** Calls without failures. *)
Definition ok (ops : list (bp_op nat nat)) : list (bp_op nat nat * option nat) := map (fun o => (o, None)) ops.
(** The results after those of the first [n] calls. *)
Definition later (n : nat) (r : res (list (outcome (bp_out nat nat)))) : res (list (outcome (bp_out nat nat))) :=
  rmap (skipn n) r.

(** Failures at a read, when the file is extended, when a full leaf is written, when the length is written, when a free
    page is reused; opening the file again in between. *)
Definition io_history : list (bp_op nat nat * option nat) :=
  ok (fill 2) ++ [(BGet 1, Some 0); (BInsert 2 7, Some 1); (BInsert 2 7, Some 4); (BReopen, None); (BInsert 2 7, Some 9); (BLen, None);
    (BIter, None); (BRemove 0, Some 0); (BRemove 0, None); (BReopen, None); (BRemove 1, None); (BInsert 0 5, None);
    (BInsert 1 6, Some 3); (BInsert 1 6, None); (BRemove 2, Some 2); (BIter, None); (BLen, None); (BReopen, None); (BMax, None)].
