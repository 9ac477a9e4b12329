(** Concrete histories for iterators of [BpMap] with failing reads. *)
From Verif Require Import BpIoModel BpIoSpec BpFinalProofs BpIoInstances BpIterIoModel KeyInstances.

(** Five insertions, and between them one that fails. *)
Definition failing_start : list (bp_op nat nat * option nat) := ok (fill 3) ++ [(BInsert 3 9, Some 1)] ++ ok (skipn 3 (fill 5)).
