(** Iterators of [BpMap] with failing reads: what goes wrong. *)
From Verif Require Import BpMapModel BpIoModel BpFinalProofs BpIoInstances BpIterIoModel BpIterIoProofs KeyInstances OrdLemmas.

Lemma into_iter_bad :
  (forall (K V : Type) (C : Cmp K) (s : store K V) n b p, open_io s n = Ok (Failed b p) -> into_iter_io s n = Panic) /\
  exists s, rmap fst (run (nat_io_step 2 3) (new_store 2) (ok (fill 1))) = Ok s /\ open_io s 0 = Ok (Failed [] PGet).
Proof. split; [exact @into_iter_unwraps|]. eexists. split; [vm_compute; reflexivity | reflexivity]. Qed.

Lemma iter_endless : exists s it, rmap fst (run (nat_io_step 2 3) (new_store 2) (ok (fill 3))) = Ok s /\
  open_io s 2 = Ok (Done it) /\ forall n, nexts_io s it (repeat true (2 + n)) = Ok (Entry (0, 1000) :: Entry (1, 1001) :: repeat Error n).
Proof.
  eexists _, _. split; [vm_compute; reflexivity|]. split; [vm_compute; reflexivity|]. intros n. unfold nexts_io.
  cbn [Nat.add repeat run]. match goal with |- context [next_io ?s ?i true] => let r := eval vm_compute in (next_io s i true) in change (next_io s i true) with r end.
  cbn [bind]. match goal with |- context [next_io ?s ?i true] => let r := eval vm_compute in (next_io s i true) in change (next_io s i true) with r end.
  cbn [bind]. match goal with |- context [run (next_io ?s) ?i _] => pose proof (next_stuck s i eq_refl n) as E end.
  unfold nexts_io in E. match type of E with context [run ?f ?i ?l] => destruct (run f i l) as [[? ?]| |] end; cbn [bind] in *; try discriminate.
  now injection E as ->.
Qed.
