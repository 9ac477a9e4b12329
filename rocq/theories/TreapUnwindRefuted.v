(** A split_off of a TreapMap that panics and empties the map. *)
From Verif Require Import TreapUnwindProofs TreapUnwindInstances.

Lemma split_empties : ~ (forall (ops : list (prog_op nat nat * N * nat)) rs outs, run treap_prog_step_u (fun _ => Leaf) ops = Ok (rs, outs) ->
  splits_kept (fun _ => []) (combine (map (fun x => fst (fst x)) ops) outs)).
Proof.
  intros A. destruct (prog_unwind split_calls) as (rs & outs & E & _). specialize (A _ _ _ E).
  assert (Eo : outputs treap_prog_step_u (fun _ => Leaf) split_calls = Ok outs) by (unfold outputs; rewrite E; reflexivity).
  vm_compute in Eo. injection Eo as <-. vm_compute in A. destruct A as (_ & _ & _ & _ & _ & A & _). discriminate.
Qed.
