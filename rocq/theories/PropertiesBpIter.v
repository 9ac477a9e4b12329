(** C67: the iterator of the on-disk B+ tree map, one call of [next] at a time. *)
From Verif Require Import BpMapModel BpIterModel BpSpec BpNodeSpec BpFinalProofs BpIterProofs KeyInstances.

(** The calls of [next] return the entries in order, then [None] for ever, and leave the file as it is.
    Full statement: without the hypotheses on degrees and overwriting; refuted below (and C26, C32). *)
Theorem C67_next_partial : forall (K V : Type) (C : Cmp K) (_ : CmpLaws K)
    (ksize : K -> N) (vsize : V -> N) (cfg : config) (ops : list (bp_op K V)) s outs n,
  1 <= leaf_degree cfg -> 3 <= internal_degree cfg -> never_harmful ksize vsize cfg ops ->
  run (bp_step ksize vsize cfg) (new_store (leaf_degree cfg)) ops = Ok (s, outs) ->
  run_io s (iter_some n) = Ok (s, map (nth_error (bp_spec_state (valid ksize vsize cfg) ops)) (seq 0 n)).
Proof. exact @bp_next. Qed.
Print Assumptions C67_next_partial.

(** The file is read as far as the iteration goes: the way down (see C63 for j), then at most one page for each (m+1)/2
    entries. *)
Theorem C67_lazy_partial : forall (K V : Type) (C : Cmp K) (_ : CmpLaws K)
    (ksize : K -> N) (vsize : V -> N) (cfg : config) (ops : list (bp_op K V)) s outs j n,
  let m := leaf_degree cfg in let d := internal_degree cfg in
  let size := length (bp_spec_state (valid ksize vsize cfg) ops) in
  1 <= m -> 3 <= d -> never_harmful ksize vsize cfg ops ->
  run (bp_step ksize vsize cfg) (new_store m) ops = Ok (s, outs) ->
  size < m * ((d + 1) / 2) ^ j ->
  accesses s (iter_some (K := K) (V := V) n) <= j + 1 + Nat.min n size / ((m + 1) / 2).
Proof. exact @bp_next_accesses. Qed.
Print Assumptions C67_lazy_partial.

Example C67_example : exists s outs,
  run (bp_step (fun _ => 4%N) (fun _ => 8%N) (mkConfig 4 8 2 3)) (new_store 2) (fill 5) = Ok (s, outs) /\
  run_io s (iter_some 8) =
    Ok (s, [Some (0, 1000); Some (1, 1001); Some (2, 1002); Some (3, 1003); Some (4, 1004); None; None; None]) /\
  5 < 2 * ((3 + 1) / 2) ^ 2 /\
  map (fun n => accesses s (iter_some (K := nat) (V := nat) n)) [0; 1; 2; 3; 4; 8] = [2; 2; 2; 3; 3; 4].
Proof. do 2 eexists. split; [vm_compute; reflexivity|]. split; [vm_compute; reflexivity|]. split; [vm_compute; lia | vm_compute; reflexivity]. Qed.

(** After an overwrite that loses an entry, [next] returns [None] and then an entry. *)
Theorem C67_next_refuted : exists s outs,
  run (bp_step (fun _ => 4%N) (fun _ => 8%N) (mkConfig 4 8 5 3)) (new_store 5) (fill 5 ++ [BInsert 4 7]) = Ok (s, outs) /\
  run_io s (iter_some 6) = Ok (s, [Some (0, 1000); Some (1, 1001); Some (2, 1002); None; Some (4, 7); None]).
Proof. exact bp_next_bad. Qed.
Print Assumptions C67_next_refuted.
