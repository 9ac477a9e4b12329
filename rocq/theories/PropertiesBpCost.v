(** C63: how often a call of the on-disk B+ tree map reads or writes its file. *)
From Verif Require Import BpMapModel BpCostModel BpSpec BpNodeSpec BpFinalProofs BpCostProofs KeyInstances.

(** With fewer than m * c^j keys in the map, m being the degree of the leaves and c half of that of the internal nodes,
    rounded up, so with j of the order of log n / log c.
    Full statement: without the hypotheses on degrees and overwriting (C25, C26, C32). *)
Theorem C63_accesses_partial : forall (K V : Type) (C : Cmp K) (_ : CmpLaws K)
    (ksize : K -> N) (vsize : V -> N) (cfg : config) (ops : list (bp_op K V)) s outs j o,
  let m := leaf_degree cfg in let d := internal_degree cfg in
  let n := length (bp_spec_state (valid ksize vsize cfg) ops) in
  1 <= m -> 3 <= d -> never_harmful ksize vsize cfg ops ->
  run (bp_step ksize vsize cfg) (new_store m) ops = Ok (s, outs) ->
  n < m * ((d + 1) / 2) ^ j ->
  call_accesses ksize vsize cfg s o <= match o with
    | BGet _ | BContains _ | BMin | BMax => j + 1
    | BInsert _ _ => 5 * j + 10
    | BRemove _ => 5 * j + 5
    | BIter => j + 1 + n / ((m + 1) / 2)
    | BLen | BIsEmpty => 0
    | BClear => 3
    | BReopen => 1
    end.
Proof. exact @bp_accesses. Qed.
Print Assumptions C63_accesses_partial.

(** A tree with two levels of internal nodes, which the insertion splits up to the root. *)
Example C63_accesses_example : exists s outs,
  let acc := call_accesses (fun _ => 4%N) (fun _ => 8%N) (mkConfig 4 8 2 3) s in
  run (bp_step (fun _ => 4%N) (fun _ => 8%N) (mkConfig 4 8 2 3)) (new_store 2) (fill 26) = Ok (s, outs) /\
  26 < 2 * ((3 + 1) / 2) ^ 4 /\
  map acc [BGet 3; BMin; BMax; BInsert 26 0; BRemove 0; BIter] = [3; 3; 3; 20; 5; 15].
Proof. do 2 eexists. split; [vm_compute; reflexivity|]. split; [vm_compute; lia | vm_compute; reflexivity]. Qed.
