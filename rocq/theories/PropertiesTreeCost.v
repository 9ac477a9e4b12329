(** Running time of [RedBlackMap] and [AvlMap]: C52.  [rb_step_c] and [avl_step_c] are the maps that return, with the result of
    each call, how many steps it took (nodes entered and comparisons of keys); see TreeCostModel.v. *)
From Verif Require Import TreeCostModel CostSpec ShapeSpec TreeCostProofs KeyInstances.

(** ** C52: in every history of a RedBlackMap each call that looks for a single key takes at most 8 log2 (n + 1) + 8 steps. *)
Theorem C52_rb_steps : forall (K V : Type) (C : Cmp K) (L : CmpLaws K) (ops : list (map_op K V)), exists steps,
  outputs rb_step_c rb_new ops = Ok (combine (map_spec_outputs ops) steps) /\
  steps_within (fun n => 8 * Nat.log2 (n + 1) + 8) ops steps.
Proof. exact @rb_steps. Qed.
Print Assumptions C52_rb_steps.
Example C52_rb_example :
  rmap (map snd) (outputs rb_step_c rb_new (map (fun k => MInsert k k) (seq 0 10) ++ [MGet 0; MRemove 5; MRemove 3; MRemove 9; MMin; MMax; MCeil 20])) =
  Ok [0; 2; 2; 4; 4; 4; 4; 6; 6; 6; 6; 11; 7; 15; 3; 3; 6].
Proof. vm_compute. reflexivity. Qed.

(** The same for an AvlMap from which only smallest and largest keys are removed.  Full statement: without [removes_ends [] ops]. *)
Theorem C52_avl_steps_partial : forall (K V : Type) (C : Cmp K) (L : CmpLaws K) (ops : list (map_op K V)),
  removes_ends [] ops -> exists steps,
  outputs avl_step_c avl_new ops = Ok (combine (map_spec_outputs ops) steps) /\
  steps_within (fun n => 4 * Nat.log2 (n + 1) + 2) ops steps.
Proof. exact @avl_steps. Qed.
Print Assumptions C52_avl_steps_partial.
Example C52_avl_example : let ops := map (fun k => MInsert k k) (seq 0 10) ++ [MGet 0; MRemove 0; MRemove 9; MMin; MMax; MCeil 20] in
  removes_ends [] ops /\ rmap (map snd) (outputs avl_step_c avl_new ops) = Ok [0; 2; 4; 4; 6; 6; 6; 6; 8; 8; 6; 6; 8; 2; 3; 6].
Proof. vm_compute. intuition auto. Qed.

(** With other removals no multiple of the logarithm is a bound. *)
Theorem C52_avl_steps_refuted : forall c : nat, exists (ops : list (map_op nat unit)) steps,
  outputs avl_step_c avl_new ops = Ok (combine (map_spec_outputs ops) steps) /\
  ~ steps_within (fun n => c * Nat.log2 (n + 1) + c) ops steps.
Proof. exact avl_slow. Qed.
Print Assumptions C52_avl_steps_refuted.
