(** Running time of [SplayMap] in comparisons of keys: C51.  [splay_step_c] is the map that returns, with the result of each
    call, how many keys were compared; see SplayCostModel.v. *)
From Verif Require Import SplayCostModel CostSpec SplayCostProofs KeyInstances.

(** ** C51: in every history the calls of insert, remove and get_mut together make at most 24 log2 (n + 1) + 9 comparisons
    per call, where n is the number of keys at the time of the call (and every call returns what is specified).
    Missing: get, contains_key, floor and ceil ... *)
Theorem C51_splay_amortised_partial : forall (K V : Type) (C : Cmp K) (L : CmpLaws K) (ops : list (map_op K V)),
  exists cs, outputs splay_step_c splay_new ops = Ok (combine (map_spec_outputs ops) cs) /\ length cs = length ops /\
    adjusting_sum ops cs <= adjusting_sum ops (map (fun n => 24 * Nat.log2 (n + 1) + 9) (lengths_before [] ops)).
Proof. exact @splay_amortised. Qed.
Print Assumptions C51_splay_amortised_partial.
(** Ten insertions in ascending order, which make a list, then get_mut twice for the smallest key *)
Example C51_example : rmap (map snd) (outputs splay_step_c splay_new (map (fun k => MInsert k k) (seq 0 10) ++ [MGetMut 0 7; MGetMut 0 8; MGet 0; MRemove 5])) =
  Ok [0; 2; 2; 2; 2; 2; 2; 2; 2; 2; 12; 2; 1; 10].
Proof. vm_compute. reflexivity. Qed.

(** ... which leave the map as it is: after n + 1 insertions each of m calls of get may compare n + 1 keys. *)
Theorem C51_splay_get_refuted : forall n m : nat, exists outs,
  outputs splay_step_c splay_new (map (fun k => MInsert k tt) (seq 0 (S n)) ++ repeat (MGet 0) m) = Ok (outs ++ repeat (RVal (Some tt), S n) m) /\
  length outs = S n.
Proof. exact splay_get_linear. Qed.
Print Assumptions C51_splay_get_refuted.
