(** Average running time of [SkipMap]: C61.  [skip_step_c] is the map that returns, with the result of each call, how many steps it took
    (levels entered and comparisons of keys); see SkipCostModel.v.  Each call comes with the number it draws if it inserts.  The code
    draws numbers below 2^32.  [average_within M t a b f] (RandomSpec.v): over [t] numbers drawn below [M] the average of [f] is at most
    [a + b / M]. *)
From Verif Require Import SkipCostModel CostSpec RandomSpec SkipCostProofs KeyInstances.

(** Without the counts it is the map of SkipMapModel.v. *)
Theorem C61_skip_counts : forall (K V : Type) (C : Cmp K) (m : skip_map K V) (op : map_op K V * N),
  rmap (fun r => (fst r, fst (snd r))) (skip_step_c m op) = skip_step m op.
Proof. exact @skip_step_c_fst. Qed.
Print Assumptions C61_skip_counts.
Example C61_counts_example :
  rmap (fun r => (fst (snd r), snd (snd r))) (skip_step_c (skip_new : skip_map nat nat) (MInsert 1 2, 5%N)) = Ok (RPair None, 33).
Proof. vm_compute. reflexivity. Qed.

(** ** C61: in every history of a SkipMap, a call that looks for a single key while the map holds [n] < 2^32 keys takes at most
    4 log2 n + 8 steps on average; an insertion or a removal, which starts from the highest level, at most log2 n + 101. *)
Theorem C61_skip_average_partial : forall (K V : Type) (C : Cmp K) (L : CmpLaws K) (M : nat) (ops : list (map_op K V)), N.of_nat M = 4294967296%N ->
  exists steps : list N -> list nat,
    (forall ps, length ps = length ops ->
       outputs skip_step_c skip_new (combine ops ps) = Ok (combine (map_spec_outputs ops) (steps ps)) /\ length (steps ps) = length ops) /\
    forall i o n, nth_error ops i = Some o -> nth_error (lengths_before [] ops) i = Some n -> (N.of_nat n < 4294967296)%N -> looks_up o = true ->
      average_within M (length ops) (if insert_or_remove o then Nat.log2 n + 101 else 4 * Nat.log2 n + 8) 0 (fun ps => nth i (steps ps) 0).
Proof. exact @skip_steps_average. Qed.
Print Assumptions C61_skip_average_partial.
(** Eight keys and a lookup.  With the heights 0, 1, 0, 2, 0, 1, 0, 3 the lookup of key 6 from level 4 takes 15 steps, with heights 0 only
    13; an insertion takes at least one step on each of the 33 levels. *)
Example C61_average_example : let ops := map (fun k => MInsert k k) (seq 0 8) ++ [MGet 6] in
  let steps ps := match outputs skip_step_c skip_new (combine ops ps) with Ok outs => map snd outs | _ => [] end in
  N.of_nat (N.to_nat 4294967296) = 4294967296%N /\ nth_error (lengths_before [] ops) 8 = Some 8 /\
  map height_of [4294967295; 2147483647; 1073741823; 536870911]%N = [0; 1; 2; 3] /\
  steps [4294967295; 2147483647; 4294967295; 1073741823; 4294967295; 2147483647; 4294967295; 536870911; 0]%N = [33; 34; 34; 35; 34; 35; 35; 36; 15] /\
  steps (repeat 4294967295%N 9) = [33; 34; 35; 36; 37; 38; 39; 40; 13].
Proof. split; [apply N2Nat.id|]. repeat split; vm_compute; reflexivity. Qed.

(** With 2^32 keys or more the starting level is computed from the number of keys modulo 2^32, and a lookup can take [n] steps. *)
Theorem C61_skip_average_refuted : forall (M c : nat), N.of_nat M = 4294967296%N -> exists (ops : list (map_op nat unit)) (i n k : nat),
  nth_error ops i = Some (MGet k) /\ nth_error (lengths_before [] ops) i = Some n /\
  forall steps : list N -> list nat,
    (forall ps, length ps = length ops ->
       outputs skip_step_c skip_new (combine ops ps) = Ok (combine (map_spec_outputs ops) (steps ps)) /\ length (steps ps) = length ops) ->
    ~ average_within M (length ops) (c * Nat.log2 n + c) 0 (fun ps => nth i (steps ps) 0).
Proof. exact skip_slow. Qed.
Print Assumptions C61_skip_average_refuted.
