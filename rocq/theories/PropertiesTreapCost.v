(** Average running time of [TreapMap] and [TreapList]: C60.  [treap_step_c] and [tl_step_c] are the map and the list that return, with
    the result of each call, how many steps it took (nodes entered and comparisons); see TreapCostModel.v.  Each call comes with the
    number it draws if it inserts.  [average_within M t a b f] (RandomSpec.v): over [t] numbers drawn below [M] the average of [f] is
    at most [a + b / M]; the code draws below 2^32. *)
From Verif Require Import TreapCostModel CostSpec RandomSpec TreapCostProofs TreapListCostProofs KeyInstances.

(** ** C60: in every history of a TreapMap a call that looks for a single key takes at most 4 log2 m + 7 + 2 m / M steps on average,
    where [m] is the number of times the present keys have been inserted. *)
Theorem C60_treap_average : forall (K V : Type) (C : Cmp K) (L : CmpLaws K) (M : nat) (ops : list (map_op K V)), 0 < M ->
  exists steps : list N -> list nat,
    (forall ps, length ps = length ops ->
       outputs treap_step_c Leaf (combine ops ps) = Ok (combine (map_spec_outputs ops) (steps ps)) /\ length (steps ps) = length ops) /\
    forall i o, nth_error ops i = Some o -> looks_up o = true ->
      average_within M (length ops) (4 * Nat.log2 (insertions (firstn i ops)) + 7) (2 * insertions (firstn i ops)) (fun ps => nth i (steps ps) 0).
Proof. exact @treap_steps_average. Qed.
Print Assumptions C60_treap_average.
(** Six insertions of four keys and a lookup; all 2^7 sequences of numbers below 2 *)
Example C60_treap_example : let ops := map (fun k => MInsert k k) [0; 1; 2; 3; 1; 1] ++ [MGet 2] in
  insertions (firstn 6 ops) = 6 /\
  total (fun ps => match outputs treap_step_c Leaf (combine ops ps) with Ok outs => nth 6 (map snd outs) 0 | _ => 0 end) (draws 2 7) = 648 /\
  map (fun ps => match outputs treap_step_c Leaf (combine ops ps) with Ok outs => map snd outs | _ => [] end)
    [[0; 0; 0; 0; 0; 0; 0]; [2; 1; 0; 2; 1; 2; 0]]%N = [[0; 2; 4; 6; 4; 4; 6]; [0; 2; 4; 7; 6; 7; 8]].
Proof. vm_compute. repeat split. Qed.

(** Full statement: [m] is the number of keys in the map.  It holds for histories that insert absent keys only. *)
Theorem C60_treap_average_partial : forall (K V : Type) (C : Cmp K) (L : CmpLaws K) (M : nat) (ops : list (map_op K V)), 0 < M ->
  inserts_absent [] ops -> exists steps : list N -> list nat,
    (forall ps, length ps = length ops ->
       outputs treap_step_c Leaf (combine ops ps) = Ok (combine (map_spec_outputs ops) (steps ps)) /\ length (steps ps) = length ops) /\
    forall i o n, nth_error ops i = Some o -> looks_up o = true -> nth_error (lengths_before [] ops) i = Some n ->
      average_within M (length ops) (4 * Nat.log2 n + 7) (2 * n) (fun ps => nth i (steps ps) 0).
Proof. exact @treap_steps_fresh. Qed.
Print Assumptions C60_treap_average_partial.
Example C60_treap_partial_example : let ops := map (fun k => MInsert k k) [3; 1; 0; 2] ++ [MRemove 1; MInsert 1 7; MGet 2] in
  inserts_absent [] ops /\ nth_error (lengths_before [] ops) 6 = Some 4 /\
  total (fun ps => match outputs treap_step_c Leaf (combine ops ps) with Ok outs => nth 6 (map snd outs) 0 | _ => 0 end) (draws 2 7) = 608.
Proof. vm_compute. repeat split. Qed.

(** With insertions of keys that are present no multiple of the logarithm of the number of keys is a bound: such an insertion keeps the
    larger of the old and the new number, so that keys that are overwritten often rise above the others. *)
Theorem C60_treap_average_refuted : forall c : nat, exists (M : nat) (ops : list (map_op nat unit)) (i n : nat),
  0 < M /\ nth_error ops i = Some (MGet 0) /\ nth_error (lengths_before [] ops) i = Some n /\
  forall steps : list N -> list nat,
    (forall ps, length ps = length ops ->
       outputs treap_step_c Leaf (combine ops ps) = Ok (combine (map_spec_outputs ops) (steps ps)) /\ length (steps ps) = length ops) ->
    ~ average_within M (length ops) (c * Nat.log2 (n + 1) + c) (c * n) (fun ps => nth i (steps ps) 0).
Proof. exact treap_slow. Qed.
Print Assumptions C60_treap_average_refuted.

(** ** C60: in every history of a TreapList a call that looks for an index takes at most 8 log2 n + 10 + 4 n / M steps on average,
    where [n] is the length of the list. *)
Theorem C60_list_average : forall (T : Type) (M : nat) (ops : list (seq_op T)), 0 < M -> exists steps : list N -> list nat,
    (forall ps, length ps = length ops ->
       outputs tl_step_c Leaf (combine ops ps) = Ok (combine (spec_outputs seq_spec_step [] ops) (steps ps)) /\ length (steps ps) = length ops) /\
    forall i o n, nth_error ops i = Some o -> seeks o = true -> nth_error (seq_lengths_before [] ops) i = Some n ->
      average_within M (length ops) (8 * Nat.log2 n + 10) (4 * n) (fun ps => nth i (steps ps) 0).
Proof. exact @tl_steps_average. Qed.
Print Assumptions C60_list_average.
Example C60_list_example : let ops := [QPushBack 1; QInsert 0 2; QPushFront 3; QInsert 1 4; QRemove 2; QGet 1] in
  seq_lengths_before [] ops = [0; 1; 2; 3; 4; 3] /\
  total (fun ps => match outputs tl_step_c Leaf (combine ops ps) with Ok outs => nth 4 (map snd outs) 0 | _ => 0 end) (draws 2 6) = 292 /\
  map (fun ps => match outputs tl_step_c Leaf (combine ops ps) with Ok outs => map snd outs | _ => [] end) [[0; 0; 0; 0; 0; 0]; [2; 1; 0; 2; 1; 2]]%N =
    [[0; 3; 6; 9; 4; 4]; [0; 3; 6; 9; 6; 4]].
Proof. vm_compute. repeat split. Qed.
