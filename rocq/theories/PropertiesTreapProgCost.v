(** Average running time of programs over several [TreapMap]s or [TreapList]s: C68.  [treap_prog_step_c] and [tl_prog_step_c] return, with
    the result of each call, how many steps it took; see TreapCostModel.v.  Each call comes with the number it draws if it inserts.
    [counts ops i] (CostSpec.v): how many insertions are behind each key of map [i].  [average_within M t a b f] (RandomSpec.v): over [t]
    numbers drawn below [M] the average of [f] is at most [a + b / M]; the code draws below 2^32. *)
From Verif Require Import TreapCostModel TreapSeedModel CostSpec RandomSpec TreapProgCostProofs TreapListProgCostProofs TreapSeedProofs KeyInstances.

(** ** C68: let [m] be the number of insertions behind the keys of the maps that a call uses.  A call that looks for a single key takes at
    most 4 log2 m + 7 + 2 m / M steps on average, split_off at most 6 log2 m + 9 + 3 m / M.  A union, intersection, difference or symmetric
    difference takes at most 10 log2 m + 14 + 3 m / M for each key of the two maps. *)
Theorem C68_map_average_partial : forall (K V : Type) (C : Cmp K) (L : CmpLaws K) (M : nat) (ops : list (prog_op K V)), 0 < M ->
  exists steps : list N -> list nat,
    (forall ps, length ps = length ops ->
       outputs treap_prog_step_c (fun _ => Leaf) (combine ops ps) = Ok (combine (prog_spec_outputs ops) (steps ps)) /\ length (steps ps) = length ops) /\
    forall q o, nth_error ops q = Some o -> let c := counts (firstn q ops) in
      match o with
      | POp i o' => let m := inserted (c i) in
          looks_up o' = true -> average_within M (length ops) (4 * Nat.log2 m + 7) (2 * m) (fun ps => nth q (steps ps) 0)
      | PSplit _ i _ _ => let m := inserted (c i) in
          average_within M (length ops) (6 * Nat.log2 m + 9) (3 * m) (fun ps => nth q (steps ps) 0)
      | PSet _ _ i j => let a := c i in let b := update c i [] j in
          let keys := length a + length b in let m := inserted a + inserted b in
          average_within M (length ops) (keys * (10 * Nat.log2 m + 14)) (3 * keys * m) (fun ps => nth q (steps ps) 0)
      end.
Proof. exact @prog_steps_average. Qed.
Print Assumptions C68_map_average_partial.
(** A map with three insertions, one of them of a key that is present, and one with two; their union is split and the parts are subtracted;
    all 2^9 sequences of numbers below 2 *)
Example C68_map_example :
  let ops := map (fun k => POp 0 (MInsert k k)) [0; 2; 2] ++ map (fun k => POp 1 (MInsert k 7)) [1; 2] ++
             [PSet SUnion 0 0 1; PSplit 2 0 1 true; PSet SDiff 3 0 2; POp 3 (MGet 1)] in
  map (fun q => map snd (counts (firstn q ops) 0)) [3; 6; 7] = [[1; 2]; [1; 1; 3]; [1; 1]] /\
  map (fun q => total (fun ps => match outputs treap_prog_step_c (fun _ => Leaf) (combine ops ps) with Ok outs => nth q (map snd outs) 0 | _ => 0 end) (draws 2 9))
    [5; 6; 7; 8] = [4032; 3168; 1920; 1280].
Proof. vm_compute. repeat split. Qed.

(** ** C68: a call on a TreapList of [n] elements that looks for an index takes at most 8 log2 n + 10 + 4 n / M steps on average, in every
    program over several lists; joining two lists of together [n] elements takes at most 2 log2 n + 2 + n / M. *)
Theorem C68_list_average_partial : forall (T : Type) (M : nat) (ops : list (sprog_op T)), 0 < M -> exists steps : list N -> list nat,
    (forall ps, length ps = length ops ->
       outputs tl_prog_step_c (fun _ => Leaf) (combine ops ps) = Ok (combine (sprog_spec_outputs ops) (steps ps)) /\ length (steps ps) = length ops) /\
    forall q o, nth_error ops q = Some o -> let st := fst (spec_run sprog_spec_step (fun _ => []) (firstn q ops)) in
      match o with
      | QPOp i o' => seeks o' = true ->
          average_within M (length ops) (8 * Nat.log2 (length (st i)) + 10) (4 * length (st i)) (fun ps => nth q (steps ps) 0)
      | QPAdd _ i j => let n := length (st i) + length (update st i [] j) in
          average_within M (length ops) (2 * Nat.log2 n + 2) n (fun ps => nth q (steps ps) 0)
      end.
Proof. exact @lprog_steps_average. Qed.
Print Assumptions C68_list_average_partial.
Example C68_list_example :
  let ops := map (fun v => QPOp 0 (QPushBack v)) [1; 2; 3] ++ map (fun v => QPOp 1 (QPushFront v)) [5; 6] ++ [QPAdd 0 0 1; QPOp 0 (QGet 3); QPOp 0 (QRemove 2)] in
  map (fun q => length (fst (spec_run sprog_spec_step (fun _ => []) (firstn q ops)) 0)) [5; 6; 7; 8] = [3; 5; 5; 4] /\
  map (fun q => total (fun ps => match outputs tl_prog_step_c (fun _ => Leaf) (combine ops ps) with Ok outs => nth q (map snd outs) 0 | _ => 0 end) (draws 2 8))
    [5; 6; 7] = [464; 1120; 1504].
Proof. vm_compute. repeat split. Qed.

(** ** The numbers are not independent in the code: the generator of every new map and list starts at the same state.  [map_seeded_step f]
    and [list_seeded_step f] run a program with one generator per map or list, each of which returns [f 0], [f 1], ...; see TreapSeedModel.v.
    The results stay right. *)
Theorem C68_map_seeded_results : forall (K V : Type) (C : Cmp K) (L : CmpLaws K) (f : nat -> N) (ops : list (prog_op K V)),
  rmap (map fst) (outputs (map_seeded_step f) map_seeded ops) = Ok (prog_spec_outputs ops).
Proof. exact @map_seeded_right. Qed.
Print Assumptions C68_map_seeded_results.
Theorem C68_list_seeded_results : forall (T : Type) (f : nat -> N) (ops : list (sprog_op T)),
  rmap (map fst) (outputs (list_seeded_step f) list_seeded ops) = Ok (sprog_spec_outputs ops).
Proof. exact @list_seeded_right. Qed.
Print Assumptions C68_list_seeded_results.

(** Full statement: the averages above bound the steps that the code takes.  Whatever numbers the generators return, a map made of [n] maps
    with one key each by union can take [n] steps for a lookup, and a list made of [n] lists with one element each by [+] as well. *)
Theorem C68_map_seeded_refuted : forall (f : nat -> N) (n : nat), exists (ops : list (prog_op nat unit)) outs out steps,
  outputs (map_seeded_step f) map_seeded (ops ++ [POp 0 (MGet n)]) = Ok (outs ++ [(out, steps)]) /\
  inserted (counts ops 0) = S n /\ S n <= steps.
Proof. exact map_seeded_slow. Qed.
Print Assumptions C68_map_seeded_refuted.
Theorem C68_list_seeded_refuted : forall (f : nat -> N) (n : nat), exists (ops : list (sprog_op unit)) outs out steps,
  outputs (list_seeded_step f) list_seeded (ops ++ [QPOp 0 (QGet 0)]) = Ok (outs ++ [(out, steps)]) /\
  length (fst (spec_run sprog_spec_step (fun _ => []) ops) 0) = S n /\ S n <= steps.
Proof. exact list_seeded_slow. Qed.
Print Assumptions C68_list_seeded_refuted.
(** Five maps and lists, joined; the numbers are 7, 3, 9, ... *)
Example C68_seeded_example : let f := fun d => nth d [7; 3; 9]%N 0%N in
  rmap (map snd) (outputs (map_seeded_step f) map_seeded (flat_map (fun k => [POp 1 (MInsert k k); PSet SUnion 0 0 1]) [0; 1; 2; 3; 4] ++ [POp 0 (MInsert 5 5); POp 0 (MGet 4)])) =
    Ok [0; 0; 0; 3; 0; 6; 0; 9; 0; 12; 10; 10] /\
  rmap (map snd) (outputs (list_seeded_step f) list_seeded (flat_map (fun k => [QPOp 1 (QPushBack k); QPAdd 0 0 1]) [0; 1; 2; 3; 4] ++ [QPOp 0 (QPushBack 5); QPOp 0 (QGet 0)])) =
    Ok [0; 0; 0; 1; 0; 1; 0; 1; 0; 1; 3; 12].
Proof. vm_compute. repeat split. Qed.
