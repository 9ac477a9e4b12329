(** Average running time of programs over several [SkipMap]s: C70.  [skip_prog_step_c] returns, with the result of each call, how many steps
    it took; the set operations count iterations, comparisons of keys and links written, see SkipProgCostModel.v.  Each call comes with the
    number it draws if it inserts.  [average_within M t a b f] (RandomSpec.v): over [t] numbers drawn below [M] the average of [f] is at
    most [a + b / M]; the code draws below 2^32.  [prog_allowed] (SkipSpec.v): no set operation is used where C13 shows it wrong. *)
From Verif Require Import SkipProgCostModel CostSpec RandomSpec SkipSpec SkipProgCostProofs SkipSeedProofs KeyInstances.

(** Without the counts it is the program of SkipMapModel.v. *)
Theorem C70_counts : forall (K V : Type) (C : Cmp K) (rs : nat -> skip_map K V) (op : prog_op K V * N),
  rmap (fun r => (fst r, fst (snd r))) (skip_prog_step_c rs op) = skip_prog_step rs op.
Proof. exact @skip_prog_step_c_fst. Qed.
Print Assumptions C70_counts.

(** ** C70: in every program, a call that looks for a single key of a map of [n] < 2^32 keys takes at most 4 log2 n + 8 steps on average, an
    insertion or a removal at most log2 n + 101; a union, intersection, difference or symmetric difference of maps with together [n] keys
    takes at most 4 n + 1. *)
Theorem C70_average_partial : forall (K V : Type) (C : Cmp K) (L : CmpLaws K) (M : nat) (ops : list (prog_op K V)), N.of_nat M = 4294967296%N ->
  prog_allowed (fun _ => []) ops -> exists steps : list N -> list nat,
    (forall ps, length ps = length ops ->
       outputs skip_prog_step_c (fun _ => skip_new) (combine ops ps) = Ok (combine (prog_spec_outputs ops) (steps ps)) /\ length (steps ps) = length ops) /\
    forall q o, nth_error ops q = Some o -> let st := fst (spec_run prog_spec_step (fun _ => []) (firstn q ops)) in
      match o with
      | POp i o' => let n := length (st i) in (N.of_nat n < 4294967296)%N -> looks_up o' = true ->
          average_within M (length ops) (if insert_or_remove o' then Nat.log2 n + 101 else 4 * Nat.log2 n + 8) 0 (fun ps => nth q (steps ps) 0)
      | PSet _ _ i j => let n := length (st i) + length (update st i [] j) in average_within M (length ops) (4 * n + 1) 0 (fun ps => nth q (steps ps) 0)
      | PSplit _ _ _ _ => False
      end.
Proof. exact @skip_prog_average. Qed.
Print Assumptions C70_average_partial.
(** Maps with the keys 0, 2 and 4 and with the keys 2 and 5: their union, its difference with a map with the key 5, a lookup.  With heights 0
    the union takes 14 steps, with heights 0, 1, 0, 2, 0 it takes 15: the node of key 2 of the right map is left out. *)
Example C70_average_example :
  let ops := map (fun k => POp 0 (MInsert k k)) [0; 2; 4] ++ map (fun k => POp 1 (MInsert k 7)) [2; 5] ++
             [PSet SUnion 0 0 1; POp 1 (MInsert 5 1); PSet SDiff 2 0 1; POp 2 (MGet 4)] in
  let steps ps := match outputs skip_prog_step_c (fun _ => skip_new) (combine ops ps) with Ok outs => map snd outs | _ => [] end in
  N.of_nat (N.to_nat 4294967296) = 4294967296%N /\ prog_allowed (fun _ => []) ops /\
  (let st := fst (spec_run prog_spec_step (fun _ => []) (firstn 5 ops)) in length (st 0) + length (st 1) = 5) /\
  skipn 5 (steps (repeat 4294967295%N 9)) = [14; 33; 12; 7] /\
  skipn 5 (steps [4294967295; 2147483647; 4294967295; 1073741823; 4294967295; 0; 4294967295; 0; 0]%N) = [15; 33; 13; 6].
Proof. split; [apply N2Nat.id|]. split; [repeat split|]. vm_compute. auto. Qed.

(** ** The numbers are not independent in the code: the generator of every new map starts at the same state, and the set operations return
    a map with a new generator.  [skip_seeded_step f] runs a program with one generator per map, each of which returns [f 0], [f 1], ...;
    see SkipProgCostModel.v.  The results stay right. *)
Theorem C70_seeded_results_partial : forall (K V : Type) (C : Cmp K) (L : CmpLaws K) (f : nat -> N) (ops : list (prog_op K V)), prog_allowed (fun _ => []) ops ->
  rmap (map fst) (outputs (skip_seeded_step f) skip_seeded ops) = Ok (prog_spec_outputs ops).
Proof. exact @skip_seeded_right. Qed.
Print Assumptions C70_seeded_results_partial.

(** Full statement: the averages above bound the steps that the code takes.  Whatever numbers the generators return, in a map made of [n + 1]
    maps with one key each by union a lookup can take [n] steps. *)
Theorem C70_seeded_refuted : forall (f : nat -> N) (n : nat), exists (ops : list (prog_op nat unit)) outs out steps,
  outputs (skip_seeded_step f) skip_seeded (ops ++ [POp 0 (MGet n)]) = Ok (outs ++ [(out, steps)]) /\
  prog_allowed (fun _ => []) ops /\ length (fst (spec_run prog_spec_step (fun _ => []) ops) 0) = S n /\ n <= steps.
Proof. exact skip_seeded_slow. Qed.
Print Assumptions C70_seeded_refuted.
(** Five maps, joined; the first number a generator returns gives height 2 *)
Example C70_seeded_example : let f := fun d => nth d [1073741823; 3; 9]%N 0%N in
  rmap (fun outs => map snd (skipn 8 outs)) (outputs (skip_seeded_step f) skip_seeded
    (flat_map (fun k => [POp 1 (MInsert k k); PSet SUnion 0 0 1]) [0; 1; 2; 3; 4] ++ [POp 0 (MInsert 5 5); POp 0 (MGet 4)])) = Ok [33; 25; 38; 8].
Proof. vm_compute. repeat split. Qed.
