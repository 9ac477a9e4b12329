(** How rarely calls on [SkipMap]s and [SkipList]s are slow: C84.  [skip_step_c], [slist_step_c], [skip_prog_step_c] and [slist_prog_step_c]
    return, with the result of each call, how many steps it took; see SkipCostModel.v, SkipListCostModel.v, SkipProgCostModel.v and
    SkipListProgCostModel.v.  Each call comes with the number it draws if it inserts; the code draws below 2^32.
    [rarely_above M t s b f] (RareSpec.v): of the sequences of [t] numbers below [M], at most one in [2 ^ s] makes [f] exceed [b]. *)
From Verif Require Import SkipProgCostModel SkipListProgCostModel CostSpec RareSpec SkipSpec SkipListSpec SkipRareProofs KeyInstances.

(** ** C84: in every history of a SkipMap, while the map holds [n] < 2^32 keys: except with probability 2^-s a call that looks for a single
    key takes at most 5 log2 n + 2 s + 10 steps, an insertion or a removal at most 2 log2 n + 2 s + 103.  Full statement: without a limit on
    [n]; see [C61_skip_average_refuted]. *)
Theorem C84_map_rarely_slow_partial : forall (K V : Type) (C : Cmp K) (L : CmpLaws K) (M : nat) (ops : list (map_op K V)), N.of_nat M = 4294967296%N ->
  exists steps : list N -> list nat,
    (forall ps, length ps = length ops ->
       outputs skip_step_c skip_new (combine ops ps) = Ok (combine (map_spec_outputs ops) (steps ps)) /\ length (steps ps) = length ops) /\
    forall i o n s, nth_error ops i = Some o -> nth_error (lengths_before [] ops) i = Some n -> (N.of_nat n < 4294967296)%N -> looks_up o = true ->
      rarely_above M (length ops) s (if insert_or_remove o then 2 * Nat.log2 n + 2 * s + 103 else 5 * Nat.log2 n + 2 * s + 10) (fun ps => nth i (steps ps) 0).
Proof. exact @skip_rare. Qed.
Print Assumptions C84_map_rarely_slow_partial.
(** 40 keys and a lookup of the last one.  The bound is exceeded in at most one of 2^3 sequences of numbers.  If all nodes get height 0 it is
    exceeded; if every second node gets height 1 it is not. *)
Example C84_map_example : let ops := map (fun k => MInsert k k) (seq 0 40) ++ [MGet 39] in
  let steps ps := match outputs skip_step_c skip_new (combine ops ps) with Ok outs => nth 40 (map snd outs) 0 | _ => 0 end in
  N.of_nat (N.to_nat 4294967296) = 4294967296%N /\ nth_error (lengths_before [] ops) 40 = Some 40 /\ 5 * Nat.log2 40 + 2 * 3 + 10 = 41 /\
  steps (repeat 4294967295%N 41) = 48 /\ steps (flat_map (fun _ => [4294967295; 2147483647]%N) (seq 0 20) ++ [0%N]) = 27.
Proof. split; [apply N2Nat.id|]. vm_compute. repeat split. Qed.

(** ** C84: in every history of a SkipList, while it has [n] < 2^32 elements, a call that looks for an index takes at most
    2 log2 n + 2 s + 69 steps except with probability 2^-s (65 of them for the 33 levels and the second loop of [insert]).  Full statement:
    without a limit on [n]; see [C62_slist_average_refuted]. *)
Theorem C84_list_rarely_slow_partial : forall (T : Type) (M : nat) (ops : list (seq_op T)), N.of_nat M = 4294967296%N ->
  exists steps : list N -> list nat,
    (forall ps, length ps = length ops ->
       outputs slist_step_c slist_new (combine ops ps) = Ok (combine (spec_outputs seq_spec_step [] ops) (steps ps)) /\ length (steps ps) = length ops) /\
    forall i o n s, nth_error ops i = Some o -> seeks o = true -> nth_error (seq_lengths_before [] ops) i = Some n -> (N.of_nat n < 4294967296)%N ->
      rarely_above M (length ops) s (2 * Nat.log2 n + 2 * s + 69) (fun ps => nth i (steps ps) 0).
Proof. exact @slist_rare. Qed.
Print Assumptions C84_list_rarely_slow_partial.
(** 60 elements and an access to the last one: the bound for one in 2^3 is exceeded if all nodes get height 0 *)
Example C84_list_example : let ops := repeat (QPushBack tt) 60 ++ [QGet 59] in
  let steps ps := match outputs slist_step_c slist_new (combine ops ps) with Ok outs => nth 60 (map snd outs) 0 | _ => 0 end in
  N.of_nat (N.to_nat 4294967296) = 4294967296%N /\ nth_error (seq_lengths_before [] ops) 60 = Some 60 /\ 2 * Nat.log2 60 + 2 * 3 + 69 = 85 /\
  steps (repeat 4294967295%N 61) = 92 /\ steps (flat_map (fun _ => [4294967295; 2147483647]%N) (seq 0 30) ++ [0%N]) = 61.
Proof. split; [apply N2Nat.id|]. vm_compute. repeat split. Qed.

(** ** C84: programs over several maps that use the set operations where C13 shows them right ([prog_allowed], SkipSpec.v): the same for calls
    on one map, and a set operation on maps with together [n] keys takes at most 5 n + 2 s + 1 steps except with probability 2^-s.  Full
    statement: with the numbers that the code draws; there every generator starts at the same state ([C70_seeded_refuted]). *)
Theorem C84_maps_rarely_slow_partial : forall (K V : Type) (C : Cmp K) (L : CmpLaws K) (M : nat) (ops : list (prog_op K V)), N.of_nat M = 4294967296%N ->
  prog_allowed (fun _ => []) ops -> exists steps : list N -> list nat,
    (forall ps, length ps = length ops ->
       outputs skip_prog_step_c (fun _ => skip_new) (combine ops ps) = Ok (combine (prog_spec_outputs ops) (steps ps)) /\ length (steps ps) = length ops) /\
    forall q o s, nth_error ops q = Some o -> let st := fst (spec_run prog_spec_step (fun _ => []) (firstn q ops)) in
      match o with
      | POp i o' => let n := length (st i) in (N.of_nat n < 4294967296)%N -> looks_up o' = true ->
          rarely_above M (length ops) s (if insert_or_remove o' then 2 * Nat.log2 n + 2 * s + 103 else 5 * Nat.log2 n + 2 * s + 10) (fun ps => nth q (steps ps) 0)
      | PSet _ _ i j => let n := length (st i) + length (update st i [] j) in rarely_above M (length ops) s (5 * n + 2 * s + 1) (fun ps => nth q (steps ps) 0)
      | PSplit _ _ _ _ => False
      end.
Proof. exact @skip_prog_rare. Qed.
Print Assumptions C84_maps_rarely_slow_partial.
(** The union of two maps with together five keys: 28 is exceeded in at most one of 2 sequences of numbers.  With heights 0 it takes 15 steps,
    with heights 32, which each node gets with probability 2^-32, more than 150. *)
Example C84_maps_example :
  let ops := map (fun k => POp 0 (MInsert k k)) [0; 2; 4] ++ map (fun k => POp 1 (MInsert k 7)) [1; 5] ++ [PSet SUnion 0 0 1] in
  let steps ps := match outputs skip_prog_step_c (fun _ => skip_new) (combine ops ps) with Ok outs => nth 5 (map snd outs) 0 | _ => 0 end in
  N.of_nat (N.to_nat 4294967296) = 4294967296%N /\ prog_allowed (fun _ => []) ops /\
  (let st := fst (spec_run prog_spec_step (fun _ => []) (firstn 5 ops)) in length (st 0) + length (st 1) = 5) /\ 5 * 5 + 2 * 1 + 1 = 28 /\
  steps (repeat 4294967295%N 6) = 15 /\ steps (repeat 0%N 6) = 175.
Proof. split; [apply N2Nat.id|]. split; [repeat split|]. vm_compute. auto. Qed.

(** ** C84: programs over several lists that use [+] where C16 shows it right ([joins_fresh], SkipListSpec.v): the same for calls on one list,
    and a [+] whose left list has [n] elements takes at most 2 log2 n + 2 s + 70 steps except with probability 2^-s.  Full statement: with
    the numbers that the code draws ([C71_seeded_refuted]). *)
Theorem C84_lists_rarely_slow_partial : forall (T : Type) (M : nat) (ops : list (sprog_op T)), N.of_nat M = 4294967296%N ->
  joins_fresh (fun _ => []) (fun _ => false) ops = true -> exists steps : list N -> list nat,
    (forall ps, length ps = length ops ->
       outputs slist_prog_step_c (fun _ => slist_new) (combine ops ps) = Ok (combine (sprog_spec_outputs ops) (steps ps)) /\ length (steps ps) = length ops) /\
    forall q o s, nth_error ops q = Some o -> let st := fst (spec_run sprog_spec_step (fun _ => []) (firstn q ops)) in
      match o with
      | QPOp i o' => let n := length (st i) in (N.of_nat n < 4294967296)%N -> seeks o' = true ->
          rarely_above M (length ops) s (2 * Nat.log2 n + 2 * s + 69) (fun ps => nth q (steps ps) 0)
      | QPAdd _ i _ => let n := length (st i) in (N.of_nat n < 4294967296)%N ->
          rarely_above M (length ops) s (2 * Nat.log2 n + 2 * s + 70) (fun ps => nth q (steps ps) 0)
      end.
Proof. exact @slist_prog_rare. Qed.
Print Assumptions C84_lists_rarely_slow_partial.
(** A list of 30 elements and one of two, joined: the bound for one in 2^3 is 84; with heights 0 the [+] takes 96 steps. *)
Example C84_lists_example :
  let ops := repeat (QPOp 0 (QPushBack tt)) 30 ++ repeat (QPOp 1 (QPushFront tt)) 2 ++ [QPAdd 2 0 1] in
  let steps ps := match outputs slist_prog_step_c (fun _ => slist_new) (combine ops ps) with Ok outs => nth 32 (map snd outs) 0 | _ => 0 end in
  N.of_nat (N.to_nat 4294967296) = 4294967296%N /\ joins_fresh (fun _ => []) (fun _ => false) ops = true /\
  length (fst (spec_run sprog_spec_step (fun _ => []) (firstn 32 ops)) 0) = 30 /\ 2 * Nat.log2 30 + 2 * 3 + 70 = 84 /\
  steps (repeat 4294967295%N 33) = 96 /\ steps (flat_map (fun _ => [4294967295; 2147483647; 1073741823]%N) (seq 0 11)) = 76.
Proof. split; [apply N2Nat.id|]. vm_compute. repeat split. Qed.
