(** How rarely calls on [TreapMap]s and [TreapList]s are slow and their trees deep: C82.  [treap_step_c], [tl_step_c], [treap_prog_step_c]
    and [tl_prog_step_c] return, with the result of each call, how many steps it took; see TreapCostModel.v.  Each call comes with the number
    it draws if it inserts.  [rarely_above M t s b f] (RareSpec.v): of the sequences of [t] numbers below [M], at most one in [2 ^ s] makes
    [f] exceed [b]; the code draws below 2^32.  The depth of a tree ([depth], ShapeSpec.v) is how deep the recursion goes that frees it, and
    bounds that of each call. *)
From Verif Require Import TreapCostModel ShapeSpec CostSpec RareSpec TreapRareProofs TreapListRareProofs KeyInstances.

(** ** C82: in every history of a TreapMap, where [m] is the number of times the present keys have been inserted and at most half the number
    of possible numbers: except with probability 2^-s a call that looks for a single key takes at most 4 log2 (m + 2) + 2 s + 3 steps, and
    the tree is at most 3 log2 (m + 2) + s + 2 deep.  On average the tree is at most 3 log2 (m + 2) + 4 deep. *)
Theorem C82_map_rarely_slow : forall (K V : Type) (C : Cmp K) (L : CmpLaws K) (M : nat) (ops : list (map_op K V)), 0 < M ->
  exists (maps : list N -> tree (N * nat) K V) (steps : list N -> list nat),
    (forall ps, length ps = length ops ->
       run treap_step_c Leaf (combine ops ps) = Ok (maps ps, combine (map_spec_outputs ops) (steps ps)) /\ length (steps ps) = length ops) /\
    (forall i o s, nth_error ops i = Some o -> looks_up o = true -> let m := insertions (firstn i ops) in 2 * m <= M ->
       rarely_above M (length ops) s (4 * Nat.log2 (m + 2) + 2 * s + 3) (fun ps => nth i (steps ps) 0)) /\
    let m := insertions ops in 2 * m <= M ->
      (forall s, rarely_above M (length ops) s (3 * Nat.log2 (m + 2) + s + 2) (fun ps => depth (maps ps))) /\
      average_within M (length ops) (3 * Nat.log2 (m + 2) + 4) 0 (fun ps => depth (maps ps)).
Proof. exact @treap_rare. Qed.
Print Assumptions C82_map_rarely_slow.
(** Four insertions of three keys, numbers below 8.  How many of the 8^4 sequences give a tree of depth 1, 2 and 3 *)
Example C82_map_example : let ops := map (fun k => MInsert k k) [0; 1; 2; 1] in
  2 * insertions ops = 8 /\ looks_up (nth 3 ops MLen) = true /\
  let deep d := length (filter (fun ps => match run treap_step_c Leaf (combine ops ps) with Ok (t, _) => depth t =? d | _ => false end) (draws 8 4)) in
  map deep [1; 2; 3] = [0; 1876; 2220].
Proof. vm_compute. repeat split. Qed.

(** Full statement: [m] is the number of keys in the map.  It holds for histories that insert absent keys only; otherwise see
    [C60_treap_average_refuted]. *)
Theorem C82_map_rarely_slow_partial : forall (K V : Type) (C : Cmp K) (L : CmpLaws K) (M : nat) (ops : list (map_op K V)), 0 < M ->
  inserts_absent [] ops -> exists (maps : list N -> tree (N * nat) K V) (steps : list N -> list nat),
    (forall ps, length ps = length ops ->
       run treap_step_c Leaf (combine ops ps) = Ok (maps ps, combine (map_spec_outputs ops) (steps ps)) /\ length (steps ps) = length ops) /\
    (forall i o s n, nth_error ops i = Some o -> looks_up o = true -> nth_error (lengths_before [] ops) i = Some n -> 2 * n <= M ->
       rarely_above M (length ops) s (4 * Nat.log2 (n + 2) + 2 * s + 3) (fun ps => nth i (steps ps) 0)) /\
    let n := length (fst (spec_run map_spec_step [] ops)) in 2 * n <= M ->
      (forall s, rarely_above M (length ops) s (3 * Nat.log2 (n + 2) + s + 2) (fun ps => depth (maps ps))) /\
      average_within M (length ops) (3 * Nat.log2 (n + 2) + 4) 0 (fun ps => depth (maps ps)).
Proof. exact @treap_rare_fresh. Qed.
Print Assumptions C82_map_rarely_slow_partial.
Example C82_map_partial_example : let ops := map (fun k => MInsert k k) [0; 1] ++ [MRemove 0; MInsert 0 5; MInsert 2 2] in
  inserts_absent [] ops /\ length (fst (spec_run map_spec_step [] ops)) = 3 /\ nth_error (lengths_before [] ops) 4 = Some 2 /\
  let deep d := length (filter (fun ps => match run treap_step_c Leaf (combine ops ps) with Ok (t, _) => depth t =? d | _ => false end) (draws 6 5)) in
  map deep [1; 2; 3] = [0; 3276; 4500].
Proof. vm_compute. repeat split. Qed.

(** ** C82: the same for every history of a TreapList, [n] being its length; a call that looks for an index takes at most
    8 log2 (n + 2) + 4 s + 2 steps except with probability 2^-s. *)
Theorem C82_list_rarely_slow : forall (T : Type) (M : nat) (ops : list (seq_op T)), 0 < M ->
  exists (lists : list N -> tree (N * nat) unit T) (steps : list N -> list nat),
    (forall ps, length ps = length ops ->
       run tl_step_c Leaf (combine ops ps) = Ok (lists ps, combine (spec_outputs seq_spec_step [] ops) (steps ps)) /\ length (steps ps) = length ops) /\
    (forall i o s n, nth_error ops i = Some o -> seeks o = true -> nth_error (seq_lengths_before [] ops) i = Some n -> 2 * n <= M ->
       rarely_above M (length ops) s (8 * Nat.log2 (n + 2) + 4 * s + 2) (fun ps => nth i (steps ps) 0)) /\
    let n := length (fst (spec_run seq_spec_step [] ops)) in 2 * n <= M ->
      (forall s, rarely_above M (length ops) s (3 * Nat.log2 (n + 2) + s + 2) (fun ps => depth (lists ps))) /\
      average_within M (length ops) (3 * Nat.log2 (n + 2) + 4) 0 (fun ps => depth (lists ps)).
Proof. exact @tl_rare. Qed.
Print Assumptions C82_list_rarely_slow.
Example C82_list_example : let ops := [QPushBack 1; QInsert 0 2; QPushFront 3; QInsert 1 5] in
  seq_lengths_before [] ops = [0; 1; 2; 3] /\ length (fst (spec_run seq_spec_step [] ops)) = 4 /\
  let deep d := length (filter (fun ps => match run tl_step_c Leaf (combine ops ps) with Ok (t, _) => depth t =? d | _ => false end) (draws 8 4)) in
  map deep [2; 3; 4] = [0; 2688; 1408].
Proof. vm_compute. repeat split. Qed.

(** ** C82: programs over several maps, [m] being the number of insertions behind the keys of the maps that a call uses, and programs over
    several lists.  Full statement: with the numbers that the code draws; there every generator starts at the same state, which makes long
    paths certain ([C68_map_seeded_refuted]). *)
Theorem C82_maps_rarely_slow_partial : forall (K V : Type) (C : Cmp K) (L : CmpLaws K) (M : nat) (ops : list (prog_op K V)), 0 < M ->
  exists (maps : list N -> nat -> tree (N * nat) K V) (steps : list N -> list nat),
    (forall ps, length ps = length ops ->
       run treap_prog_step_c (fun _ => Leaf) (combine ops ps) = Ok (maps ps, combine (prog_spec_outputs ops) (steps ps)) /\ length (steps ps) = length ops) /\
    (forall q o s, nth_error ops q = Some o -> let c := counts (firstn q ops) in
      match o with
      | POp i o' => let m := inserted (c i) in looks_up o' = true -> 2 * m <= M ->
          rarely_above M (length ops) s (4 * Nat.log2 (m + 2) + 2 * s + 3) (fun ps => nth q (steps ps) 0)
      | PSplit _ i _ _ => let m := inserted (c i) in 2 * m <= M ->
          rarely_above M (length ops) s (6 * Nat.log2 (m + 2) + 3 * s + 3) (fun ps => nth q (steps ps) 0)
      | PSet _ _ i j => let a := c i in let b := update c i [] j in
          let keys := length a + length b in let m := inserted a + inserted b in 2 * m <= M ->
          rarely_above M (length ops) s (keys * (10 * Nat.log2 (m + 2) + 5 * Nat.log2_up keys + 5 * s + 19)) (fun ps => nth q (steps ps) 0)
      end) /\
    forall i, let m := inserted (counts ops i) in 2 * m <= M ->
      (forall s, rarely_above M (length ops) s (3 * Nat.log2 (m + 2) + s + 2) (fun ps => depth (maps ps i))) /\
      average_within M (length ops) (3 * Nat.log2 (m + 2) + 4) 0 (fun ps => depth (maps ps i)).
Proof. exact @prog_rare. Qed.
Print Assumptions C82_maps_rarely_slow_partial.
Example C82_maps_example : let ops := [POp 0 (MInsert 0 1); POp 0 (MInsert 2 2); POp 1 (MInsert 1 3); PSet SUnion 0 0 1; PSplit 2 0 1 true] in
  inserted (counts (firstn 4 ops) 0) = 3 /\ inserted (counts ops 0) = 2 /\
  map (fun ps => match run treap_prog_step_c (fun _ => Leaf) (combine ops ps) with Ok (r, outs) => (depth (r 0), depth (r 2), map snd outs) | _ => (0, 0, []) end)
    [[0; 1; 2; 0; 0]; [2; 0; 1; 0; 0]]%N = [(2, 1, [0; 3; 0; 5; 3]); (2, 1, [0; 2; 0; 6; 5])].
Proof. vm_compute. repeat split. Qed.

Theorem C82_lists_rarely_slow_partial : forall (T : Type) (M : nat) (ops : list (sprog_op T)), 0 < M ->
  exists (lists : list N -> nat -> tree (N * nat) unit T) (steps : list N -> list nat),
    (forall ps, length ps = length ops ->
       run tl_prog_step_c (fun _ => Leaf) (combine ops ps) = Ok (lists ps, combine (sprog_spec_outputs ops) (steps ps)) /\ length (steps ps) = length ops) /\
    (forall q o s, nth_error ops q = Some o -> let st := fst (spec_run sprog_spec_step (fun _ => []) (firstn q ops)) in
      match o with
      | QPOp i o' => let n := length (st i) in seeks o' = true -> 2 * n <= M ->
          rarely_above M (length ops) s (8 * Nat.log2 (n + 2) + 4 * s + 2) (fun ps => nth q (steps ps) 0)
      | QPAdd _ i j => let n := length (st i) + length (update st i [] j) in 2 * n <= M ->
          rarely_above M (length ops) s (2 * Nat.log2 (n + 2) + s) (fun ps => nth q (steps ps) 0)
      end) /\
    forall i, let n := length (fst (spec_run sprog_spec_step (fun _ => []) ops) i) in 2 * n <= M ->
      (forall s, rarely_above M (length ops) s (3 * Nat.log2 (n + 2) + s + 2) (fun ps => depth (lists ps i))) /\
      average_within M (length ops) (3 * Nat.log2 (n + 2) + 4) 0 (fun ps => depth (lists ps i)).
Proof. exact @lprog_rare. Qed.
Print Assumptions C82_lists_rarely_slow_partial.
Example C82_lists_example : let ops := [QPOp 0 (QPushBack 1); QPOp 0 (QPushBack 2); QPOp 1 (QPushFront 3); QPAdd 0 0 1; QPOp 0 (QGet 2)] in
  length (fst (spec_run sprog_spec_step (fun _ => []) ops) 0) = 3 /\
  map (fun ps => match run tl_prog_step_c (fun _ => Leaf) (combine ops ps) with Ok (r, outs) => (depth (r 0), map snd outs) | _ => (0, []) end)
    [[0; 1; 2; 0; 0]; [2; 0; 1; 0; 0]]%N = [(3, [0; 3; 0; 1; 2]); (3, [0; 3; 0; 2; 4])].
Proof. vm_compute. repeat split. Qed.
