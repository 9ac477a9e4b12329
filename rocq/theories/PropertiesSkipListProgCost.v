(** Average running time of programs over several [SkipList]s: C71.  [slist_prog_step_c] returns, with the result of each call, how many
    steps it took; [+] counts the levels whose last node it finds, the nodes it moves to and the levels it joins, see
    SkipListProgCostModel.v.  Each call comes with the number it draws if it inserts.  [average_within M t a b f] (RandomSpec.v): over [t]
    numbers drawn below [M] the average of [f] is at most [a + b / M]; the code draws below 2^32.  [joins_fresh] (SkipListSpec.v): no [+] is
    used where C16 shows it wrong. *)
From Verif Require Import SkipListProgCostModel CostSpec RandomSpec SkipListSpec SkipListProgCostProofs SkipListSeedProofs.

(** Without the counts it is the program of SkipListModel.v. *)
Theorem C71_counts : forall (T : Type) (rs : nat -> skip_list T) (op : sprog_op T * N),
  rmap (fun r => (fst r, fst (snd r))) (slist_prog_step_c rs op) = slist_prog_step rs op.
Proof. exact @slist_prog_step_c_fst. Qed.
Print Assumptions C71_counts.
(** Two empty lists are joined: 33 levels are found and joined. *)
Example C71_counts_example : rmap (fun r => (map (fun i => sl_len (fst r i)) [0; 1], snd r)) (slist_prog_step_c (fun _ => slist_new : skip_list nat) (QPAdd 0 0 1, 0%N)) =
  Ok ([0; 0], (QDone (Ok tt), 66)).
Proof. vm_compute. reflexivity. Qed.

(** ** C71: in every program, a call that looks for an index of a list of [n] < 2^32 elements takes at most log2 n + 67 steps on average; a
    [+] whose left list has [n] elements takes at most log2 n + 68, whatever the size of the right list. *)
Theorem C71_average_partial : forall (T : Type) (M : nat) (ops : list (sprog_op T)), N.of_nat M = 4294967296%N ->
  joins_fresh (fun _ => []) (fun _ => false) ops = true -> exists steps : list N -> list nat,
    (forall ps, length ps = length ops ->
       outputs slist_prog_step_c (fun _ => slist_new) (combine ops ps) = Ok (combine (sprog_spec_outputs ops) (steps ps)) /\ length (steps ps) = length ops) /\
    forall q o, nth_error ops q = Some o -> let st := fst (spec_run sprog_spec_step (fun _ => []) (firstn q ops)) in
      match o with
      | QPOp i o' => let n := length (st i) in (N.of_nat n < 4294967296)%N -> seeks o' = true ->
          average_within M (length ops) (Nat.log2 n + 67) 0 (fun ps => nth q (steps ps) 0)
      | QPAdd _ i _ => let n := length (st i) in (N.of_nat n < 4294967296)%N ->
          average_within M (length ops) (Nat.log2 n + 68) 0 (fun ps => nth q (steps ps) 0)
      end.
Proof. exact @slist_prog_average. Qed.
Print Assumptions C71_average_partial.
(** A list of four elements and one of three, joined; an access.  With the heights 0, 1, 0, 2 the [+] moves to one node, with heights 0 to
    all four. *)
Example C71_average_example :
  let ops := map (fun v => QPOp 0 (QPushBack v)) [1; 2; 3; 4] ++ map (fun v => QPOp 1 (QPushFront v)) [5; 6; 7] ++ [QPAdd 2 0 1; QPOp 2 (QGet 5)] in
  let steps ps := match outputs slist_prog_step_c (fun _ => slist_new) (combine ops ps) with Ok outs => map snd outs | _ => [] end in
  N.of_nat (N.to_nat 4294967296) = 4294967296%N /\ joins_fresh (fun _ => []) (fun _ => false) ops = true /\
  length (fst (spec_run sprog_spec_step (fun _ => []) (firstn 7 ops)) 0) = 4 /\
  skipn 7 (steps (repeat 4294967295%N 9)) = [70; 38] /\
  skipn 7 (steps [4294967295; 2147483647; 4294967295; 1073741823; 4294967295; 2147483647; 4294967295; 0; 0]%N) = [67; 33].
Proof. split; [apply N2Nat.id|]. vm_compute. repeat split. Qed.

(** ** The numbers are not independent in the code: the generator of every new list starts at the same state.  [slist_seeded_step f] runs a
    program with one generator per list, each of which returns [f 0], [f 1], ...; see SkipListProgCostModel.v.  The results stay right. *)
Theorem C71_seeded_results_partial : forall (T : Type) (f : nat -> N) (ops : list (sprog_op T)), joins_fresh (fun _ => []) (fun _ => false) ops = true ->
  rmap (map fst) (outputs (slist_seeded_step f) slist_seeded ops) = Ok (sprog_spec_outputs ops).
Proof. exact @slist_seeded_right. Qed.
Print Assumptions C71_seeded_results_partial.

(** Full statement: the averages above bound the steps that the code takes.  Whatever numbers the generators return, in a list made of
    [n + 1] lists with one element each by [+] an access can take [n] steps. *)
Theorem C71_seeded_refuted : forall (f : nat -> N) (n : nat), exists (ops : list (sprog_op unit)) outs out steps,
  outputs (slist_seeded_step f) slist_seeded (ops ++ [QPOp 0 (QGet n)]) = Ok (outs ++ [(out, steps)]) /\
  joins_fresh (fun _ => []) (fun _ => false) ops = true /\ length (fst (spec_run sprog_spec_step (fun _ => []) ops) 0) = S n /\ n <= steps.
Proof. exact slist_seeded_slow. Qed.
Print Assumptions C71_seeded_refuted.
(** Five lists, joined; the first number a generator returns gives height 2, the second height 29 *)
Example C71_seeded_example : let f := fun d => nth d [1073741823; 4; 9]%N 0%N in
  rmap (fun outs => map snd (skipn 8 outs)) (outputs (slist_seeded_step f) slist_seeded
    (flat_map (fun k => [QPOp 1 (QPushBack k); QPAdd 0 0 1]) [0; 1; 2; 3; 4] ++ [QPOp 0 (QInsert 9 9); QPOp 0 (QGet 4)])) = Ok [65; 70; 0; 35].
Proof. vm_compute. repeat split. Qed.
