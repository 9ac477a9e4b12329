(** Average running time of [SkipList]: C62.  [slist_step_c] is the list that returns, with the result of each call, how many steps it
    took (levels entered, nodes moved to, rounds of the second loop of [insert]); see SkipListCostModel.v.  Each call comes with the
    number it draws if it inserts.  The code draws numbers below 2^32.  [average_within M t a b f] (RandomSpec.v): over [t] numbers drawn
    below [M] the average of [f] is at most [a + b / M]. *)
From Verif Require Import SkipListCostModel CostSpec RandomSpec SkipListCostProofs.

(** Without the counts it is the list of SkipListModel.v. *)
Theorem C62_slist_counts : forall (T : Type) (m : skip_list T) (op : seq_op T * N),
  rmap (fun r => (fst r, fst (snd r))) (slist_step_c m op) = slist_step m op.
Proof. exact @slist_step_c_fst. Qed.
Print Assumptions C62_slist_counts.
Example C62_counts_example :
  rmap (fun r => (fst (snd r), snd (snd r))) (slist_step_c (slist_new : skip_list nat) (QInsert 0 2, 5%N)) = Ok (QDone (Ok tt), 65).
Proof. vm_compute. reflexivity. Qed.

(** ** C62: in every history of a SkipList, a call that looks for an index while the list has [n] < 2^32 elements takes at most
    log2 n + 67 steps on average (65 of them for the 33 levels and the second loop of [insert]). *)
Theorem C62_slist_average_partial : forall (T : Type) (M : nat) (ops : list (seq_op T)), N.of_nat M = 4294967296%N ->
  exists steps : list N -> list nat,
    (forall ps, length ps = length ops ->
       outputs slist_step_c slist_new (combine ops ps) = Ok (combine (spec_outputs seq_spec_step [] ops) (steps ps)) /\ length (steps ps) = length ops) /\
    forall i o n, nth_error ops i = Some o -> seeks o = true -> nth_error (seq_lengths_before [] ops) i = Some n -> (N.of_nat n < 4294967296)%N ->
      average_within M (length ops) (Nat.log2 n + 67) 0 (fun ps => nth i (steps ps) 0).
Proof. exact @slist_steps_average. Qed.
Print Assumptions C62_slist_average_partial.
(** Eight elements and an access.  With the heights 0, 1, 0, 2, 0, 1, 0, 3 the access to index 6 enters 33 levels and moves to two nodes;
    with heights 0 only it moves to six. *)
Example C62_average_example : let ops := repeat (QPushBack tt) 8 ++ [QGet 6] in
  let steps ps := match outputs slist_step_c slist_new (combine ops ps) with Ok outs => map snd outs | _ => [] end in
  N.of_nat (N.to_nat 4294967296) = 4294967296%N /\ nth_error (seq_lengths_before [] ops) 8 = Some 8 /\
  map height_of [4294967295; 2147483647; 1073741823; 536870911]%N = [0; 1; 2; 3] /\
  steps [4294967295; 2147483647; 4294967295; 1073741823; 4294967295; 2147483647; 4294967295; 536870911; 0]%N = [65; 66; 66; 67; 66; 67; 67; 68; 35] /\
  steps (repeat 4294967295%N 9) = [65; 66; 67; 68; 69; 70; 71; 72; 39].
Proof. split; [apply N2Nat.id|]. repeat split; vm_compute; reflexivity. Qed.

(** With more elements the highest level, 32, gets long: about one node in 2^32 reaches it. *)
Theorem C62_slist_average_refuted : forall (M c : nat), N.of_nat M = 4294967296%N -> exists (ops : list (seq_op unit)) (i n k : nat),
  nth_error ops i = Some (QGet k) /\ k < n /\ nth_error (seq_lengths_before [] ops) i = Some n /\
  forall steps : list N -> list nat,
    (forall ps, length ps = length ops ->
       outputs slist_step_c slist_new (combine ops ps) = Ok (combine (spec_outputs seq_spec_step [] ops) (steps ps)) /\ length (steps ps) = length ops) ->
    ~ average_within M (length ops) (c * Nat.log2 n + c) 0 (fun ps => nth i (steps ps) 0).
Proof. exact slist_slow. Qed.
Print Assumptions C62_slist_average_refuted.
