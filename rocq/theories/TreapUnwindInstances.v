(** Programs used as examples in PropertiesTreapUnwind.v. *)
From Verif Require Export TreapUnwindModel TreapUnwindSpec KeyInstances.

(** Maps 0 and 1 with three and two keys; [9]: enough comparisons. *)
Definition two_maps : list (prog_op nat nat * N * nat) :=
  [(POp 0 (MInsert 3 30), 50%N, 9); (POp 0 (MInsert 1 10), 20%N, 9); (POp 0 (MInsert 5 50), 40%N, 9);
   (POp 1 (MInsert 3 31), 30%N, 9); (POp 1 (MInsert 4 40), 10%N, 9)].
(** a split_off that panics at its second comparison, and the map after it *)
Definition split_calls : list (prog_op nat nat * N * nat) :=
  two_maps ++ [(PSplit 2 0 4 true, 0%N, 1); (POp 0 MIter, 0%N, 9); (POp 0 MLen, 0%N, 9); (POp 2 MIter, 0%N, 9)].
(** a union that panics at its second comparison *)
Definition union_calls : list (prog_op nat nat * N * nat) :=
  two_maps ++ [(PSet SUnion 2 0 1, 0%N, 1); (POp 0 MLen, 0%N, 9); (POp 1 MLen, 0%N, 9); (POp 2 MLen, 0%N, 9)].
(** an insert that panics loses pairs that stay counted, also after the union that returns, until the nodes above are changed *)
Definition counted_calls : list (prog_op nat nat * N * nat) :=
  two_maps ++ [(POp 0 (MInsert 0 1), 30%N, 1); (POp 0 MIter, 0%N, 9); (POp 0 MLen, 0%N, 9); (PSet SUnion 2 3 0, 0%N, 9); (POp 2 MLen, 0%N, 9);
               (PSet SUnion 2 2 1, 0%N, 9); (POp 2 MLen, 0%N, 9); (POp 2 MIter, 0%N, 9)].
