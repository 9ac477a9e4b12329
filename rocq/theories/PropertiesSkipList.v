(** Property theorems about SkipList: C15, C16, C24, C50. *)
From Verif Require Import SeqSpec SkipListSpec SkipListModel SkipListAddProofs.

(** ** C15: SkipList behaves as a plain list whatever heights are drawn.  The run never ends in [Panic], so no
    call reads a freed node or a link that a node does not have; asserted bounds show up as [QDone Panic] or
    [QVal Panic] on both sides. *)
Theorem C15_skip_list_refines : forall (T : Type) (ops : list (seq_op T * N)),
  outputs slist_step slist_new ops = Ok (spec_outputs seq_spec_step [] (map fst ops)).
Proof. exact @slist_refines. Qed.
Print Assumptions C15_skip_list_refines.

Example C15_example :
  outputs slist_step slist_new
    [(QPushBack 1, flat_draw); (QPushFront 0, tall_draw); (QInsert 3 9, 0%N); (QInsert 1 5, 0%N); (QPushBack 7, tall_draw);
     (QIter, 0%N); (QRemove 1, 0%N); (QGet 2, 0%N); (QIndex 3, 0%N); (QGetMut 1 8, 0%N); (QIterMut [4; 6], 0%N); (QPopBack, 0%N);
     (QPopFront, 0%N); (QLen, 0%N); (QIntoIter, 0%N); (QPopBack, 0%N); (QPushBack 3, 1%N); (QClear, 0%N); (QIsEmpty, 0%N)]
  = Ok [QDone (Ok tt); QDone (Ok tt); QDone Panic; QDone (Ok tt); QDone (Ok tt);
     QList [0; 5; 1; 7]; QVal (Ok 5); QOpt (Some 7); QVal Panic; QOpt (Some 1); QList [0; 8]; QVal (Ok 7);
     QVal (Ok 4); QNat 1; QList [6]; QVal Panic; QDone (Ok tt); QDone (Ok tt); QBool true].
Proof. vm_compute. reflexivity. Qed.

(** ** C16: [+] on SkipLists.  Full statement: the theorem without [joins_fresh]; it is refuted below. *)
Theorem C16_skip_list_programs_partial : forall (T : Type) (ops : list (sprog_op T * N)),
  joins_fresh (fun _ => []) (fun _ => false) (map fst ops) = true ->
  outputs slist_prog_step (fun _ => slist_new) ops = Ok (sprog_spec_outputs (map fst ops)).
Proof. exact @slist_prog_refines. Qed.
Print Assumptions C16_skip_list_programs_partial.

Example C16_example :
  let ops := [(QPOp 0 (QPushBack 1), flat_draw); (QPOp 1 (QPushBack 2), 0%N); (QPOp 1 (QPushBack 3), tall_draw);
              (QPOp 1 QPopBack, 0%N); (QPAdd 0 0 1, 0%N); (QPAdd 0 0 2, 0%N); (QPAdd 3 2 0, 0%N); (QPOp 3 (QInsert 1 7), tall_draw);
              (QPOp 3 QIter, 0%N); (QPOp 3 (QRemove 2), 0%N); (QPOp 3 (QGet 1), 0%N)] in
  joins_fresh (fun _ => []) (fun _ => false) (map fst ops) = true /\
  skipn 8 (sprog_spec_outputs (map fst ops)) = [QList [1; 7; 2]; QVal (Ok 2); QOpt (Some 7)].
Proof. vm_compute. repeat split. Qed.

(** In general the result of [+] still has the right length, iterates over the right elements and can be
    dropped; what fails is access by index. *)
Theorem C16_skip_list_add_iterates : forall (T : Type) (ops1 ops2 : list (seq_op T * N)) m1 m2 outs1 outs2,
  run slist_step slist_new ops1 = Ok (m1, outs1) -> run slist_step slist_new ops2 = Ok (m2, outs2) ->
  exists l1 l2 m h, slist_iter m1 = Ok l1 /\ slist_iter m2 = Ok l2 /\ slist_add m1 m2 = Ok (m, []) /\
    sl_len m = length (l1 ++ l2) /\ slist_iter m = Ok (l1 ++ l2) /\
    live_nodes (sl_heap m) = S (length (l1 ++ l2)) /\ slist_drop m = Ok (h, l1 ++ l2) /\ live_nodes h = 0.
Proof. exact @slist_add_iterates. Qed.
Print Assumptions C16_skip_list_add_iterates.

Example C16_add_example : exists m1 o1 m2 o2 m,
  run slist_step slist_new [(QPushBack 1, flat_draw); (QPushBack 2, 0%N); (QRemove 0, 0%N)] = Ok (m1, o1) /\
  run slist_step slist_new [(QPushBack 3, tall_draw)] = Ok (m2, o2) /\
  slist_add m1 m2 = Ok (m, []) /\ slist_iter m = Ok [2; 3].
Proof. do 5 eexists. vm_compute. repeat split. Qed.

(** [10] once held two elements; joined with [12; 13], index 2 finds 12 instead of 13 and index 3 finds 13. *)
Theorem C16_skip_list_get_refuted : exists ops : list (sprog_op nat * N),
  outputs slist_prog_step (fun _ => slist_new) (ops ++ [(QPOp 0 QIter, 0%N); (QPOp 0 (QGet 2), 0%N); (QPOp 0 (QGet 3), 0%N)])
    = Ok (firstn 6 (sprog_spec_outputs (map fst ops)) ++ [QList [10; 12; 13]; QOpt (Some 12); QOpt (Some 13)]).
Proof. exact slist_add_bad_get. Qed.
Print Assumptions C16_skip_list_get_refuted.

(** Removing from such a list frees a node that is still linked: the next lookup reads freed memory. *)
Theorem C16_skip_list_use_after_free_refuted : exists ops : list (sprog_op nat * N),
  outputs slist_prog_step (fun _ => slist_new) (ops ++ [(QPOp 0 (QRemove 1), 0%N)])
    = Ok (sprog_spec_outputs (map fst ops ++ [QPOp 0 (QRemove 1)])) /\
  outputs slist_prog_step (fun _ => slist_new) (ops ++ [(QPOp 0 (QRemove 1), 0%N); (QPOp 0 (QGet 1), 0%N)]) = Panic.
Proof. exact slist_add_bad_free. Qed.
Print Assumptions C16_skip_list_use_after_free_refuted.

(** ** C24: into_iter.  The first [n] elements are handed out; every other one is dropped twice. *)
Theorem C24_skip_list_into_iter_exact : forall (T : Type) (ops : list (seq_op T * N)) m outs n,
  run slist_step slist_new ops = Ok (m, outs) ->
  exists l h, slist_iter m = Ok l /\ live_nodes h = 0 /\
    slist_into_iter m n = Ok (h, firstn n l, flat_map (fun p => [p; p]) (skipn n l)).
Proof. exact @slist_into_iter_drops. Qed.
Print Assumptions C24_skip_list_into_iter_exact.

Theorem C24_skip_list_into_iter_refuted : exists (m : skip_list nat) outs h,
  run slist_step slist_new [(QPushBack 1, 0%N); (QPushBack 2, 0%N)] = Ok (m, outs) /\
  slist_into_iter m 1 = Ok (h, [1], [2; 2]).
Proof. exact slist_into_iter_bad. Qed.
Print Assumptions C24_skip_list_into_iter_refuted.

(** ** C50: a SkipList leaks no node and drops every element once. *)
Theorem C50_skip_list_memory : forall (T : Type) (ops : list (seq_op T * N)) m outs,
  run slist_step slist_new ops = Ok (m, outs) ->
  exists l h, live_nodes (sl_heap m) = S (length l) /\ slist_iter m = Ok l /\
    slist_drop m = Ok (h, l) /\ live_nodes h = 0.
Proof. exact @slist_memory. Qed.
Print Assumptions C50_skip_list_memory.

Example C50_example : exists m outs h,
  run slist_step slist_new [(QPushBack 1, flat_draw); (QPushBack 2, 0%N); (QPushFront 3, tall_draw); (QRemove 1, 0%N)] = Ok (m, outs) /\
  live_nodes (sl_heap m) = 3 /\ slist_drop m = Ok (h, [3; 2]) /\ live_nodes h = 0.
Proof. do 3 eexists. vm_compute. repeat split. Qed.
