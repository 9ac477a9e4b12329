(** Properties of the sequence types.  Statements only; proofs are in *Proofs.v. *)
From Verif Require Import SeqSpec TreapListModel TreapListProofs.

(** ** C14: TreapList behaves as a plain list, for every sequence of random priorities. *)
Theorem C14_treap_list_refines : forall (T : Type) (ops : list (sprog_op T * N)),
  outputs tl_prog_step (fun _ => Leaf) ops = Ok (sprog_spec_outputs (map fst ops)).
Proof. exact @tl_refines. Qed.
Print Assumptions C14_treap_list_refines.

Example C14_example :
  sprog_spec_outputs
    [QPOp 0 (QPushBack 1); QPOp 0 (QPushFront 0); QPOp 0 (QInsert 3 9); QPOp 0 (QInsert 1 5);
     QPOp 1 (QPushBack 7); QPAdd 0 0 1; QPOp 0 QIter; QPOp 1 QLen; QPOp 0 (QRemove 1); QPOp 0 (QIterMut [4; 6]);
     QPOp 0 QPopBack; QPOp 0 (QIndex 2); QPOp 0 (QGet 1); QPOp 1 QPopFront]
  = [QDone (Ok tt); QDone (Ok tt); QDone Panic; QDone (Ok tt); QDone (Ok tt); QDone (Ok tt); QList [0; 5; 1; 7]; QNat 0;
     QVal (Ok 5); QList [0; 1]; QVal (Ok 7); QVal Panic; QOpt (Some 6); QVal Panic].
Proof. vm_compute; reflexivity. Qed.
