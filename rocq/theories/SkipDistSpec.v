(** What is counted of a history of calls on a sequence. *)
From Verif Require Export SeqSpec.

Definition inserts {T} (o : seq_op T) : bool :=
  match o with QInsert _ _ | QPushFront _ | QPushBack _ => true | _ => false end.
Definition insertions {T} (ops : list (seq_op T)) : nat := length (filter inserts ops).
