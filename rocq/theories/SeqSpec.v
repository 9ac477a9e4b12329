(** Specification of an indexable sequence: a plain list.  Nothing here refers to any model. *)
From Verif Require Export Base SetAlgSpec.

(** API calls of TreapList and SkipList. *)
Inductive seq_op (T : Type) : Type :=
| QInsert (i : nat) (v : T) | QRemove (i : nat)
| QPushFront (v : T) | QPushBack (v : T) | QPopFront | QPopBack
| QGet (i : nat)
| QGetMut (i : nat) (v : T)         (* if let Some(x) = get_mut(i) { old = *x; *x = v } *)
| QIndex (i : nat)                  (* list[i] *)
| QIndexMut (i : nat) (v : T)       (* old = list[i]; list[i] = v *)
| QLen | QIsEmpty | QClear
| QIter
| QIterMut (vs : list T)            (* iter_mut(): call next() length vs times, write vs[i] to the i-th *)
| QIntoIter.                        (* consume the list, go on with a new one *)
Arguments QInsert {T}. Arguments QRemove {T}. Arguments QPushFront {T}. Arguments QPushBack {T}.
Arguments QPopFront {T}. Arguments QPopBack {T}. Arguments QGet {T}. Arguments QGetMut {T}.
Arguments QIndex {T}. Arguments QIndexMut {T}. Arguments QLen {T}. Arguments QIsEmpty {T}.
Arguments QClear {T}. Arguments QIter {T}. Arguments QIterMut {T}. Arguments QIntoIter {T}.

(** [QDone Panic] / [QVal Panic]: the call panicked and left the list as it was. *)
Inductive seq_out (T : Type) : Type :=
| QDone (r : res unit) | QVal (r : res T) | QOpt (o : option T) | QNat (n : nat) | QBool (b : bool)
| QList (l : list T).
Arguments QDone {T}. Arguments QVal {T}. Arguments QOpt {T}. Arguments QNat {T}. Arguments QBool {T}.
Arguments QList {T}.

Section SeqSpec.
  Context {T : Type}.

  Definition insert_nth (i : nat) (v : T) (l : list T) : list T := firstn i l ++ v :: skipn i l.
  Definition remove_nth (i : nat) (l : list T) : list T := firstn i l ++ skipn (S i) l.
  Definition set_nth (i : nat) (v : T) (l : list T) : list T :=
    if i <? length l then firstn i l ++ v :: skipn (S i) l else l.

  Definition seq_insert (l : list T) (i : nat) (v : T) : list T * seq_out T :=
    if i <=? length l then (insert_nth i v l, QDone (Ok tt)) else (l, QDone Panic).
  Definition seq_remove (l : list T) (i : nat) : list T * seq_out T :=
    match nth_error l i with
    | Some v => (remove_nth i l, QVal (Ok v))
    | None => (l, QVal Panic)
    end.

  Definition seq_spec_step (l : list T) (o : seq_op T) : list T * seq_out T :=
    match o with
    | QInsert i v => seq_insert l i v
    | QRemove i => seq_remove l i
    | QPushFront v => (v :: l, QDone (Ok tt))
    | QPushBack v => (l ++ [v], QDone (Ok tt))
    | QPopFront => (tl l, QVal (expect (hd_error l)))
    | QPopBack => (removelast l, QVal (expect (last_error l)))
    | QGet i => (l, QOpt (nth_error l i))
    | QGetMut i v => (set_nth i v l, QOpt (nth_error l i))
    | QIndex i => (l, QVal (expect (nth_error l i)))
    | QIndexMut i v => (set_nth i v l, QVal (expect (nth_error l i)))
    | QLen => (l, QNat (length l))
    | QIsEmpty => (l, QBool (Nat.eqb (length l) 0))
    | QClear => ([], QDone (Ok tt))
    | QIter => (l, QList l)
    | QIterMut vs => (firstn (length l) vs ++ skipn (length vs) l, QList (firstn (length vs) l))
    | QIntoIter => ([], QList l)
    end.
End SeqSpec.

(** Programs over list variables [0, 1, 2, ...], all initially [new()]. *)
Inductive sprog_op (T : Type) : Type :=
| QPOp (i : nat) (o : seq_op T)       (* x_i.o() *)
| QPAdd (d i j : nat).                (* x_d = x_i + x_j; x_i and x_j are consumed *)
Arguments QPOp {T}. Arguments QPAdd {T}.

Section SProg.
  Context {T : Type}.
  Definition sprog_spec_step (rs : nat -> list T) (o : sprog_op T) : (nat -> list T) * seq_out T :=
    match o with
    | QPOp i o => let (l, out) := seq_spec_step (rs i) o in (update rs i l, out)
    | QPAdd d i j =>
        let a := rs i in let rs1 := update rs i [] in
        let b := rs1 j in let rs2 := update rs1 j [] in
        (update rs2 d (a ++ b), QDone (Ok tt))
    end.

  Definition sprog_spec_outputs (ops : list (sprog_op T)) : list (seq_out T) :=
    spec_outputs sprog_spec_step (fun _ => []) ops.
End SProg.
