(** Shared vocabulary of all models: results with explicit failure values, key comparison. *)
From Coq Require Export List Arith ZArith Lia Bool.
Export ListNotations.

(** Outcome of a modelled Rust call.  [Panic] is a panic (expect / assert! / index out of bounds /
    null dereference / arithmetic underflow in checked builds).  [Timeout] is exhaustion of the fuel
    of a modelled loop; it never stands for a normal result. *)
Inductive res (A : Type) : Type :=
| Ok (a : A)
| Panic
| Timeout.
Arguments Ok {A} a.
Arguments Panic {A}.
Arguments Timeout {A}.

Definition bind {A B} (x : res A) (f : A -> res B) : res B :=
  match x with Ok a => f a | Panic => Panic | Timeout => Timeout end.

Notation "'let*' x ':=' e1 'in' e2" := (bind e1 (fun x => e2))
  (at level 200, x pattern, e1 at level 100, e2 at level 200, right associativity).

Definition rmap {A B} (f : A -> B) (x : res A) : res B := bind x (fun a => Ok (f a)).

(** [x.expect("...")] *)
Definition expect {A} (x : option A) : res A :=
  match x with Some a => Ok a | None => Panic end.

(** [assert!(b)] *)
Definition assert (b : bool) : res unit := if b then Ok tt else Panic.

(** [n -= 1] on an unsigned integer: underflow is a panic. *)
Definition checked_pred (n : nat) : res nat :=
  match n with O => Panic | S m => Ok m end.

(** [a - b] on unsigned integers: underflow is a panic. *)
Definition checked_sub (a b : nat) : res nat :=
  if Nat.leb b a then Ok (a - b) else Panic.

(** Rust [Ord::cmp] on keys. *)
Class Cmp (K : Type) := cmp : K -> K -> comparison.

(** The contract of [Ord]: a total order up to [Equal].  [Equal] keys need not be identical. *)
Class CmpLaws (K : Type) {C : Cmp K} : Prop := {
  cmp_sym : forall x y : K, cmp y x = CompOpp (cmp x y);
  cmp_lt_trans : forall x y z : K, cmp x y = Lt -> cmp y z = Lt -> cmp x z = Lt;
  cmp_eq_l : forall x y z : K, cmp x y = Eq -> cmp x z = cmp y z
}.

Definition is_lt (c : comparison) : bool := match c with Lt => true | _ => false end.
Definition is_eq (c : comparison) : bool := match c with Eq => true | _ => false end.
Definition is_gt (c : comparison) : bool := match c with Gt => true | _ => false end.

(** Last element of a list, if any. *)
Fixpoint last_error {A} (l : list A) : option A :=
  match l with
  | [] => None
  | [x] => Some x
  | _ :: t => last_error t
  end.

(** [l[i] = x]; out of bounds the list is unchanged (callers check). *)
Fixpoint list_set {A} (l : list A) (i : nat) (x : A) : list A :=
  match l, i with
  | [], _ => []
  | _ :: l', 0 => x :: l'
  | y :: l', S i' => y :: list_set l' i' x
  end.

(** A state machine run over a list of operations, collecting the results. *)
Section Run.
  Context {S O R : Type}.
  Variable step : S -> O -> res (S * R).
  Fixpoint run (s : S) (ops : list O) : res (S * list R) :=
    match ops with
    | [] => Ok (s, [])
    | o :: ops' =>
        let* (s1, r) := step s o in
        let* (s2, rs) := run s1 ops' in
        Ok (s2, r :: rs)
    end.
  (** The observable part of a run: the returned values. *)
  Definition outputs (s : S) (ops : list O) : res (list R) := rmap snd (run s ops).
End Run.

(** The same for a total specification machine. *)
Section RunSpec.
  Context {S O R : Type}.
  Variable step : S -> O -> S * R.
  Fixpoint spec_run (s : S) (ops : list O) : S * list R :=
    match ops with
    | [] => (s, [])
    | o :: ops' =>
        let '(s1, r) := step s o in
        let '(s2, rs) := spec_run s1 ops' in
        (s2, r :: rs)
    end.
  Definition spec_outputs (s : S) (ops : list O) : list R := snd (spec_run s ops).
End RunSpec.
