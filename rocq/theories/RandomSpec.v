(** Averages over random numbers.  Nothing here refers to any model. *)
From Verif Require Export Base.
From Coq Require Export NArith.

(** The numbers below [M], and all sequences of [t] of them *)
Definition numbers (M : nat) : list N := map N.of_nat (seq 0 M).
Fixpoint draws (M t : nat) : list (list N) :=
  match t with
  | 0 => [[]]
  | S t' => flat_map (fun x => map (cons x) (draws M t')) (numbers M)
  end.

Definition total {X} (f : X -> nat) (l : list X) : nat := list_sum (map f l).

(** Over [t] independent numbers, each equally likely to be any number below [M], the average of [f] is at most [a + b / M]. *)
Definition average_within (M t a b : nat) (f : list N -> nat) : Prop := M * total f (draws M t) <= M ^ t * (M * a + b).
