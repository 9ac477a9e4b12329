(** Configurations for C89: elements that are booleans, and calls that insert into an empty list and remove again. *)
From Verif Require Import SeqSpec.
Require Import List NArith.
Import ListNotations.
Definition flag_bytes (b : bool) : list nat := [if b then 1 else 0].
Definition flag_back (bs : list nat) : option bool := match bs with [a] => Some (Nat.eqb a 1) | _ => None end.
Definition push_pop (n : nat) : list (seq_op bool * N) := concat (repeat [(QPushBack true, 4294967295%N); (QPopBack, 0%N)] n).
