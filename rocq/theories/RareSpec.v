(** Rare events.  Nothing here refers to any model. *)
From Verif Require Export RandomSpec.

(** Of the sequences of [t] numbers below [M], at most one in [2 ^ s] makes [f] exceed [b]. *)
Definition rarely_above (M t s b : nat) (f : list N -> nat) : Prop :=
  2 ^ s * length (filter (fun ps => b <? f ps) (draws M t)) <= M ^ t.
