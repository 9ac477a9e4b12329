(** What may be said of a collection whose nodes are bytes in a memory that it shares. *)
From Verif Require Export Base.

(** The bytes of these blocks (address and size) are the same in both memories. *)
Definition untouched (blocks : list (nat * nat)) (m m' : nat -> nat) : Prop :=
  forall b x, In b blocks -> fst b <= x < fst b + snd b -> m' x = m x.
(** All results, or those before an allocation failed, and none from then on *)
Definition all_of {R} (full : list R) (outs : list (option R)) : Prop := outs = map Some full.
Definition some_of {R} (full : list R) (outs : list (option R)) : Prop :=
  exists k, outs = map Some (firstn k full) ++ repeat None (length full - k).
