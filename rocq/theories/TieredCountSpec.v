(** Vocabulary for how many tables [SizeTieredStrategy] keeps. *)
From Verif Require Export SizeTieredSpec.

(** A table that is too large for a bucket is at least [p/q] times as large as the bucket's first table.
    Arguments: the sizes of the first table and of this one, the sum of the sizes and the number of the tables, both with this one. *)
Definition grows (p q : N) (fits : N -> N -> N -> nat -> bool) : Prop :=
  forall f c sum n, 0 < n -> (f <= c)%N -> (f * N.of_nat n <= sum)%N -> (sum <= c * N.of_nat n)%N -> fits f c sum n = false -> (p * f <= q * c)%N.
