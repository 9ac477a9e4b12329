(** Vocabulary for the properties of encodings. *)
From Verif Require Export BincodeModel.

(** Numbers that fit into 64 bits *)
Definition small (n : nat) : Prop := (N.of_nat n < 2 ^ 64)%N.
Definition small_opt (o : option nat) : Prop := match o with None => True | Some n => small n end.
