(** Concrete comparisons and calls for the examples about arbitrary comparisons. *)
From Verif Require Export KeyInstances MapSpec.

(** Not reflexive, not symmetric, not transitive: the low bits of the product decide. *)
Definition nonsense : Cmp nat := fun a b =>
  match (a * 7 + b * 5 + a * b) mod 3 with 0 => Lt | 1 => Eq | _ => Gt end.
(** Everything is equal, as for a key type whose [cmp] always returns [Equal]. *)
Definition all_equal : Cmp nat := fun _ _ => Eq.
(** Nothing is equal, not even to itself, as for a floating-point "not a number". *)
Definition never_equal : Cmp nat := fun a b => if a <? b then Lt else Gt.
(** An order in which one key, 9, equals all others. *)
Definition wildcard : Cmp nat := fun a b => if (a =? 9) || (b =? 9) then Eq else Nat.compare a b.
(** A comparison given by a table: [table k stored]. *)
Definition table : Cmp nat := fun a b =>
  match a, b with
  | 0, 0 => Gt | 0, 1 => Eq | 0, _ => Lt
  | 1, 0 => Eq | 1, _ => Lt
  | _, 0 => Lt | _, _ => Eq
  end.

(** A comparison that changes while a call runs: [changing i] is used at level [i]. *)
Definition changing (i : nat) : Cmp nat := match i with O => all_equal | _ => fun _ _ => Gt end.

(** Calls that switch between comparisons. *)
Definition mixed_calls : list (Cmp nat * map_op nat nat) :=
  [(nonsense, MInsert 1 10); (nonsense, MInsert 2 20); (nat_cmp, MInsert 3 30); (never_equal, MInsert 3 31);
   (never_equal, MInsert 4 40); (all_equal, MGet 9); (all_equal, MInsert 8 80); (nonsense, MRemove 2);
   (never_equal, MRemove 4); (all_equal, MRemove 5); (nonsense, MFloor 3); (nonsense, MCeil 3);
   (nat_cmp, MMin); (nat_cmp, MMax); (nonsense, MContains 1); (nonsense, MIndex 3); (nat_cmp, MLen); (nat_cmp, MIter);
   (nonsense, MInsert 5 50); (nonsense, MInsert 6 60); (wildcard, MRemove 9); (nat_cmp, MIsEmpty); (nat_cmp, MIntoIter)].
Definition with_draws {O} (d : nat -> N) (ops : list (Cmp nat * O)) : list (Cmp nat * (O * N)) :=
  map (fun p => (fst (fst p), (snd (fst p), d (snd p)))) (combine ops (seq 0 (length ops))).
(** Draws for which the heights of skip list nodes are 0, 2, 1, 3, 0, 2, ... *)
Definition uneven (i : nat) : N :=
  match (i mod 4)%nat with 0 => 4294967295%N | 1 => 1073741823%N | 2 => 2147483647%N | _ => 536870911%N end.
