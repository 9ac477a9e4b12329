(** Calls used as examples in PropertiesSkipUnwind.v. *)
From Verif Require Export SkipUnwindModel UnwindSpec SkipUnwindSpec KeyInstances.

(** Drawn numbers that give heights 0, 3 and 32. *)
Definition flat : N := 4294967295.
Definition middle : N := 536870911.
Definition tall : N := 0.
(** an insert of 5, as high as can be, that panics at the bottom level: 9 is hidden behind it, and 6 is put behind it too *)
Definition hiding_calls : list (map_op nat nat * N * nat) :=
  [(MInsert 1 10, flat, 50); (MInsert 9 90, flat, 50); (MInsert 5 50, tall, 0); (MIter, tall, 0); (MGet 9, tall, 50); (MGet 1, tall, 50);
   (MFloor 9, tall, 50); (MMax, tall, 0); (MInsert 6 60, flat, 50); (MGet 6, tall, 50); (MIter, tall, 0); (MLen, tall, 0); (MRemove 5, tall, 100);
   (MGet 9, tall, 50); (MLen, tall, 0); (MIter, tall, 0); (MClear, tall, 0); (MInsert 7 70, middle, 50)].
(** a remove that panics half way down, lookups that panic *)
Definition harmless_calls : list (map_op nat nat * N * nat) :=
  [(MInsert 1 10, flat, 50); (MInsert 5 50, middle, 50); (MInsert 9 90, flat, 50); (MRemove 5, tall, 4); (MGet 5, tall, 1); (MCeil 2, tall, 0);
   (MLen, tall, 0); (MIter, tall, 0); (MGet 5, tall, 50); (MRemove 5, tall, 50); (MIter, tall, 0)].
