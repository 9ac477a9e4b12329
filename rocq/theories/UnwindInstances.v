(** Calls used as examples in PropertiesUnwind.v. *)
From Verif Require Export UnwindModel UnwindSpec KeyInstances.

Definition inserts (l : list nat) : list (map_op nat nat * nat) := map (fun k => (MInsert k (10 * k), 50)) l.
(** an insert that panics in its third comparison, then a remove that does *)
Definition search_calls : list (map_op nat nat * nat) :=
  inserts [4; 2; 6; 1; 3; 5; 7] ++ [(MInsert 8 8, 2); (MLen, 0); (MIter, 0); (MGet 3, 2); (MGet 3, 3); (MRemove 3, 2); (MLen, 0); (MIter, 0)].
Definition search_outs : list (option (map_out nat nat)) :=
  repeat (Some (RPair None)) 7 ++
  [None; Some (RNat 8); Some (RList [(1, 10); (2, 20); (3, 30); (4, 40); (5, 50); (6, 60); (7, 70)]); None; Some (RVal (Some 30));
   None; Some (RNat 8); Some (RList [])].
(** a get_mut that panics, an insert, and a remove that panics when the root is out of the tree *)
Definition splay_calls : list (map_op nat nat * nat) :=
  inserts [4; 2; 6; 1; 3; 5; 7] ++ [(MGetMut 1 5, 2); (MLen, 0); (MIter, 0); (MInsert 0 0, 2); (MLen, 0); (MIter, 0)].
Definition splay_gone : list (map_op nat nat * nat) := inserts [1; 2; 3; 4] ++ [(MRemove 4, 2); (MLen, 0); (MIter, 0)].
(** an insert that panics in a split below the root *)
Definition treap_calls : list (map_op nat nat * N * nat) :=
  [(MInsert 4 40, 90%N, 50); (MInsert 2 20, 80%N, 50); (MInsert 6 60, 70%N, 50); (MInsert 1 10, 10%N, 50); (MInsert 7 70, 20%N, 50);
   (MInsert 8 80, 75%N, 2); (MLen, 0%N, 0); (MIter, 0%N, 0); (MInsert 5 50, 10%N, 0); (MInsert 5 50, 10%N, 2); (MLen, 0%N, 0); (MIter, 0%N, 0)].
