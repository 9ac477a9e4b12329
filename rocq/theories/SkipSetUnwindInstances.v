(** Calls used as examples in PropertiesSkipSetUnwind.v. *)
From Verif Require Export SkipSetUnwindModel SkipUnwindInstances.

Definition odd_calls : list (map_op nat nat * N) := [(MInsert 1 10, flat); (MInsert 3 30, tall); (MInsert 5 50, middle)].
Definition low_calls : list (map_op nat nat * N) := [(MInsert 2 20, flat); (MInsert 3 31, flat); (MInsert 6 60, middle)].
Definition odd_pairs : list (nat * nat) := [(1, 10); (3, 30); (5, 50)].
Definition low_pairs : list (nat * nat) := [(2, 20); (3, 31); (6, 60)].
(** What is left of a set operation between both: live nodes of the two maps, of the result or what was built of it, pairs dropped, pairs kept. *)
Definition set_left (s : set_op) (n : nat) : res (nat * nat * nat * list (nat * nat) * list (nat * nat)) :=
  let* (m1, _) := run skip_step skip_new odd_calls in
  let* (m2, _) := run skip_step skip_new low_calls in
  let* (hl, hr, t, ds) := skip_set_op_u s n m1 m2 in
  match t with
  | Returned m => let* es := skip_iter m in Ok (live_nodes hl, live_nodes hr, live_nodes (sk_heap m), ds, es)
  | Thrown h => Ok (live_nodes hl, live_nodes hr, live_nodes h, ds, [])
  end.
