(** C79: what becomes of two SkipMaps when a comparison panics in a set operation between them and the panic is caught. *)
From Coq Require Import Permutation.
From Verif Require Import SkipSpec SkipSetUnwindProofs SkipSetUnwindInstances SkipSetUnwindRefuted.

(** Every pair of the two maps is moved or dropped once.  If comparison [n + 1] panics, one pair of each map is never dropped and the node of each map's head is never freed;
    everything else is, once. *)
Theorem C79_throws_partial : forall (K V : Type) (C : Cmp K), CmpLaws K -> forall (ops1 ops2 : list (map_op K V * N)) m1 m2 o1 o2 l1 l2 s n,
  run skip_step skip_new ops1 = Ok (m1, o1) -> run skip_step skip_new ops2 = Ok (m2, o2) -> skip_iter m1 = Ok l1 -> skip_iter m2 = Ok l2 ->
  (s = SInter -> spec_inter l1 l2 = []) ->
  (exists hl hr m ds es, skip_set_op_u s n m1 m2 = Ok (hl, hr, Returned m, ds) /\ skip_set_op s m1 m2 = Ok (hl, hr, m) /\
     skip_iter m = Ok es /\ Permutation (ds ++ es) (l1 ++ l2)) \/
  (exists hl hr h ds e1 e2, skip_set_op_u s n m1 m2 = Ok (hl, hr, Thrown h, ds) /\ n < length l1 + length l2 /\
     In e1 l1 /\ In e2 l2 /\ Permutation (ds ++ [e1; e2]) (l1 ++ l2) /\
     live_nodes hl = 1 /\ live_nodes hr = 1 /\ live_nodes h = 0) \/
  (skip_set_op_u s n m1 m2 = Panic /\ skip_set_op s m1 m2 = Panic).
Proof. exact @skip_set_unwind_ok. Qed.
Print Assumptions C79_throws_partial.
(** With as many comparisons as there are pairs, the operation returns what it returns without panics; what it does not return is dropped. *)
Theorem C79_returns : forall (K V : Type) (C : Cmp K), CmpLaws K -> forall (ops1 ops2 : list (map_op K V * N)) m1 m2 o1 o2 l1 l2 s n,
  run skip_step skip_new ops1 = Ok (m1, o1) -> run skip_step skip_new ops2 = Ok (m2, o2) -> skip_iter m1 = Ok l1 -> skip_iter m2 = Ok l2 ->
  set_allowed s l1 l2 -> length l1 + length l2 <= n ->
  exists hl hr m ds, skip_set_op_u s n m1 m2 = Ok (hl, hr, Returned m, ds) /\ skip_set_op s m1 m2 = Ok (hl, hr, m) /\
    skip_iter m = Ok (spec_set s l1 l2) /\ Permutation (ds ++ spec_set s l1 l2) (l1 ++ l2).
Proof. exact @skip_set_unwind_enough. Qed.
Print Assumptions C79_returns.
(** The code is to free everything when it unwinds: it does not. *)
Theorem C79_no_leak_refuted : ~ (forall (K V : Type) (C : Cmp K), CmpLaws K -> forall (ops1 ops2 : list (map_op K V * N)) m1 m2 o1 o2 l1 l2 s n hl hr h ds,
  run skip_step skip_new ops1 = Ok (m1, o1) -> run skip_step skip_new ops2 = Ok (m2, o2) -> skip_iter m1 = Ok l1 -> skip_iter m2 = Ok l2 ->
  skip_set_op_u s n m1 m2 = Ok (hl, hr, Thrown h, ds) -> live_nodes hl = 0 /\ live_nodes hr = 0 /\ Permutation ds (l1 ++ l2)).
Proof. exact skip_set_leaks. Qed.
Print Assumptions C79_no_leak_refuted.

Example C79_maps : (let* (m1, _) := run skip_step skip_new odd_calls in let* (m2, _) := run skip_step skip_new low_calls in
  let* l1 := skip_iter m1 in let* l2 := skip_iter m2 in Ok (l1, l2)) = Ok (odd_pairs, low_pairs).
Proof. vm_compute. reflexivity. Qed.
Example C79_allowed : set_allowed SUnion odd_pairs low_pairs /\ set_allowed SDiff odd_pairs low_pairs.
Proof. split; reflexivity. Qed.
Example C79_union_thrown : set_left SUnion 2 = Ok (1, 1, 0, [(1, 10); (2, 20); (6, 60); (5, 50)], []).
Proof. vm_compute. reflexivity. Qed.
Example C79_diff_thrown : set_left SDiff 3 = Ok (1, 1, 0, [(2, 20); (3, 30); (3, 31); (1, 10)], []).
Proof. vm_compute. reflexivity. Qed.
Example C79_union_returned : set_left SUnion 6 = Ok (0, 0, 6, [(3, 31)], [(1, 10); (2, 20); (3, 30); (5, 50); (6, 60)]).
Proof. vm_compute. reflexivity. Qed.
