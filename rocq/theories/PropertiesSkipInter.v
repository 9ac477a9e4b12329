(** Property theorems about the intersection of SkipMaps: C13. *)
From Verif Require Import MapSpec SetAlgSpec SkipInterSpec KeyInstances SkipMapModel SkipInterProofs.

(** ** C13: the intersection of any two reachable maps returns the common keys if each of them was drawn a
    number with more binary digits than the common key before it, or that key was drawn 0; the memory of both maps
    is given back and the result can be iterated and dropped.  Otherwise it panics. *)
Theorem C13_skip_inter_exact : forall (K V : Type) (C : Cmp K) (L : CmpLaws K)
    (ops1 ops2 : list (map_op K V * N)) m1 m2 o1 o2,
  run skip_step skip_new ops1 = Ok (m1, o1) -> run skip_step skip_new ops2 = Ok (m2, o2) ->
  exists l1 l2, skip_iter m1 = Ok l1 /\ skip_iter m2 = Ok l2 /\
    if growing (common_draws ops1 l2)
    then exists hl hr m hd, skip_set_op SInter m1 m2 = Ok (hl, hr, m) /\ skip_iter m = Ok (spec_inter l1 l2) /\
           live_nodes hl = 0 /\ live_nodes hr = 0 /\ live_nodes (sk_heap m) = S (length (spec_inter l1 l2)) /\
           sk_len m = length (spec_inter l1 l2) /\ skip_drop m = Ok (hd, spec_inter l1 l2) /\ live_nodes hd = 0
    else skip_set_op SInter m1 m2 = Panic.
Proof. exact @skip_inter_exact. Qed.
Print Assumptions C13_skip_inter_exact.

Example C13_inter_example : exists m1 o1 m2 o2 hl hr m,
  let ops1 := [(MInsert 2 20, 3%N); (MInsert 1 10, 1%N); (MInsert 3 30, 9%N); (MInsert 4 40, 3000000000%N)] in
  let ops2 := [(MInsert 4 41, 7%N); (MInsert 2 21, 7%N); (MInsert 1 11, 7%N)] in
  run skip_step skip_new ops1 = Ok (m1, o1) /\ run skip_step skip_new ops2 = Ok (m2, o2) /\
  common_draws ops1 [(1, 11); (2, 21); (4, 41)] = [1; 3; 3000000000]%N /\
  common_draws ops2 [(1, 10); (2, 20); (3, 30); (4, 40)] = [7; 7; 7]%N /\
  growing [1; 3; 3000000000]%N = true /\ growing [7; 7; 7]%N = false /\ growing [0; 7; 9]%N = true /\
  skip_set_op SInter m1 m2 = Ok (hl, hr, m) /\ skip_iter m = Ok [(1, 10); (2, 20); (4, 40)] /\
  skip_set_op SInter m2 m1 = Panic.
Proof. do 7 eexists. do 9 (split; [vm_compute; reflexivity|]). vm_compute; reflexivity. Qed.

(** More than 32 common keys, none of them drawn as 0: it always panics. *)
Theorem C13_skip_inter_many_refuted : forall (K V : Type) (C : Cmp K) (L : CmpLaws K)
    (ops1 ops2 : list (map_op K V * N)) m1 m2 o1 o2 l1 l2,
  run skip_step skip_new ops1 = Ok (m1, o1) -> run skip_step skip_new ops2 = Ok (m2, o2) ->
  skip_iter m1 = Ok l1 -> skip_iter m2 = Ok l2 ->
  32 < length (spec_inter l1 l2) -> ~ In 0%N (common_draws ops1 l2) ->
  skip_set_op SInter m1 m2 = Panic.
Proof. exact @skip_inter_many. Qed.
Print Assumptions C13_skip_inter_many_refuted.

Example C13_many_example : exists m1 o1 l1,
  let ops := map (fun i => (MInsert i i, N.of_nat (S i))) (seq 0 33) in
  run skip_step skip_new ops = Ok (m1, o1) /\ skip_iter m1 = Ok l1 /\
  length (spec_inter l1 l1) = 33 /\ existsb (N.eqb 0) (common_draws ops l1) = false.
Proof. do 3 eexists. do 3 (split; [vm_compute; reflexivity|]). vm_compute; reflexivity. Qed.

(** An intersection that does not panic returns a map that takes no key from its first one on, and gives none of
    these back, unless that first key was drawn 0. *)
Theorem C13_skip_inter_then_refuted : forall (K V : Type) (C : Cmp K) (L : CmpLaws K)
    (ops1 ops2 : list (map_op K V * N)) m1 m2 o1 o2 l1 l2 hl hr m k0 v0 r d0 ds,
  run skip_step skip_new ops1 = Ok (m1, o1) -> run skip_step skip_new ops2 = Ok (m2, o2) ->
  skip_iter m1 = Ok l1 -> skip_iter m2 = Ok l2 -> skip_set_op SInter m1 m2 = Ok (hl, hr, m) ->
  spec_inter l1 l2 = (k0, v0) :: r -> common_draws ops1 l2 = d0 :: ds -> d0 <> 0%N ->
  forall k v d, cmp k0 k <> Gt ->
    skip_step m (MInsert k v, d) = Panic /\ skip_step m (MRemove k, d) = Panic.
Proof. exact @skip_inter_then. Qed.
Print Assumptions C13_skip_inter_then_refuted.

Example C13_then_example : exists m1 o1 m2 o2 l1 l2 hl hr m r ds,
  let ops1 := [(MInsert 2 20, 3%N); (MInsert 1 10, 1%N); (MInsert 3 30, 9%N); (MInsert 4 40, 3000000000%N)] in
  run skip_step skip_new ops1 = Ok (m1, o1) /\
  run skip_step skip_new [(MInsert 4 41, 7%N); (MInsert 2 21, 7%N)] = Ok (m2, o2) /\
  skip_iter m1 = Ok l1 /\ skip_iter m2 = Ok l2 /\ skip_set_op SInter m1 m2 = Ok (hl, hr, m) /\
  spec_inter l1 l2 = (2, 20) :: r /\ common_draws ops1 l2 = 3%N :: ds /\
  skip_step m (MRemove 4, 0%N) = Panic /\ skip_step m (MInsert 2 22, 5%N) = Panic /\
  match skip_step m (MInsert 1 11, 5%N) with Ok _ => True | _ => False end.
Proof. do 11 eexists. do 9 (split; [vm_compute; reflexivity|]). vm_compute; exact I. Qed.
