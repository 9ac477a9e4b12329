(** Property theorems about SkipMap and SkipSet: C05, C06, C13, C24, C45, C49. *)
From Verif Require Import MapSpec SetAlgSpec SkipSpec KeySetSpec KeyInstances SkipMapModel KeySetModel.
From Verif Require Import SkipMapProofs SkipSetProofs KeySetProofs IterProofs.

(** Draws giving node heights 0, 1, 2, 0, 1, 2, ... *)
Definition some_draws (i : nat) : N := (4294967295 / 2 ^ N.of_nat (i mod 3))%N.
Definition drawn {O} (ops : list O) : list (O * N) := combine ops (map some_draws (seq 0 (length ops))).

(** ** C05: SkipMap behaves as an ordered map whatever heights are drawn, and never panics, so it never
    follows a pointer to a freed node or reads a link a node does not have. *)
Theorem C05_skip_refines : forall (K V : Type) (C : Cmp K) (L : CmpLaws K) (ops : list (map_op K V * N)),
  outputs skip_step skip_new ops = Ok (map_spec_outputs (map fst ops)).
Proof. exact @skip_refines. Qed.
Print Assumptions C05_skip_refines.

Example C05_example :
  outputs skip_step skip_new (drawn
    [MInsert (3, 0) 30; MInsert (1, 0) 10; MInsert (2, 0) 20; MInsert (3, 1) 31; MGet (3, 9); MGetMut (1, 9) 11;
     MFloor (5, 0); MCeil (0, 0); MMin; MMax; MLen; MIter; MIterMut [7; 8]; MRemove (2, 5); MRemove (2, 5); MIter;
     MIndex (2, 0); MContains (1, 1); MIsEmpty; MIntoIter; MIsEmpty; MInsert (4, 4) 44; MClear; MLen])
  = Ok [RPair None; RPair None; RPair None; RPair (Some ((3, 0), 30)); RVal (Some 31); RVal (Some 10);
     RKey (Some (3, 1)); RKey (Some (1, 0)); RKey (Some (1, 0)); RKey (Some (3, 1)); RNat 3;
     RList [((1, 0), 11); ((2, 0), 20); ((3, 1), 31)]; RList [((1, 0), 11); ((2, 0), 20)];
     RPair (Some ((2, 0), 8)); RPair None; RList [((1, 0), 7); ((3, 1), 31)];
     RIndex Panic; RBool true; RBool false; RList [((1, 0), 7); ((3, 1), 31)]; RBool true; RPair None; RUnit; RNat 0].
Proof. vm_compute; reflexivity. Qed.

(** ** C06: iterators. *)
Theorem C06_skip_iterators : forall (K V : Type) (C : Cmp K) (L : CmpLaws K) (d : nat -> N),
  iterators_correct (V := V) (fun ops => outputs skip_step skip_new (combine ops (map d (seq 0 (length ops))))).
Proof. exact (fun K V C L d => refines_iterators _ (skip_refines_draws d)). Qed.
Print Assumptions C06_skip_iterators.

Example C06_skip_example : exists m outs,
  run skip_step skip_new (drawn [MInsert 2 20; MInsert 1 10; MInsert 3 30; MRemove 2]) = Ok (m, outs) /\
  skip_iter m = Ok [(1, 10); (3, 30)].
Proof. eexists; eexists; split; vm_compute; reflexivity. Qed.

(** ** C13: set operations.  Union is right and frees both operands' nodes. *)
Theorem C13_skip_union : forall (K V : Type) (C : Cmp K) (L : CmpLaws K)
    (ops1 ops2 : list (map_op K V * N)) m1 m2 o1 o2,
  run skip_step skip_new ops1 = Ok (m1, o1) -> run skip_step skip_new ops2 = Ok (m2, o2) ->
  exists l1 l2 hl hr m, skip_iter m1 = Ok l1 /\ skip_iter m2 = Ok l2 /\
    skip_set_op SUnion m1 m2 = Ok (hl, hr, m) /\ skip_iter m = Ok (spec_union l1 l2) /\
    live_nodes hl = 0 /\ live_nodes hr = 0 /\ live_nodes (sk_heap m) = S (length (spec_union l1 l2)).
Proof. exact @skip_union_ok. Qed.
Print Assumptions C13_skip_union.

Example C13_union_example : exists m1 o1 m2 o2 hl hr m,
  run skip_step skip_new (drawn [MInsert 2 20; MInsert 1 10; MInsert 5 50]) = Ok (m1, o1) /\
  run skip_step skip_new (drawn [MInsert 2 21; MInsert 3 30]) = Ok (m2, o2) /\
  skip_set_op SUnion m1 m2 = Ok (hl, hr, m) /\ skip_iter m = Ok [(1, 10); (2, 20); (3, 30); (5, 50)].
Proof. do 7 eexists. vm_compute. auto. Qed.

(** Difference and symmetric difference panic exactly when the left operand has a key above every key of
    the right one, and are right otherwise. *)
Theorem C13_skip_diff_exact : forall (K V : Type) (C : Cmp K) (L : CmpLaws K)
    (ops1 ops2 : list (map_op K V * N)) m1 m2 o1 o2 s,
  s = SDiff \/ s = SSymDiff ->
  run skip_step skip_new ops1 = Ok (m1, o1) -> run skip_step skip_new ops2 = Ok (m2, o2) ->
  exists l1 l2, skip_iter m1 = Ok l1 /\ skip_iter m2 = Ok l2 /\
    if reaches_beyond l1 l2 then skip_set_op s m1 m2 = Panic
    else exists hl hr m, skip_set_op s m1 m2 = Ok (hl, hr, m) /\ skip_iter m = Ok (spec_set s l1 l2) /\
           live_nodes hl = 0 /\ live_nodes hr = 0 /\ live_nodes (sk_heap m) = S (length (spec_set s l1 l2)).
Proof. exact @skip_diff_exact. Qed.
Print Assumptions C13_skip_diff_exact.

Example C13_diff_example : exists m1 o1 m2 o2 hl hr m,
  run skip_step skip_new (drawn [MInsert 2 20; MInsert 1 10]) = Ok (m1, o1) /\
  run skip_step skip_new (drawn [MInsert 2 21; MInsert 3 30]) = Ok (m2, o2) /\
  reaches_beyond [(1, 10); (2, 20)] [(2, 21); (3, 30)] = false /\
  skip_set_op SSymDiff m1 m2 = Ok (hl, hr, m) /\ skip_iter m = Ok [(1, 10); (3, 30)] /\
  reaches_beyond [(2, 21); (3, 30)] [(1, 10); (2, 20)] = true /\ skip_set_op SDiff m2 m1 = Panic.
Proof. do 7 eexists. vm_compute. repeat split. Qed.

Theorem C13_skip_diff_refuted : exists ops : list (prog_op nat nat * N),
  outputs skip_prog_step (fun _ => skip_new) ops = Panic /\
  map fst ops = [POp 0 (MInsert 1 10); PSet SDiff 2 0 1].
Proof. exact skip_diff_bad. Qed.
Print Assumptions C13_skip_diff_refuted.

(** Intersection: after one common key the result cannot take a larger key; with two it panics itself. *)
Theorem C13_skip_inter_result_refuted : exists ops : list (prog_op nat nat * N),
  outputs skip_prog_step (fun _ => skip_new) ops = Panic /\
  map fst ops = [POp 0 (MInsert 1 10); POp 1 (MInsert 1 11); PSet SInter 2 0 1; POp 2 (MInsert 2 20)].
Proof. exact skip_inter_bad. Qed.
Print Assumptions C13_skip_inter_result_refuted.

Theorem C13_skip_inter_refuted : exists ops : list (prog_op nat nat * N),
  outputs skip_prog_step (fun _ => skip_new) ops = Panic /\
  map fst ops = [POp 0 (MInsert 1 10); POp 0 (MInsert 2 20); POp 1 (MInsert 1 11); POp 1 (MInsert 2 21);
                 PSet SInter 2 0 1].
Proof. exact skip_inter_bad2. Qed.
Print Assumptions C13_skip_inter_refuted.

(** Full statement: the same without [prog_allowed]; refuted above. *)
Theorem C13_skip_programs_partial : forall (K V : Type) (C : Cmp K) (L : CmpLaws K) (ops : list (prog_op K V * N)),
  prog_allowed (fun _ => []) (map fst ops) ->
  outputs skip_prog_step (fun _ => skip_new) ops = Ok (prog_spec_outputs (map fst ops)).
Proof. exact @skip_prog_refines. Qed.
Print Assumptions C13_skip_programs_partial.

Example C13_programs_example :
  let ops := [POp 0 (MInsert 1 10); POp 0 (MInsert 2 20); POp 1 (MInsert 2 21); POp 1 (MInsert 3 31);
              PSet SSymDiff 2 0 1; POp 2 (MInsert 4 40); POp 0 MLen; POp 0 (MInsert 7 70); PSet SUnion 3 0 2;
              POp 3 (MInsert 5 50); PSet SInter 4 3 3; POp 4 MIter; PSet SUnion 5 3 4; POp 5 MLen;
              POp 6 (MInsert 5 51); POp 6 MIter] in
  prog_allowed (fun _ => []) ops /\
  skipn 5 (prog_spec_outputs ops)
    = [RPair None; RNat 0; RPair None; RUnit; RPair None; RUnit; RList []; RUnit; RNat 0; RPair None; RList [(5, 51)]] /\
  outputs skip_prog_step (fun _ => skip_new) (drawn ops) = Ok (prog_spec_outputs ops).
Proof. vm_compute. repeat split. Qed.

(** ** C24: into_iter.  The first [n] items are handed out; every other one is dropped twice. *)
Theorem C24_skip_into_iter_exact : forall (K V : Type) (C : Cmp K) (L : CmpLaws K)
    (ops : list (map_op K V * N)) m outs n,
  run skip_step skip_new ops = Ok (m, outs) ->
  exists l h, skip_iter m = Ok l /\ live_nodes h = 0 /\
    skip_into_iter m n = Ok (h, firstn n l, flat_map (fun p => [p; p]) (skipn n l)).
Proof. exact @skip_into_iter_drops. Qed.
Print Assumptions C24_skip_into_iter_exact.

Theorem C24_skip_into_iter_refuted : exists (m : skip_map nat nat) outs h,
  run skip_step skip_new [(MInsert 1 10, 0%N); (MInsert 2 20, 0%N)] = Ok (m, outs) /\
  skip_into_iter m 1 = Ok (h, [(1, 10)], [(2, 20); (2, 20)]).
Proof. exact skip_into_iter_bad. Qed.
Print Assumptions C24_skip_into_iter_refuted.

(** ** C45: SkipSet. *)
Theorem C45_skip_set : forall (K : Type) (C : Cmp K) (L : CmpLaws K) (ops : list (kset_op K * N)),
  outputs (wrap_step (fun od => (kset_call (fst od), snd od)) kset_ret skip_step) skip_new ops
    = Ok (kset_spec_outputs (map fst ops)).
Proof. exact (fun K C L => kset_refines_draws _ _ skip_refines). Qed.
Print Assumptions C45_skip_set.

Example C45_skip_example :
  outputs (wrap_step (fun od => (kset_call (fst od), snd od)) kset_ret skip_step) skip_new
    (drawn [KInsert 2; KInsert 1; KInsert 2; KFloor 5; KRemove 1; KIter])
  = Ok [KKey None; KKey None; KKey (Some 2); KKey (Some 2); KKey (Some 1); KList [2]].
Proof. vm_compute. reflexivity. Qed.

(** Full statement: the same without [prog_allowed]; refuted for the map above. *)
Theorem C45_skip_set_programs_partial : forall (K : Type) (C : Cmp K) (L : CmpLaws K) (ops : list (kprog_op K * N)),
  prog_allowed (fun _ => []) (map (fun o => kprog_call (fst o)) ops) ->
  outputs (wrap_step (fun od => (kprog_call (fst od), snd od)) kset_ret skip_prog_step) (fun _ => skip_new) ops
    = Ok (kprog_spec_outputs (map fst ops)).
Proof. exact @skip_kprog_refines. Qed.
Print Assumptions C45_skip_set_programs_partial.

Example C45_skip_programs_example :
  let ops := drawn [KPOp 0 (KInsert 2); KPOp 1 (KInsert 3); KPSet SUnion 2 0 1; KPOp 2 KIter] in
  prog_allowed (fun _ => []) (map (fun o => kprog_call (fst o)) ops) /\
  kprog_spec_outputs (map fst ops) = [KKey None; KKey None; KUnit; KList [2; 3]].
Proof. vm_compute. repeat split. Qed.

(** ** C49: SkipMap leaks no node and drops every item once. *)
Theorem C49_skip_memory : forall (K V : Type) (C : Cmp K) (L : CmpLaws K) (ops : list (map_op K V * N)) m outs,
  run skip_step skip_new ops = Ok (m, outs) ->
  exists l h, live_nodes (sk_heap m) = S (length l) /\ skip_iter m = Ok l /\
    skip_drop m = Ok (h, l) /\ live_nodes h = 0.
Proof. exact @skip_memory. Qed.
Print Assumptions C49_skip_memory.

Example C49_example : exists m outs h,
  run skip_step skip_new (drawn [MInsert 2 20; MInsert 1 10; MInsert 2 22; MInsert 5 50; MRemove 1]) = Ok (m, outs) /\
  live_nodes (sk_heap m) = 3 /\ skip_drop m = Ok (h, [(2, 22); (5, 50)]) /\ live_nodes h = 0.
Proof. do 3 eexists. vm_compute. repeat split. Qed.
