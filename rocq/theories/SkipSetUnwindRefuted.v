(** A set operation of SkipMap that leaks when it unwinds. *)
From Coq Require Import Permutation.
From Verif Require Import SkipSetUnwindProofs SkipSetUnwindInstances.

Lemma skip_set_leaks : ~ (forall (K V : Type) (C : Cmp K), CmpLaws K -> forall (ops1 ops2 : list (map_op K V * N)) m1 m2 o1 o2 l1 l2 s n hl hr h ds,
  run skip_step skip_new ops1 = Ok (m1, o1) -> run skip_step skip_new ops2 = Ok (m2, o2) -> skip_iter m1 = Ok l1 -> skip_iter m2 = Ok l2 ->
  skip_set_op_u s n m1 m2 = Ok (hl, hr, Thrown h, ds) -> live_nodes hl = 0 /\ live_nodes hr = 0 /\ Permutation ds (l1 ++ l2)).
Proof.
  intros A. pose (get_ok := fun (T : Type) (d : T) (r : res T) => match r with Ok x => x | _ => d end).
  pose (r1 := get_ok _ (skip_new, []) (run skip_step skip_new odd_calls)). pose (r2 := get_ok _ (skip_new, []) (run skip_step skip_new low_calls)).
  pose (t := get_ok _ ([], [], Thrown [], []) (skip_set_op_u SUnion 2 (fst r1) (fst r2))).
  assert (E1 : run skip_step skip_new odd_calls = Ok (fst r1, snd r1)) by (vm_compute; reflexivity).
  assert (E2 : run skip_step skip_new low_calls = Ok (fst r2, snd r2)) by (vm_compute; reflexivity).
  assert (I1 : skip_iter (fst r1) = Ok odd_pairs) by (vm_compute; reflexivity).
  assert (I2 : skip_iter (fst r2) = Ok low_pairs) by (vm_compute; reflexivity).
  pose (h := match snd (fst t) with Thrown h => h | Returned _ => [] end).
  assert (E : skip_set_op_u SUnion 2 (fst r1) (fst r2) = Ok (fst (fst (fst t)), snd (fst (fst t)), Thrown h, snd t)) by (vm_compute; reflexivity).
  destruct (A nat nat _ _ _ _ _ _ _ _ _ _ _ _ _ _ _ _ E1 E2 I1 I2 E) as [L _]. vm_compute in L. discriminate.
Qed.
