(** C75: what a SkipMap does after a comparison of keys panicked and the panic was caught. *)
From Verif Require Import SkipUnwindTop SkipUnwindInstances.

(** No call fails by itself, and no freed memory is used.  The pairs that iteration shows are in order.  A call that panicked changes none of them.  An insert that panicked puts its
    pair aside; only then may later calls answer from the pairs aside instead of those shown.  What is aside is never freed. *)
Theorem C75_skip : forall (K V : Type) (C : Cmp K), CmpLaws K -> forall ops : list (map_op K V * N * nat),
  exists m outs shown aside lost, run skip_step_u skip_new ops = Ok (m, outs) /\ length outs = length ops /\
    skip_history [] [] 0 (combine (map (fun x => fst (fst x)) ops) outs) shown aside lost /\
    skip_iter m = Ok shown /\ StronglySorted (fun p q => cmp (fst p) (fst q) = Lt) shown /\
    live_nodes (sk_heap m) = S (length shown + length aside + lost) /\
    exists h', skip_drop m = Ok (h', shown) /\ live_nodes h' = length aside + lost.
Proof. exact @skip_unwind_ok. Qed.
Print Assumptions C75_skip.
(** If no insert panicked, then the calls that panicked changed nothing at all, and all memory is freed. *)
Theorem C75_no_insert : forall (K V : Type) (C : Cmp K), CmpLaws K -> forall (ops : list (map_op K V * N * nat)) m outs,
  run skip_step_u skip_new ops = Ok (m, outs) -> no_insert_panicked (combine (map (fun x => fst (fst x)) ops) outs) ->
  unwind_trace everything [] 0 (combine (map (fun x => fst (fst x)) ops) outs) /\
  exists h' l, skip_drop m = Ok (h', l) /\ live_nodes h' = 0.
Proof. exact @skip_no_insert_ok. Qed.
Print Assumptions C75_no_insert.
(** A call in which no comparison panics is the call of the other theorems; so many comparisons are always enough. *)
Theorem C75_returns : forall (K V : Type) (C : Cmp K) (m : skip_map K V) (o : map_op K V) (d : N) (b : nat),
  33 * (length (sk_heap m) + 3) <= b -> skip_step_u m (o, d, b) = let* (m', out) := skip_step m (o, d) in Ok (m', Some out).
Proof. exact @skip_returns_ok. Qed.
Print Assumptions C75_returns.

Example C75_hidden : outputs skip_step_u skip_new hiding_calls =
  Ok [Some (RPair None); Some (RPair None); None; Some (RList [(1, 10); (9, 90)]); Some (RVal None); Some (RVal (Some 10)); Some (RKey (Some 5));
      Some (RKey (Some 5)); Some (RPair None); Some (RVal (Some 60)); Some (RList [(1, 10); (9, 90)]); Some (RNat 4); Some (RPair None);
      Some (RVal (Some 90)); Some (RNat 4); Some (RList [(1, 10); (9, 90)]); Some RUnit; Some (RPair None)].
Proof. vm_compute. reflexivity. Qed.
Example C75_leaked : (let* (m, _) := run skip_step_u skip_new hiding_calls in let* (h, l) := skip_drop m in Ok (live_nodes (sk_heap m), live_nodes h, l)) =
  Ok (4, 2, [(7, 70)]).
Proof. vm_compute. reflexivity. Qed.
Example C75_harmless : outputs skip_step_u skip_new harmless_calls =
  Ok [Some (RPair None); Some (RPair None); Some (RPair None); None; None; None; Some (RNat 3); Some (RList [(1, 10); (5, 50); (9, 90)]);
      Some (RVal (Some 50)); Some (RPair (Some (5, 50))); Some (RList [(1, 10); (9, 90)])].
Proof. vm_compute. reflexivity. Qed.
Example C75_enough : skip_step_u skip_new (MInsert 3 30, middle, 132) = let* (m', out) := skip_step skip_new (MInsert 3 30, middle) in Ok (m', Some out).
Proof. vm_compute. reflexivity. Qed.

(** It is not true that a call that panicked changes nothing, nor that all memory is freed in the end. *)
Theorem C75_unchanged_refuted : ~ forall (ops : list (map_op nat nat * N * nat)) m outs,
  run skip_step_u skip_new ops = Ok (m, outs) -> unwind_trace everything [] 0 (combine (map (fun x => fst (fst x)) ops) outs).
Proof. exact skip_changed. Qed.
Print Assumptions C75_unchanged_refuted.
Theorem C75_no_leak_refuted : ~ forall (ops : list (map_op nat nat * N * nat)) m outs h l,
  run skip_step_u skip_new ops = Ok (m, outs) -> skip_drop m = Ok (h, l) -> live_nodes h = 0.
Proof. exact skip_leaks. Qed.
Print Assumptions C75_no_leak_refuted.
