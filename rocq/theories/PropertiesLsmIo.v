(** C76: [LsmMap] when operations on files fail and the caller goes on with the map.  The theorems are about LsmIoModel.v;
    [persists] (LsmIoSpec.v) says what a call may return and what a call that returned [Err] may have changed. *)
From Verif Require Import LsmIoInstances.

(** Whatever fails, no call panics, an [Err] occurs only if something failed, and what is returned agrees with the
    specification: nothing flushed is lost, and what was written since is kept, or lost from some point on. *)
Theorem C76_leveled : forall (K V : Type) (C : Cmp K) (_ : CmpLaws K) (Z : Sizes K V) (cfg : lconfig),
  (forall k k' : K, cmp k k' = Eq -> ksize k = ksize k') ->
  forall n : nat, limits_positive cfg (N.of_nat n) -> persists (leveled cfg) any_call eq n (@io_new K V) (lsm_new (leveled cfg)).
Proof. exact @leveled_persists. Qed.
Print Assumptions C76_leveled.
Example C76_leveled_example : limits_positive ex_cfg (N.of_nat (length io_ops)) /\
  outputs (io_step (leveled ex_cfg)) (lsm_new (leveled ex_cfg)) io_ops =
    Ok [Some OUnit; None; None; Some OUnit; Some OUnit; None; Some OUnit; Some OUnit; Some OUnit; None; None; Some (OVal (Some 20)); None; Some (OLen 4);
        Some OUnit; Some OUnit; Some OUnit; Some (OList [(1, 11); (2, 20); (3, 30); (4, 40); (8, 80)])].
Proof. split; [apply limits_small; vm_compute; intuition discriminate|]. vm_compute. reflexivity. Qed.

(** The size-tiered strategy, without removals *)
Theorem C76_tiered : forall (K V : Type) (C : Cmp K) (_ : CmpLaws K) (Z : Sizes K V) (cfg : sconfig),
  (forall k k' : K, cmp k k' = Eq -> ksize k = ksize k') ->
  forall n : nat, persists (size_tiered cfg) no_removal eq n (@io_new K V) (lsm_new (size_tiered cfg)).
Proof. exact @tiered_persists. Qed.
Print Assumptions C76_tiered.
Example C76_tiered_example : Forall (fun c => no_removal (fst c)) tier_io_ops /\
  outputs (io_step (size_tiered small_cfg)) (lsm_new (size_tiered small_cfg)) tier_io_ops =
    Ok (repeat (Some OUnit) 8 ++ [None; Some (OVal (Some 30)); Some OUnit; None; Some (OVal None); None; Some OUnit; Some OUnit; Some OUnit;
        Some (OList [(1, 11); (3, 30); (4, 40); (7, 70); (9, 91)])]).
Proof. split; [repeat constructor|]. vm_compute. reflexivity. Qed.

(** With removals: the same, except that removed pairs may come back. *)
Theorem C76_tiered_loose : forall (K V : Type) (C : Cmp K) (_ : CmpLaws K) (Z : Sizes K V) (cfg : sconfig),
  (forall k k' : K, cmp k k' = Eq -> ksize k = ksize k') ->
  forall (P : K -> V -> Prop) (n : nat), (forall k k' v, cmp k k' = Eq -> P k v -> P k' v) ->
  persists (size_tiered cfg) (inserts_only P) (revived P) n (@io_new K V) (lsm_new (size_tiered cfg)).
Proof. exact @tiered_persists_loosely. Qed.
Print Assumptions C76_tiered_loose.
Example C76_tiered_loose_example : Forall (fun c => inserts_only (fun k v => v = 10 * k) (fst c)) tier_io_ops2 /\
  outputs (io_step (size_tiered small_cfg)) (lsm_new (size_tiered small_cfg)) tier_io_ops2 =
    Ok (repeat (Some OUnit) 8 ++ [None; Some (OVal (Some 30)); Some OUnit; None; Some (OVal None); None; Some OUnit; Some OUnit; Some OUnit;
        Some (OList [(3, 30); (4, 40); (7, 70); (9, 90)])]).
Proof. split; [repeat (constructor; [cbn; auto|]); constructor|]. vm_compute. reflexivity. Qed.

(** *** What one would expect and does not hold *)

(** A flush that returned [Err] has lost what calls that returned [Ok] had written, also for the running program. *)
Theorem C76_kept_refuted :
  outputs (io_step (leveled (K := nat) (V := nat) ex_cfg)) (lsm_new (leveled ex_cfg)) [(LInsert 1 10, None); (LFlush, Some (1, false)); (LGet 1, None)] =
    Ok [Some OUnit; None; Some (OVal None)].
Proof. exact lost_bad. Qed.
Print Assumptions C76_kept_refuted.

(** If the flush failed earlier, nothing is lost, but overwriting a key panics. *)
Theorem C76_write_refuted :
  outputs (io_step (leveled (K := nat) (V := nat) ex_cfg)) (lsm_new (leveled ex_cfg)) [(LInsert 1 10, None); (LFlush, Some (0, false)); (LGet 1, None)] =
    Ok [Some OUnit; None; Some (OVal (Some 10))] /\
  outputs (io_step (leveled (K := nat) (V := nat) ex_cfg)) (lsm_new (leveled ex_cfg)) [(LInsert 1 10, None); (LFlush, Some (0, false)); (LInsert 1 11, None)] = Panic.
Proof. exact full_bad. Qed.
Print Assumptions C76_write_refuted.

(** After a lookup that returned [Err], a flush that returned [Ok] leaves a directory that cannot be opened. *)
Theorem C76_reopen_refuted : exists ops : list (lsm_op nat nat),
  outputs (io_step (leveled ex_cfg)) (lsm_new (leveled ex_cfg)) (map (fun o => (o, None)) ops ++ [(LGet 1, Some (0, true)); (LFlush, None); (LGet 3, None)]) =
    Ok (repeat (Some OUnit) 5 ++ [None; Some OUnit; Some (OVal (Some 30))]) /\
  outputs (io_step (leveled ex_cfg)) (lsm_new (leveled ex_cfg)) (map (fun o => (o, None)) ops ++ [(LGet 1, Some (0, true)); (LFlush, None); (LReopen, None)]) = Panic.
Proof. exact (ex_intro _ removed_ops closing_bad). Qed.
Print Assumptions C76_reopen_refuted.

(** After a [min] that returned [Err], nothing is compacted until the map is reopened. *)
Theorem C76_compacts_refuted : exists s,
  run (io_step (leveled (K := nat) (V := nat) ex_cfg)) (lsm_new (leveled ex_cfg)) [(LInsert 1 10, None); (LFlush, None); (LMin, Some (0, false))] = Ok (s, [Some OUnit; Some OUnit; None]) /\
  forall calls s' outs, Forall (fun c : lsm_op nat nat * fault => fst c <> LReopen /\ fst c <> LIterDrop 0) calls ->
    run (io_step (leveled ex_cfg)) s calls = Ok (s', outs) -> thr s' = TIdle.
Proof. exact lock_bad. Qed.
Print Assumptions C76_compacts_refuted.
(** Five more tables are written. *)
Example C76_compacts_example : tables_after (LMin, None) = Ok 3 /\ tables_after (LMin, Some (0, false)) = Ok 6 /\
  Forall (fun c : lsm_op nat nat * fault => fst c <> LReopen /\ fst c <> LIterDrop 0) five_tables.
Proof. split; [vm_compute; reflexivity|]. split; [vm_compute; reflexivity|]. repeat (constructor; [cbn; split; discriminate|]). constructor. Qed.

(** In general: while a count of iterators stays raised, no compaction starts. *)
Theorem C76_stuck : forall (K V : Type) (C : Cmp K) (Z : Sizes K V) (St : strategy K V) (i : nat) (calls : list (lsm_op K V * fault)) s s' outs,
  (exists it, nth_error (iters s) i = Some (Some it)) -> thr s = TIdle -> Forall (fun c => fst c <> LReopen /\ fst c <> LIterDrop i) calls ->
  run (io_step St) s calls = Ok (s', outs) -> thr s' = TIdle.
Proof. exact @stuck. Qed.
Print Assumptions C76_stuck.
Example C76_stuck_example : exists s outs, run (io_step (leveled (K := nat) (V := nat) ex_cfg)) (lsm_new (leveled ex_cfg)) [fine (LInsert 1 10); fails 0 LLen; fails 3 LLen] = Ok (s, outs) /\
  (exists it, nth_error (iters s) 0 = Some (Some it)) /\ thr s = TIdle.
Proof. do 2 eexists. split; [vm_compute; reflexivity|]. split; [eexists; reflexivity|reflexivity]. Qed.
