(** Concrete sequences of calls with failures for PropertiesLsmIo.v. *)
From Verif Require Export LsmIoTop LeveledInstances SizeTieredInstances.

Definition fine (o : lsm_op nat nat) : lsm_op nat nat * fault := (o, None).
Definition fails (n : nat) (o : lsm_op nat nat) : lsm_op nat nat * fault := (o, Some (n, false)).
Definition fails_after (n : nat) (o : lsm_op nat nat) : lsm_op nat nat * fault := (o, Some (n, true)).

(** The logical time is not written, before and after it is on the disk; a flush fails at metadata.dat; the removal of a
    table that was merged fails; a lookup fails; [len] fails when the iterator is made.  Then the map is written to, flushed
    and reopened. *)
Definition io_ops : list (lsm_op nat nat * fault) :=
  [fine (LInsert 1 10); fails 0 (LInsert 2 20); fails_after 0 (LInsert 2 20); fine (LInsert 2 20); fine (LInsert 3 30); fails 2 LFlush; fine (LInsert 4 40); fine (LInsert 1 11);
   fine BgPublish; fails_after 0 (LGet 7); fails 0 (LGet 7); fine (LGet 2); fails 0 LLen; fine LLen; fine (LInsert 8 80); fine LFlush; fine LReopen; fine LIter].
Definition removed_ops : list (lsm_op nat nat) := [LInsert 1 10; LFlush; LInsert 3 30; LRemove 1; BgPublish].
Definition tier_io_ops : list (lsm_op nat nat * fault) :=
  map fine tier_crash ++ [fine BgPublish; fails 1 (LGet 3); fine (LGet 3); fine (LInsert 9 90); fails 1 LFlush; fine (LGet 9); fails 0 LMax; fine (LInsert 9 91); fine LFlush; fine LReopen; fine LIter].
Definition tier_io_ops2 : list (lsm_op nat nat * fault) :=
  map fine tier_crash2 ++ [fine BgPublish; fails 1 (LGet 3); fine (LGet 3); fine (LInsert 9 90); fails 1 LFlush; fine (LGet 9); fails 0 LMax; fine (LInsert 9 90); fine LFlush; fine LReopen; fine LIter].

Notation outs_leveled := (outputs (io_step (leveled (K := nat) (V := nat) ex_cfg)) (lsm_new (leveled ex_cfg))).
Lemma lost_bad : outs_leveled [fine (LInsert 1 10); fails 1 LFlush; fine (LGet 1)] = Ok [Some OUnit; None; Some (OVal None)].
Proof. vm_compute. reflexivity. Qed.
Lemma full_bad : outs_leveled [fine (LInsert 1 10); fails 0 LFlush; fine (LGet 1)] = Ok [Some OUnit; None; Some (OVal (Some 10))] /\
  outs_leveled [fine (LInsert 1 10); fails 0 LFlush; fine (LInsert 1 11)] = Panic.
Proof. split; vm_compute; reflexivity. Qed.
Lemma closing_bad : outs_leveled (map fine removed_ops ++ [fails_after 0 (LGet 1); fine LFlush; fine (LGet 3)]) = Ok (repeat (Some OUnit) 5 ++ [None; Some OUnit; Some (OVal (Some 30))]) /\
  outs_leveled (map fine removed_ops ++ [fails_after 0 (LGet 1); fine LFlush; fine LReopen]) = Panic.
Proof. split; vm_compute; reflexivity. Qed.
Lemma lock_bad : exists s, run (io_step (leveled (K := nat) (V := nat) ex_cfg)) (lsm_new (leveled ex_cfg)) [fine (LInsert 1 10); fine LFlush; fails 0 LMin] = Ok (s, [Some OUnit; Some OUnit; None]) /\
  forall calls s' outs, Forall (fun c : lsm_op nat nat * fault => fst c <> LReopen /\ fst c <> LIterDrop 0) calls -> run (io_step (leveled ex_cfg)) s calls = Ok (s', outs) -> thr s' = TIdle.
Proof.
  eexists. split; [vm_compute; reflexivity|]. intros calls s' outs F. apply (stuck (leveled ex_cfg) 0); auto. eexists. reflexivity.
Qed.
(** Five keys, each in a table of its own; what is left of the tables *)
Definition five_tables : list (lsm_op nat nat * fault) := flat_map (fun k => [fine (LInsert k k); fine LFlush]) (seq 2 5).
Definition tables_after (c : lsm_op nat nat * fault) : res nat :=
  rmap (fun p => length (st_tables (leveled ex_cfg) (cur (fst p)))) (run (io_step (leveled (K := nat) (V := nat) ex_cfg)) (lsm_new (leveled ex_cfg)) ([fine (LInsert 1 10); fine LFlush; c] ++ five_tables)).
