(** Concrete configurations and sequences of calls for PropertiesSizeTiered.v. *)
From Verif Require Export SizeTieredClaims LsmInstances.

(** size_tiered.rs:67-72 with [bucket_low] = [ln/ld] and [bucket_high] = [hn/hd] *)
Definition rational (ln ld hn hd first current sum : N) (count : nat) : bool :=
  ((sum * ln <=? first * N.of_nat count * ld) && (current * N.of_nat count * hd <=? sum * hn))%N.
(** [SizeTieredStrategy::new(_, 1000, 2, 0, 0.1, 1.5)] *)
Definition tier_cfg : sconfig := mkSc 1000 2 0 (rational 1 10 3 2).

Definition puts (a n : nat) : list (lsm_op nat nat) := map (fun k => LInsert k k) (seq a n).
Definition dels (a n : nat) : list (lsm_op nat nat) := map (fun k => LRemove k) (seq a n).
(** Key 1 is put into a large table and removed in a small one; the large one is merged with two others, the newest entry of
    which is a tombstone; then everything is merged. *)
Definition tier_bad : list (lsm_op nat nat) :=
  puts 1 10 ++ [LFlush] ++ dels 1 1 ++ dels 90 1 ++ [LFlush] ++ dels 91 7 ++ [LFlush] ++ puts 21 10 ++ [LFlush] ++
  puts 31 9 ++ dels 99 1 ++ [LFlush; LGet 1] ++ dels 80 6 ++ [LFlush].

Lemma resurrected : exists ops : list (lsm_op nat nat), well_used sp_new ops /\ sp_clean (sp_after ops) = true /\ lookup 1 (sp_map (sp_after ops)) = None /\
  exists outs, outputs (lsm_step (size_tiered tier_cfg)) (lsm_new (size_tiered tier_cfg)) (ops ++ [LGet 1]) = Ok (outs ++ [OVal (Some 1)]).
Proof.
  exists tier_bad. split; [vm_compute; intuition|]. split; [vm_compute; reflexivity|]. split; [vm_compute; reflexivity|].
  exists (repeat OUnit 44 ++ [OVal None] ++ repeat OUnit 7). vm_compute. reflexivity.
Qed.
(** Small tables are merged by threes; an iterator is kept across a flush; a reopening. *)
Definition tier_ops : list (lsm_op nat nat) :=
  [LInsert 1 10; LInsert 2 20; LFlush; LInsert 3 30; LRemove 1; LFlush; LInsert 2 21; LInsert 4 40; LFlush; LGet 2; LRemove 3; LInsert 5 50; LFlush;
   LIterOpen; LIterNext 0; LRemove 4; LInsert 6 60; LFlush; LIterNext 0; LIterNext 0; LIterNext 0; LIterDrop 0;
   LLen; LLenHint; LFlush; LReopen; LRemove 2; LInsert 8 80; LIter; LMin; LMax].
Definition tier_crash : list (lsm_op nat nat) :=
  [LInsert 1 10; LFlush; LInsert 3 30; LFlush; LInsert 4 40; LInsert 1 11; LInsert 7 70].
Definition tier_crash2 : list (lsm_op nat nat) :=
  [LInsert 1 10; LFlush; LInsert 3 30; LFlush; LInsert 4 40; LRemove 1; LInsert 7 70].
Definition small_cfg : sconfig := mkSc 25 2 100 (rational 1 2 3 2).
