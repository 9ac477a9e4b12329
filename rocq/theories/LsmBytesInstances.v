(** Concrete maps and directories for PropertiesLsmBytes.v: keys and values of one byte. *)
From Verif Require Export LsmBytesFinalProofs LsmMetaFinalProofs SsInstances.
From Coq Require Import Strings.Byte.
#[local] Existing Instance encoded_sizes.

Definition dir_cfg : lconfig := mkLc 20 1 30 2 2.
Definition dir_ops : list (lsm_op byte byte) :=
  [LInsert x01 x10; LInsert x02 x20; LFlush; LInsert x03 x30; LRemove x01; LInsert x04 x40; LFlush; LInsert x05 x50; LInsert x02 x21; LFlush; LInsert x06 x60; LRemove x03; LFlush].
Definition dir_name (i : nat) : path := [byte_of (97 + N.of_nat i)].
(** Directories with the given names and contents; the entry count hints are given too. *)
Fixpoint dirs_of (l : list (nat * nat * list (byte * sval byte))) (p : path) : option files :=
  match l with
  | [] => None
  | (i, hint, es) :: r =>
      if list_eq_dec Byte.byte_eq_dec p (dir_name i) then match build hint es with Ok f => Some f | _ => None end else dirs_of r p
  end.
Definition after (cfg : lconfig) (ops : list (lsm_op byte byte)) : option (lsm byte byte (lmeta byte byte)) :=
  match run (lsm_step (leveled cfg)) (lsm_new (leveled cfg)) ops with Ok (s, _) => Some s | _ => None end.
Definition dir_state : lsm byte byte (lmeta byte byte) := match after dir_cfg dir_ops with Some s => s | None => lsm_new (leveled dir_cfg) end.
Definition dir_of (hint : nat) (m : lmeta byte byte) : path -> option files := dirs_of (map (fun t => (t_id t, hint, t_es t)) (lv_tables m)).

(** A second table is flushed. *)
Definition torn_cfg : lconfig := mkLc 20 4 30 2 2.
Definition torn_ops : list (lsm_op byte byte) := [LInsert x01 x10; LFlush].
Definition torn_more : list (lsm_op byte byte) := [LInsert x02 x20; LFlush].
Definition meta_of (l : list (lsm_op byte byte)) : lmeta byte byte := match after torn_cfg l with Some s => cur s | None => mkLm [] [] end.
Lemma limits_small cfg n : lc_initial cfg = 2%N -> lc_growth cfg = 2%N -> (n <= 2 ^ 32)%N -> limits_positive cfg n.
Proof.
  intros E1 E2 Ln i F. destruct (Nat.le_gt_cases 33 i) as [L|L].
  - exfalso. specialize (F 32 ltac:(lia)). unfold limit in F. rewrite E1, E2 in F. change ((2 * 2 ^ N.of_nat 32) mod 2 ^ 64)%N with (2 ^ 33)%N in F. lia.
  - unfold limit. rewrite E1, E2. rewrite N.mod_small.
    + pose proof (N.pow_nonzero 2 (N.of_nat i)). lia.
    + rewrite <- N.pow_succ_r'. apply N.pow_lt_mono_r; lia.
Qed.

Ltac all_stored hint :=
  cbn [lv_tables lm_tabs lm_levels level_tables flat_map map snd app];
  repeat (apply Forall_cons; [exists hint; eexists; (split; [vm_compute; reflexivity|]); (split; [vm_compute; reflexivity|]); split; [unfold small_files, small; cbn; lia|vm_compute; reflexivity]|]); apply Forall_nil.
Lemma torn_bad : exists dirs s outs s' m m' n,
  limits_positive torn_cfg 4 /\ well_used sp_new (torn_ops ++ torn_more) /\
  run (lsm_step (leveled torn_cfg)) (lsm_new (leveled torn_cfg)) torn_ops = Ok (s, outs) /\
  run (lsm_step (leveled torn_cfg)) s torn_more = Ok (s', outs) /\
  log s' = log s ++ [ETime 2; ETable 1; EMeta m'] /\ d_meta (disk_of (log s)) = Some m /\
  Forall (stored dir_name dirs) (lv_tables m) /\ Forall (stored dir_name dirs) (lv_tables m') /\
  open_leveled dirs (torn n (enc_leveled torn_cfg (paths dir_name m)) (enc_leveled torn_cfg (paths dir_name m'))) (enc_be64 2) = Panic.
Proof.
  exists (dir_of 1 (meta_of (torn_ops ++ torn_more))). do 5 eexists. exists 41.
  split; [apply limits_small; [reflexivity|reflexivity|vm_compute; discriminate]|]. split; [vm_compute; intuition|].
  split; [vm_compute; reflexivity|]. split; [vm_compute; reflexivity|]. split; [cbn; reflexivity|]. split; [reflexivity|]. split; [|split].
  - all_stored 1.
  - all_stored 1.
  - vm_compute. reflexivity.
Qed.
Lemma size_bad : exists (es : list (byte * sval byte)) f b, build 4 es = Ok f /\ strictly_ascending es /\ small_files f /\ small_times es /\
  SsModel.st_new f = Ok b /\ su_size (st_summary b) <> N.of_nat (length (f_data f) + length (f_index f)).
Proof.
  exists [(x01, mkSval (Some x10) 3)]%N. do 2 eexists. split; [vm_compute; reflexivity|]. split; [repeat constructor|]. split; [cbn; unfold small_files, small; cbn; lia|].
  split; [repeat constructor|]. split; [vm_compute; reflexivity|]. vm_compute. discriminate.
Qed.
