(** Concrete scans with failing reads for PropertiesLsmScan.v. *)
From Verif Require Export LsmScanProofs LeveledInstances SizeTieredInstances.

Definition scan_cfg : lconfig := mkLc 100 10 30 2 2.
(** Two tables: 1, 2, 5 in the older one; 1 is removed and 3 put in the newer one. *)
Definition scan_ops : list (lsm_op nat nat) := [LInsert 1 10; LInsert 2 20; LInsert 5 50; LFlush; LRemove 1; LInsert 3 30; LFlush].
Definition scan_items (fs : list bool) : res (list (option (nat * nat))) :=
  let* (s, _) := run (lsm_step (leveled scan_cfg)) (lsm_new (leveled scan_cfg)) scan_ops in rmap snd (scan (leveled scan_cfg) fs s).
Lemma skip_bad : sp_map (sp_after scan_ops) = [(2, 20); (3, 30); (5, 50)] /\ exists items, scan_items [true] = Ok items /\ oks items = [(1, 10); (2, 20); (5, 50)].
Proof. split; [vm_compute; reflexivity|]. eexists. split; vm_compute; reflexivity. Qed.
Lemma len_bad : sp_map (sp_after scan_ops) = [(2, 20); (3, 30); (5, 50)] /\
  (exists items, scan_items [true] = Ok items /\ items_len items = Some 4) /\ (exists items, scan_items [false; false; true] = Ok items /\ items_len items = Some 2).
Proof. split; [vm_compute; reflexivity|]. split; eexists; (split; vm_compute; reflexivity). Qed.
Lemma max_bad : sp_map (sp_after scan_ops) = [(2, 20); (3, 30); (5, 50)] /\ exists items, scan_items [false; false; true] = Ok items /\ items_max items = Some (Some 3).
Proof. split; [vm_compute; reflexivity|]. eexists. split; vm_compute; reflexivity. Qed.
