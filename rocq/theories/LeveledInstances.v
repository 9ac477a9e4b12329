(** Concrete configurations and sequences of calls for PropertiesLeveled.v. *)
From Verif Require Export LsmClaims LsmInstances.

Definition ex_cfg : lconfig := mkLc 20 1 30 2 2.
Definition ex_ops : list (lsm_op nat nat) :=
  [LInsert 1 10; LInsert 2 20; LInsert 3 30; LRemove 1; LInsert 4 40; BgPublish; LGet 2; BgDone; LInsert 5 50; LInsert 2 21; LFlush;
   LIterOpen; LIterNext 0; LRemove 3; LInsert 6 60; LFlush; LIterNext 0; LIterNext 0; LIterNext 0; LIterNext 0; LIterDrop 0;
   LLen; LLenHint; LFlush; LReopen; LRemove 2; LIter; LMin; LMax].
Definition crash_ops : list (lsm_op nat nat) :=
  [LInsert 1 10; LFlush; LInsert 3 30; LRemove 1; LInsert 4 40; BgPublish].
Definition before_iter : list (lsm_op nat nat) := [LInsert 1 10; LInsert 2 20; LInsert 3 30; LFlush; LIterOpen; LInsert 4 40].
Definition during_iter : list (lsm_op nat nat) :=
  [LIterNext 1; LRemove 2; LInsert 3 31; LFlush; LIterNext 1; LInsert 0 9; LInsert 7 70; LFlush; BgPublish; LIterDrop 0; LIterNext 1; LIterNext 1; LIterNext 1].

Lemma min_bad : exists ops : list (lsm_op nat nat), well_used sp_new ops /\ sp_map (sp_after ops) = [] /\
  outputs (lsm_step (leveled ex_cfg)) (lsm_new (leveled ex_cfg)) (ops ++ [LLenHint; LMin; LMax; LIsEmpty; LMin]) =
    Ok [OUnit; OUnit; OUnit; OHint 2; OKey (Some 1); OKey (Some 1); OBool true; OKey None].
Proof. exists [LInsert 1 10; LFlush; LRemove 1]. split; [vm_compute; intuition|]. split; vm_compute; reflexivity. Qed.

Lemma reopen_bad : exists ops : list (lsm_op nat nat), well_used sp_new ops /\
  outputs (lsm_step (leveled ex_cfg)) (lsm_new (leveled ex_cfg)) (ops ++ [LFlush]) = Ok [OUnit] /\
  outputs (lsm_step (leveled ex_cfg)) (lsm_new (leveled ex_cfg)) (ops ++ [LFlush; LReopen]) = Panic.
Proof. exists []. split; [exact I|]. split; vm_compute; reflexivity. Qed.

Lemma crash_bad : exists s outs s' out,
  run (lsm_step (leveled ex_cfg)) (lsm_new (leveled ex_cfg)) crash_ops = Ok (s, outs) /\
  Forall (fun m => m <> []) (sp_recover (sp_after crash_ops)) /\
  lsm_step (leveled ex_cfg) s (LGet 1) = Ok (s', out) /\ length (log s) < 11 < length (log s') /\
  lsm_open (leveled ex_cfg) (firstn 11 (log s')) (fresh s') = Panic.
Proof.
  do 4 eexists. split; [vm_compute; reflexivity|]. split; [vm_compute; repeat constructor; discriminate|]. split; [vm_compute; reflexivity|].
  split; [cbn; lia|vm_compute; reflexivity].
Qed.

Lemma endless_bad :
  never_ends (mkLc 0 0 0 0 10) [LInsert 1 10] /\
  never_ends (mkLc 0 1 0 1 0) [LInsert 1 10; LInsert 2 20] /\
  never_ends (mkLc 0 2 0 2 (2 ^ 63)) [LInsert 1 10; LInsert 2 20; LInsert 3 30].
Proof.
  split; [|split]; (do 3 eexists; split; [vm_compute; reflexivity|]; split; [reflexivity|]).
  - eapply compact_endless_0; [reflexivity|vm_compute; reflexivity|reflexivity|]. intros j. apply limit_initial_0.
  - eapply compact_endless_1; [reflexivity|vm_compute; reflexivity|vm_compute; reflexivity|reflexivity|]. intros j Hj. now apply limit_growth_0.
  - eapply compact_endless_1; [reflexivity|vm_compute; reflexivity|vm_compute; reflexivity|reflexivity|]. intros j Hj. now apply limit_growth_wraps.
Qed.
