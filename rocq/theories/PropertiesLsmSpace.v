(** Properties of the space that an [LsmMap] takes, in memory and on disk. *)
From Verif Require Import LsmSpaceInstances.

(** ** C65: an [LsmMap] leaves no files behind. *)

(** With both strategies, whatever was called: a directory that metadata on disk ever referred to is removed once they no
    longer do. *)
Theorem C65_retired_tiered : forall (K V : Type) (C : Cmp K) (Z : Sizes K V) (cfg : sconfig)
    (ops : list (lsm_op K V)) (s : lsm K V (list (table K V))) (outs : list (lsm_out K V)),
  run (lsm_step (size_tiered cfg)) (lsm_new (size_tiered cfg)) ops = Ok (s, outs) ->
  forall m i, In (EMeta m) (log s) -> In i (ids (size_tiered cfg) m) -> In i (on_disk (size_tiered cfg) s) -> In i (ids (size_tiered cfg) (cur s)).
Proof. exact (fun K V C Z cfg => retired_removed (size_tiered cfg) (tiered_files cfg)). Qed.
Print Assumptions C65_retired_tiered.
Theorem C65_retired_leveled : forall (K V : Type) (C : Cmp K) (Z : Sizes K V) (cfg : lconfig)
    (ops : list (lsm_op K V)) (s : lsm K V (lmeta K V)) (outs : list (lsm_out K V)),
  run (lsm_step (leveled cfg)) (lsm_new (leveled cfg)) ops = Ok (s, outs) ->
  forall m i, In (EMeta m) (log s) -> In i (ids (leveled cfg) m) -> In i (on_disk (leveled cfg) s) -> In i (ids (leveled cfg) (cur s)).
Proof. exact (fun K V C Z cfg => retired_removed (leveled cfg) (leveled_files cfg)). Qed.
Print Assumptions C65_retired_leveled.

(** [clear] leaves no directory, whatever the strategy and the state. *)
Theorem C65_clear : forall (K V : Type) (C : Cmp K) (Z : Sizes K V) (St : strategy K V) (s s' : lsm K V (st_meta St)) (out : lsm_out K V),
  lsm_step St s LClear = Ok (s', out) -> on_disk St s' = [].
Proof. exact @clear_empties. Qed.
Print Assumptions C65_clear.

(** With [SizeTieredStrategy] nothing is left behind as long as nothing is removed, no compaction fails, and the map is
    reopened right after a flush only ... *)
Theorem C65_tiered_partial : forall (K V : Type) (C : Cmp K) (Z : Sizes K V) (cfg : sconfig)
    (ops : list (lsm_op K V)) (s : lsm K V (list (table K V))) (outs : list (lsm_out K V)),
  steady false ops -> run (lsm_step (size_tiered cfg)) (lsm_new (size_tiered cfg)) ops = Ok (s, outs) ->
  left_behind (size_tiered cfg) s = [].
Proof. exact (fun K V C Z cfg => steady_clean (size_tiered cfg) full (tiered_steady cfg)). Qed.
Print Assumptions C65_tiered_partial.

Example C65_example : exists s outs, steady false small_ops /\ run (lsm_step (size_tiered small_cfg)) (lsm_new (size_tiered small_cfg)) small_ops = Ok (s, outs) /\
  fresh s = 6 /\ on_disk (size_tiered small_cfg) s = [5; 4; 3] /\ ids (size_tiered small_cfg) (cur s) = [3; 4; 5] /\
  exists m, In (EMeta m) (log s) /\ ids (size_tiered small_cfg) m = [0; 1; 2].
Proof.
  do 2 eexists. split; [vm_compute; intuition|]. split; [vm_compute; reflexivity|]. split; [reflexivity|]. split; [vm_compute; reflexivity|]. split; [vm_compute; reflexivity|].
  eexists. split; [do 15 right; left; reflexivity|]. reflexivity.
Qed.
Example C65_leveled_example : exists s outs, run (lsm_step (leveled small_lcfg)) (lsm_new (leveled small_lcfg)) (small_ops ++ [LClear]) = Ok (s, outs) /\
  5 < fresh s /\ on_disk (leveled small_lcfg) s = [] /\ exists m, In (EMeta m) (log s) /\ ids (leveled small_lcfg) m = [0; 1; 2].
Proof.
  do 2 eexists. split; [vm_compute; reflexivity|]. split; [cbn; lia|]. split; [vm_compute; reflexivity|].
  eexists. split; [do 15 right; left; reflexivity|]. reflexivity.
Qed.

(** ... but compactions of removals only leave a directory ... *)
Theorem C65_tiered_refuted : exists ops s outs, well_used sp_new ops /\ run (lsm_step (size_tiered small_cfg)) (lsm_new (size_tiered small_cfg)) ops = Ok (s, outs) /\
  thr s = TIdle /\ left_behind (size_tiered small_cfg) s <> [].
Proof. exact tombs_litter. Qed.
Print Assumptions C65_tiered_refuted.
(** ... and so does reopening when a compaction has finished but is not installed. *)
Theorem C65_reopen_refuted : exists ops s outs, run (lsm_step (size_tiered small_cfg)) (lsm_new (size_tiered small_cfg)) (ops ++ [LReopen]) = Ok (s, outs) /\
  Forall (@no_removal nat nat) ops /\ left_behind (size_tiered small_cfg) s <> [].
Proof. exact reopen_litters. Qed.
Print Assumptions C65_reopen_refuted.

(** With [LeveledStrategy] there is no bound: a map of one key in one table, and as many directories left behind as it was
    written and flushed. *)
Theorem C65_leveled_refuted : forall n, exists s outs, well_used sp_new (litter_ops (S n)) /\
  run (lsm_step (leveled litter_cfg)) (lsm_new (leveled litter_cfg)) (litter_ops (S n)) = Ok (s, outs) /\
  length (in_use (leveled litter_cfg) s) = 1 /\ length (left_behind (leveled litter_cfg) s) = S n.
Proof. exact litter_bad. Qed.
Print Assumptions C65_leveled_refuted.
Example C65_litter_example : litter_ops 2 = [LInsert 0 0; LFlush; LInsert 0 0; LFlush].
Proof. reflexivity. Qed.
(** Six keys in six tables, and 17 directories left behind *)
Example C65_deep_example : exists s outs, run (lsm_step (leveled deep_litter_cfg)) (lsm_new (leveled deep_litter_cfg)) deep_litter = Ok (s, outs) /\
  length (in_use (leveled deep_litter_cfg) s) = 6 /\ length (left_behind (leveled deep_litter_cfg) s) = 17.
Proof. do 2 eexists. split; [vm_compute; reflexivity|]. split; vm_compute; reflexivity. Qed.

(** ** C66: what an [LsmMap] holds in memory is never larger than its limit, ... *)
Theorem C66_memory_bounded : forall (K V : Type) (C : Cmp K) (_ : CmpLaws K) (Z : Sizes K V) (St : strategy K V)
    (ops : list (lsm_op K V)) (s : lsm K V (st_meta St)) (outs : list (lsm_out K V)),
  run (lsm_step St) (lsm_new St) ops = Ok (s, outs) -> (held_bytes (mem s) <= usage s <= st_max_mem St)%N.
Proof. exact @mem_bounded. Qed.
Print Assumptions C66_memory_bounded.

(** ... and it is written to disk only if it would be, provided that [clear] was not called ... *)
Theorem C66_flush_exact_partial : forall (K V : Type) (C : Cmp K) (_ : CmpLaws K) (Z : Sizes K V) (St : strategy K V)
    (ops : list (lsm_op K V)) (s : lsm K V (st_meta St)) (outs : list (lsm_out K V))
    (o : lsm_op K V) (k : K) (d : option V) (s' : lsm K V (st_meta St)) (out : lsm_out K V),
  Forall no_clear ops -> run (lsm_step St) (lsm_new St) ops = Ok (s, outs) -> written_by o = Some (k, d) -> lsm_step St s o = Ok (s', out) ->
  mem s' = let m := mem_put k (mkSval d (time s)) (mem s) in if (st_max_mem St <? held_bytes m)%N then [] else m.
Proof. exact @mem_exact. Qed.
Print Assumptions C66_flush_exact_partial.

(** Two entries are held; overwriting one is no reason to flush, a third one is. *)
Example C66_example : exists s outs s1 s2, run (lsm_step (size_tiered small_cfg)) (lsm_new (size_tiered small_cfg)) (puts 1 8) = Ok (s, outs) /\
  Forall (@no_clear nat nat) (puts 1 8) /\ held_bytes (mem s) = 22%N /\ st_max_mem (size_tiered (K := nat) (V := nat) small_cfg) = 22%N /\
  lsm_step (size_tiered small_cfg) s (LInsert 8 0) = Ok (s1, OUnit) /\ mem s1 = [(7, put 7 6); (8, put 0 8)] /\
  lsm_step (size_tiered small_cfg) s (LInsert 9 0) = Ok (s2, OUnit) /\ mem s2 = [].
Proof.
  do 4 eexists. split; [vm_compute; reflexivity|]. split; [repeat constructor|]. split; [reflexivity|]. split; [reflexivity|]. split; [vm_compute; reflexivity|]. split; [reflexivity|].
  split; [vm_compute; reflexivity|]. reflexivity.
Qed.

(** ... which does not forget the size of what it drops. *)
Theorem C66_clear_refuted : exists ops s outs s' k v, run (lsm_step (size_tiered small_cfg)) (lsm_new (size_tiered small_cfg)) (ops ++ [LClear]) = Ok (s, outs) /\
  mem s = [] /\ lsm_step (size_tiered small_cfg) s (LInsert k v) = Ok (s', OUnit) /\ mem s' = [] /\
  (held_bytes (mem_put k (mkSval (Some v) (time s)) (mem s)) <= st_max_mem (size_tiered (K := nat) (V := nat) small_cfg))%N.
Proof. exact clear_forgets_not. Qed.
Print Assumptions C66_clear_refuted.
