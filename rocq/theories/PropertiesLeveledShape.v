(** Properties of the shape of maps with [LeveledStrategy]. *)
From Verif Require Import LeveledLooseInstances.

(** ** C56: a level holds no more tables than its limit, whatever was called, also in the metadata that a compaction has
    made and that is not yet installed. *)
Theorem C56_level_limits : forall (K V : Type) (C : Cmp K) (Z : Sizes K V) (cfg : lconfig)
    (ops : list (lsm_op K V)) (s : lsm K V (lmeta K V)) (outs : list (lsm_out K V)),
  run (lsm_step (leveled cfg)) (lsm_new (leveled cfg)) ops = Ok (s, outs) ->
  forall m, m = cur s \/ nxt s = Some m ->
  forall i l, nth_error (lm_levels m) i = Some l -> (N.of_nat (length l) <= limit cfg i)%N.
Proof. exact @levels_fit. Qed.
Print Assumptions C56_level_limits.

(** There are at most log2 n + 2 levels after n calls, if limits at least double and do not overflow that soon. *)
Theorem C56_few_levels : forall (K V : Type) (C : Cmp K) (_ : CmpLaws K) (Z : Sizes K V) (cfg : lconfig),
  (forall k k' : K, cmp k k' = Eq -> ksize k = ksize k') ->
  forall (ops : list (lsm_op K V)) (s : lsm K V (lmeta K V)) (outs : list (lsm_out K V)),
  (1 <= lc_initial cfg)%N -> (2 <= lc_growth cfg)%N ->
  (lc_initial cfg * lc_growth cfg ^ (N.log2 (N.of_nat (length ops)) + 1) < 2 ^ 64)%N ->
  well_used sp_new ops -> run (lsm_step (leveled cfg)) (lsm_new (leveled cfg)) ops = Ok (s, outs) ->
  (N.of_nat (length (lm_levels (cur s))) <= N.log2 (N.of_nat (length ops)) + 2)%N.
Proof. exact @levels_few. Qed.
Print Assumptions C56_few_levels.

(** A flush leaves at most as many tables outside of the levels as are configured, if it starts with something in memory
    whose newest entry is not a removal, no compaction is under way, and no iterator is kept ... *)
Theorem C56_loose_partial : forall (K V : Type) (C : Cmp K) (_ : CmpLaws K) (Z : Sizes K V) (cfg : lconfig),
  (forall k k' : K, cmp k k' = Eq -> ksize k = ksize k') ->
  forall (ops : list (lsm_op K V)) (s : lsm K V (lmeta K V)) (outs : list (lsm_out K V)) (s' : lsm K V (lmeta K V)) (out : lsm_out K V),
  limits_positive cfg (N.of_nat (length ops)) -> well_used sp_new ops ->
  run (lsm_step (leveled cfg)) (lsm_new (leveled cfg)) ops = Ok (s, outs) ->
  calm s -> ends_in_insertion s -> lsm_step (leveled cfg) s LFlush = Ok (s', out) ->
  length (lm_tabs (cur s')) <= lc_max_count cfg.
Proof. exact @loose_few. Qed.
Print Assumptions C56_loose_partial.

(** Three levels, full, and a flush that is followed by a compaction *)
Example C56_example : exists s outs s', run (lsm_step (leveled deep_cfg)) (lsm_new (leveled deep_cfg)) deep_ops = Ok (s, outs) /\
  well_used sp_new deep_ops /\ (1 <= lc_initial deep_cfg)%N /\ (2 <= lc_growth deep_cfg)%N /\
  (lc_initial deep_cfg * lc_growth deep_cfg ^ (N.log2 (N.of_nat (length deep_ops)) + 1) < 2 ^ 64)%N /\
  map (@length _) (lm_levels (cur s)) = [1; 2; 3] /\ map (limit deep_cfg) [0; 1; 2] = [1; 2; 4]%N /\
  calm s /\ ends_in_insertion s /\ lsm_step (leveled deep_cfg) s LFlush = Ok (s', OUnit) /\ length (lm_tabs (cur s)) = 1 /\ length (lm_tabs (cur s')) = 0.
Proof.
  do 3 eexists. split; [vm_compute; reflexivity|]. split; [vm_compute; intuition|]. split; [discriminate|]. split; [discriminate|]. split; [reflexivity|].
  split; [vm_compute; reflexivity|]. split; [vm_compute; reflexivity|]. split; [split; [reflexivity|intros o []]|].
  split; [eexists; split; [left; reflexivity|]; split; [discriminate|]; intros e [<-|[]]; vm_compute; discriminate|]. split; [vm_compute; reflexivity|]. split; vm_compute; reflexivity.
Qed.

(** ... and otherwise need not: after n rounds of a removal and a flush there are n tables outside of the levels, although
    every flush but the first compacts and one such table is configured. *)
Theorem C56_loose_refuted : forall n, exists s outs, well_used sp_new (bare_ops n) /\
  run (lsm_step (leveled bare_cfg)) (lsm_new (leveled bare_cfg)) (bare_ops n) = Ok (s, outs) /\ calm s /\ length (lm_tabs (cur s)) = n.
Proof. exact bare_bad. Qed.
Print Assumptions C56_loose_refuted.
Example C56_loose_example : lc_max_count bare_cfg = 1 /\ bare_ops 2 = [LRemove 1; LFlush; LRemove 1; LFlush].
Proof. split; reflexivity. Qed.
