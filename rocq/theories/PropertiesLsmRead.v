(** Properties of the number of tables that a lookup opens, and of the number of tables that there are. *)
From Verif Require Import LsmReadInstances.

(** ** C72: lookups open few tables.
    A lookup of a key that is in memory opens none.  Any other opens, with [LeveledStrategy], the tables outside of the levels
    whose range and Bloom filter admit the key and, if the key is in none of them, such tables of the levels until one has the
    key; [sieve] gives the answers of the Bloom filters, which have no false negatives (C04). *)
Theorem C72_leveled_opens : forall (K V : Type) (C : Cmp K) (_ : CmpLaws K) (Z : Sizes K V),
  (forall k k' : K, cmp k k' = Eq -> ksize k = ksize k') ->
  forall (sieve : nat -> K -> bool) (cfg : lconfig) (ops : list (lsm_op K V)) (s : lsm K V (lmeta K V)) (outs : list (lsm_out K V)) (k : K),
  limits_positive cfg (N.of_nat (length ops)) -> well_used sp_new ops ->
  run (lsm_step (leveled cfg)) (lsm_new (leveled cfg)) ops = Ok (s, outs) ->
  exists (s' : lsm K V (lmeta K V)) v, lsm_step (leveled cfg) s (LGet k) = Ok (s', OVal v) /\
    (sound sieve k (lv_tables (cur s')) ->
     get_r (leveled cfg) (lv_get_r sieve) s k = Ok (s', v, if in_memory s k then [] else map t_id (leveled_opens sieve k (cur s')))).
Proof. exact @leveled_lookup. Qed.
Print Assumptions C72_leveled_opens.

(** These are at most as many as the tables outside of the levels and the levels, ... *)
Theorem C72_leveled_bound : forall (K V : Type) (C : Cmp K) (_ : CmpLaws K) (Z : Sizes K V),
  (forall k k' : K, cmp k k' = Eq -> ksize k = ksize k') ->
  forall (sieve : nat -> K -> bool) (cfg : lconfig) (ops : list (lsm_op K V)) (s : lsm K V (lmeta K V)) (outs : list (lsm_out K V)) (k : K)
    (s' : lsm K V (lmeta K V)) (v : option V) (ids : list nat),
  limits_positive cfg (N.of_nat (length ops)) -> well_used sp_new ops ->
  run (lsm_step (leveled cfg)) (lsm_new (leveled cfg)) ops = Ok (s, outs) ->
  sound sieve k (lv_tables (cur s')) -> get_r (leveled cfg) (lv_get_r sieve) s k = Ok (s', v, ids) ->
  lsm_step (leveled cfg) s (LGet k) = Ok (s', OVal v) ->
  length ids <= length (lm_tabs (cur s')) + length (lm_levels (cur s')).
Proof. exact @leveled_reads. Qed.
Print Assumptions C72_leveled_bound.

(** ... hence at most log2 (n + 1) + 2 more than those outside, after n calls. *)
Theorem C72_leveled_few : forall (K V : Type) (C : Cmp K) (_ : CmpLaws K) (Z : Sizes K V),
  (forall k k' : K, cmp k k' = Eq -> ksize k = ksize k') ->
  forall (sieve : nat -> K -> bool) (cfg : lconfig) (ops : list (lsm_op K V)) (s : lsm K V (lmeta K V)) (outs : list (lsm_out K V)) (k : K)
    (s' : lsm K V (lmeta K V)) (v : option V) (ids : list nat),
  (1 <= lc_initial cfg)%N -> (2 <= lc_growth cfg)%N ->
  (lc_initial cfg * lc_growth cfg ^ (N.log2 (N.of_nat (S (length ops))) + 1) < 2 ^ 64)%N -> well_used sp_new ops ->
  run (lsm_step (leveled cfg)) (lsm_new (leveled cfg)) ops = Ok (s, outs) ->
  sound sieve k (lv_tables (cur s')) -> get_r (leveled cfg) (lv_get_r sieve) s k = Ok (s', v, ids) ->
  lsm_step (leveled cfg) s (LGet k) = Ok (s', OVal v) ->
  (N.of_nat (length ids) <= N.of_nat (length (lm_tabs (cur s'))) + N.log2 (N.of_nat (S (length ops))) + 2)%N.
Proof. exact @leveled_reads_few. Qed.
Print Assumptions C72_leveled_few.

(** Six tables, of which lookups of keys 5, 3, 4, 9 open none, one, two, and two *)
Example C72_leveled_example : exists s outs, run (lsm_step (leveled wide_cfg)) (lsm_new (leveled wide_cfg)) wide_ops = Ok (s, outs) /\
  well_used sp_new wide_ops /\ (1 <= lc_initial wide_cfg)%N /\ (2 <= lc_growth wide_cfg)%N /\
  (lc_initial wide_cfg * lc_growth wide_cfg ^ (N.log2 (N.of_nat (S (length wide_ops))) + 1) < 2 ^ 64)%N /\
  length (lm_tabs (cur s)) = 1 /\ map (@length _) (lm_levels (cur s)) = [1; 3; 2] /\
  map (fun k => ids_of (get_r (leveled wide_cfg) (lv_get_r (fun _ _ => true)) s k)) [5; 3; 4; 9] = [Some []; Some [24]; Some [24; 19]; Some [24; 6]] /\
  map (fun k => val_of (get_r (leveled wide_cfg) (lv_get_r (fun _ _ => true)) s k)) [5; 3; 4; 9] = [Some (Some 51); Some (Some 40); Some None; Some (Some 90)].
Proof.
  do 2 eexists. split; [vm_compute; reflexivity|]. split; [vm_compute; intuition|]. split; [discriminate|]. split; [discriminate|]. split; [reflexivity|].
  split; [vm_compute; reflexivity|]. split; [vm_compute; reflexivity|]. split; vm_compute; reflexivity.
Qed.

(** The tables outside of the levels are few after a flush with an insertion (C56), but not in general: *)
Theorem C72_leveled_refuted : forall n, exists s outs v ids, well_used sp_new (bare_ops n) /\
  run (lsm_step (leveled bare_cfg)) (lsm_new (leveled bare_cfg)) (bare_ops n) = Ok (s, outs) /\
  lsm_step (leveled bare_cfg) s (LGet 1) = Ok (s, OVal v) /\ get_r (leveled bare_cfg) (lv_get_r (fun _ _ => true)) s 1 = Ok (s, v, ids) /\ length ids = n.
Proof. exact bare_reads. Qed.
Print Assumptions C72_leveled_refuted.
Example C72_bare_example : lc_max_count bare_cfg = 1 /\ bare_ops 2 = [LRemove 1; LFlush; LRemove 1; LFlush].
Proof. split; reflexivity. Qed.

(** With [SizeTieredStrategy] a lookup opens every table whose range and Bloom filter admit the key. *)
Theorem C72_tiered_opens : forall (K V : Type) (C : Cmp K) (_ : CmpLaws K) (Z : Sizes K V),
  (forall k k' : K, cmp k k' = Eq -> ksize k = ksize k') ->
  forall (sieve : nat -> K -> bool) (cfg : sconfig) (ops : list (lsm_op K V)) (s : lsm K V (list (table K V))) (outs : list (lsm_out K V)) (k : K),
  well_used sp_new ops -> run (lsm_step (size_tiered cfg)) (lsm_new (size_tiered cfg)) ops = Ok (s, outs) ->
  exists (s' : lsm K V (list (table K V))) v, lsm_step (size_tiered cfg) s (LGet k) = Ok (s', OVal v) /\
    (sound sieve k (cur s') ->
     get_r (size_tiered cfg) (sz_get_r sieve) s k = Ok (s', v, if in_memory s k then [] else map t_id (candidates sieve k (cur s')))).
Proof. exact @tiered_lookup. Qed.
Print Assumptions C72_tiered_opens.

(** Tables that call for no compaction are at most G times the configured number, where G grows with the logarithm of the size of
    the largest table in relation to the configured minimum. *)
Theorem C72_tiered_settled : forall (K V : Type) (cfg : sconfig) (p q : N), grows p q (sc_in_bucket cfg) ->
  forall (ts : list (table K V)) (top : N), Forall (fun t => (t_size t <= top)%N) ts -> compaction_range cfg ts = None ->
  exists G, length ts <= sc_max_count cfg * G /\ (2 <= G -> ((sc_min_size cfg + 1) * p ^ N.of_nat (G - 2) <= top * q ^ N.of_nat (G - 2))%N).
Proof. exact @tiered_count. Qed.
Print Assumptions C72_tiered_settled.
(** With exact arithmetic the ratio is the smaller one of 1 / [bucket_low] and [bucket_high]. *)
Theorem C72_tiered_ratio : forall ln ld hn hd p q : N, (p * ln <= q * ld)%N -> (p * hd <= q * hn)%N -> grows p q (rational ln ld hn hd).
Proof. exact rational_grows. Qed.
Print Assumptions C72_tiered_ratio.

(** A flush that adds insertions makes the tables fewer or leaves nothing to compact ... *)
Theorem C72_tiered_flush : forall (K V : Type) (C : Cmp K) (_ : CmpLaws K) (Z : Sizes K V) (cfg : sconfig),
  (forall k k' : K, cmp k k' = Eq -> ksize k = ksize k') ->
  forall (ops : list (lsm_op K V)) (s : lsm K V (list (table K V))) (outs : list (lsm_out K V)) (s' : lsm K V (list (table K V))) (out : lsm_out K V),
  well_used sp_new ops -> run (lsm_step (size_tiered cfg)) (lsm_new (size_tiered cfg)) ops = Ok (s, outs) ->
  calm s -> nxt s = None -> ends_in_insertion s -> lsm_step (size_tiered cfg) s LFlush = Ok (s', out) ->
  calm s' /\ nxt s' = None /\ (length (cur s') + sc_max_count cfg <= S (length (cur s)) \/ cur s' <> [] /\ compaction_range cfg (cur s') = None).
Proof. exact @tiered_flush. Qed.
Print Assumptions C72_tiered_flush.

(** Four tables that call for no compaction, in three classes of sizes (70, 212, twice 294), for which key 1 is looked up in two;
    after ten insertions and a flush there are three *)
Example C72_tiered_example : exists s outs s1 o s',
  run (lsm_step (size_tiered tier_cfg)) (lsm_new (size_tiered tier_cfg)) (firstn 35 tier_bad) = Ok (s, outs) /\ well_used sp_new class_ops /\
  map t_size (cur s) = [294; 70; 212; 294]%N /\ compaction_range tier_cfg (cur s) = None /\
  ids_of (get_r (size_tiered tier_cfg) (sz_get_r (fun _ _ => true)) s 1) = Some [0; 1] /\ grows 3 2 (sc_in_bucket tier_cfg) /\
  run (lsm_step (size_tiered tier_cfg)) (lsm_new (size_tiered tier_cfg)) class_ops = Ok (s1, o) /\ calm s1 /\ nxt s1 = None /\ ends_in_insertion s1 /\
  lsm_step (size_tiered tier_cfg) s1 LFlush = Ok (s', OUnit) /\ (length (cur s1), length (cur s')) = (4, 3).
Proof.
  do 5 eexists. split; [vm_compute; reflexivity|]. split; [vm_compute; intuition|]. split; [vm_compute; reflexivity|]. split; [vm_compute; reflexivity|].
  split; [vm_compute; reflexivity|]. split; [now apply rational_grows|]. split; [vm_compute; reflexivity|]. split; [split; [reflexivity|intros x []]|]. split; [reflexivity|].
  split; [eexists; split; [do 9 right; left; reflexivity|]; split; [discriminate|]; intros e J; cbn in J; intuition; subst; vm_compute; discriminate|]. split; [vm_compute; reflexivity|]. vm_compute; reflexivity.
Qed.

(** ... and one that adds removals need not: after n rounds of a removal and a flush there are n tables and a lookup opens them all. *)
Theorem C72_tiered_refuted : forall n, exists s outs v ids, well_used sp_new (bare_ops n) /\
  run (lsm_step (size_tiered small_tiers)) (lsm_new (size_tiered small_tiers)) (bare_ops n) = Ok (s, outs) /\ calm s /\ nxt s = None /\ length (cur s) = n /\
  lsm_step (size_tiered small_tiers) s (LGet 1) = Ok (s, OVal v) /\ get_r (size_tiered small_tiers) (sz_get_r (fun _ _ => true)) s 1 = Ok (s, v, ids) /\ length ids = n.
Proof. exact arid_reads. Qed.
Print Assumptions C72_tiered_refuted.
Example C72_arid_example : sc_max_count small_tiers = 1 /\ bare_ops 2 = [LRemove 1; LFlush; LRemove 1; LFlush].
Proof. split; reflexivity. Qed.
