(** C58, C59: [LsmMap] with the compaction thread getting on between any two actions inside a call.  The theorems are about
    LsmThreadModel.v, where a call is a program and [take_turns] lets caller and thread act in a given order. *)
From Verif Require Import LsmThreadInstances.

(** Whatever turns are taken, nothing panics, and what the calls return agrees with the specification. *)
Theorem C58_interleaved : forall (K V : Type) (C : Cmp K) (_ : CmpLaws K) (Z : Sizes K V) (cfg : lconfig),
  (forall k k' : K, cmp k k' = Eq -> ksize k = ksize k') ->
  forall (ops : list (lsm_op K V)) (ts : list turn), limits_positive cfg (N.of_nat (length ops)) -> well_used sp_new ops ->
  exists w outs, take_turns (leveled cfg) (start (leveled cfg) ops) ts = Ok (w, outs) /\ agree sp_new (firstn (length outs) ops) outs.
Proof. exact @leveled_interleaved. Qed.
Print Assumptions C58_interleaved.
(** The result of the thread is stored inside a call of [get], and installed by it. *)
Example C58_example :
  rmap (fun p => (length (snd p), call_under_way _ (fst p), length (w_todo _ (fst p)), stored _ (fst p)))
    (take_turns (leveled ex_cfg) (start (leveled ex_cfg) thread_ops) in_get) = Ok (5, true, 3, true) /\
  rmap snd (take_turns (leveled ex_cfg) (start (leveled ex_cfg) thread_ops) thread_turns) = Ok ([OUnit; OUnit; OUnit; OUnit; OUnit; OVal None; OVal (Some 40); OUnit; OLen 4]) /\
  well_used sp_new thread_ops /\ limits_positive ex_cfg (N.of_nat (length thread_ops)).
Proof. split; [vm_compute; reflexivity|]. split; [vm_compute; reflexivity|]. split; [vm_compute; intuition|]. apply limits_small; vm_compute; intuition discriminate. Qed.

(** Every call returns: in 14 rounds, in each of which the thread stores its result, ends, and the caller gets on (whatever
    other turns are taken in between). *)
Theorem C58_returns : forall (K V : Type) (C : Cmp K) (_ : CmpLaws K) (Z : Sizes K V) (cfg : lconfig),
  (forall k k' : K, cmp k k' = Eq -> ksize k = ksize k') ->
  forall (ops : list (lsm_op K V)) (ts : list turn) w outs n, limits_positive cfg (N.of_nat (length ops)) -> well_used sp_new ops ->
  take_turns (leveled cfg) (start (leveled cfg) ops) ts = Ok (w, outs) -> 14 * n <= cycles 0 ts -> n <= length ops -> n <= length outs.
Proof. exact @leveled_returns. Qed.
Print Assumptions C58_returns.
Example C58_returns_example : cycles 0 (concat (repeat [Finish; Publish; Main; Finish; Main] 42)) = 14 * 3 /\
  rmap (fun p => length (snd p)) (take_turns (leveled ex_cfg) (start (leveled ex_cfg) thread_ops) (concat (repeat [Finish; Publish; Main; Finish; Main] 42))) = Ok 9.
Proof. split; vm_compute; reflexivity. Qed.

(** While the thread is at work, the tables of the metadata that it works on are not removed. *)
Theorem C58_tables : forall (K V : Type) (C : Cmp K) (_ : CmpLaws K) (Z : Sizes K V) (cfg : lconfig),
  (forall k k' : K, cmp k k' = Eq -> ksize k = ksize k') ->
  forall (ops : list (lsm_op K V)) (ts : list turn) w outs (m : st_meta (leveled cfg)) t, limits_positive cfg (N.of_nat (length ops)) -> well_used sp_new ops ->
  take_turns (leveled cfg) (start (leveled cfg) ops) ts = Ok (w, outs) -> thr (w_map _ w) = TRun m -> In t (st_tables (leveled cfg) m) ->
  In (t_id t) (d_dirs (disk_of (log (w_map _ w)))).
Proof. exact @leveled_tables. Qed.
Print Assumptions C58_tables.
Example C58_tables_example : exists m : st_meta (leveled ex_cfg),
  rmap (fun p => thr (w_map _ (fst p))) (take_turns (leveled ex_cfg) (start (leveled ex_cfg) thread_ops) (repeat Main 25)) = Ok (TRun m) /\
  length (st_tables (leveled ex_cfg) m) = 2.
Proof. eexists. split; [vm_compute; reflexivity|]. reflexivity. Qed.

(** ** C59: a crash at any point of any turn, provided that the directory is intact there (it need not be: C41), and further crashes *)
Theorem C59_crash : forall (K V : Type) (C : Cmp K) (_ : CmpLaws K) (Z : Sizes K V) (cfg : lconfig),
  (forall k k' : K, cmp k k' = Eq -> ksize k = ksize k') ->
  forall c b : nat, limits_positive cfg (N.of_nat b) -> endures (leveled cfg) any_call c b (@sp_new K V) (lsm_new (leveled cfg)).
Proof. exact @leveled_endures. Qed.
Print Assumptions C59_crash.
(** The action that installs the result: of its four crash points the first and the last are intact. *)
Example C59_example : exists l l',
  (let* (w, _) := take_turns (leveled ex_cfg) (start (leveled ex_cfg) thread_ops) in_get in
   let* (w', _) := take_turn (leveled ex_cfg) w Main in Ok (log (w_map _ w), log (w_map _ w'))) = Ok (l, l') /\
  length l' = length l + 3 /\ intact (firstn (length l) l') /\ intact l'.
Proof.
  do 2 eexists. split; [vm_compute; reflexivity|]. split; [reflexivity|].
  split; (apply intactb; [vm_compute; reflexivity|vm_compute; discriminate]).
Qed.

(** *** The size-tiered strategy *)

(** Without removals *)
Theorem C58_tiered_interleaved : forall (K V : Type) (C : Cmp K) (_ : CmpLaws K) (Z : Sizes K V) (cfg : sconfig),
  (forall k k' : K, cmp k k' = Eq -> ksize k = ksize k') ->
  forall (ops : list (lsm_op K V)) (ts : list turn), Forall no_removal ops -> well_used sp_new ops ->
  exists w outs, take_turns (size_tiered cfg) (start (size_tiered cfg) ops) ts = Ok (w, outs) /\ agree sp_new (firstn (length outs) ops) outs.
Proof. exact @tiered_interleaved. Qed.
Print Assumptions C58_tiered_interleaved.
Example C58_tiered_example :
  rmap (fun p => (length (snd p), call_under_way _ (fst p), length (w_todo _ (fst p)), stored _ (fst p)))
    (take_turns (size_tiered small_cfg) (start (size_tiered small_cfg) tier_thread_ops) in_tier_get) = Ok (8, true, 1, true) /\
  rmap snd (take_turns (size_tiered small_cfg) (start (size_tiered small_cfg) tier_thread_ops) tier_thread_turns) = Ok (repeat OUnit 7 ++ [OVal (Some 11); OVal None; OLen 4]) /\
  Forall no_removal tier_thread_ops /\ well_used sp_new tier_thread_ops.
Proof. split; [vm_compute; reflexivity|]. split; [vm_compute; reflexivity|]. split; [repeat constructor|]. vm_compute. intuition. Qed.

(** With removals: the same, except that removed pairs may come back. *)
Theorem C58_tiered_interleaved_loose : forall (K V : Type) (C : Cmp K) (_ : CmpLaws K) (Z : Sizes K V) (cfg : sconfig),
  (forall k k' : K, cmp k k' = Eq -> ksize k = ksize k') ->
  forall (ops : list (lsm_op K V)) (ts : list turn), well_used sp_new ops ->
  exists w outs a, take_turns (size_tiered cfg) (start (size_tiered cfg) ops) ts = Ok (w, outs) /\ loosely (revived (inserted ops)) sp_new (firstn (length outs) ops) outs a.
Proof. exact @tiered_interleaved_loose. Qed.
Print Assumptions C58_tiered_interleaved_loose.
Example C58_tiered_loose_example : rmap snd (take_turns (size_tiered small_cfg) (start (size_tiered small_cfg) tier_thread_ops2) tier_thread_turns) =
    Ok (repeat OUnit 7 ++ [OVal None; OVal None; OLen 3]) /\ well_used sp_new tier_thread_ops2.
Proof. split; [vm_compute; reflexivity|]. vm_compute. intuition. Qed.

Theorem C58_tiered_returns : forall (K V : Type) (C : Cmp K) (_ : CmpLaws K) (Z : Sizes K V) (cfg : sconfig),
  (forall k k' : K, cmp k k' = Eq -> ksize k = ksize k') ->
  forall (ops : list (lsm_op K V)) (ts : list turn) w outs n, well_used sp_new ops ->
  take_turns (size_tiered cfg) (start (size_tiered cfg) ops) ts = Ok (w, outs) -> 14 * n <= cycles 0 ts -> n <= length ops -> n <= length outs.
Proof. exact @tiered_returns. Qed.
Print Assumptions C58_tiered_returns.
Example C58_tiered_returns_example : cycles 0 (concat (repeat [Finish; Publish; Main; Finish; Main] 42)) = 14 * 3 /\
  rmap (fun p => length (snd p)) (take_turns (size_tiered small_cfg) (start (size_tiered small_cfg) tier_thread_ops2) (concat (repeat [Finish; Publish; Main; Finish; Main] 42))) = Ok 10.
Proof. split; vm_compute; reflexivity. Qed.

Theorem C58_tiered_tables : forall (K V : Type) (C : Cmp K) (_ : CmpLaws K) (Z : Sizes K V) (cfg : sconfig),
  (forall k k' : K, cmp k k' = Eq -> ksize k = ksize k') ->
  forall (ops : list (lsm_op K V)) (ts : list turn) w outs (m : st_meta (size_tiered cfg)) t, well_used sp_new ops ->
  take_turns (size_tiered cfg) (start (size_tiered cfg) ops) ts = Ok (w, outs) -> thr (w_map _ w) = TRun m -> In t (st_tables (size_tiered cfg) m) ->
  In (t_id t) (d_dirs (disk_of (log (w_map _ w)))).
Proof. exact @tiered_tables. Qed.
Print Assumptions C58_tiered_tables.
Example C58_tiered_tables_example : exists m : st_meta (size_tiered small_cfg),
  rmap (fun p => thr (w_map _ (fst p))) (take_turns (size_tiered small_cfg) (start (size_tiered small_cfg) tier_thread_ops2) (repeat Main 42)) = Ok (TRun m) /\
  length (st_tables (size_tiered small_cfg) m) = 3.
Proof. eexists. split; [vm_compute; reflexivity|]. reflexivity. Qed.

Theorem C59_tiered_crash : forall (K V : Type) (C : Cmp K) (_ : CmpLaws K) (Z : Sizes K V) (cfg : sconfig),
  (forall k k' : K, cmp k k' = Eq -> ksize k = ksize k') ->
  forall c b : nat, endures (size_tiered cfg) no_removal c b (@sp_new K V) (lsm_new (size_tiered cfg)).
Proof. exact @tiered_endures. Qed.
Print Assumptions C59_tiered_crash.
Example C59_tiered_example : exists l l',
  (let* (w, _) := take_turns (size_tiered small_cfg) (start (size_tiered small_cfg) tier_thread_ops) in_tier_get in
   let* (w', _) := take_turn (size_tiered small_cfg) w Main in Ok (log (w_map _ w), log (w_map _ w'))) = Ok (l, l') /\
  length l' = length l + 4 /\ intact (firstn (length l) l') /\ intact l'.
Proof.
  do 2 eexists. split; [vm_compute; reflexivity|]. split; [reflexivity|].
  split; (apply intactb; [vm_compute; reflexivity|vm_compute; discriminate]).
Qed.

Theorem C59_tiered_crash_loose : forall (K V : Type) (C : Cmp K) (_ : CmpLaws K) (Z : Sizes K V) (cfg : sconfig),
  (forall k k' : K, cmp k k' = Eq -> ksize k = ksize k') ->
  forall (P : K -> V -> Prop) (c b : nat), (forall k k' v, cmp k k' = Eq -> P k v -> P k' v) ->
  endures_loosely (size_tiered cfg) (inserts_only P) (revived P) c b (@sp_new K V) (lsm_new (size_tiered cfg)).
Proof. exact @tiered_endures_loosely. Qed.
Print Assumptions C59_tiered_crash_loose.
Example C59_tiered_loose_example : Forall (inserts_only (fun k v => v = 10 * k)) tier_thread_ops2 /\ exists l l',
  (let* (w, _) := take_turns (size_tiered small_cfg) (start (size_tiered small_cfg) tier_thread_ops2) in_tier_get in
   let* (w', _) := take_turn (size_tiered small_cfg) w Main in Ok (log (w_map _ w), log (w_map _ w'))) = Ok (l, l') /\
  length l' = length l + 4 /\ intact (firstn (length l) l') /\ intact l'.
Proof.
  split; [repeat constructor|]. do 2 eexists. split; [vm_compute; reflexivity|]. split; [reflexivity|].
  split; (apply intactb; [vm_compute; reflexivity|vm_compute; discriminate]).
Qed.
