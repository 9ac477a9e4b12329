(** C77: iterators of the log-structured merge tree when reads fail and the caller goes on.  The theorems are about
    LsmScanModel.v. *)
From Verif Require Import LsmScanInstances.

(** Up to the first [Err] an iterator yields what it would yield if no read failed; without an [Err] it yields all of it.
    After an [Err] keys still ascend, every pair was written at some time, and there is at most one [Err] for each run. *)
Theorem C77_items : forall (K V : Type) (C : Cmp K) (_ : CmpLaws K) (has : nat -> bool) (runs : list (list (table K V))) (fs : list bool),
  Forall (Forall (fun t => has (t_id t) = true)) runs -> Forall (fun r => strictly_ascending (run_entries r)) runs ->
  exists it out items, mi_new has (map (map Closed) runs) = Ok it /\ merge_of (flat_map run_entries runs) out /\ sc_items has fs it = Ok items /\
    cut (live out) items /\ strictly_ascending (oks items) /\ (forall k v, In (k, v) (oks items) -> exists t, In (k, mkSval (Some v) t) (flat_map run_entries runs)) /\
    errors items <= length runs /\ (Forall (eq false) fs -> items = map Some (live out)).
Proof. exact @scan_tables. Qed.
Print Assumptions C77_items.
Example C77_items_example : exists a b : table nat nat,
  tb_build 0 3 [(1, put 10 5); (2, del 6); (4, put 11 7)] = Ok a /\ tb_build 1 3 [(2, put 12 3); (4, put 13 4); (5, put 14 1)] = Ok b /\
  Forall (fun r => strictly_ascending (run_entries r)) [[a]; [b]] /\
  map (fun fs => let* it := mi_new (fun _ => true) [[Closed a]; [Closed b]] in sc_items (fun _ => true) fs it) [[]; [false; true]; [true; true]] =
    [Ok [Some (1, 10); Some (4, 11); Some (5, 14)]; Ok [Some (1, 10); None; Some (2, 12); Some (4, 13); Some (5, 14)]; Ok [None; None]].
Proof.
  do 2 eexists. do 2 (split; [vm_compute; reflexivity|]). split; [unfold strictly_ascending, run_entries; repeat constructor|]. vm_compute. reflexivity.
Qed.

(** An iterator of a map: the same, and the map itself is left as by an iterator without failing reads. *)
Theorem C77_leveled : forall (K V : Type) (C : Cmp K) (_ : CmpLaws K) (Z : Sizes K V),
  (forall k k' : K, cmp k k' = Eq -> ksize k = ksize k') ->
  forall (cfg : lconfig) (ops : list (lsm_op K V)), limits_positive cfg (N.of_nat (length ops)) -> well_used sp_new ops ->
  exists s outs, run (lsm_step (leveled cfg)) (lsm_new (leveled cfg)) ops = Ok (s, outs) /\ forall fs, exists s' l items,
    lsm_step (leveled cfg) s LIter = Ok (s', OList l) /\ scan (leveled cfg) fs s = Ok (s', items) /\ cut l items /\ (Forall (eq false) fs -> items = map Some l).
Proof. exact @leveled_scan. Qed.
Print Assumptions C77_leveled.
Example C77_leveled_example : limits_positive scan_cfg (N.of_nat (length scan_ops)) /\ well_used sp_new scan_ops /\
  map scan_items [[]; [true]; [false; false; false; true]] =
    [Ok [Some (2, 20); Some (3, 30); Some (5, 50)]; Ok [None; Some (1, 10); Some (2, 20); Some (5, 50)]; Ok [Some (2, 20); None; Some (5, 50)]].
Proof. split; [apply limits_small; vm_compute; intuition discriminate|]. split; [vm_compute; intuition|vm_compute; reflexivity]. Qed.

Theorem C77_tiered : forall (K V : Type) (C : Cmp K) (_ : CmpLaws K) (Z : Sizes K V),
  (forall k k' : K, cmp k k' = Eq -> ksize k = ksize k') ->
  forall (cfg : sconfig) (ops : list (lsm_op K V)), well_used sp_new ops ->
  exists s outs, run (lsm_step (size_tiered cfg)) (lsm_new (size_tiered cfg)) ops = Ok (s, outs) /\ forall fs, exists s' l items,
    lsm_step (size_tiered cfg) s LIter = Ok (s', OList l) /\ scan (size_tiered cfg) fs s = Ok (s', items) /\ cut l items /\ (Forall (eq false) fs -> items = map Some l).
Proof. exact @tiered_scan. Qed.
Print Assumptions C77_tiered.
Example C77_tiered_example : well_used sp_new tier_crash2 /\
  (let* (s, _) := run (lsm_step (size_tiered tier_cfg)) (lsm_new (size_tiered tier_cfg)) tier_crash2 in rmap snd (scan (size_tiered tier_cfg) [false; true] s)) = Ok [Some (3, 30); None].
Proof. split; [vm_compute; intuition|vm_compute; reflexivity]. Qed.

(** [min] reports the error or is right. *)
Theorem C77_min : forall (K V : Type) (l : list (K * V)) items, cut l items -> items_min items = None \/ items_min items = Some (option_map fst (hd_error l)).
Proof. exact @cut_min. Qed.
Print Assumptions C77_min.
Example C77_min_example : cut [(2, 20); (3, 30)] [Some (2, 20); None] /\ items_min [Some (2, 20); None] = Some (Some 2).
Proof. split; [|reflexivity]. right. exists [(2, 20)], [(3, 30)], []. split; reflexivity. Qed.

(** *** What one would expect and does not hold *)

(** The pairs that an iterator yields are in the map: after an [Err] a removed pair is yielded. *)
Theorem C77_pairs_refuted : sp_map (sp_after scan_ops) = [(2, 20); (3, 30); (5, 50)] /\ exists items, scan_items [true] = Ok items /\ oks items = [(1, 10); (2, 20); (5, 50)].
Proof. exact skip_bad. Qed.
Print Assumptions C77_pairs_refuted.
(** [len] reports the error or is right: it counts the [Err] and what follows, and returns [Ok]. *)
Theorem C77_len_refuted : sp_map (sp_after scan_ops) = [(2, 20); (3, 30); (5, 50)] /\
  (exists items, scan_items [true] = Ok items /\ items_len items = Some 4) /\ (exists items, scan_items [false; false; true] = Ok items /\ items_len items = Some 2).
Proof. exact len_bad. Qed.
Print Assumptions C77_len_refuted.
(** [max] reports the error or is right. *)
Theorem C77_max_refuted : sp_map (sp_after scan_ops) = [(2, 20); (3, 30); (5, 50)] /\ exists items, scan_items [false; false; true] = Ok items /\ items_max items = Some (Some 3).
Proof. exact max_bad. Qed.
Print Assumptions C77_max_refuted.
