(** Properties that tie maps on disk to the bytes of their files. *)
From Verif Require Import LsmBytesSpec LsmMetaSpec SizeTieredModel LsmBytesInstances.
From Coq Require Import Strings.Byte.
#[local] Existing Instance encoded_sizes.

(** ** C54: the files of a table hold what the map works with.
    For every entry count hint, the files that the builder writes open to a table with the summary, the entries and the
    look-ups of the table that the builder stands for in the model of the map. *)
Theorem C54_table : forall (K V : Type) (C : Cmp K) (_ : CmpLaws K) (CK : Codec K) (CV : Codec V) (_ : CodecLaws K) (_ : CodecLaws V)
    (B : Bloom K) (_ : BloomLaws K) (id hint : nat) (es : list (K * sval V)) (t : table K V) (f : files),
  strictly_ascending es -> tb_build id hint es = Ok t -> build hint es = Ok f -> small_files f -> small_times es ->
  exists b, SsModel.st_new f = Ok b /\ shows t b.
Proof. exact @table_link. Qed.
Print Assumptions C54_table.

(** Whatever was called, every table that the map refers to, also in the metadata of a compaction that is under way and in
    metadata.dat, is one whose files a builder has written so. *)
Theorem C54_leveled : forall (K V : Type) (C : Cmp K) (_ : CmpLaws K) (CK : Codec K) (CV : Codec V) (_ : CodecLaws K) (_ : CodecLaws V)
    (B : Bloom K) (_ : BloomLaws K), (forall k k' : K, cmp k k' = Eq -> length (enc k) = length (enc k')) ->
  forall (cfg : lconfig) (ops : list (lsm_op K V)) (s : lsm K V (lmeta K V)) (outs : list (lsm_out K V)),
  limits_positive cfg (N.of_nat (length ops)) -> (N.of_nat (length ops) <= 2 ^ 64)%N -> well_used sp_new ops ->
  run (lsm_step (leveled cfg)) (lsm_new (leveled cfg)) ops = Ok (s, outs) ->
  forall m, refers s m -> Forall on_disk (lv_tables m).
Proof. exact @leveled_on_disk. Qed.
Print Assumptions C54_leveled.
Theorem C54_tiered : forall (K V : Type) (C : Cmp K) (_ : CmpLaws K) (CK : Codec K) (CV : Codec V) (_ : CodecLaws K) (_ : CodecLaws V)
    (B : Bloom K) (_ : BloomLaws K), (forall k k' : K, cmp k k' = Eq -> length (enc k) = length (enc k')) ->
  forall (cfg : sconfig) (ops : list (lsm_op K V)) (s : lsm K V (list (table K V))) (outs : list (lsm_out K V)),
  (N.of_nat (length ops) <= 2 ^ 64)%N -> well_used sp_new ops ->
  run (lsm_step (size_tiered cfg)) (lsm_new (size_tiered cfg)) ops = Ok (s, outs) ->
  forall m, refers s m -> Forall on_disk m.
Proof. exact @tiered_on_disk. Qed.
Print Assumptions C54_tiered.

(** Three tables, two of them in a level, after compactions *)
Example C54_example : exists s outs, run (lsm_step (leveled dir_cfg)) (lsm_new (leveled dir_cfg)) dir_ops = Ok (s, outs) /\
  limits_positive dir_cfg (N.of_nat (length dir_ops)) /\ well_used sp_new dir_ops /\ refers s (cur s) /\
  map t_id (lm_tabs (cur s)) = [9] /\ map (map (fun kt => (fst kt, t_id (snd kt), map fst (t_es (snd kt))))) (lm_levels (cur s)) =
    [[(x03, 6, [x02; x03]); (x05, 7, [x04; x05])]].
Proof.
  do 2 eexists. split; [vm_compute; reflexivity|]. split; [apply limits_small; [reflexivity|reflexivity|vm_compute; discriminate]|].
  split; [vm_compute; intuition|]. split; [left; reflexivity|]. split; vm_compute; reflexivity.
Qed.

(** The size that a table records counts its data and all but the last block of its index; it counts all exactly if the
    last block is full. *)
Theorem C54_size : forall (K V : Type) (C : Cmp K) (CK : Codec K) (CV : Codec V) (_ : CodecLaws K)
    (B : Bloom K) (_ : BloomLaws K) (hint : nat) (es : list (K * sval V)) (f : files) (b : sstable (K := K)),
  build hint es = Ok f -> small_files f -> small_times es -> SsModel.st_new f = Ok b ->
  let total := N.of_nat (length (f_data f) + length (f_index f)) in
  (N.of_nat (length (f_data f)) <= su_size (st_summary b) <= total)%N /\
  (su_size (st_summary b) = total <-> length es mod Nat.sqrt_up hint = 0).
Proof. exact @recorded_size. Qed.
Print Assumptions C54_size.
(** That it counts the bytes of both files is false. *)
Theorem C54_size_refuted : exists (es : list (byte * sval byte)) f b, build 4 es = Ok f /\ strictly_ascending es /\ small_files f /\ small_times es /\
  SsModel.st_new f = Ok b /\ su_size (st_summary b) <> N.of_nat (length (f_data f) + length (f_index f)).
Proof. exact size_bad. Qed.
Print Assumptions C54_size_refuted.

(** ** C55: a directory of bytes is opened as the map that wrote it.
    After any calls, let metadata.dat and logical_time.dat have been written over any previous contents, and let the
    directories of the tables hold what their builders wrote.  Then opening reads the configuration, the tables in their
    places, and the logical time. *)
Theorem C55_leveled : forall (K V : Type) (C : Cmp K) (_ : CmpLaws K) (CK : Codec K) (CV : Codec V) (_ : CodecLaws K) (_ : CodecLaws V)
    (B : Bloom K) (_ : BloomLaws K), (forall k k' : K, cmp k k' = Eq -> length (enc k) = length (enc k')) ->
  forall (name : nat -> path) (dirs : path -> option files) (cfg : lconfig) (ops : list (lsm_op K V)) (s : lsm K V (lmeta K V))
    (outs : list (lsm_out K V)) (m : lmeta K V) (t : N) (old old' : list byte),
  limits_positive cfg (N.of_nat (length ops)) -> (N.of_nat (length ops) < 2 ^ 64)%N -> well_used sp_new ops ->
  run (lsm_step (leveled cfg)) (lsm_new (leveled cfg)) ops = Ok (s, outs) ->
  d_meta (disk_of (log s)) = Some m -> d_time (disk_of (log s)) = Some t -> small_lconfig cfg -> small_meta name m ->
  Forall (stored name dirs) (lv_tables m) ->
  exists ms, open_leveled dirs (overwrite old (enc_leveled cfg (paths name m))) (overwrite old' (enc_be64 t)) = Ok (cfg, ms, t) /\
    Forall2 (opened name) (lm_tabs m) (ts_tabs ms) /\ Forall2 (Forall2 (opened_at name)) (lm_levels m) (ts_levels ms).
Proof. exact @leveled_directory. Qed.
Print Assumptions C55_leveled.
Theorem C55_tiered : forall (K V : Type) (C : Cmp K) (_ : CmpLaws K) (CK : Codec K) (CV : Codec V) (_ : CodecLaws K) (_ : CodecLaws V)
    (B : Bloom K) (_ : BloomLaws K), (forall k k' : K, cmp k k' = Eq -> length (enc k) = length (enc k')) ->
  forall (name : nat -> path) (dirs : path -> option files) (scfg : sconfig) (cfg : bconfig) (ops : list (lsm_op K V))
    (s : lsm K V (list (table K V))) (outs : list (lsm_out K V)) (m : list (table K V)) (t : N) (old old' : list byte),
  (N.of_nat (length ops) < 2 ^ 64)%N -> well_used sp_new ops ->
  run (lsm_step (size_tiered scfg)) (lsm_new (size_tiered scfg)) ops = Ok (s, outs) ->
  d_meta (disk_of (log s)) = Some m -> d_time (disk_of (log s)) = Some t -> small_bconfig cfg -> small_tables name m ->
  Forall (stored name dirs) m ->
  exists xs, open_tiered dirs (overwrite old (enc_tiered cfg (map (path_of name) m))) (overwrite old' (enc_be64 t)) = Ok (cfg, xs, t) /\
    Forall2 (opened name) m xs.
Proof. exact @tiered_directory. Qed.
Print Assumptions C55_tiered.

(** If any of the directories is not found under the path written in metadata.dat, the map cannot be opened. *)
Theorem C55_leveled_lost : forall (K V : Type) (C : Cmp K) (_ : CmpLaws K) (CK : Codec K) (CV : Codec V) (_ : CodecLaws K) (_ : CodecLaws V)
    (B : Bloom K) (_ : BloomLaws K), (forall k k' : K, cmp k k' = Eq -> length (enc k) = length (enc k')) ->
  forall (name : nat -> path) (dirs : path -> option files) (cfg : lconfig) (ops : list (lsm_op K V)) (s : lsm K V (lmeta K V))
    (outs : list (lsm_out K V)) (m : lmeta K V) (t : N) (old old' : list byte),
  limits_positive cfg (N.of_nat (length ops)) -> (N.of_nat (length ops) < 2 ^ 64)%N -> well_used sp_new ops ->
  run (lsm_step (leveled cfg)) (lsm_new (leveled cfg)) ops = Ok (s, outs) ->
  d_meta (disk_of (log s)) = Some m -> d_time (disk_of (log s)) = Some t -> small_lconfig cfg -> small_meta name m ->
  Forall (fun x => dirs (path_of name x) = None \/ stored name dirs x) (lv_tables m) ->
  Exists (fun x => dirs (path_of name x) = None) (lv_tables m) ->
  open_leveled dirs (overwrite old (enc_leveled cfg (paths name m))) (overwrite old' (enc_be64 t)) = Panic.
Proof. exact @leveled_lost. Qed.
Print Assumptions C55_leveled_lost.
Theorem C55_tiered_lost : forall (K V : Type) (C : Cmp K) (_ : CmpLaws K) (CK : Codec K) (CV : Codec V) (_ : CodecLaws K) (_ : CodecLaws V)
    (B : Bloom K) (_ : BloomLaws K), (forall k k' : K, cmp k k' = Eq -> length (enc k) = length (enc k')) ->
  forall (name : nat -> path) (dirs : path -> option files) (scfg : sconfig) (cfg : bconfig) (ops : list (lsm_op K V))
    (s : lsm K V (list (table K V))) (outs : list (lsm_out K V)) (m : list (table K V)) (t : N) (old old' : list byte),
  (N.of_nat (length ops) < 2 ^ 64)%N -> well_used sp_new ops ->
  run (lsm_step (size_tiered scfg)) (lsm_new (size_tiered scfg)) ops = Ok (s, outs) ->
  d_meta (disk_of (log s)) = Some m -> d_time (disk_of (log s)) = Some t -> small_bconfig cfg -> small_tables name m ->
  Forall (fun x => dirs (path_of name x) = None \/ stored name dirs x) m -> Exists (fun x => dirs (path_of name x) = None) m ->
  open_tiered (K := K) dirs (overwrite old (enc_tiered cfg (map (path_of name) m))) (overwrite old' (enc_be64 t)) = Panic.
Proof. exact @tiered_lost. Qed.
Print Assumptions C55_tiered_lost.

(** The directory of the map of C54_example; with a file that was longer before. *)
Example C55_example : exists s outs m t, run (lsm_step (leveled dir_cfg)) (lsm_new (leveled dir_cfg)) dir_ops = Ok (s, outs) /\
  d_meta (disk_of (log s)) = Some m /\ d_time (disk_of (log s)) = Some t /\ small_lconfig dir_cfg /\ small_meta dir_name m /\
  Forall (stored dir_name (dir_of 4 m)) (lv_tables m) /\ length (lv_tables m) = 3 /\
  (let* r := open_leveled (dir_of 4 m) (overwrite (repeat x07 200) (enc_leveled dir_cfg (paths dir_name m))) (overwrite [] (enc_be64 t)) in
   let* v := match ts_levels (snd (fst r)) with [l] => match map snd l with [_; (_, b)] => SsModel.st_get b x04 | _ => Panic end | _ => Panic end in
   Ok (fst (fst r), map fst (ts_tabs (snd (fst r))), snd r, v)) = Ok (dir_cfg, [[x6a]], 9%N, Some (mkSval (Some x40) 4%N)) /\
  open_leveled (K := byte) (fun p => if list_eq_dec Byte.byte_eq_dec p [x68] then None else dir_of 4 m p)
    (enc_leveled dir_cfg (paths dir_name m)) (enc_be64 t) = Panic.
Proof.
  do 4 eexists. split; [vm_compute; reflexivity|]. split; [reflexivity|]. split; [reflexivity|]. split; [repeat split; vm_compute; reflexivity|].
  split; [unfold small_meta, small_tables, small; cbn; repeat constructor|]. split; [all_stored 4|]. split; [reflexivity|]. split; vm_compute; reflexivity.
Qed.

(** A crash while logical_time.dat is written never sets the clock back, wherever it cuts the write. *)
Theorem C55_time_torn : forall (n : nat) (t t' : N), (t <= t' < 2 ^ 64)%N ->
  (t <= dec_be64 (firstn 8 (torn n (enc_be64 t) (enc_be64 t'))))%N.
Proof. exact time_torn. Qed.
Print Assumptions C55_time_torn.
Example C55_time_example : dec_be64 (firstn 8 (torn 7 (enc_be64 255) (enc_be64 256))) = 511%N.
Proof. reflexivity. Qed.

(** That a crash while metadata.dat is written leaves a directory that can be opened is false: here a second table is
    flushed, and all tables are in place, those of the old and those of the new metadata. *)
Theorem C55_torn_refuted : exists dirs s outs s' m m' n,
  limits_positive torn_cfg 4 /\ well_used sp_new (torn_ops ++ torn_more) /\
  run (lsm_step (leveled torn_cfg)) (lsm_new (leveled torn_cfg)) torn_ops = Ok (s, outs) /\
  run (lsm_step (leveled torn_cfg)) s torn_more = Ok (s', outs) /\
  log s' = log s ++ [ETime 2; ETable 1; EMeta m'] /\ d_meta (disk_of (log s)) = Some m /\
  Forall (stored dir_name dirs) (lv_tables m) /\ Forall (stored dir_name dirs) (lv_tables m') /\
  open_leveled dirs (torn n (enc_leveled torn_cfg (paths dir_name m)) (enc_leveled torn_cfg (paths dir_name m'))) (enc_be64 2) = Panic.
Proof. exact torn_bad. Qed.
Print Assumptions C55_torn_refuted.
