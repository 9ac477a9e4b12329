(** Model of the directory of an [LsmMap] byte by byte: metadata.dat, logical_time.dat, and the directories of the tables.
    [/repo/src/lsm_tree/compaction/leveled.rs:25-38, 145-241, 474-481], [size_tiered.rs:25-34, 199-295, 398-405],
    [/repo/src/lsm_tree/sstable.rs:378-399].

    Simplifications: an [Err] is [Panic]; a path is the bytes of its name, which are valid UTF-8; an [f64] is its 64 bits;
    opening the file metadata.dat or logical_time.dat succeeds. *)
From Verif Require Export SsModel LsmMapModel LeveledModel.

(** [PathBuf] is serialized as a string. *)
Definition path : Type := list byte.
Definition enc_path (p : path) : list byte := enc_usize (length p) ++ p.
Definition dec_path : parser path :=
  do n <- dec_u64 ;; fun bs => if (n <=? N.of_nat (length bs))%N then take (N.to_nat n) bs else None.

(** leveled.rs:31-35 *)
Definition enc_lconfig (c : lconfig) : list byte :=
  enc_u64 (lc_max_mem c) ++ enc_usize (lc_max_count c) ++ enc_u64 (lc_max_size c) ++ enc_u64 (lc_initial c) ++ enc_u64 (lc_growth c).
Definition dec_lconfig : parser lconfig :=
  do a <- dec_u64 ;; do b <- dec_usize ;; do c <- dec_u64 ;; do d <- dec_u64 ;; do e <- dec_u64 ;; pret (mkLc a b c d e).
(** size_tiered.rs:28-32 *)
Record bconfig : Type := mkBc { bc_max_mem : N; bc_max_count : nat; bc_min_size : N; bc_low : N; bc_high : N }.
Definition enc_bconfig (c : bconfig) : list byte :=
  enc_u64 (bc_max_mem c) ++ enc_usize (bc_max_count c) ++ enc_u64 (bc_min_size c) ++ enc_u64 (bc_low c) ++ enc_u64 (bc_high c).
Definition dec_bconfig : parser bconfig :=
  do a <- dec_u64 ;; do b <- dec_usize ;; do c <- dec_u64 ;; do d <- dec_u64 ;; do e <- dec_u64 ;; pret (mkBc a b c d e).

Section LsmMeta.
  Context {K V : Type} `{Cmp K} {CK : Codec K} {CV : Codec V} {B : Bloom K}.

  (** Metadata with tables of type [T]; leveled.rs:36-37.  [levels] is a vector of [BTreeMap]s. *)
  Record tabs (T : Type) : Type := mkTabs { ts_tabs : list T; ts_levels : list (list (K * T)) }.
  Arguments mkTabs {T}. Arguments ts_tabs {T}. Arguments ts_levels {T}.

  (** A table is serialized as its path: sstable.rs:378-385. *)
  Definition enc_level (l : list (K * path)) : list byte := enc_slice (fun x => enc (fst x) ++ enc_path (snd x)) l.
  Definition enc_leveled (c : lconfig) (m : tabs path) : list byte :=
    enc_lconfig c ++ enc_slice enc_path (ts_tabs m) ++ enc_slice enc_level (ts_levels m).
  Definition enc_tiered (c : bconfig) (l : list path) : list byte := enc_bconfig c ++ enc_slice enc_path l.

  (** The directories of the tables *)
  Variable dirs : path -> option files.
  (** sstable.rs:387-399: the table is opened as soon as its path was read. *)
  Definition dec_table : parser (path * sstable (K := K)) :=
    do p <- dec_path ;;
    match dirs p with
    | Some f => match SsModel.st_new f with Ok b => pret (p, b) | _ => pfail end
    | None => pfail
    end.
  (** A [BTreeMap] is deserialized by inserting its entries one after another. *)
  Definition dec_level : parser (list (K * (path * sstable (K := K)))) :=
    do l <- dec_slice (do k <- dec ;; do t <- dec_table ;; pret (k, t)) ;;
    pret (fold_left (fun m e => bt_insert (fst e) (snd e) m) l []).
  Definition dec_leveled : parser (lconfig * tabs (path * sstable (K := K))) :=
    do c <- dec_lconfig ;; do ts <- dec_slice dec_table ;; do ls <- dec_slice dec_level ;; pret (c, mkTabs ts ls).
  Definition dec_tiered : parser (bconfig * list (path * sstable (K := K))) :=
    do c <- dec_bconfig ;; do ts <- dec_slice dec_table ;; pret (c, ts).

  (** [open]: leveled.rs:213-241, size_tiered.rs:267-295 *)
  Definition open_leveled (meta time : list byte) : res (lconfig * tabs (path * sstable (K := K)) * N) :=
    let* t := file_read time 0 8 in
    let* m := parse dec_leveled meta in
    Ok (m, dec_be64 t).
  Definition open_tiered (meta time : list byte) : res (bconfig * list (path * sstable (K := K)) * N) :=
    let* t := file_read time 0 8 in
    let* m := parse dec_tiered meta in
    Ok (m, dec_be64 t).
End LsmMeta.
Arguments tabs : clear implicits. Arguments mkTabs {K T}. Arguments ts_tabs {K T}. Arguments ts_levels {K T}.

(** [seek] to the start and [write_all], e.g. leveled.rs:190-191 and 477-479: the file is not truncated. *)
Definition overwrite (old new : list byte) : list byte := file_write old 0 new.
(** The file when a crash lets only the first [n] bytes through *)
Definition torn (n : nat) (old new : list byte) : list byte := overwrite old (firstn n new).
