(** Model of sorted string tables on disk, byte by byte: [/repo/src/lsm_tree/sstable.rs].

    A table is a directory of four files.  Simplifications: an [Err] of the operating system or of bincode
    is [Panic]; buffered writes are writes ([flush] empties the buffers, sstable.rs:229-230); numbers are
    unbounded in memory and are cut to 64 bits when encoded; the square root of the entry count hint
    (sstable.rs:126, computed in [f64]) is exact; the Bloom filter is that of another crate and enters
    through the class [Bloom]; [binary_search_by_key] of the standard library is a search for an equal key. *)
From Verif Require Export BincodeModel LsmBase.

(** The interface of [probabilistic_collections::bloom::BloomFilter] used here. *)
Class Bloom (K : Type) := {
  bloom : Type;
  bl_new : nat -> bloom;
  bl_insert : bloom -> K -> bloom;
  bl_contains : bloom -> K -> bool;
  bl_codec : Codec bloom
}.
#[export] Existing Instance bl_codec.

(** [write_u64::<BigEndian>] *)
Definition enc_be64 (n : N) : list byte := rev (le 8 n).
Definition dec_be64 (bs : list byte) : N := unle (rev bs).
(** A length and as many bytes, e.g. sstable.rs:164-166 *)
Definition frame (bs : list byte) : list byte := enc_be64 (N.of_nat (length bs)) ++ bs.
(** [seek], [read_u64::<BigEndian>], [read_exact], e.g. sstable.rs:305-308 *)
Definition read_frame (f : list byte) (off : nat) : res (list byte) :=
  let* h := file_read f off 8 in
  file_read f (off + 8) (N.to_nat (dec_be64 h)).

(** The files of the directory of a table *)
Record files : Type := mkFiles { f_summary : list byte; f_filter : list byte; f_index : list byte; f_data : list byte }.

Section SsTable.
  Context {K V : Type} `{Cmp K} {CK : Codec K} {CV : Codec V} {B : Bloom K}.
  Notation sval := (sval V).
  Notation entry := (K * sval)%type.

  (** sstable.rs:163 and entry.rs:5-8 *)
  Definition enc_sval (v : sval) : list byte := enc_opt enc (sv_data v) ++ enc_u64 (sv_time v).
  Definition dec_sval : parser sval := do d <- dec_opt dec ;; do t <- dec_u64 ;; pret (mkSval d t).
  Definition enc_kv (e : entry) : list byte := enc (fst e) ++ enc_sval (snd e).
  Definition dec_kv : parser entry := do k <- dec ;; do v <- dec_sval ;; pret (k, v).
  (** [(T, u64)] and [Vec<(T, u64)>] *)
  Definition enc_ref (e : K * N) : list byte := enc (fst e) ++ enc_u64 (snd e).
  Definition dec_ref : parser (K * N) := do k <- dec ;; do o <- dec_u64 ;; pret (k, o).
  Definition enc_block (l : list (K * N)) : list byte := enc_slice enc_ref l.
  Definition dec_block : parser (list (K * N)) := dec_slice dec_ref.

  (** sstable.rs:65-73 *)
  Record summary : Type := mkSummary {
    su_count : nat; su_tombs : nat; su_size : N; su_range : K * K; su_times : N * N; su_index : list (K * N) }.
  Definition enc_summary (s : summary) : list byte :=
    enc_usize (su_count s) ++ enc_usize (su_tombs s) ++ enc_u64 (su_size s) ++
    enc (fst (su_range s)) ++ enc (snd (su_range s)) ++
    enc_u64 (fst (su_times s)) ++ enc_u64 (snd (su_times s)) ++ enc_block (su_index s).
  Definition dec_summary : parser summary :=
    do n <- dec_usize ;; do t <- dec_usize ;; do z <- dec_u64 ;; do lo <- dec ;; do hi <- dec ;;
    do a <- dec_u64 ;; do b <- dec_u64 ;; do ix <- dec_block ;; pret (mkSummary n t z (lo, hi) (a, b) ix).

  (** *** Building a table *)

  (** sstable.rs:75-94; the offsets and the contents of the two streams *)
  Record builder : Type := mkBuilder {
    sb_count : nat; sb_tombs : nat; sb_size : N; sb_range : option (K * K); sb_times : option (N * N);
    sb_index : list (K * N);
    sb_block_index : nat; sb_block_size : nat; sb_block : list (K * N); sb_filter : bloom;
    sb_index_off : N; sb_index_file : list byte; sb_data_off : N; sb_data_file : list byte }.

  (** sstable.rs:101-135, with the block size given *)
  Definition builder_of (block_size hint : nat) : builder :=
    mkBuilder 0 0 0 None None [] 0 block_size [] (bl_new hint) 0 [] 0 [].
  Definition builder_new (hint : nat) : builder := builder_of (Nat.sqrt_up hint) hint.

  (** sstable.rs:171-183 and 192-200: [size] and [index_off] are only updated in the first case *)
  Definition first_key (l : list (K * N)) : res K := match l with e :: _ => Ok (fst e) | [] => Panic end.
  Definition close_block (b : builder) : res builder :=
    let* k := first_key (sb_block b) in
    let block := enc_block (sb_block b) in
    let len := (8 + N.of_nat (length block))%N in
    Ok (mkBuilder (sb_count b) (sb_tombs b) (sb_size b + len) (sb_range b) (sb_times b)
          (sb_index b ++ [(k, sb_index_off b)])
          0 (sb_block_size b) [] (sb_filter b)
          (sb_index_off b + len) (sb_index_file b ++ frame block) (sb_data_off b) (sb_data_file b)).

  (** sstable.rs:137-186 *)
  Definition append (b : builder) (k : K) (v : sval) : res builder :=
    let e := enc_kv (k, v) in
    let len := (8 + N.of_nat (length e))%N in
    let b := mkBuilder
      (sb_count b + 1)
      (match sv_data v with None => sb_tombs b + 1 | Some _ => sb_tombs b end)
      (sb_size b + len)
      (Some (match sb_range b with Some (start, _) => (start, k) | None => (k, k) end))
      (Some (match sb_times b with
             | Some (lo, hi) => (N.min lo (sv_time v), N.max hi (sv_time v))
             | None => (sv_time v, sv_time v)
             end))
      (sb_index b)
      (sb_block_index b + 1) (sb_block_size b) (sb_block b ++ [(k, sb_data_off b)]) (bl_insert (sb_filter b) k)
      (sb_index_off b) (sb_index_file b) (sb_data_off b + len) (sb_data_file b ++ frame e) in
    if sb_block_index b =? sb_block_size b then close_block b else Ok b.
  Fixpoint append_all (b : builder) (es : list entry) : res builder :=
    match es with
    | [] => Ok b
    | (k, v) :: r => let* b := append b k v in append_all b r
    end.

  (** sstable.rs:188-232 *)
  Definition flush (b : builder) : res files :=
    let size := sb_size b in
    let* b := match sb_block b with [] => Ok b | _ => close_block b end in
    let* range := expect (sb_range b) in
    let* times := expect (sb_times b) in
    Ok (mkFiles (enc_summary (mkSummary (sb_count b) (sb_tombs b) size range times (sb_index b)))
                (enc (sb_filter b)) (sb_index_file b) (sb_data_file b)).

  (** Create a builder, append the entries, flush. *)
  Definition build_with (b : builder) (es : list entry) : res files := let* b := append_all b es in flush b.
  Definition build (hint : nat) (es : list entry) : res files := build_with (builder_new hint) es.

  (** *** Reading a table *)

  (** sstable.rs:235-240; the files stand for the path *)
  Record sstable : Type := mkTable { st_files : files; st_summary : summary; st_filter : bloom }.
  (** sstable.rs:243-260 *)
  Definition st_new (f : files) : res sstable :=
    let* s := parse dec_summary (f_summary f) in
    let* b := parse dec (f_filter f) in
    Ok (mkTable f s b).

  (** sstable.rs:262-283 *)
  Fixpoint floor_loop (fuel : nat) (ix : list (K * N)) (k : K) (lo hi : Z) : res Z :=
    match fuel with
    | 0 => Timeout
    | S fuel =>
        if (lo <=? hi)%Z then
          let mid := ((lo + hi) / 2)%Z in
          let* e := expect (nth_error ix (Z.to_nat mid)) in
          if is_gt (cmp (fst e) k) then floor_loop fuel ix k lo (mid - 1) else floor_loop fuel ix k (mid + 1) hi
        else Ok hi
    end.
  Definition floor_offset (ix : list (K * N)) (k : K) : res (option nat) :=
    let* hi := floor_loop (S (length ix)) ix k 0 (Z.of_nat (length ix) - 1) in
    Ok (if (hi =? -1)%Z then None else Some (Z.to_nat hi)).

  (** [binary_search_by_key] on a sorted slice *)
  Fixpoint find_key (l : list (K * N)) (k : K) : option N :=
    match l with
    | [] => None
    | (k', o) :: r => if is_eq (cmp k' k) then Some o else find_key r k
    end.

  (** sstable.rs:285-326 *)
  Definition st_get (t : sstable) (k : K) : res (option sval) :=
    let r := su_range (st_summary t) in
    if is_lt (cmp k (fst r)) || is_gt (cmp k (snd r)) then Ok None
    else if negb (bl_contains (st_filter t) k) then Ok None
    else
      let* i := floor_offset (su_index (st_summary t)) k in
      match i with
      | None => Ok None
      | Some i =>
          let* e := expect (nth_error (su_index (st_summary t)) i) in
          let* bs := read_frame (f_index (st_files t)) (N.to_nat (snd e)) in
          let* block := parse dec_block bs in
          match find_key block k with
          | None => Ok None
          | Some off =>
              let* bs := read_frame (f_data (st_files t)) (N.to_nat off) in
              let* e := parse dec_kv bs in
              Ok (Some (snd e))
          end
      end.

  (** sstable.rs:350-375: the iterator is a position in the data file; [None] is the end. *)
  Definition data_next (f : list byte) (pos : nat) : res (option (entry * nat)) :=
    if pos + 8 <=? length f then
      let* bs := read_frame f pos in
      let* e := parse dec_kv bs in
      Ok (Some (e, pos + 8 + length bs))
    else Ok None.
  Fixpoint data_loop (fuel : nat) (f : list byte) (pos : nat) : res (list entry) :=
    match fuel with
    | 0 => Timeout
    | S fuel =>
        let* r := data_next f pos in
        match r with
        | None => Ok []
        | Some (e, pos) => let* l := data_loop fuel f pos in Ok (e :: l)
        end
    end.
  (** sstable.rs:328-334, run to the end *)
  Definition data_iter (t : sstable) : res (list entry) :=
    let f := f_data (st_files t) in data_loop (S (length f)) f 0.
End SsTable.
