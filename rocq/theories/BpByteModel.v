(** Model of the file of the on-disk B+ tree map, byte by byte: [/repo/src/bp_tree/pager.rs] and the
    [serde] derives of [/repo/src/bp_tree/node.rs], [/repo/src/entry.rs].

    The encodings are those of BincodeModel.v.  The map programs are those of BpMapModel.v.
    Simplifications: an [Err] of the operating system or of bincode is [Panic]; numbers are unbounded
    in memory and are cut to 64 bits when encoded. *)
From Verif Require Export BpMapModel BincodeModel.
Open Scope list_scope.

Section Encodings.
  Context {K V : Type} {CK : Codec K} {CV : Codec V}.
  Notation node := (node K V).

  (** entry.rs:5-8 *)
  Definition enc_entry (e : K * V) : list byte := enc (fst e) ++ enc (snd e).
  Definition dec_entry : parser (K * V) := do k <- dec ;; do v <- dec ;; pret (k, v).

  (** node.rs:12-18, 178-183, 359-364 *)
  Definition enc_node (n : node) : list byte :=
    match n with
    | Internal i => enc_u32 0 ++ enc_usize (in_len i) ++ enc_slice (enc_opt enc) (in_keys i) ++ enc_slice enc_usize (in_ptrs i)
    | Leaf l => enc_u32 1 ++ enc_usize (lf_len l) ++ enc_slice (enc_opt enc_entry) (lf_entries l) ++ enc_opt enc_usize (lf_next l)
    | Free nx => enc_u32 2 ++ enc_opt enc_usize nx
    end.
  Definition dec_node : parser node :=
    do tag <- dec_u32 ;;
    match tag with
    | 0%N => do n <- dec_usize ;; do ks <- dec_slice (dec_opt dec) ;; do ps <- dec_slice dec_usize ;;
             pret (Internal (mkInternal n ks ps))
    | 1%N => do n <- dec_usize ;; do es <- dec_slice (dec_opt dec_entry) ;; do nx <- dec_opt dec_usize ;;
             pret (Leaf (mkLeaf n es nx))
    | 2%N => do nx <- dec_opt dec_usize ;; pret (Free nx)
    | _ => pfail
    end.
End Encodings.

(** pager.rs:58-68 *)
Definition enc_meta (c : config) (mt : meta) : list byte :=
  enc_usize (md_pages mt) ++ enc_usize (md_len mt) ++ enc_usize (md_root mt) ++
  enc_u64 (key_size c) ++ enc_u64 (value_size c) ++ enc_usize (leaf_degree c) ++ enc_usize (internal_degree c) ++
  enc_opt enc_usize (md_free mt).
Definition dec_meta : parser (config * meta) :=
  do pages <- dec_usize ;; do len <- dec_usize ;; do root <- dec_usize ;;
  do ks <- dec_u64 ;; do vs <- dec_u64 ;; do ld <- dec_usize ;; do id <- dec_usize ;;
  do free <- dec_opt dec_usize ;;
  pret (mkConfig ks vs ld id, mkMeta pages len root free).

(** *** Sizes *)

(** What the size computation needs to know about the memory layout of the types:
    [size_of::<Option<Entry<T, U>>>() - size_of::<Entry<T, U>>()] and
    [size_of::<Option<T>>() - size_of::<T>()].  Both are 0 for types with a niche. *)
Record layout : Type := mkLayout { opt_entry : N; opt_key : N }.

Section Sizes.
  Variable ly : layout.
  Local Open Scope N_scope.
  Definition block_size : N := 4096.
  (** node.rs:197-217 and 219-225 *)
  Definition leaf_payload (ks vs : N) : N := ks + vs + opt_entry ly.
  Definition leaf_max_size (m : nat) (ks vs : N) : N := 32 + N.of_nat m * leaf_payload ks vs.
  Definition leaf_auto_degree (ks vs : N) : nat := N.to_nat ((block_size - 32) / leaf_payload ks vs).
  (** node.rs:24-44 *)
  Definition internal_payload (ks : N) : N := 8 + ks + opt_key ly.
  Definition internal_max_size (d : nat) (ks : N) : N := 32 + N.of_nat d * internal_payload ks.
  Definition internal_auto_degree (ks : N) : nat := N.to_nat ((block_size - 32) / internal_payload ks).
  (** node.rs:366-379: the size of a page *)
  Definition page_size (c : config) : nat :=
    N.to_nat (N.max (leaf_max_size (leaf_degree c) (key_size c) (value_size c))
                    (internal_max_size (internal_degree c) (key_size c))).
  (** The configurations of map.rs:69-85 and of map.rs:104-126 (asserted there). *)
  Definition auto_config (ks vs : N) : config := mkConfig ks vs (leaf_auto_degree ks vs) (internal_auto_degree ks).
  Definition accepted (c : config) : bool :=
    (leaf_max_size (leaf_degree c) (key_size c) (value_size c) <=? block_size) &&
    (internal_max_size (internal_degree c) (key_size c) <=? block_size).
End Sizes.
(** [mem::size_of::<Metadata>()] on a 64-bit target, pager.rs:158-161 *)
Definition header_size : nat := 72.

(** *** The pager on a file of bytes *)
Section BpBytes.
  Context {K V : Type} `{Cmp K} {CK : Codec K} {CV : Codec V}.
  Notation node := (node K V).
  Variable ly : layout.

  (** An open map: the file, and the metadata in memory. *)
  Record bfile : Type := mkFile { bf_bytes : list byte; bf_cfg : config; bf_mem : meta }.

  (** pager.rs:163-167 *)
  Definition offset (c : config) (p : nat) : nat := header_size + page_size ly c * p.
  (** Write the metadata at the start of the file. *)
  Definition save_meta (b : bfile) (mt : meta) : bfile :=
    mkFile (file_write (bf_bytes b) 0 (enc_meta (bf_cfg b) mt)) (bf_cfg b) mt.
  (** pager.rs:203-213 *)
  Definition b_get_page (b : bfile) (p : nat) : res node :=
    let* bs := file_read (bf_bytes b) (offset (bf_cfg b) p) (page_size ly (bf_cfg b)) in
    parse dec_node bs.
  (** pager.rs:279-290 *)
  Definition b_write_node (b : bfile) (p : nat) (n : node) : bfile :=
    mkFile (file_write (bf_bytes b) (offset (bf_cfg b) p) (enc_node n)) (bf_cfg b) (bf_mem b).
  (** pager.rs:215-258 *)
  Definition b_alloc_node (b : bfile) (n : node) : res (bfile * nat) :=
    let mt := bf_mem b in
    match md_free mt with
    | None =>
        let pages := md_pages mt + 1 in
        let f := file_resize (bf_bytes b) (offset (bf_cfg b) pages) in
        let f := file_write f (offset (bf_cfg b) pages - page_size ly (bf_cfg b)) (enc_node n) in
        Ok (save_meta (mkFile f (bf_cfg b) mt) (mkMeta pages (md_len mt) (md_root mt) None), pages - 1)
    | Some p =>
        let* bs := file_read (bf_bytes b) (offset (bf_cfg b) p) (page_size ly (bf_cfg b)) in
        let b := b_write_node b p n in
        let* old := parse (dec_node (K := K) (V := V)) bs in
        match old with
        | Free next => Ok (save_meta b (mkMeta (md_pages mt) (md_len mt) (md_root mt) next), p)
        | _ => Panic
        end
    end.
  (** pager.rs:260-277 *)
  Definition b_free_node (b : bfile) (p : nat) : bfile :=
    let mt := bf_mem b in
    save_meta (b_write_node b p (Free (md_free mt))) (mkMeta (md_pages mt) (md_len mt) (md_root mt) (Some p)).
  (** pager.rs:181-188 and 194-201 *)
  Definition b_set_len (b : bfile) (n : nat) : bfile :=
    let mt := bf_mem b in save_meta b (mkMeta (md_pages mt) n (md_root mt) (md_free mt)).
  Definition b_set_root (b : bfile) (p : nat) : bfile :=
    let mt := bf_mem b in save_meta b (mkMeta (md_pages mt) (md_len mt) p (md_free mt)).
  (** Shared by pager.rs:77-124 and 292-316: cut the file to one page, write the metadata and an empty leaf. *)
  Definition b_format (f : list byte) (c : config) : bfile :=
    let f := file_resize f (header_size + page_size ly c) in
    let f := file_write f 0 (enc_meta c (mkMeta 1 0 0 None)) in
    let f := file_write f header_size (enc_node (Leaf (leaf_new (leaf_degree c)) : node)) in
    mkFile f c (mkMeta 1 0 0 None).
  (** pager.rs:77-124; [f] is what the file held before. *)
  Definition b_new (f : list byte) (c : config) : bfile := b_format f c.
  (** pager.rs:292-316 *)
  Definition b_clear (b : bfile) : bfile := b_format (bf_bytes b) (bf_cfg b).
  (** pager.rs:126-146 *)
  Definition b_open (f : list byte) : res bfile :=
    let* bs := file_read f 0 header_size in
    let* (c, mt) := parse dec_meta bs in
    Ok (mkFile f c mt).

  Fixpoint run_b {A} (b : bfile) (c : io K V A) : res (bfile * A) :=
    match c with
    | Ret a => Ok (b, a)
    | Fail => Panic
    | Spin => Timeout
    | GetPage p k => let* n := b_get_page b p in run_b b (k n)
    | WriteNode p n k => run_b (b_write_node b p n) k
    | AllocNode n k => let* (b, p) := b_alloc_node b n in run_b b (k p)
    | FreeNode p k => run_b (b_free_node b p) k
    | GetRoot k => run_b b (k (md_root (bf_mem b)))
    | SetRoot p k => run_b (b_set_root b p) k
    | GetLen k => run_b b (k (md_len (bf_mem b)))
    | SetLen n k => run_b (b_set_len b n) k
    | PageCount k => run_b b (k (md_pages (bf_mem b)))
    end.

  (** One API call of [BpMap]; the degrees are those in the metadata. *)
  Definition bp_bstep (b : bfile) (o : bp_op K V) : res (bfile * bp_out K V) :=
    let m := leaf_degree (bf_cfg b) in let d := internal_degree (bf_cfg b) in
    match o with
    | BInsert k v =>
        if valid esize esize (bf_cfg b) k v then let* (b, r) := run_b b (insert_prog d (k, v)) in Ok (b, OPair r)
        else Ok (b, ORejected)
    | BRemove k => let* (b, r) := run_b b (remove_prog m d k) in Ok (b, OPair r)
    | BGet k => let* (b, r) := run_b b (get_prog k) in Ok (b, OVal r)
    | BContains k =>
        let* (b, r) := run_b b (get_prog k) in Ok (b, OBool (match r with Some _ => true | None => false end))
    | BLen => Ok (b, ONat (md_len (bf_mem b)))
    | BIsEmpty => Ok (b, OBool (md_len (bf_mem b) =? 0))
    | BClear => Ok (b_clear b, OUnit)
    | BMin => let* (b, r) := run_b b min_prog in Ok (b, OKey r)
    | BMax => let* (b, r) := run_b b max_prog in Ok (b, OKey r)
    | BIter => let* (b, r) := run_b b iter_prog in Ok (b, OList r)
    | BReopen => let* b := b_open (bf_bytes b) in Ok (b, OUnit)
    end.
End BpBytes.
