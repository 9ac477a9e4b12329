(** Properties of the file of the on-disk B+ tree map ([BpMap]), byte by byte. *)
From Verif Require Import BpByteSpec BpNodeSpec BpCodecProofs BpByteProofs BpByteFinalProofs BpSpaceProofs BpFinalProofs CodecInstances.

(** ** C30: what was written is read.  A node whose numbers fit into 64 bits decodes to itself, whatever
    follows it. *)
Theorem C30_node_round_trip : forall (K V : Type) (CK : Codec K) (CV : Codec V) (_ : CodecLaws K) (_ : CodecLaws V)
    (n : node K V) r, small_node n -> dec_node (enc_node n ++ r) = Some (n, r).
Proof. exact @dec_node_enc. Qed.
Print Assumptions C30_node_round_trip.

Example C30_node_example : small_node (Leaf (mkLeaf 1 [Some (x01, x02); None] (Some 3)) : node byte byte) /\
  enc_node (Leaf (mkLeaf 1 [Some (x01, x02); None] (Some 3)) : node byte byte) =
    [x01; x00; x00; x00; x01; x00; x00; x00; x00; x00; x00; x00; x02; x00; x00; x00; x00; x00; x00; x00;
     x01; x01; x02; x00; x01; x03; x00; x00; x00; x00; x00; x00; x00].
Proof. split; [|vm_compute; reflexivity]. cbn. unfold small. cbn. repeat split; lia. Qed.

Theorem C30_metadata_round_trip : forall (c : config) (mt : meta) r, small_config c -> small_meta mt ->
  dec_meta (enc_meta c mt ++ r) = Some ((c, mt), r) /\ length (enc_meta c mt) <= header_size.
Proof. intros c mt r Sc Sm. exact (conj (dec_meta_enc c mt r Sc Sm) (enc_meta_length c mt)). Qed.
Print Assumptions C30_metadata_round_trip.

Example C30_metadata_example : small_config (mkConfig 8 8 254 312) /\ small_meta (mkMeta 7 3 1 (Some 2)).
Proof. unfold small_config, small_meta, small_opt, small. cbn. repeat split; lia. Qed.

(** Writing a node that fits into its page: it is read back, every other page and the metadata are unchanged. *)
Theorem C30_write_read : forall (K V : Type) (CK : Codec K) (CV : Codec V) (_ : CodecLaws K) (_ : CodecLaws V)
    (ly : layout) (b : bfile) p (n : node K V),
  small_node n -> length (enc_node n) <= page_size ly (bf_cfg b) ->
  offset ly (bf_cfg b) p + page_size ly (bf_cfg b) <= length (bf_bytes b) ->
  b_get_page ly (b_write_node ly b p n) p = Ok n /\
  (forall q, q <> p -> b_get_page (K := K) (V := V) ly (b_write_node ly b p n) q = b_get_page ly b q) /\
  b_open (bf_bytes (b_write_node ly b p n)) =
    (let* b' := b_open (bf_bytes b) in Ok (mkFile (bf_bytes (b_write_node ly b p n)) (bf_cfg b') (bf_mem b'))) /\
  length (bf_bytes (b_write_node ly b p n)) = length (bf_bytes b).
Proof. exact @page_write_read. Qed.
Print Assumptions C30_write_read.

(** The map on a file of bytes, over whatever the file held before, with any number of closings and reopenings:
    every call returns what an ordered map returns.  Full statement: without the hypotheses on degrees and
    overwriting (see C26 and C32) and without [fits_page] (see C31). *)
Theorem C30_bytes_refine_partial : forall (K V : Type) (C : Cmp K) (_ : CmpLaws K) (CK : Codec K) (CV : Codec V)
    (_ : CodecLaws K) (_ : CodecLaws V) (ly : layout) (cfg : config) (f : list byte) (ops : list (bp_op K V)),
  1 <= leaf_degree cfg -> 3 <= internal_degree cfg ->
  never_harmful esize esize cfg ops ->
  fits_page ly cfg -> (key_size cfg < 2 ^ 64)%N -> (value_size cfg < 2 ^ 64)%N ->
  (N.of_nat (leaf_degree cfg) < 2 ^ 64)%N -> (N.of_nat (internal_degree cfg + 1) < 2 ^ 64)%N ->
  (N.of_nat (2 * length ops + 1) < 2 ^ 64)%N ->
  outputs (bp_bstep ly) (b_new (K := K) (V := V) ly f cfg) ops = Ok (bp_spec_outputs (valid esize esize cfg) ops).
Proof. exact @bytes_refines. Qed.
Print Assumptions C30_bytes_refine_partial.

(** And after it, the file has whole pages only, opens as the same map, and every page decodes. *)
Theorem C30_file_sound_partial : forall (K V : Type) (C : Cmp K) (_ : CmpLaws K) (CK : Codec K) (CV : Codec V)
    (_ : CodecLaws K) (_ : CodecLaws V) (ly : layout) (cfg : config) (f : list byte) (ops : list (bp_op K V)) b outs,
  1 <= leaf_degree cfg -> 3 <= internal_degree cfg ->
  never_harmful esize esize cfg ops ->
  fits_page ly cfg -> (key_size cfg < 2 ^ 64)%N -> (value_size cfg < 2 ^ 64)%N ->
  (N.of_nat (leaf_degree cfg) < 2 ^ 64)%N -> (N.of_nat (internal_degree cfg + 1) < 2 ^ 64)%N ->
  (N.of_nat (2 * length ops + 1) < 2 ^ 64)%N ->
  run (bp_bstep ly) (b_new (K := K) (V := V) ly f cfg) ops = Ok (b, outs) ->
  length (bf_bytes b) = header_size + page_size ly cfg * md_pages (bf_mem b) /\ bf_cfg b = cfg /\
  b_open (bf_bytes b) = Ok b /\
  forall p, p < md_pages (bf_mem b) ->
    exists n, b_get_page (K := K) (V := V) ly b p = Ok n /\ length (enc_node n) <= page_size ly cfg.
Proof. exact @bytes_fit. Qed.
Print Assumptions C30_file_sound_partial.

Example C30_example :
  let ly := mkLayout 4 4 in let cfg := mkConfig 4 4 2 3 in
  let ops := map (fun n => BInsert (u32_of n) (u32_of (n + 1))) [5; 1; 7; 3; 9; 2; 8] ++
    [BReopen; BRemove (u32_of 7); BInsert (u32_of 5) (u32_of 0); BReopen; BGet (u32_of 5); BGet (u32_of 7); BLen] in
  fits_page ly cfg /\
  outputs (bp_bstep ly) (b_new (K := u32) (V := u32) ly [x01; x02] cfg) ops =
    Ok (repeat (OPair None) 7 ++ [OUnit; OPair (Some (u32_of 7, u32_of 8)); OPair (Some (u32_of 5, u32_of 6)); OUnit;
        OVal (Some (u32_of 0)); OVal None; ONat 6]).
Proof. split; [unfold fits_page; vm_compute; split; discriminate | vm_compute; reflexivity]. Qed.

(** ** C31: nodes and pages.  All nodes of the configured degrees with keys and values of the configured sizes
    fit into a page exactly if two inequalities hold ([k] and [v] are of maximal size). *)
Theorem C31_fits_iff : forall (K V : Type) (CK : Codec K) (CV : Codec V) (ly : layout) (cfg : config) (k : K) (v : V),
  esize k = key_size cfg -> esize v = value_size cfg ->
  ((forall n : node K V, within cfg n -> length (enc_node n) <= page_size ly cfg) <->
   (29 + N.of_nat (leaf_degree cfg) * (1 + key_size cfg + value_size cfg) <= N.of_nat (page_size ly cfg) /\
    36 + N.of_nat (internal_degree cfg) * (9 + key_size cfg) <= N.of_nat (page_size ly cfg))%N).
Proof. exact @fits_iff. Qed.
Print Assumptions C31_fits_iff.

Example C31_fits_example : esize (u32_of 7) = key_size (mkConfig 4 4 2 3) /\
  within (mkConfig 4 4 2 3) (Leaf (mkLeaf 2 [Some (u32_of 7, u32_of 8); None] None)).
Proof. split; [reflexivity|]. cbn. split; [reflexivity|]. repeat constructor. Qed.

(** The constructors choose a large enough page if the options of entries and keys take enough room in memory.
    Full statement: for every layout. *)
Theorem C31_layout_partial : forall (ly : layout) (cfg : config), (1 <= opt_entry ly)%N ->
  (4 + N.of_nat (internal_degree cfg) <= N.of_nat (internal_degree cfg) * opt_key ly)%N -> fits_page ly cfg.
Proof. exact layout_fits. Qed.
Print Assumptions C31_layout_partial.

Example C31_layout_example : let cfg := auto_config (mkLayout 8 8) 8 8 in
  (1 <= opt_entry (mkLayout 8 8))%N /\
  (4 + N.of_nat (internal_degree cfg) <= N.of_nat (internal_degree cfg) * opt_key (mkLayout 8 8))%N.
Proof. vm_compute. split; discriminate. Qed.

(** [BpMap<u8, u8>::with_degrees(_, 1, 1, 1, 3)] passes its assertions and fails after two insertions. *)
Theorem C31_with_degrees_refuted :
  accepted (mkLayout 1 1) (mkConfig 1 1 1 3) = true /\
  bp_spec_outputs (valid esize esize (mkConfig 1 1 1 3)) byte_map_ops = [OPair None; OPair None; OVal (Some x01)] /\
  outputs (bp_bstep (mkLayout 1 1)) (b_new (K := byte) (V := byte) (mkLayout 1 1) [] (mkConfig 1 1 1 3)) byte_map_ops = Panic.
Proof. exact byte_map_bad. Qed.
Print Assumptions C31_with_degrees_refuted.

(** [BpMap<u32, String>::new(_, 4, 100)]: 39 strings of 92 characters make the map unreadable. *)
Theorem C31_default_refuted :
  let ly := mkLayout 0 4 in let cfg := auto_config ly 4 100 in
  (leaf_degree cfg = 39 /\ internal_degree cfg = 254) /\
  bp_spec_outputs (valid esize esize cfg) string_ops = repeat (OPair None) 39 ++ [OVal (Some (repeat x61 92))] /\
  outputs (bp_bstep ly) (b_new (K := u32) (V := list byte) ly [] cfg) string_ops = Panic.
Proof. exact string_map_bad. Qed.
Print Assumptions C31_default_refuted.

(** [BpMap<[u8; 4], [u8; 4]>::new(_, 4, 4)]: a full internal node is one byte longer than a page. *)
Theorem C31_array_refuted :
  let ly := mkLayout 1 1 in let cfg := auto_config ly 4 4 in
  N.of_nat (page_size ly cfg) = 4091%N /\
  exists n : node u32 u32, within cfg n /\ N.of_nat (length (enc_node n)) = 4092%N.
Proof. exact array_map_bad. Qed.
Print Assumptions C31_array_refuted.

(** ** C29: space.  If the map never held more than [n] entries, the file never has more than [2 * n + 1] pages. *)
Theorem C29_space_partial : forall (K V : Type) (C : Cmp K) (_ : CmpLaws K) m d, 1 <= m -> 3 <= d ->
  forall (ksize : K -> N) (vsize : V -> N) (cfg : config), leaf_degree cfg = m -> internal_degree cfg = d ->
  forall (ops : list (bp_op K V)) s outs n,
  never_harmful ksize vsize cfg ops ->
  (forall ops1 ops2, ops = ops1 ++ ops2 -> length (bp_spec_state (valid ksize vsize cfg) ops1) <= n) ->
  run (bp_step ksize vsize cfg) (new_store m) ops = Ok (s, outs) -> length (st_pages s) <= 2 * n + 1.
Proof. intros K V C L m d Hm Hd ks vs cfg Cm Cd. exact (bp_space m d Hm Hd ks vs cfg Cm Cd). Qed.
Print Assumptions C29_space_partial.

Example C29_space_example : exists s outs,
  run (bp_step (fun _ => 4%N) (fun _ => 8%N) (mkConfig 4 8 1 3)) (new_store 1) (fill 9) = Ok (s, outs) /\
  length (st_pages s) = 13.
Proof. do 2 eexists. split; vm_compute; reflexivity. Qed.
