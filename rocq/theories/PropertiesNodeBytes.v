(** The raw nodes of the skip lists as bytes in memory: C85.  The models of SkipMap and SkipList (SkipMapModel.v, SkipListModel.v) take nodes
    to be values in a heap of cells, with the operations of SkipHeap.v; [node_step] (NodeBytesSpec.v) is a machine of these operations, whose
    errors are freed memory, links that a node does not have and entries never written.  [byte_step] (NodeBytesModel.v) does the same on
    bytes, as the code does: layout of the struct, blocks from an allocator, pointers, lengths read back from memory. *)
From Verif Require Import NodeBytesModel NodeBytesProofs.

(** ** C85: for every layout of the struct, every allocator that keeps its contract, all bytes that memory holds at the start and every sequence
    of operations that the heap of cells allows, the code on bytes has the same results; it has no undefined behaviour (no access outside of
    blocks in use, none unaligned, no release of a block with another size than requested); the blocks in use are those of the nodes that
    were not released; pointers to nodes in memory are distinct and none is null.  Full statement: without
    [entry_align ly <= u64_align ly]; see [C85_align_refuted]. *)
Theorem C85_nodes_partial : forall (D L : Type) (ly : layout) (new : allocator) (enc : D -> list nat) (lw : words_of L) (z : L),
  layout_ok ly -> entry_align ly <= u64_align ly -> (forall d, length (enc d) = entry_size ly) -> lw z = (None, repeat 0 (link_words ly - 1)) ->
  lawful (u64_align ly) (word ly) new ->
  nodes_as_bytes ly new enc lw z.
Proof. exact @nodes_bytes_ok. Qed.
Print Assumptions C85_nodes_partial.

(** A [SkipMap<u32, u64>] on a 64-bit machine.  A head with 3 links at address 8; a node with 2 links, linked, read,
    changed; it is released and the next node reuses its address; at the end nothing is in use. *)
Definition map_layout : layout := Layout 8 8 16 8 1.
Definition map_entry (e : nat * nat) : list nat := le 4 (fst e) ++ repeat 0 4 ++ le 8 (snd e).
Definition map_calls : list (node_op (nat * nat) (option nat)) :=
  [NNew None 3; NNew (Some (5, 300)) 2; NSetLink 0 1 (Some 1); NLink 0 1; NLink 0 0; NEntry 1; NSetEntry 1 (5, 301); NEntry 1; NLen 1; NZero 0; NLink 0 1;
   NFree 1; NNew (Some (6, 1)) 1; NLink 2 0; NFree 0; NFree 2].
Example C85_map_example : layout_ok map_layout /\ entry_align map_layout <= u64_align map_layout /\ (forall e, length (map_entry e) = entry_size map_layout) /\
  map_link None = (None, repeat 0 (link_words map_layout - 1)) /\ lawful 8 8 (bump 8 8) /\ Forall (op_fits 8 1 map_link) map_calls /\
  (exists h, run (node_step map_link None) [] map_calls =
     Ok (h, [ONode 0; ONode 1; ODone; OLink (Some 1); OLink None; OEntry (5, 300); ODone; OEntry (5, 301); ONat 2; ODone; OLink None; ODone; ONode 2; OLink None; ODone; ODone])) /\
  outputs (byte_step map_layout (bump 8 8) map_entry map_link) (Some (Bytes (fun x => x mod 256) [] [])) map_calls =
    Ok [BNode 8; BNode 64; BDone; BLink [64]; BLink [0]; BEntry [5;0;0;0;0;0;0;0;44;1;0;0;0;0;0;0]; BDone; BEntry [5;0;0;0;0;0;0;0;45;1;0;0;0;0;0;0]; BNat 2;
        BDone; BLink [0]; BDone; BNode 64; BLink [0]; BDone; BDone] /\
  match run (byte_step map_layout (bump 8 8) map_entry map_link) (Some (Bytes (fun x => x mod 256) [] [])) map_calls with
  | Ok (Some s, _) => by_live s = [] /\ by_ptrs s = [8; 64; 64] | _ => False end.
Proof.
  split; [repeat split; cbn; try lia; now exists 3|]. split; [cbn; lia|]. split; [intros e; unfold map_entry; rewrite !app_length, !le_length, repeat_length; reflexivity|].
  split; [reflexivity|]. split; [apply bump_lawful; lia|]. split; [repeat constructor|]. split; [eexists; vm_compute; reflexivity|]. split; [vm_compute; reflexivity|].
  vm_compute. auto.
Qed.
(** A [SkipList<u8>] on a 32-bit machine with [u64] aligned to 4, as on x86: the links hold distances *)
Definition list_layout : layout := Layout 4 4 1 1 2.
Definition list_calls : list (node_op nat (option nat * nat)) :=
  [NNew None 2; NNew (Some 7) 1; NSetLink 0 1 (Some 1, 1000); NLink 0 1; NLink 1 0; NEntry 1; NLen 0; NFree 1].
Example C85_list_example : layout_ok list_layout /\ entry_align list_layout <= u64_align list_layout /\
  list_link (None, 0) = (None, repeat 0 (link_words list_layout - 1)) /\ lawful 4 4 (bump 4 4) /\ Forall (op_fits 4 2 list_link) list_calls /\
  (exists h, run (node_step list_link (None, 0)) [] list_calls = Ok (h, [ONode 0; ONode 1; ODone; OLink (Some 1, 1000); OLink (None, 0); OEntry 7; ONat 2; ODone])) /\
  outputs (byte_step list_layout (bump 4 4) (le 1) list_link) (Some (Bytes (fun _ => 255) [] [])) list_calls =
    Ok [BNode 4; BNode 32; BDone; BLink [32; 1000]; BLink [0; 0]; BEntry [7]; BNat 2; BDone].
Proof.
  split; [repeat split; cbn; try lia; (now exists 2) || now exists 0|]. split; [cbn; lia|]. split; [reflexivity|]. split; [apply bump_lawful; lia|]. split; [repeat constructor|].
  split; [eexists; vm_compute; reflexivity|]. vm_compute. reflexivity.
Qed.

(** ** C85: entries with an alignment larger than that of [u64] are undefined behaviour already in the first allocation: the block that a
    [Vec<u64>] requests need not be aligned for the struct. *)
Theorem C85_align_refuted : forall (D L : Type) (ly : layout) (enc : D -> list nat) (lw : words_of L) (z : L),
  layout_ok ly -> u64_align ly < entry_align ly -> fits (word ly) (u64_align ly + block_size ly 1) = true ->
  exists new, lawful (u64_align ly) (word ly) new /\ (forall m d, byte_step ly new enc lw (Some (Bytes m [] [])) (NNew d 1) = Panic) /\
    ~ nodes_as_bytes ly new enc lw z.
Proof. exact @nodes_bytes_misaligned. Qed.
Print Assumptions C85_align_refuted.
(** A [SkipMap<u128, ()>] on a 64-bit machine (16 bytes, aligned to 16): 40 bytes for a node with one link *)
Example C85_align_example : let ly := Layout 8 8 16 16 1 in
  layout_ok ly /\ u64_align ly < entry_align ly /\ fits (word ly) (u64_align ly + block_size ly 1) = true /\ block_size ly 1 = 40.
Proof. cbv zeta. split; [repeat split; cbn; try lia; (now exists 3) || now exists 4|]. split; [cbn; lia|]. vm_compute. auto. Qed.
