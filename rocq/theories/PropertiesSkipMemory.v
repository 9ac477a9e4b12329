(** The memory that SkipMap and SkipList take: C86.  [heap_bytes ly h] are the bytes of the blocks of the nodes in memory, for a layout [ly] of
    the struct (NodeBytesModel.v).  Each call comes with the number it draws if it inserts; the code draws below 2^32. *)
From Verif Require Import SkipMapModel SkipListModel MapSpec SeqSpec RandomSpec RareSpec SkipMemoryProofs KeyInstances NodeBytesModel.

(** ** C86: after every history a SkipMap with [n] keys takes memory linear in [n], however many were removed or overwritten before.  With
    independent random heights at most 2 links per key on average (and 33 in the head), at most 3 n + 2 s except with probability 2^-s;
    never more than 33 per key.  The 7 bytes are the rounding to [u64]s. *)
Theorem C86_map_memory : forall (K V : Type) (C : Cmp K) (L : CmpLaws K) (M : nat) (ly : layout) (ops : list (map_op K V)), N.of_nat M = 4294967296%N ->
  let n := length (fst (spec_run map_spec_step [] ops)) in
  exists bytes : list N -> nat,
    (forall ps, length ps = length ops -> exists m outs, run skip_step skip_new (combine ops ps) = Ok (m, outs) /\ heap_bytes ly (sk_heap m) = bytes ps) /\
    (forall ps, length ps = length ops -> bytes ps <= (n + 1) * (node_size ly + 7) + (33 + 33 * n) * link_size ly) /\
    average_within M (length ops) ((n + 1) * (node_size ly + 7) + (33 + 2 * n) * link_size ly) 0 bytes /\
    forall s, rarely_above M (length ops) s ((n + 1) * (node_size ly + 7) + (33 + 3 * n + 2 * s) * link_size ly) bytes.
Proof. exact @skip_memory_bounds. Qed.
Print Assumptions C86_map_memory.
(** A [SkipMap<u64, u64>] on a 64-bit machine; 12 insertions, 2 of them of keys that are present, and 4 removals leave 6 keys.  Bytes if all
    nodes have height 0, and if their heights are 0, 1, 2, 0, 1, 2, ...; the bounds for the average and for one in 2^3. *)
Example C86_map_example : let ly := Layout 8 8 16 8 1 in
  let ops := map (fun k => MInsert k k) (seq 0 10 ++ [3; 4]) ++ map MRemove [1; 2; 3; 4] in
  let bytes ps := match run skip_step skip_new (combine ops ps) with Ok (m, _) => heap_bytes ly (sk_heap m) | _ => 0 end in
  N.of_nat (N.to_nat 4294967296) = 4294967296%N /\ length (fst (spec_run map_spec_step [] ops)) = 6 /\
  bytes (repeat 4294967295%N 16) = 480 /\ bytes (map (fun i => (4294967295 / 2 ^ N.of_nat (i mod 3))%N) (seq 0 16)) = 520 /\
  (6 + 1) * (node_size ly + 7) + (33 + 2 * 6) * link_size ly = 577 /\ (6 + 1) * (node_size ly + 7) + (33 + 3 * 6 + 2 * 3) * link_size ly = 673.
Proof. cbv zeta. split; [apply N2Nat.id|]. vm_compute. repeat split. Qed.

(** ** C86: the same for a SkipList with [n] elements; a link is a pointer and a distance. *)
Theorem C86_list_memory : forall (T : Type) (M : nat) (ly : layout) (ops : list (seq_op T)), N.of_nat M = 4294967296%N ->
  let n := length (fst (spec_run seq_spec_step [] ops)) in
  exists bytes : list N -> nat,
    (forall ps, length ps = length ops -> exists m outs, run slist_step slist_new (combine ops ps) = Ok (m, outs) /\ heap_bytes ly (sl_heap m) = bytes ps) /\
    (forall ps, length ps = length ops -> bytes ps <= (n + 1) * (node_size ly + 7) + (33 + 33 * n) * link_size ly) /\
    average_within M (length ops) ((n + 1) * (node_size ly + 7) + (33 + 2 * n) * link_size ly) 0 bytes /\
    forall s, rarely_above M (length ops) s ((n + 1) * (node_size ly + 7) + (33 + 3 * n + 2 * s) * link_size ly) bytes.
Proof. exact @slist_memory_bounds. Qed.
Print Assumptions C86_list_memory.
Example C86_list_example : let ly := Layout 8 8 1 1 2 in
  let ops := map QPushBack (seq 0 8) ++ [QPopFront; QRemove 3] in
  let bytes ps := match run slist_step slist_new (combine ops ps) with Ok (m, _) => heap_bytes ly (sl_heap m) | _ => 0 end in
  N.of_nat (N.to_nat 4294967296) = 4294967296%N /\ length (fst (spec_run seq_spec_step [] ops)) = 6 /\
  bytes (repeat 4294967295%N 10) = 736 /\ bytes (map (fun i => (4294967295 / 2 ^ N.of_nat (i mod 3))%N) (seq 0 10)) = 832 /\
  (6 + 1) * (node_size ly + 7) + (33 + 2 * 6) * link_size ly = 881.
Proof. cbv zeta. split; [apply N2Nat.id|]. vm_compute. repeat split. Qed.

(** ** C86: these are the bytes of the blocks that the machine of C85 has in use. *)
Theorem C86_blocks : forall (D L : Type) (ly : layout) (h : heap D L) (ptrs : list nat), length ptrs = length h ->
  list_sum (map snd (blocks ly h ptrs)) = heap_bytes ly h.
Proof. exact @blocks_bytes. Qed.
Print Assumptions C86_blocks.
Example C86_blocks_example : let h : heap nat (option nat) := [Some (SN None [None; None]); None; Some (SN (Some 5) [None])] in
  blocks (Layout 8 8 8 8 1) h [8; 64; 128] = [(8, 32); (128, 24)] /\ heap_bytes (Layout 8 8 8 8 1) h = 56.
Proof. vm_compute. auto. Qed.
