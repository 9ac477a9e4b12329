(** Properties of what a lookup in a sorted string table reads. *)
From Verif Require Import SsReadProofs SsInstances.

(** ** C73: a lookup in a table reads nothing if the key is outside of the table's range or the Bloom filter rejects it, and
    otherwise one block of the index and, if the table has the key, its entry; the search for the block takes at most
    log2 b + 1 comparisons, where b is the number of blocks. *)
Theorem C73_get_reads : forall (K V : Type) (C : Cmp K) (_ : CmpLaws K) (CK : Codec K) (CV : Codec V)
    (_ : CodecLaws K) (_ : CodecLaws V) (B : Bloom K) (_ : BloomLaws K) (block_size hint : nat)
    (es : list (K * sval V)) (f : files),
  strictly_ascending es -> build_with (builder_of block_size hint) es = Ok f -> small_files f -> small_times es ->
  exists t, st_new f = Ok t /\ forall k, exists c,
    st_get_c t k = Ok (version_of es k, c, reads_of block_size (bl_contains (st_filter t) k) es k) /\
    c <= Nat.log2 (2 * length (cut block_size [] (map fst es))).
Proof. exact @get_reads. Qed.
Print Assumptions C73_get_reads.

(** The block has at most as many index entries as the block size, if that is not 0. *)
Theorem C73_reads_bound : forall (K V : Type) (C : Cmp K) (_ : CmpLaws K) (CK : Codec K) (CV : Codec V)
    (block_size : nat) (maybe : bool) (es : list (K * sval V)) (k : K) (w : nat),
  0 < block_size -> strictly_ascending es -> (forall e, In e es -> length (enc (fst e)) <= w) ->
  length (reads_of block_size maybe es k) <= 2 /\
  (forall n, In (IndexFile, n) (reads_of block_size maybe es k) -> n <= 16 + block_size * (w + 8)) /\
  (forall n, In (DataFile, n) (reads_of block_size maybe es k) -> exists e, In e es /\ cmp (fst e) k = Eq /\ n = entry_bytes e).
Proof. exact @reads_bound. Qed.
Print Assumptions C73_reads_bound.

(** The builder chooses the square root of its hint as the block size.  If the hint is the number n of entries, there are at most
    sqrt n (rounded up) blocks of at most as many entries. *)
Theorem C73_blocks : forall (A : Type) (l : list A), let n := length l in
  Forall (fun g => length g <= Nat.sqrt_up n) (cut (Nat.sqrt_up n) [] l) /\ length (cut (Nat.sqrt_up n) [] l) <= Nat.sqrt_up n.
Proof. exact @sqrt_groups. Qed.
Print Assumptions C73_blocks.
(** What the groups are: all elements in their order, all groups but the last of the given size; one group if the size is 0 *)
Theorem C73_groups : forall (A : Type) (n : nat) (l : list A), concat (cut n [] l) = l /\ Forall (fun g => g <> []) (cut n [] l).
Proof. intros A n l. exact (conj (cut_concat n l []) (cut_ne n l [])). Qed.
Print Assumptions C73_groups.
Theorem C73_groups_number : forall (A : Type) (n : nat) (l : list A), 0 < n ->
  n * length (cut n [] l) < length l + n /\ length l <= n * length (cut n [] l).
Proof. intros A n l P. exact (cut_count n l P [] P). Qed.
Print Assumptions C73_groups_number.
Theorem C73_one_group : forall (A : Type) (l : list A), l <> [] -> cut 0 [] l = [l].
Proof. intros A l. exact (cut_zero l []). Qed.
Print Assumptions C73_one_group.

Definition read_entries : list (byte * sval byte) :=
  [(x02, mkSval (Some x11) 4); (x03, mkSval None 9); (x05, mkSval (Some x12) 1); (x09, mkSval (Some x13) 2); (x0b, mkSval None 7)]%N.
(** Blocks of two, two, and one entry; key 9 is in the second, 10 passes the filter and is not there, 4 does not pass, 1 and 12 are outside *)
Example C73_example : exists f, build 4 read_entries = Ok f /\ strictly_ascending read_entries /\ small_files f /\ small_times read_entries /\
  cut 2 [] (map fst read_entries) = [[x02; x03]; [x05; x09]; [x0b]] /\
  (let* t := st_new f in let* a := st_get_c t x09 in let* b := st_get_c t x0a in let* c := st_get_c t x04 in let* d := st_get_c t x0c in Ok [a; b; c; d]) =
    Ok [(Some (mkSval (Some x13) 2%N), 2, [(IndexFile, 34); (DataFile, 19)]); (None, 2, [(IndexFile, 34)]); (None, 0, []); (None, 0, [])].
Proof.
  unfold small_files, small, small_times, strictly_ascending, read_entries.
  eexists. split; [vm_compute; reflexivity|]. split.
  { repeat constructor. }
  split; [cbn; lia|]. split; [repeat constructor|]. split; [reflexivity|]. vm_compute; reflexivity.
Qed.
