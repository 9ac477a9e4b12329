(** Properties of sorted string tables ([SSTable], [SSTableBuilder]), byte by byte. *)
From Verif Require Import SsSpec SsProofs SsInstances.

(** ** C33: a table built from entries in strictly ascending key order can be opened, and looking up any key
    returns the version appended for it, or nothing, for every block size (0 included), every size of the
    Bloom filter, and every Bloom filter without false negatives. *)
Theorem C33_get_any_block_size : forall (K V : Type) (C : Cmp K) (_ : CmpLaws K) (CK : Codec K) (CV : Codec V)
    (_ : CodecLaws K) (_ : CodecLaws V) (B : Bloom K) (_ : BloomLaws K) (block_size hint : nat)
    (es : list (K * sval V)) (f : files),
  strictly_ascending es -> build_with (builder_of block_size hint) es = Ok f -> small_files f -> small_times es ->
  exists t, st_new f = Ok t /\ forall k, st_get t k = Ok (version_of es k).
Proof. exact @get_correct. Qed.
Print Assumptions C33_get_any_block_size.

(** In particular with the block size that the builder chooses from its entry count hint. *)
Theorem C33_get : forall (K V : Type) (C : Cmp K) (_ : CmpLaws K) (CK : Codec K) (CV : Codec V)
    (_ : CodecLaws K) (_ : CodecLaws V) (B : Bloom K) (_ : BloomLaws K) (hint : nat)
    (es : list (K * sval V)) (f : files),
  strictly_ascending es -> build hint es = Ok f -> small_files f -> small_times es ->
  exists t, st_new f = Ok t /\ forall k, st_get t k = Ok (version_of es k).
Proof. intros K V C L CK CV LK LV B BL hint. exact (get_correct (Nat.sqrt_up hint) hint). Qed.
Print Assumptions C33_get.

Definition ss_entries : list (byte * sval byte) :=
  [(x02, mkSval (Some x11) 4); (x03, mkSval None 9); (x05, mkSval (Some x12) 1); (x09, mkSval (Some x13) 2); (x0b, mkSval None 7)]%N.
(** Two blocks of two entries and a last one; keys 1 and 10 share a bit with 9 and 2. *)
Example C33_example : exists f, build 4 ss_entries = Ok f /\ strictly_ascending ss_entries /\ small_files f /\
  small_times ss_entries /\ length (f_index f) = 93 /\
  (let* t := st_new (K := byte) f in Ok (map (fun e => (fst e, N.to_nat (snd e))) (su_index (st_summary t)))) = Ok [(x02, 0); (x05, 34); (x0b, 68)] /\
  (let* t := st_new f in let* a := st_get t x09 in let* b := st_get t x0a in let* c := st_get t x03 in Ok [a; b; c]) =
    Ok [Some (mkSval (Some x13) 2%N); None; Some (mkSval None 9%N)].
Proof.
  unfold small_files, small, small_times, strictly_ascending, ss_entries.
  eexists. split; [vm_compute; reflexivity|]. split.
  { repeat constructor. }
  split; [cbn; lia|]. split; [repeat constructor|]. split; [reflexivity|]. split; vm_compute; reflexivity.
Qed.

(** ** C34: iterating yields exactly the appended entries in their order; the summary holds the number of
    entries and of tombstones, the first and last key, the least and greatest logical time. *)
Theorem C34_iter_summary : forall (K V : Type) (C : Cmp K) (CK : Codec K) (CV : Codec V)
    (_ : CodecLaws K) (_ : CodecLaws V) (B : Bloom K) (_ : BloomLaws K) (block_size hint : nat)
    (es : list (K * sval V)) (f : files),
  build_with (builder_of block_size hint) es = Ok f -> small_files f -> small_times es ->
  exists t, st_new f = Ok t /\ data_iter t = Ok es /\
    su_count (st_summary t) = length es /\ su_tombs (st_summary t) = length (tombstones es) /\
    time_range es (su_times (st_summary t)) /\
    option_map fst (hd_error es) = Some (fst (su_range (st_summary t))) /\
    option_map fst (last_error es) = Some (snd (su_range (st_summary t))).
Proof. exact @iter_correct. Qed.
Print Assumptions C34_iter_summary.

(** A table can be built from any entries but none. *)
Theorem C34_build : forall (K V : Type) (C : Cmp K) (CK : Codec K) (CV : Codec V)
    (B : Bloom K) (_ : BloomLaws K) (block_size hint : nat) (es : list (K * sval V)),
  (es <> [] -> exists f, build_with (builder_of block_size hint) es = Ok f) /\
  (es = [] -> build_with (builder_of block_size hint) es = Panic).
Proof. exact @build_total. Qed.
Print Assumptions C34_build.

Example C34_example :
  (let* f := build 4 ss_entries in let* t := st_new f in data_iter t) = Ok ss_entries /\
  (let* f := build 4 ss_entries in let* t := st_new (K := byte) f in
   Ok (su_count (st_summary t), su_tombs (st_summary t), su_times (st_summary t), su_range (st_summary t))) =
    Ok (5, 2, (1, 9)%N, (x02, x0b)).
Proof. vm_compute. repeat split. Qed.
