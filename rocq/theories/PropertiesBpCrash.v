(** Property theorems about BpMap after a crash in the middle of a call: C53. *)
From Verif Require Import BpMapModel BpNodeSpec BpCrashModel BpByteModel BpCrashFinalProofs KeyInstances OrdLemmas.

(** ** C53: crashes.  Full statement: every state of the file during a call opens as the map before the call or as
    the map after it.  Refuted below. *)

(** A call that changes the file at most twice (every insertion that does not split a leaf, every removal that
    leaves its leaf at least half full): all reading calls answer as before the call or as after it. *)
Theorem C53_crash_small_partial : forall (K V : Type) (C : Cmp K) (_ : CmpLaws K)
    (ksize : K -> N) (vsize : V -> N) (cfg : config) (ops : list (bp_op K V)) o s outs t qs,
  1 <= leaf_degree cfg -> 3 <= internal_degree cfg ->
  never_harmful ksize vsize cfg (ops ++ [o]) ->
  run (bp_step ksize vsize cfg) (new_store (leaf_degree cfg)) ops = Ok (s, outs) ->
  length (call_states ksize vsize cfg s o) <= 2 -> In t (call_states ksize vsize cfg s o) ->
  forallb reads_entries qs = true ->
  let fits := valid ksize vsize cfg in
  let obs := outputs (bp_step ksize vsize cfg) (reopen t) qs in
  obs = Ok (spec_outputs (bp_spec_step fits) (bp_spec_state fits ops) qs) \/
  obs = Ok (spec_outputs (bp_spec_step fits) (bp_spec_state fits (ops ++ [o])) qs).
Proof. exact @bp_crash_few. Qed.
Print Assumptions C53_crash_small_partial.

Example C53_small_example :
  nat_crash 2 3 [BInsert 0 1; BInsert 1 2; BInsert 2 3] (BRemove 0) 0 [BIter; BGet 0; BMin; BMax] =
    Ok [OList [(0, 1); (1, 2); (2, 3)]; OVal (Some 1); OKey (Some 0); OKey (Some 2)] /\
  nat_crash 2 3 [BInsert 0 1; BInsert 1 2; BInsert 2 3] (BRemove 0) 1 [BIter; BGet 0; BMin; BMax] =
    Ok [OList [(1, 2); (2, 3)]; OVal None; OKey (Some 1); OKey (Some 2)] /\
  nat_crash 2 3 [BInsert 0 1; BInsert 1 2; BInsert 2 3] (BRemove 0) 2 [] = Panic.
Proof. vm_compute. repeat split. Qed.

(** Every insertion, with any number of splits: iteration and [min] answer as before the call or as after it. *)
Theorem C53_crash_insert_partial : forall (K V : Type) (C : Cmp K) (_ : CmpLaws K)
    (ksize : K -> N) (vsize : V -> N) (cfg : config) (ops : list (bp_op K V)) k v s outs t,
  1 <= leaf_degree cfg -> 3 <= internal_degree cfg ->
  never_harmful ksize vsize cfg (ops ++ [BInsert k v]) ->
  run (bp_step ksize vsize cfg) (new_store (leaf_degree cfg)) ops = Ok (s, outs) ->
  In t (call_states ksize vsize cfg s (BInsert k v)) ->
  let fits := valid ksize vsize cfg in
  let seen (l : list (K * V)) :=
    outputs (bp_step ksize vsize cfg) (reopen t) [BIter; BMin] = Ok [OList l; OKey (option_map fst (hd_error l))] in
  seen (bp_spec_state fits ops) \/ seen (bp_spec_state fits (ops ++ [BInsert k v])).
Proof. exact @bp_crash_insert. Qed.
Print Assumptions C53_crash_insert_partial.

(** The file of this example changes 9 times during the call. *)
Example C53_insert_example :
  nat_crash 2 3 [BInsert 0 10; BInsert 2 12] (BInsert 1 11) 2 [BIter; BMin] = Ok [OList [(0, 10); (2, 12)]; OKey (Some 0)] /\
  nat_crash 2 3 [BInsert 0 10; BInsert 2 12] (BInsert 1 11) 3 [BIter; BMin] = Ok [OList [(0, 10); (1, 11); (2, 12)]; OKey (Some 0)] /\
  nat_crash 2 3 [BInsert 0 10; BInsert 2 12] (BInsert 1 11) 8 [BIter; BMin] = Ok [OList [(0, 10); (1, 11); (2, 12)]; OKey (Some 0)].
Proof. vm_compute. repeat split. Qed.

(** The last of the states is the state after the call. *)
Theorem C53_last_state : forall (K V : Type) (C : Cmp K) (ksize : K -> N) (vsize : V -> N) (cfg : config)
    (s : store K V) o s' r,
  bp_step ksize vsize cfg s o = Ok (s', r) -> o <> BReopen -> last (call_states ksize vsize cfg s o) s = s'.
Proof. exact @call_last. Qed.
Print Assumptions C53_last_state.

(** What [set_len] of the file appends decodes to an internal node without keys and pointers. *)
Theorem C53_zero_page : forall (K V : Type) (CK : Codec K) (CV : Codec V) n,
  dec_node (K := K) (V := V) (repeat x00 (28 + n)) = Some (zero_page, repeat x00 n).
Proof. exact zero_page_dec. Qed.
Print Assumptions C53_zero_page.

(** *** Where the full statement fails *)

(** An insertion that splits a leaf: an old entry is not found any more, and inserting it again stores it twice. *)
Theorem C53_crash_split_refuted :
  nat_crash 2 3 [BInsert 0 1000; BInsert 2 1002] (BInsert 1 1001) 3 [BGet 2; BMax; BInsert 2 9; BIter] =
    Ok [OVal None; OKey (Some 1); OPair None; OList [(0, 1000); (1, 1001); (2, 9); (2, 1002)]].
Proof. exact crash_split. Qed.
Print Assumptions C53_crash_split_refuted.

(** An insertion that takes a page from the free list: the entries are all there, but the same insertion panics
    when it is tried again. *)
Theorem C53_crash_reuse_refuted : exists ops o,
  nat_crash 2 3 ops o 0 [o] = Panic /\ exists l, nat_crash 2 3 ops o 0 [BIter] = Ok [OList l].
Proof. exact crash_reuse. Qed.
Print Assumptions C53_crash_reuse_refuted.

(** A removal that merges two leaves: reading panics. *)
Theorem C53_crash_merge_refuted : exists ops o,
  nat_crash 2 3 ops o 0 [BIter] = Panic /\ nat_crash 2 3 ops o 0 [BGet 3] = Panic.
Proof. exact crash_merge. Qed.
Print Assumptions C53_crash_merge_refuted.

(** A removal that takes an entry from a sibling: that entry, here 2, is gone from the file. *)
Theorem C53_crash_borrow_refuted : exists ops,
  nat_crash 3 3 ops (BRemove 1) 1 [BIter] = Ok [OList [(0, 1000); (1, 1001); (3, 1003); (4, 1004)]].
Proof. exact crash_borrow. Qed.
Print Assumptions C53_crash_borrow_refuted.

(** Any removal: the stored length is decreased first, so it can be wrong, and the same removal panics when it is
    tried again. *)
Theorem C53_crash_len_refuted :
  nat_crash 2 3 [BInsert 0 5] (BRemove 0) 0 [BLen; BGet 0] = Ok [ONat 0; OVal (Some 5)] /\
  nat_crash 2 3 [BInsert 0 5] (BRemove 0) 0 [BRemove 0] = Panic.
Proof. exact crash_remove_len. Qed.
Print Assumptions C53_crash_len_refuted.

(** [clear]: the file is cut while the metadata still names the old root; later the metadata says that the map
    is empty while the old first page is still there. *)
Theorem C53_crash_clear_refuted : exists ops,
  nat_crash 2 3 ops BClear 0 [BGet 1] = Panic /\
  nat_crash 2 3 ops BClear 1 [BLen; BGet 1] = Ok [ONat 0; OVal (Some 1001)].
Proof. exact crash_clear. Qed.
Print Assumptions C53_crash_clear_refuted.
