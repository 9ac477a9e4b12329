(** Properties of RadixMap and RadixSet.  Statements only; proofs are in RadixMapProofs.v and
    RadixPrefixProofs.v. *)
From Verif Require Import RadixSpec RadixModel RadixShape RadixPrefixProofs.

(** ** C18: every history behaves as a map ordered by lexicographic byte order, up to the first insert into
    a map that a remove left empty; that insert panics.  Nothing else goes wrong. *)
Theorem C18_radix_exact_partial : forall (T : Type) (ops : list (radix_op T)),
  outputs radix_step radix_new ops =
    if inserts_safe [] false ops then Ok (map_spec_outputs (map radix_map_op ops)) else Panic.
Proof. exact @radix_refines. Qed.
Print Assumptions C18_radix_exact_partial.

Definition C18_ops : list (radix_op nat) :=
  [XInsert [1; 2; 3] 10; XInsert [1; 2] 11; XInsert [] 12; XInsert [1; 2; 4; 5] 13; XInsert [1; 2; 4; 6] 14; XInsert [1; 2] 15;
   XGet [1; 2]; XGetMut [1; 2; 3] 16; XIter; XMin; XMax; XLen; XRemove [1; 2]; XRemove [1; 2; 4; 6]; XIterMut [20; 21]; XIter;
   XIndex [9]; XContains []; XIsEmpty; XIntoIter; XLen; XInsert [7] 1; XIter].
Example C18_example : inserts_safe [] false C18_ops = true /\
  nth_error (map_spec_outputs (map radix_map_op C18_ops)) 8
  = Some (RList [([], 12); ([1; 2], 15); ([1; 2; 3], 16); ([1; 2; 4; 5], 13); ([1; 2; 4; 6], 14)]) /\
  nth_error (map_spec_outputs (map radix_map_op C18_ops)) 15
  = Some (RList [([], 20); ([1; 2; 3], 21); ([1; 2; 4; 5], 13)]).
Proof. vm_compute; auto. Qed.

Theorem C18_radix_refuted : exists ops : list (radix_op nat),
  outputs radix_step radix_new ops <> Ok (map_spec_outputs (map radix_map_op ops)).
Proof. exact radix_refuted. Qed.
Print Assumptions C18_radix_refuted.

(** ** C19: violated.  A map that a remove left empty rejects the next insert; not just sometimes, always. *)
Theorem C19_radix_empty_refuted : exists (ops : list (radix_op nat)) m outs k v,
  run radix_step radix_new ops = Ok (m, outs) /\ radix_contents ops = [] /\ radix_step m (XInsert k v) = Panic.
Proof. exact radix_empty_refuted. Qed.
Print Assumptions C19_radix_empty_refuted.

Theorem C19_radix_empty_always : forall (T : Type) (ops : list (radix_op T)) k0 m outs k v,
  run radix_step radix_new (ops ++ [XRemove k0]) = Ok (m, outs) -> radix_contents (ops ++ [XRemove k0]) = [] ->
  radix_step m (XInsert k v) = Panic.
Proof. exact @radix_empty_always. Qed.
Print Assumptions C19_radix_empty_always.

Example C19_example : exists m outs,
  run radix_step radix_new ([XInsert [1] 1; XInsert [2] 2; XRemove [1]] ++ [XRemove [2]]) = Ok (m, outs) /\
  radix_contents ([XInsert [1] 1; XInsert [2] 2; XRemove [1]] ++ [XRemove [2]]) = [].
Proof. do 2 eexists; vm_compute; auto. Qed.

(** ** C20: [get_longest_prefix] never panics and never returns a key that is not a best match: it answers
    with all best matches or with just the common prefix itself, and which of the two is determined by the
    contents whenever the query is empty or shares a byte with some key. *)
Theorem C20_longest_prefix_partial : forall (T : Type) (ops : list (radix_op T)) m outs k,
  run radix_step radix_new ops = Ok (m, outs) ->
  exists ks, radix_longest_prefix m k = Ok ks /\
    (ks = longest_prefix_keys k (radix_contents ops) \/
     ks = filter (fun q => length q =? best_lcp k (radix_contents ops)) (longest_prefix_keys k (radix_contents ops))) /\
    (0 < best_lcp k (radix_contents ops) \/ k = [] -> ks = longest_prefix_answer k (radix_contents ops)).
Proof. intros T ops m outs k. exact (radix_longest_prefix_ok ops m outs k). Qed.
Print Assumptions C20_longest_prefix_partial.

Definition C20_ops : list (radix_op nat) := [XInsert [1; 2; 3] 0; XInsert [1; 2; 4] 0; XInsert [1; 5] 0; XInsert [1] 0].
Example C20_example : exists m outs, run radix_step radix_new C20_ops = Ok (m, outs) /\
  radix_longest_prefix m [1; 2] = Ok [[1; 2; 3]; [1; 2; 4]] /\
  longest_prefix_keys [1; 2] (radix_contents C20_ops) = [[1; 2; 3]; [1; 2; 4]] /\
  radix_longest_prefix m [1; 5; 5] = Ok [[1; 5]] /\ 0 < best_lcp [1; 5; 5] (radix_contents C20_ops).
Proof. do 2 eexists; vm_compute; repeat split; repeat constructor. Qed.

(** The answer in full, for every query: it is a function of the contents and of whether a remove has been
    called since the map was made, cleared or consumed.  Until then a query that shares no byte with any key
    is told about no key but the empty one. *)
Theorem C20_longest_prefix_exact : forall (T : Type) (ops : list (radix_op T)) m outs k,
  run radix_step radix_new ops = Ok (m, outs) ->
  radix_longest_prefix m k = Ok (longest_prefix_exact (remove_called ops) k (radix_contents ops)).
Proof. intros T ops m outs k. exact (radix_prefix_exact ops m outs k). Qed.
Print Assumptions C20_longest_prefix_exact.

Example C20_exact_example :
  let ops := [XInsert [1; 2; 3] 0; XInsert [1; 2; 4] 0] in
  (exists m outs, run radix_step radix_new (ops ++ [XRemove [7]]) = Ok (m, outs)) /\
  longest_prefix_exact (remove_called ops) [5] (radix_contents ops) = [] /\
  longest_prefix_exact (remove_called (ops ++ [XRemove [7]])) [5] (radix_contents (ops ++ [XRemove [7]])) = [[1; 2; 3]; [1; 2; 4]] /\
  longest_prefix_exact (remove_called ops) [1; 5] (radix_contents ops) = [[1; 2; 3]; [1; 2; 4]].
Proof. split; [do 2 eexists; vm_compute; reflexivity | vm_compute; auto]. Qed.

(** Violated: with keys "ab" and "ac" the query "ad" finds nothing ... *)
Theorem C20_longest_prefix_refuted : exists (ops : list (radix_op nat)) m outs k,
  run radix_step radix_new ops = Ok (m, outs) /\ radix_longest_prefix m k = Ok [] /\
  longest_prefix_keys k (radix_contents ops) = [[97; 98]; [97; 99]].
Proof. exact radix_longest_prefix_refuted. Qed.
Print Assumptions C20_longest_prefix_refuted.

(** ... and the answer is not even a function of the contents. *)
Theorem C20_longest_prefix_history_refuted : exists (ops1 ops2 : list (radix_op nat)) m1 m2 outs1 outs2 k,
  run radix_step radix_new ops1 = Ok (m1, outs1) /\ run radix_step radix_new ops2 = Ok (m2, outs2) /\
  radix_contents ops1 = radix_contents ops2 /\ radix_longest_prefix m1 k <> radix_longest_prefix m2 k.
Proof. exact radix_longest_prefix_history_refuted. Qed.
Print Assumptions C20_longest_prefix_history_refuted.

(** ** C21: the tree stays compact. *)
Theorem C21_radix_compact : forall (T : Type) (ops : list (radix_op T)) m outs,
  run radix_step radix_new ops = Ok (m, outs) ->
  match rm_root m with
  | RNil => radix_contents ops = []
  | RNode _ _ n c => n = RNil /\ compact c
  end /\ node_count (rm_root m) <= 2 * length (radix_contents ops) + 1.
Proof. exact @radix_compact. Qed.
Print Assumptions C21_radix_compact.

Example C21_example : exists m outs, run radix_step radix_new C20_ops = Ok (m, outs) /\ node_count (rm_root m) = 6.
Proof. do 2 eexists; vm_compute; auto. Qed.

(** ** C45 for RadixSet, with the same exception as C18. *)
Theorem C45_radix_set_partial : forall ops : list rset_op,
  outputs radix_set_step radix_new ops =
    if inserts_safe [] false (map rset_map ops) then Ok (kset_spec_outputs (map rset_kset ops)) else Panic.
Proof. exact radix_set_refines. Qed.
Print Assumptions C45_radix_set_partial.

Example C45_radix_example :
  inserts_safe [] false (map rset_map [YInsert [2]; YInsert [1; 1]; YInsert [1]; YIter; YRemove [2]; YMax; YContains [1]]) = true /\
  kset_spec_outputs (map rset_kset [YInsert [2]; YInsert [1; 1]; YInsert [1]; YIter; YRemove [2]; YMax; YContains [1]])
  = [KKey None; KKey None; KKey None; KList [[1]; [1; 1]; [2]]; KKey (Some [2]); KKey (Some [1; 1]); KBool true].
Proof. vm_compute; auto. Qed.
