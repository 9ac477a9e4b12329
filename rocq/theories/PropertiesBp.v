(** Property theorems about BpMap on a file of pages: C25 - C29, C32. *)
From Verif Require Import BpMapModel BpNodeSpec BpFinalProofs BpOverwriteProofs KeyInstances OrdLemmas.

(** ** C25: BpMap behaves as an ordered map.  Full statement: without the hypotheses on degrees and overwriting; refuted
    below (C26, C32).  Calls include closing and opening the file. *)
Theorem C25_bp_refines_partial : forall (K V : Type) (C : Cmp K) (_ : CmpLaws K)
    (ksize : K -> N) (vsize : V -> N) (cfg : config) (ops : list (bp_op K V)),
  1 <= leaf_degree cfg -> 3 <= internal_degree cfg -> never_harmful ksize vsize cfg ops ->
  outputs (bp_step ksize vsize cfg) (new_store (leaf_degree cfg)) ops = Ok (bp_spec_outputs (valid ksize vsize cfg) ops).
Proof. exact @bp_refines. Qed.
Print Assumptions C25_bp_refines_partial.

(** Nothing weaker than that hypothesis will do: it holds of a history exactly if every call after every part of the history
    returns the right result. *)
Theorem C25_bp_exact : forall (K V : Type) (C : Cmp K) (_ : CmpLaws K)
    (ksize : K -> N) (vsize : V -> N) (cfg : config) (ops : list (bp_op K V)),
  1 <= leaf_degree cfg -> 3 <= internal_degree cfg ->
  (never_harmful ksize vsize cfg ops <->
   forall ops1 ops2 o, ops = ops1 ++ ops2 ->
     outputs (bp_step ksize vsize cfg) (new_store (leaf_degree cfg)) (ops1 ++ [o]) =
       Ok (bp_spec_outputs (valid ksize vsize cfg) (ops1 ++ [o]))).
Proof. exact @bp_exact. Qed.
Print Assumptions C25_bp_exact.

(** Conditions for it that do not speak about the file: leaves of at most 4 entries, or no overwriting at all. *)
Theorem C25_harmless : forall (K V : Type) (C : Cmp K) (_ : CmpLaws K)
    (ksize : K -> N) (vsize : V -> N) (cfg : config) (ops : list (bp_op K V)),
  1 <= leaf_degree cfg -> 3 <= internal_degree cfg ->
  leaf_degree cfg <= 4 \/ never_overwrites (valid ksize vsize cfg) ops -> never_harmful ksize vsize cfg ops.
Proof. exact @harmless_if. Qed.
Print Assumptions C25_harmless.

Example C25_example : nat_obs 2 3
    (fill 9 ++ [BIter; BReopen; BInsert 3 5; BRemove 0; BRemove 0; BRemove 1; BMin; BMax; BLen; BGet 3; BContains 0;
                BRemove 8; BRemove 7; BRemove 6; BRemove 5; BIter; BIsEmpty; BClear; BMin; BIter]) =
  Ok (repeat (OPair None) 9 ++
     [OList [(0, 1000); (1, 1001); (2, 1002); (3, 1003); (4, 1004); (5, 1005); (6, 1006); (7, 1007); (8, 1008)];
      OUnit; OPair (Some (3, 1003)); OPair (Some (0, 1000)); OPair None; OPair (Some (1, 1001)); OKey (Some 2);
      OKey (Some 8); ONat 7; OVal (Some 5); OBool false; OPair (Some (8, 1008)); OPair (Some (7, 1007));
      OPair (Some (6, 1006)); OPair (Some (5, 1005)); OList [(2, 1002); (3, 5); (4, 1004)]; OBool false; OUnit;
      OKey None; OList []]).
Proof. vm_compute. reflexivity. Qed.
(** A history that overwrites nothing, for a degree above 4. *)
Example C25_example_fresh : never_overwrites (fun _ _ => true) [BInsert 1 1; BRemove 1; BInsert 1 (2 : nat); BInsert 0 3].
Proof.
  intros ops1 k v ops2 E. destruct ops1 as [|a [|b [|c [|e [|f ops1]]]]]; cbn in E; injection E; intros; subst;
    try reflexivity; try discriminate; destruct ops1; discriminate.
Qed.

(** A history that overwrites an entry of a full leaf of degree 5 and does no harm, and one call more that does. *)
Example C25_example_harmless :
  never_harmful (fun _ : nat => 4%N) (fun _ : nat => 8%N) (mkConfig 4 8 5 3) (fill 5 ++ [BInsert 2 7]) /\
  ~ never_harmful (fun _ : nat => 4%N) (fun _ : nat => 8%N) (mkConfig 4 8 5 3) (fill 5 ++ [BInsert 2 7; BInsert 4 7]).
Proof.
  split.
  - intros ops1 k v ops2 s outs E R _ (p & l & i & e & _ & P & L & Ne & Ek & Gt).
    destruct ops1 as [|a1 [|a2 [|a3 [|a4 [|a5 [|a6 ops1]]]]]]; cbn in E; injection E; intros; subst; try (destruct ops1; discriminate);
      vm_compute in R; injection R as <- <-; (destruct p as [|p]; [|now destruct p]); cbn in P; injection P as <-; try discriminate.
    destruct i as [|[|[|[|[|[|]]]]]]; cbn in Gt, Ne; try lia; (try discriminate Ne); injection Ne as <-; discriminate.
  - intros N. eapply (N (fill 5 ++ [BInsert 2 7]) 4 7 []); [reflexivity | vm_compute; reflexivity | reflexivity|].
    exists 0. do 3 eexists. split; [exact (Root _)|]. split; [reflexivity|]. split; [reflexivity|]. split; [|split].
    + cbn. instantiate (2 := 4). reflexivity.
    + reflexivity.
    + cbn. lia.
Qed.

(** ** C26: overwriting keeps all other entries.  Full statement: without [leaf_degree cfg <= 4] (and for
    all internal degrees); refuted below. *)
Theorem C26_overwrite_partial : forall (K V : Type) (C : Cmp K) (_ : CmpLaws K)
    (ksize : K -> N) (vsize : V -> N) (cfg : config) (ops : list (bp_op K V)) k v k',
  1 <= leaf_degree cfg <= 4 -> 3 <= internal_degree cfg -> cmp k k' <> Eq ->
  exists outs o r,
    outputs (bp_step ksize vsize cfg) (new_store (leaf_degree cfg)) (ops ++ [BGet k']) = Ok (outs ++ [r]) /\
    outputs (bp_step ksize vsize cfg) (new_store (leaf_degree cfg)) (ops ++ [BInsert k v; BGet k']) = Ok (outs ++ [o; r]).
Proof. exact @bp_overwrite. Qed.
Print Assumptions C26_overwrite_partial.

Example C26_example :
  nat_obs 4 3 (fill 4 ++ [BInsert 3 7; BIter]) =
    Ok (repeat (OPair None) 4 ++ [OPair (Some (3, 1003)); OList [(0, 1000); (1, 1001); (2, 1002); (3, 7)]]).
Proof. vm_compute. reflexivity. Qed.

(** For all degrees: one insertion keeps the other entries if it is not harmful, and loses one if it is. *)
Theorem C26_overwrite_exact : forall (K V : Type) (C : Cmp K) (_ : CmpLaws K)
    (ksize : K -> N) (vsize : V -> N) (cfg : config) (ops : list (bp_op K V)) s outs k v,
  1 <= leaf_degree cfg -> 3 <= internal_degree cfg -> never_harmful ksize vsize cfg ops ->
  run (bp_step ksize vsize cfg) (new_store (leaf_degree cfg)) ops = Ok (s, outs) -> valid ksize vsize cfg k v = true ->
  let obs ops := outputs (bp_step ksize vsize cfg) (new_store (leaf_degree cfg)) ops in
  (~ harmful (leaf_degree cfg) s k -> forall k', cmp k k' <> Eq -> exists o r,
     obs (ops ++ [BGet k']) = Ok (outs ++ [r]) /\ obs (ops ++ [BInsert k v; BGet k']) = Ok (outs ++ [o; r])) /\
  (harmful (leaf_degree cfg) s k -> exists k' w o, cmp k k' <> Eq /\
     obs (ops ++ [BGet k']) = Ok (outs ++ [OVal (Some w)]) /\ obs (ops ++ [BInsert k v; BGet k']) = Ok (outs ++ [o; OVal None])).
Proof. exact @bp_overwrite_exact. Qed.
Print Assumptions C26_overwrite_exact.

(** What overwriting an entry of a full leaf really does: the entries between position [m / 2 + 1] and the
    overwritten one are gone. *)
Theorem C26_leaf_overwrite_exact : forall (K V : Type) (C : Cmp K) (_ : CmpLaws K) m (es : list (K * V)) nx k v x,
  sorted es -> length es = m -> 1 <= m -> at_key k es = [x] ->
  let B := below k es in
  leaf_insert (packed_leaf m es nx) (k, v) =
    Ok (mkLeaf m (map Some (firstn (m / 2 + 1) B) ++ repeat None (length B - (m / 2 + 1))
                  ++ map Some ((k, v) :: above k es)) nx, Some (IEntry x)).
Proof. exact @leaf_overwrite_full. Qed.
Print Assumptions C26_leaf_overwrite_exact.

Example C26_leaf_example :
  sorted [(0, 0); (1, 1); (2, 2); (3, 3); (4, 4)] /\
  leaf_insert (packed_leaf 5 [(0, 0); (1, 1); (2, 2); (3, 3); (4, 4)] None) (4, 9) =
    Ok (mkLeaf 5 [Some (0, 0); Some (1, 1); Some (2, 2); None; Some (4, 9)] None, Some (IEntry (4, 4))).
Proof. split; [repeat constructor | vm_compute; reflexivity]. Qed.

(** The same seen from outside, for every leaf degree above 4 and every internal degree: insert as many
    entries as a leaf holds, in order.  Overwriting any entry loses each entry before it that is not among
    the first [m / 2 + 1].  (With a degree of at most 4 there is no such entry.) *)
Theorem C26_overwrite_refuted : forall (K V : Type) (C : Cmp K) (_ : CmpLaws K)
    (ksize : K -> N) (vsize : V -> N) (cfg : config) (a : list (K * V)) k' v' b k w c v,
  let m := leaf_degree cfg in
  let fits := valid ksize vsize cfg in
  let es := a ++ (k', v') :: b ++ (k, w) :: c in
  sorted es -> length es = m -> m / 2 < length a -> Forall (fun e => fits (fst e) (snd e) = true) es -> fits k v = true ->
  outputs (bp_step ksize vsize cfg) (new_store m) (inserts es ++ [BGet k']) =
    Ok (repeat (OPair None) m ++ [OVal (Some v')]) /\
  outputs (bp_step ksize vsize cfg) (new_store m) (inserts es ++ [BInsert k v; BGet k']) =
    Ok (repeat (OPair None) m ++ [OPair (Some (k, w)); OVal None]).
Proof. exact @overwrite_loses. Qed.
Print Assumptions C26_overwrite_refuted.

(** Such entries exist for every leaf degree above 4. *)
Theorem C26_overwrite_every_degree_refuted : forall m d, 5 <= m -> exists ops k v k' w outs o, k <> k' /\
  nat_obs m d (ops ++ [BGet k']) = Ok (outs ++ [OVal (Some w)]) /\
  nat_obs m d (ops ++ [BInsert k v; BGet k']) = Ok (outs ++ [o; OVal None]).
Proof. exact overwrite_every_degree. Qed.
Print Assumptions C26_overwrite_every_degree_refuted.

(** With the degrees that [BpMap::<u32, u64>::new(_, 4, 8)] chooses: the map holds 0 .. 202; after
    overwriting 202 it has lost 150. *)
Example C26_u32_u64_example :
  nat_obs 203 254 (fill 203 ++ [BGet 150]) = Ok (repeat (OPair None) 203 ++ [OVal (Some 1150)]) /\
  nat_obs 203 254 (fill 203 ++ [BInsert 202 7; BGet 150]) = Ok (repeat (OPair None) 203 ++ [OPair (Some (202, 1202)); OVal None]).
Proof. vm_compute. split; reflexivity. Qed.

(** The iterator stops at the first gap, so it also misses the overwritten entry, and [len] still counts all. *)
Theorem C25_bp_iter_refuted : nat_obs 5 3 (fill 5 ++ [BInsert 4 7; BIter; BGet 3; BLen]) =
  Ok (repeat (OPair None) 5 ++
      [OPair (Some (4, 1004)); OList [(0, 1000); (1, 1001); (2, 1002)]; OVal None; ONat 5]).
Proof. exact bp_overwrite_bad_list. Qed.
Print Assumptions C25_bp_iter_refuted.

(** ** C27: operations on leaves: insert with room, insert with a split, remove, remove_at, merge, search.
    Not covered is the overwrite in a full leaf, whose exact effect is [C26_leaf_overwrite_exact]. *)
Theorem C27_leaf_ops_partial : forall (K V : Type) (C : Cmp K) (_ : CmpLaws K) m, 1 <= m ->
  (forall (es : list (K * V)) nx k v, sorted es -> length es < m ->
     leaf_insert (packed_leaf m es nx) (k, v) =
       Ok (packed_leaf m (below k es ++ (k, v) :: above k es) nx, option_map IEntry (hd_error (at_key k es)))) /\
  (forall (es : list (K * V)) nx k v, sorted es -> length es = m -> at_key k es = [] ->
     exists l r sk, leaf_insert (packed_leaf m es nx) (k, v) =
         Ok (packed_leaf m l nx, Some (ISplit sk (packed_leaf m r nx))) /\
       l ++ r = below k es ++ (k, v) :: above k es /\ option_map fst (hd_error r) = Some sk /\
       (m + 1) / 2 <= length l <= m /\ (m + 1) / 2 <= length r <= m) /\
  (forall (es : list (K * V)) nx k, sorted es -> length es <= m ->
     leaf_remove (packed_leaf m es nx) k = Ok (packed_leaf m (below k es ++ above k es) nx, hd_error (at_key k es))) /\
  (forall (a b : list (K * V)) c nx, length (a ++ c :: b) <= m ->
     leaf_remove_at (packed_leaf m (a ++ c :: b) nx) (length a) = Ok (packed_leaf m (a ++ b) nx, c)) /\
  (forall (a b : list (K * V)) nx ny, length a + length b <= m ->
     leaf_merge (packed_leaf m a nx) (packed_leaf m b ny) = Ok (packed_leaf m (a ++ b) ny)) /\
  (forall (es : list (K * V)) nx k, sorted es -> length es <= m ->
     leaf_search (packed_leaf m es nx) k =
       Ok (match at_key k es with [] => None | _ => Some (length (below k es)) end)).
Proof. exact @leaf_ops. Qed.
Print Assumptions C27_leaf_ops_partial.

Example C27_example :
  leaf_insert (packed_leaf 3 [(1, 1); (3, 3); (5, 5)] (Some 7)) (4, 4) =
    Ok (packed_leaf 3 [(1, 1); (3, 3)] (Some 7), Some (ISplit 4 (packed_leaf 3 [(4, 4); (5, 5)] (Some 7)))).
Proof. vm_compute. reflexivity. Qed.

(** ** C28: operations on internal nodes: insert with room on either side of a key, insert with a split (on
    the right side, the only one used), remove_at, merge, search.  Full statement: splits on both sides;
    refuted below. *)
Theorem C28_internal_ops_partial : forall (K : Type) (C : Cmp K) (_ : CmpLaws K) d, 2 <= d ->
  (forall ks1 ks2 ps1 ps2 (k : K) p (right : bool),
     StronglySorted (fun x y => cmp x y = Lt) (k :: ks2) -> Forall (fun x => cmp k x <> Lt) ks1 ->
     length (ks1 ++ ks2) < d -> length (ps1 ++ ps2) = length (ks1 ++ ks2) + 1 ->
     length ps1 = length ks1 + (if right then 1 else 0) ->
     internal_insert (packed_internal d (ks1 ++ ks2) (ps1 ++ ps2)) k p right =
       Ok (packed_internal d (ks1 ++ k :: ks2) (ps1 ++ p :: ps2), None)) /\
  (forall p0 (kp : list (K * nat)) k p, sorted kp -> at_key k kp = [] -> length kp = d ->
     exists l sk sp r, below k kp ++ (k, p) :: above k kp = l ++ (sk, sp) :: r /\
       length l = (d + 1) / 2 /\ length r = d / 2 /\
       internal_insert (packed_internal d (map fst kp) (p0 :: map snd kp)) k p true =
         Ok (packed_internal d (map fst l) (p0 :: map snd l),
             Some (sk, packed_internal d (map fst r) (sp :: map snd r)))) /\
  (forall ks1 (k : K) ks2 ps1 p ps2 (right : bool),
     length (ks1 ++ k :: ks2) <= d -> length (ps1 ++ p :: ps2) = length (ks1 ++ k :: ks2) + 1 ->
     length ps1 = length ks1 + (if right then 1 else 0) ->
     internal_remove_at (packed_internal d (ks1 ++ k :: ks2) (ps1 ++ p :: ps2)) (length ks1) right =
       Ok (packed_internal d (ks1 ++ ks2) (ps1 ++ ps2), (k, p))) /\
  (forall ks1 ps1 (sk : K) ks2 ps2, length ks1 + length ks2 < d ->
     length ps1 = length ks1 + 1 -> length ps2 = length ks2 + 1 ->
     internal_merge (packed_internal d ks1 ps1) sk (packed_internal d ks2 ps2) =
       Ok (packed_internal d (ks1 ++ sk :: ks2) (ps1 ++ ps2))) /\
  (forall ks1 ks2 ps (k : K), length (ks1 ++ ks2) <= d ->
     Forall (fun x => cmp x k <> Gt) ks1 -> Forall (fun x => cmp x k = Gt) ks2 ->
     internal_search (packed_internal d (ks1 ++ ks2) ps) k = Ok (length ks1)).
Proof. exact @internal_ops. Qed.
Print Assumptions C28_internal_ops_partial.

Example C28_example :
  internal_insert (packed_internal 4 [10; 20; 30; 40] [1; 2; 3; 4; 5]) 15 9 true =
    Ok (packed_internal 4 [10; 15] [1; 2; 9], Some (20, packed_internal 4 [30; 40] [3; 4; 5])) /\
  internal_search (packed_internal 4 [10; 20; 30; 40] [1; 2; 3; 4; 5]) 30 = Ok 3.
Proof. vm_compute. split; reflexivity. Qed.

Theorem C28_internal_left_refuted : exists l sk r,
  internal_insert (packed_internal 4 [10; 20; 30; 40] [1; 2; 3; 4; 5]) 15 9 false = Ok (l, Some (sk, r)) /\
  firstn (in_len l + 1) (in_ptrs l) ++ firstn (in_len r + 1) (in_ptrs r) = [1; 9; 2; 3; 0; 0].
Proof. exact internal_left_bad. Qed.
Print Assumptions C28_internal_left_refuted.

(** ** C29: pages.  The pager under any client that frees and writes only pages it was given: the client
    reads what it wrote, no page is handed out twice, and every page of the file is either held by the
    client or on the free list, never both. *)
Theorem C29_pager : forall (K V : Type) m (ops : list (client_op K V)), exists s h outs fl,
  run client_step (client_new m) ops = Ok ((s, h), outs) /\
  outs = snd (spec_run client_spec [Leaf (leaf_new m)] ops) /\
  NoDup (map fst h) /\ free_pages s (md_free (st_mem s)) fl /\ NoDup fl /\
  (forall p, p < length (st_pages s) <-> In p (map fst h) \/ In p fl) /\
  (forall p, In p (map fst h) -> ~ In p fl) /\ md_pages (st_mem s) = length (st_pages s).
Proof. exact @client_pages. Qed.
Print Assumptions C29_pager.

Example C29_pager_example : exists s h,
  run client_step (client_new 2)
    [CAlloc (Free (Some 7)); CAlloc (Free (Some 8)); CFree 1; CFree 0; CReopen; CAlloc (Leaf (leaf_new (K := nat) (V := nat) 3)); CRead 0] =
    Ok ((s, h), [None; None; None; None; None; None; Some (Leaf (leaf_new 3))]) /\
  map fst h = [2; 0] /\ md_free (st_mem s) = Some 1.
Proof. do 2 eexists. vm_compute. repeat split. Qed.

(** The map is such a client: after any history every page is either in the tree or on the free list, never
    both.  Full statement: without the hypotheses on degrees and overwriting. *)
Theorem C29_bp_pages_partial : forall (K V : Type) (C : Cmp K) (_ : CmpLaws K)
    (ksize : K -> N) (vsize : V -> N) (cfg : config) (ops : list (bp_op K V)) s outs,
  1 <= leaf_degree cfg -> 3 <= internal_degree cfg ->
  never_harmful ksize vsize cfg ops ->
  run (bp_step ksize vsize cfg) (new_store (leaf_degree cfg)) ops = Ok (s, outs) ->
  md_pages (st_mem s) = length (st_pages s) /\ st_disk s = st_mem s /\
  exists fl, free_pages s (md_free (st_mem s)) fl /\ NoDup fl /\
    (forall p, p < length (st_pages s) -> (in_tree s p /\ ~ In p fl) \/ (~ in_tree s p /\ In p fl)) /\
    (forall p, in_tree s p \/ In p fl -> p < length (st_pages s)).
Proof. exact @bp_pages. Qed.
Print Assumptions C29_bp_pages_partial.

Example C29_bp_example : exists s outs,
  run (bp_step (fun _ => 4%N) (fun _ => 8%N) (mkConfig 4 8 2 3)) (new_store 2)
    (fill 9 ++ [BRemove 0; BRemove 1; BRemove 2; BRemove 3]) = Ok (s, outs) /\
  free_pages s (md_free (st_mem s)) [1] /\ length (st_pages s) = 8.
Proof.
  do 2 eexists. split; [vm_compute; reflexivity|]. split; [|reflexivity].
  split; [reflexivity|]. eexists. split; reflexivity.
Qed.

(** ** C32: internal degrees.  Degrees of at least 3 work ([C25_bp_refines_partial]); degrees 0, 1 and 2 are
    accepted by the constructors and lead to a panic. *)
Theorem C32_small_degree_refuted : forall d, d < 3 -> exists ops, nat_obs 1 d ops = Panic.
Proof. exact bp_degree_bad. Qed.
Print Assumptions C32_small_degree_refuted.

Theorem C32_leaf_degree_zero_refuted : forall d, nat_obs 0 d [BInsert 0 0] = Panic /\ nat_obs 0 d [BGet 0] = Panic.
Proof. exact bp_leaf_degree_bad. Qed.
Print Assumptions C32_leaf_degree_zero_refuted.
