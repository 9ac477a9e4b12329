(** Freeing trees and the stack it takes: C83.  [drop_tree f t] frees a tree with [f] frames of stack, [drop_into_iter] an iterator by value;
    both return the entries in the order in which they are freed, or [Panic] if the stack does not suffice (DropModel.v). *)
From Verif Require Import DropModel CostSpec RareSpec RadixCostSpec TreapCostModel TreapSeedModel DropProofs KeyInstances.
From Coq Require Import Permutation.

(** ** C83: a RedBlackMap of [n] entries is freed with 2 log2 (n + 1) frames, each entry once; so is what an iterator by value has left. *)
Theorem C83_rb_drop : forall (K V : Type) (C : Cmp K) (L : CmpLaws K) (ops : list (map_op K V)) m outs, run rb_step rb_new ops = Ok (m, outs) ->
  let l := fst (spec_run map_spec_step [] ops) in let f := 2 * Nat.log2 (S (length l)) in
  (exists d, drop_tree f (bm_tree m) = Ok d /\ Permutation d l) /\
  forall n, exists d, drop_into_iter f (iter_skip n (iter_new (bm_tree m))) = Ok d /\ Permutation d (skipn n l).
Proof. exact @rb_drop. Qed.
Print Assumptions C83_rb_drop.
Example C83_rb_example : exists m outs, run rb_step rb_new (map (fun k => MInsert k k) (seq 0 7)) = Ok (m, outs) /\
  map (fun f => drop_tree f (bm_tree m)) [2; 3] = [Panic; Ok [(3, 3); (1, 1); (0, 0); (2, 2); (5, 5); (4, 4); (6, 6)]] /\
  drop_into_iter 2 (iter_skip 2 (iter_new (bm_tree m))) = Ok [(2, 2); (3, 3); (5, 5); (4, 4); (6, 6)].
Proof. vm_compute. do 2 eexists. repeat split. Qed.

(** ** C83: the same for an AvlMap.  It holds as long as only the smallest or the largest key is removed.  Full statement: the same without
    [removes_ends [] ops]; refuted below. *)
Theorem C83_avl_drop_partial : forall (K V : Type) (C : Cmp K) (L : CmpLaws K) (ops : list (map_op K V)) m outs,
  removes_ends [] ops -> run avl_step avl_new ops = Ok (m, outs) ->
  let l := fst (spec_run map_spec_step [] ops) in let f := 2 * Nat.log2 (S (length l)) + 1 in
  (exists d, drop_tree f (bm_tree m) = Ok d /\ Permutation d l) /\
  forall n, exists d, drop_into_iter f (iter_skip n (iter_new (bm_tree m))) = Ok d /\ Permutation d (skipn n l).
Proof. exact @avl_drop. Qed.
Print Assumptions C83_avl_drop_partial.
Example C83_avl_example : exists m outs, let ops := map (fun k => MInsert k k) (seq 0 5) ++ [MRemove 0] in
  removes_ends [] ops /\ run avl_step avl_new ops = Ok (m, outs) /\
  map (fun f => drop_tree f (bm_tree m)) [2; 3] = [Panic; Ok [(3, 3); (1, 1); (2, 2); (4, 4)]].
Proof. vm_compute. do 2 eexists. repeat split. right. now left. Qed.

Theorem C83_avl_drop_refuted : forall c : nat, exists (ops : list (map_op nat unit)) m outs,
  run avl_step avl_new ops = Ok (m, outs) /\ drop_tree (c * Nat.log2 (S (size (bm_tree m))) + c) (bm_tree m) = Panic.
Proof. exact avl_drop_slow. Qed.
Print Assumptions C83_avl_drop_refuted.

(** ** C83: a SplayMap cannot be freed with any limited stack: one insertion more than there are frames, in ascending order. *)
Theorem C83_splay_drop_refuted : forall frames : nat, exists m outs,
  run splay_step splay_new (map (fun k => MInsert k tt) (seq 0 (S frames))) = Ok (m, outs) /\ drop_tree frames (bm_tree m) = Panic.
Proof. exact splay_drop_slow. Qed.
Print Assumptions C83_splay_drop_refuted.

(** ** C83: with independent numbers below [M] a TreapMap, where [m] is the number of times the present keys have been inserted, is freed with
    3 log2 (m + 2) + s + 2 frames except with probability 2^-s, and a TreapList of [n] elements with 3 log2 (n + 2) + s + 2. *)
Theorem C83_treap_drop : forall (K V : Type) (C : Cmp K) (L : CmpLaws K) (M : nat) (ops : list (map_op K V)), 0 < M -> 2 * insertions ops <= M ->
  exists maps : list N -> tree (N * nat) K V,
    (forall ps, length ps = length ops -> exists outs, run treap_step_c Leaf (combine ops ps) = Ok (maps ps, outs)) /\
    (forall ps f d, length ps = length ops -> drop_tree f (maps ps) = Ok d -> Permutation d (fst (spec_run map_spec_step [] ops))) /\
    forall s, rarely_above M (length ops) s 0
      (fun ps => match drop_tree (3 * Nat.log2 (insertions ops + 2) + s + 2) (maps ps) with Ok _ => 0 | _ => 1 end).
Proof. exact @treap_drop. Qed.
Print Assumptions C83_treap_drop.
Theorem C83_list_drop : forall (T : Type) (M : nat) (ops : list (seq_op T)), let l := fst (spec_run seq_spec_step [] ops) in 0 < M -> 2 * length l <= M ->
  exists lists : list N -> tree (N * nat) unit T,
    (forall ps, length ps = length ops -> exists outs, run tl_step_c Leaf (combine ops ps) = Ok (lists ps, outs)) /\
    (forall ps f d, length ps = length ops -> drop_tree f (lists ps) = Ok d -> Permutation (map snd d) l) /\
    forall s, rarely_above M (length ops) s 0
      (fun ps => match drop_tree (3 * Nat.log2 (length l + 2) + s + 2) (lists ps) with Ok _ => 0 | _ => 1 end).
Proof. exact @tl_drop. Qed.
Print Assumptions C83_list_drop.
(** Three insertions, numbers below 6: with two frames of stack 70 of 216 maps can be freed *)
Example C83_treap_example : let ops := map (fun k => MInsert k k) [0; 1; 2] in let lops := map QPushBack [0; 1; 2] in
  2 * insertions ops = 6 /\ 2 * length (fst (spec_run seq_spec_step [] lops)) = 6 /\
  length (filter (fun ps => match run treap_step_c Leaf (combine ops ps) with Ok (t, _) => match drop_tree 2 t with Ok _ => true | _ => false end | _ => false end) (draws 6 3)) = 70 /\
  length (filter (fun ps => match run tl_step_c Leaf (combine lops ps) with Ok (t, _) => match drop_tree 2 t with Ok _ => true | _ => false end | _ => false end) (draws 6 3)) = 70.
Proof. vm_compute. repeat split. Qed.

(** The generators of the code all start at the same state; maps or lists of one entry each, joined one after the other, are a path, whatever
    the generator returns. *)
Theorem C83_treap_seeded_refuted : forall (f : nat -> N) (frames : nat), exists (ops : list (prog_op nat unit)) maps gens outs,
  run (map_seeded_step f) map_seeded ops = Ok ((maps, gens), outs) /\ size (maps 0) = S frames /\ drop_tree frames (maps 0) = Panic.
Proof. exact map_seeded_drop. Qed.
Print Assumptions C83_treap_seeded_refuted.
Theorem C83_list_seeded_refuted : forall (f : nat -> N) (frames : nat), exists (ops : list (sprog_op unit)) lists gens outs,
  run (list_seeded_step f) list_seeded ops = Ok ((lists, gens), outs) /\ size (lists 0) = S frames /\ drop_tree frames (lists 0) = Panic.
Proof. exact list_seeded_drop. Qed.
Print Assumptions C83_list_seeded_refuted.

(** ** C83: a RadixMap whose keys are at most [len] bytes long is freed with 256 len + 1 frames, each value once. *)
Theorem C83_radix_drop : forall (T : Type) (ops : list (radix_op T)) m outs len, inserts_bytes ops -> run radix_step radix_new ops = Ok (m, outs) ->
  (forall k v, In (k, v) (radix_contents ops) -> length k <= len) ->
  exists d, drop_rtree (256 * len + 1) (rm_root m) = Ok d /\ Permutation d (map snd (radix_contents ops)).
Proof. exact @radix_drop. Qed.
Print Assumptions C83_radix_drop.
(** The bound is attained for one byte. *)
Example C83_radix_example : exists m outs, let ops := map (fun b => XInsert [b] b) (seq 0 256) in
  inserts_bytes ops /\ run radix_step radix_new ops = Ok (m, outs) /\ drop_rtree 256 (rm_root m) = Panic /\ drop_rtree 257 (rm_root m) = Ok (seq 0 256).
Proof.
  do 2 eexists. split; [|split; [vm_compute; reflexivity | vm_compute; split; reflexivity]].
  apply Forall_forall. intros o i. apply in_map_iff in i as (b & <- & i). apply in_seq in i. constructor; [lia | constructor].
Qed.
