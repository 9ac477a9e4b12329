(** Property theorems about the search-tree maps and sets: C01-C04, C06-C12, C45, C46. *)
From Verif Require Import MapSpec SetAlgSpec ShapeSpec KeySetSpec KeyInstances.
From Verif Require Import AvlModel RbModel SplayModel TreapModel KeySetModel.
From Verif Require Import AvlProofs AvlDepthProofs RbProofs SplayProofs TreapProofs KeySetProofs IterProofs.

(** A history used in the examples: keys compare by first component, so overwriting a key is visible. *)
Definition demo_ops : list (map_op tagged nat) :=
  [MInsert (3, 0) 30; MInsert (1, 0) 10; MInsert (2, 0) 20; MInsert (3, 1) 31; MGet (3, 9); MGetMut (1, 9) 11;
   MFloor (5, 0); MCeil (0, 0); MMin; MMax; MLen; MIter; MIterMut [7; 8]; MRemove (2, 5); MRemove (2, 5); MIter;
   MIndex (2, 0); MContains (1, 1); MIsEmpty; MIntoIter; MIsEmpty; MInsert (4, 4) 44; MClear; MLen].
Definition demo_outs : list (map_out tagged nat) :=
  [RPair None; RPair None; RPair None; RPair (Some ((3, 0), 30)); RVal (Some 31); RVal (Some 10);
   RKey (Some (3, 1)); RKey (Some (1, 0)); RKey (Some (1, 0)); RKey (Some (3, 1)); RNat 3;
   RList [((1, 0), 11); ((2, 0), 20); ((3, 1), 31)]; RList [((1, 0), 11); ((2, 0), 20)];
   RPair (Some ((2, 0), 8)); RPair None; RList [((1, 0), 7); ((3, 1), 31)];
   RIndex Panic; RBool true; RBool false; RList [((1, 0), 7); ((3, 1), 31)]; RBool true; RPair None; RUnit; RNat 0].
Definition with_draws (d : nat -> N) {O} (ops : list O) : list (O * N) :=
  combine ops (map d (seq 0 (length ops))).

(** ** C01: AvlMap behaves as an ordered map. *)
Theorem C01_avl_refines : forall (K V : Type) (C : Cmp K) (L : CmpLaws K) (ops : list (map_op K V)),
  outputs avl_step avl_new ops = Ok (map_spec_outputs ops).
Proof. exact @avl_refines. Qed.
Print Assumptions C01_avl_refines.

Example C01_example : outputs avl_step avl_new demo_ops = Ok demo_outs /\ map_spec_outputs demo_ops = demo_outs.
Proof. split; vm_compute; reflexivity. Qed.

(** ** C02: RedBlackMap behaves as an ordered map and never panics. *)
Theorem C02_rb_refines : forall (K V : Type) (C : Cmp K) (L : CmpLaws K) (ops : list (map_op K V)),
  outputs rb_step rb_new ops = Ok (map_spec_outputs ops).
Proof. exact @rb_refines. Qed.
Print Assumptions C02_rb_refines.

Example C02_example : outputs rb_step rb_new demo_ops = Ok demo_outs.
Proof. vm_compute; reflexivity. Qed.

(** ** C03: SplayMap behaves as an ordered map. *)
Theorem C03_splay_refines : forall (K V : Type) (C : Cmp K) (L : CmpLaws K) (ops : list (map_op K V)),
  outputs splay_step splay_new ops = Ok (map_spec_outputs ops).
Proof. exact @splay_refines. Qed.
Print Assumptions C03_splay_refines.

Example C03_example : outputs splay_step splay_new demo_ops = Ok demo_outs.
Proof. vm_compute; reflexivity. Qed.

(** ** C04: TreapMap behaves as an ordered map whatever the random priorities.  Each call comes with the
    number the generator would draw. *)
Theorem C04_treap_refines : forall (K V : Type) (C : Cmp K) (L : CmpLaws K) (ops : list (map_op K V * N)),
  outputs treap_step Leaf ops = Ok (map_spec_outputs (map fst ops)).
Proof. exact @treap_refines. Qed.
Print Assumptions C04_treap_refines.

Example C04_example :
  outputs treap_step Leaf (with_draws (fun i => N.of_nat ((i * 7) mod 5)) demo_ops) = Ok demo_outs.
Proof. vm_compute; reflexivity. Qed.

(** ** C06: iterators. *)
Theorem C06_avl_iterators : forall (K V : Type) (C : Cmp K) (L : CmpLaws K),
  iterators_correct (V := V) (outputs avl_step avl_new).
Proof. exact (fun K V C L => refines_iterators _ avl_refines). Qed.
Print Assumptions C06_avl_iterators.

Theorem C06_rb_iterators : forall (K V : Type) (C : Cmp K) (L : CmpLaws K),
  iterators_correct (V := V) (outputs rb_step rb_new).
Proof. exact (fun K V C L => refines_iterators _ rb_refines). Qed.
Print Assumptions C06_rb_iterators.

Theorem C06_splay_iterators : forall (K V : Type) (C : Cmp K) (L : CmpLaws K),
  iterators_correct (V := V) (outputs splay_step splay_new).
Proof. exact (fun K V C L => refines_iterators _ splay_refines). Qed.
Print Assumptions C06_splay_iterators.

Theorem C06_treap_iterators : forall (K V : Type) (C : Cmp K) (L : CmpLaws K) (d : nat -> N),
  iterators_correct (V := V) (fun ops => outputs treap_step Leaf (with_draws d ops)).
Proof. exact (fun K V C L d => refines_iterators _ (treap_refines_draws d)). Qed.
Print Assumptions C06_treap_iterators.

(** Call by call, on a tree of any shape, also past the end. *)
Theorem C06_next : forall (A K V : Type) (t : tree A K V) (n : nat),
  iter_nth n (iter_new t) = nth_error (inorder t) n.
Proof. exact @iter_nth_new. Qed.
Print Assumptions C06_next.

Example C06_example : iter_nth 1 (iter_new (Node tt (Node tt Leaf (1, 10) Leaf) (2, 20) (Node tt Leaf (3, 30) Leaf)))
  = Some (2, 20).
Proof. reflexivity. Qed.

(** ** C07: AVL balance.  Fails after a remove ... *)
Theorem C07_avl_balanced_refuted : exists (ops : list (map_op nat nat)) m outs,
  run avl_step avl_new ops = Ok (m, outs) /\ ~ avl_balanced (bm_tree m) /\ ~ fib_depth (bm_tree m).
Proof. exact avl_unbalanced_witness. Qed.
Print Assumptions C07_avl_balanced_refuted.

(** ... and not only by a little: the depth exceeds any multiple of the logarithm of the number of keys. *)
Theorem C07_avl_depth_refuted : forall c : nat, exists (ops : list (map_op nat unit)) m outs,
  run avl_step avl_new ops = Ok (m, outs) /\ c * Nat.log2 (S (size (bm_tree m))) < depth (bm_tree m).
Proof. exact avl_not_logarithmic. Qed.
Print Assumptions C07_avl_depth_refuted.

(** Holds as long as only the smallest or the largest key is removed.  Full statement: the same without
    [removes_ends [] ops]; refuted above. *)
Theorem C07_avl_balanced_partial : forall (K V : Type) (C : Cmp K) (L : CmpLaws K)
    (ops : list (map_op K V)) m outs,
  removes_ends [] ops -> run avl_step avl_new ops = Ok (m, outs) ->
  avl_balanced (bm_tree m) /\ fib_depth (bm_tree m).
Proof. exact @avl_ends_balanced. Qed.
Print Assumptions C07_avl_balanced_partial.

Example C07_example : exists m outs,
  let ops := map (fun k => MInsert k k) (seq 0 20) ++ map MRemove [0; 1; 19; 2; 3; 4; 77; 18; 5; 6] in
  removes_ends [] ops /\ run avl_step avl_new ops = Ok (m, outs) /\ depth (bm_tree m) = 4 /\ size (bm_tree m) = 11.
Proof. eexists; eexists; vm_compute; intuition auto. Qed.

(** ** C08: red-black balance. *)
Theorem C08_rb_balanced : forall (K V : Type) (C : Cmp K) (L : CmpLaws K)
    (ops : list (map_op K V)) b outs,
  run rb_step rb_new ops = Ok (b, outs) ->
  rb_balanced red_color (bm_tree b) /\ log_depth (bm_tree b).
Proof. exact @rb_reachable_balanced. Qed.
Print Assumptions C08_rb_balanced.

Example C08_example : exists b outs,
  run rb_step rb_new (map (fun k => MInsert k k) (seq 0 12) ++ map MRemove (seq 2 6)) = Ok (b, outs) /\
  size (bm_tree b) = 6 /\ depth (bm_tree b) = 3.
Proof. eexists; eexists; vm_compute; auto. Qed.

(** ** C09: treap heap order and length, in every variable of every program over treaps. *)
Theorem C09_treap_invariants : forall (K V : Type) (C : Cmp K) (L : CmpLaws K)
    (ops : list (prog_op K V * N)) rs outs,
  run treap_prog_step (fun _ => Leaf) ops = Ok (rs, outs) ->
  forall i, heap_ordered fst (rs i) /\ t_len (rs i) = length (inorder (rs i)).
Proof. exact @treap_prog_inv. Qed.
Print Assumptions C09_treap_invariants.

Example C09_example : exists rs outs,
  run treap_prog_step (fun _ => Leaf)
    [(POp 0 (MInsert 1 10), 5%N); (POp 0 (MInsert 2 20), 9%N); (POp 1 (MInsert 2 21), 7%N);
     (POp 1 (MInsert 3 31), 9%N); (PSet SUnion 2 0 1, 0%N)] = Ok (rs, outs) /\
  inorder (rs 2) = [(1, 10); (2, 20); (3, 31)].
Proof. eexists; eexists; split; vm_compute; reflexivity. Qed.

(** ** C10: the shape of a treap is determined by its pairs and their priorities. *)
Theorem C10_treap_history_independent : forall (K V : Type) (C : Cmp K) (L : CmpLaws K)
    (ops1 ops2 : list (map_op K V * N)) t1 t2 outs1 outs2,
  run treap_step Leaf ops1 = Ok (t1, outs1) -> run treap_step Leaf ops2 = Ok (t2, outs2) ->
  prio_spec ops1 = prio_spec ops2 -> NoDup (map (fun x => snd (snd x)) (prio_spec ops1)) ->
  t1 = t2.
Proof. exact @treap_shape_history. Qed.
Print Assumptions C10_treap_history_independent.

Example C10_example :
  let ops1 := [(MInsert 1 10, 5%N); (MInsert 2 20, 9%N); (MInsert 3 30, 7%N)] in
  let ops2 := [(MInsert 9 90, 8%N); (MInsert 3 30, 7%N); (MInsert 1 10, 5%N); (MRemove 9, 0%N); (MInsert 2 20, 9%N)] in
  prio_spec (K := nat) (V := nat) ops1 = prio_spec ops2 /\
  map (fun x => snd (snd x)) (prio_spec (K := nat) (V := nat) ops1) = [5; 9; 7]%N.
Proof. split; vm_compute; reflexivity. Qed.

(** ** C11, C12: programs over several TreapMaps with set algebra and split_off. *)
Theorem C11_C12_treap_programs_refine : forall (K V : Type) (C : Cmp K) (L : CmpLaws K)
    (ops : list (prog_op K V * N)),
  outputs treap_prog_step (fun _ => Leaf) ops = Ok (prog_spec_outputs (map fst ops)).
Proof. exact @treap_prog_refines. Qed.
Print Assumptions C11_C12_treap_programs_refine.

Example C11_example :
  prog_spec_outputs
    [POp 0 (MInsert (1, 0) 10); POp 0 (MInsert (2, 0) 20); POp 1 (MInsert (2, 1) 21); POp 1 (MInsert (3, 1) 31);
     PSet SUnion 2 0 1; POp 2 MIter; PSplit 3 2 (2, 9) false; POp 2 MIter; POp 3 MLen; POp 3 MIter] =
    [RPair None; RPair None; RPair None; RPair None; RUnit;
     RList [((1, 0), 10); ((2, 0), 20); ((3, 1), 31)]; RUnit; RList [((1, 0), 10)]; RNat 2;
     RList [((2, 0), 20); ((3, 1), 31)]].
Proof. vm_compute; reflexivity. Qed.

(** The specification's set operations say what set algebra says, key by key. *)
Theorem C11_spec_set_pointwise : forall (K V : Type) (C : Cmp K) (L : CmpLaws K) (s : set_op)
    (a b : list (K * V)),
  strictly_ascending a -> strictly_ascending b ->
  strictly_ascending (spec_set s a b) /\
  forall k, at_key k (spec_set s a b) =
    match s, at_key k a, at_key k b with
    | SUnion, [], y => y
    | SUnion, x, _ => x
    | SInter, _, [] => []
    | SInter, x, _ => x
    | SDiff, x, [] => x
    | SDiff, _, _ => []
    | SSymDiff, [], y => y
    | SSymDiff, x, [] => x
    | SSymDiff, _, _ => []
    end.
Proof. exact @spec_set_pointwise. Qed.
Print Assumptions C11_spec_set_pointwise.

(** ** C45: set types. *)
Theorem C45_avl_set : forall (K : Type) (C : Cmp K) (L : CmpLaws K) (ops : list (kset_op K)),
  outputs (wrap_step kset_call kset_ret avl_step) avl_new ops = Ok (kset_spec_outputs ops).
Proof. exact (fun K C L => kset_refines avl_step avl_new avl_refines). Qed.
Print Assumptions C45_avl_set.

Theorem C45_rb_set : forall (K : Type) (C : Cmp K) (L : CmpLaws K) (ops : list (kset_op K)),
  outputs (wrap_step kset_call kset_ret rb_step) rb_new ops = Ok (kset_spec_outputs ops).
Proof. exact (fun K C L => kset_refines rb_step rb_new rb_refines). Qed.
Print Assumptions C45_rb_set.

Theorem C45_splay_set : forall (K : Type) (C : Cmp K) (L : CmpLaws K) (ops : list (kset_op K)),
  outputs (wrap_step kset_call kset_ret splay_step) splay_new ops = Ok (kset_spec_outputs ops).
Proof. exact (fun K C L => kset_refines splay_step splay_new splay_refines). Qed.
Print Assumptions C45_splay_set.

Theorem C45_treap_set : forall (K : Type) (C : Cmp K) (L : CmpLaws K) (ops : list (kprog_op K * N)),
  outputs (wrap_step (fun od => (kprog_call (fst od), snd od)) kset_ret treap_prog_step) (fun _ => Leaf) ops
    = Ok (kprog_spec_outputs (map fst ops)).
Proof. exact (fun K C L => kprog_refines_draws treap_prog_step _ treap_prog_refines). Qed.
Print Assumptions C45_treap_set.

Example C45_example :
  kset_spec_outputs [KInsert (1, 0); KInsert (1, 1); KInsert (0, 0); KIter; KRemove (1, 7); KContains (1, 0); KLen]
  = [KKey None; KKey (Some (1, 0)); KKey None; KList [(0, 0); (1, 1)]; KKey (Some (1, 1)); KBool false; KNat 1].
Proof. vm_compute; reflexivity. Qed.

(** ** C46: splaying brings the accessed key to the root. *)
Theorem C46_splay_root_insert : forall (K V : Type) (C : Cmp K) (L : CmpLaws K)
    (ops : list (map_op K V)) m outs k v m' o,
  run splay_step splay_new ops = Ok (m, outs) -> splay_step m (MInsert k v) = Ok (m', o) ->
  root_key (bm_tree m') = Some k.
Proof. exact @splay_root_insert. Qed.
Print Assumptions C46_splay_root_insert.

Theorem C46_splay_root_get_mut : forall (K V : Type) (C : Cmp K) (L : CmpLaws K)
    (ops : list (map_op K V)) m outs k v m' x,
  run splay_step splay_new ops = Ok (m, outs) -> splay_step m (MGetMut k v) = Ok (m', RVal (Some x)) ->
  exists k', root_key (bm_tree m') = Some k' /\ cmp k k' = Eq.
Proof. exact @splay_root_get_mut. Qed.
Print Assumptions C46_splay_root_get_mut.

Example C46_example : exists m outs m' x,
  run splay_step splay_new (map (fun k => MInsert k k) (seq 0 8)) = Ok (m, outs) /\
  splay_step m (MGetMut 2 5) = Ok (m', RVal (Some x)) /\ root_key (bm_tree m) = Some 7 /\ root_key (bm_tree m') = Some 2.
Proof. do 4 eexists; vm_compute; repeat split; reflexivity. Qed.
