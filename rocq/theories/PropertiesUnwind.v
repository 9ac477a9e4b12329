(** C74: what the tree maps hold after a comparison of keys panicked and the panic was caught. *)
From Verif Require Import UnwindTreapProofs UnwindInstances.

(** AvlMap: no later call fails; a remove that panicked has emptied the map, any other call has changed no pair; an insert that panicked is
    counted by len(). *)
Theorem C74_avl : forall (K V : Type) (C : Cmp K), CmpLaws K -> forall ops : list (map_op K V * nat),
  exists m outs, run avl_step_u avl_new ops = Ok (m, outs) /\ unwind_trace all_or_none [] 0 (combine (map fst ops) outs).
Proof. exact @avl_unwind. Qed.
Print Assumptions C74_avl.
(** RedBlackMap: the same, and the tree stays a red-black tree. *)
Theorem C74_rb : forall (K V : Type) (C : Cmp K), CmpLaws K -> forall ops : list (map_op K V * nat),
  exists m outs, run rb_step_u rb_new ops = Ok (m, outs) /\ unwind_trace all_or_none [] 0 (combine (map fst ops) outs).
Proof. exact @rb_unwind. Qed.
Print Assumptions C74_rb.
Theorem C74_rb_balanced : forall (K V : Type) (C : Cmp K), CmpLaws K -> forall (ops : list (map_op K V * nat)) m outs,
  run rb_step_u rb_new ops = Ok (m, outs) -> rb_balanced red_color (bm_tree m) /\ log_depth (bm_tree m).
Proof. exact @rb_unwind_balanced. Qed.
Print Assumptions C74_rb_balanced.
(** SplayMap: insert, get_mut and remove that panicked leave some pairs around the key, or none at all after remove of a key that is there. *)
Theorem C74_splay : forall (K V : Type) (C : Cmp K), CmpLaws K -> forall ops : list (map_op K V * nat),
  exists m outs, run splay_step_u splay_new ops = Ok (m, outs) /\ unwind_trace around_or_none [] 0 (combine (map fst ops) outs).
Proof. exact @splay_unwind. Qed.
Print Assumptions C74_splay.
(** TreapMap: an insert that panicked may lose pairs around the key; len() may count lost pairs. *)
Theorem C74_treap : forall (K V : Type) (C : Cmp K), CmpLaws K -> forall ops : list (map_op K V * N * nat),
  exists t outs, run treap_step_u Leaf ops = Ok (t, outs) /\
    unwind_trace_within all_but_around [] 0 (combine (map (fun x => fst (fst x)) ops) outs).
Proof. exact @treap_unwind. Qed.
Print Assumptions C74_treap.

(** A call in which no comparison panics is the call of the other theorems; so many comparisons are always enough. *)
Theorem C74_avl_returns : forall (K V : Type) (C : Cmp K), CmpLaws K -> forall (ops : list (map_op K V * nat)) m outs o b,
  run avl_step_u avl_new ops = Ok (m, outs) -> 4 * S (length (inorder (bm_tree m))) <= b ->
  exists m' out, avl_step_u m (o, b) = Ok (m', Some out) /\ avl_step m o = Ok (m', out).
Proof. exact @avl_unwind_enough. Qed.
Print Assumptions C74_avl_returns.
Theorem C74_rb_returns : forall (K V : Type) (C : Cmp K), CmpLaws K -> forall (ops : list (map_op K V * nat)) m outs o b,
  run rb_step_u rb_new ops = Ok (m, outs) -> 4 * S (length (inorder (bm_tree m))) <= b ->
  exists m' out, rb_step_u m (o, b) = Ok (m', Some out) /\ rb_step m o = Ok (m', out).
Proof. exact @rb_unwind_enough. Qed.
Print Assumptions C74_rb_returns.
Theorem C74_splay_returns : forall (K V : Type) (C : Cmp K), CmpLaws K -> forall (ops : list (map_op K V * nat)) m outs o b,
  run splay_step_u splay_new ops = Ok (m, outs) -> 4 * S (length (inorder (bm_tree m))) <= b ->
  exists m' out, splay_step_u m (o, b) = Ok (m', Some out) /\ splay_step m o = Ok (m', out).
Proof. exact @splay_unwind_enough. Qed.
Print Assumptions C74_splay_returns.
Theorem C74_treap_returns : forall (K V : Type) (C : Cmp K), CmpLaws K -> forall (ops : list (map_op K V * N * nat)) t outs o p b,
  run treap_step_u Leaf ops = Ok (t, outs) -> length (inorder t) <= b ->
  exists t' out, treap_step_u t (o, p, b) = Ok (t', Some out) /\ treap_step t (o, p) = Ok (t', out).
Proof. exact @treap_unwind_enough. Qed.
Print Assumptions C74_treap_returns.

Example C74_avl_example : outputs avl_step_u avl_new search_calls = Ok search_outs.
Proof. vm_compute. reflexivity. Qed.
Example C74_rb_example : outputs rb_step_u rb_new search_calls = Ok search_outs.
Proof. vm_compute. reflexivity. Qed.
Example C74_splay_example : outputs splay_step_u splay_new splay_calls = Ok (repeat (Some (RPair None)) 7 ++
  [None; Some (RNat 7); Some (RList [(1, 10); (2, 20); (3, 30); (4, 40); (5, 50)]); None; Some (RNat 8); Some (RList [(1, 10); (2, 20); (3, 30)])]).
Proof. vm_compute. reflexivity. Qed.
Example C74_splay_gone : outputs splay_step_u splay_new splay_gone =
  Ok (repeat (Some (RPair None)) 4 ++ [None; Some (RNat 4); Some (RList [])]).
Proof. vm_compute. reflexivity. Qed.
Example C74_treap_example : outputs treap_step_u Leaf treap_calls = Ok (repeat (Some (RPair None)) 5 ++
  [None; Some (RNat 5); Some (RList [(1, 10); (2, 20); (4, 40)]); None; Some (RPair None); Some (RNat 4);
   Some (RList [(1, 10); (2, 20); (4, 40); (5, 50)])]).
Proof. vm_compute. reflexivity. Qed.

(** It is not true that a call that panicked changes nothing. *)
Theorem C74_avl_unchanged_refuted : ~ forall (ops : list (map_op nat nat * nat)) m outs,
  run avl_step_u avl_new ops = Ok (m, outs) -> unwind_trace everything [] 0 (combine (map fst ops) outs).
Proof. exact avl_changed. Qed.
Print Assumptions C74_avl_unchanged_refuted.
Theorem C74_rb_unchanged_refuted : ~ forall (ops : list (map_op nat nat * nat)) m outs,
  run rb_step_u rb_new ops = Ok (m, outs) -> unwind_trace everything [] 0 (combine (map fst ops) outs).
Proof. exact rb_changed. Qed.
Print Assumptions C74_rb_unchanged_refuted.
Theorem C74_splay_unchanged_refuted : ~ forall (ops : list (map_op nat nat * nat)) m outs,
  run splay_step_u splay_new ops = Ok (m, outs) -> unwind_trace everything [] 0 (combine (map fst ops) outs).
Proof. exact splay_changed. Qed.
Print Assumptions C74_splay_unchanged_refuted.
Theorem C74_treap_unchanged_refuted : ~ forall (ops : list (map_op nat nat * N * nat)) t outs,
  run treap_step_u Leaf ops = Ok (t, outs) -> unwind_trace_within everything [] 0 (combine (map (fun x => fst (fst x)) ops) outs).
Proof. exact treap_changed. Qed.
Print Assumptions C74_treap_unchanged_refuted.
