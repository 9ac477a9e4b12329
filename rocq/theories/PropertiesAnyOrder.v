(** Property theorems about maps whose keys are compared arbitrarily: C69. *)
From Verif Require Import AnyOrderSpec AnyOrderModel AnyOrderInstances AnyOrderProofs AnyOrderRefuted.
From Coq Require Import Permutation.

(** ** C69: with any comparison, even one that differs from call to call, SkipMap stays memory safe: every
    call returns, no pair is lost or invented, [len] is right, and dropping the map frees every node. *)
Theorem C69_skip_map : forall (K V : Type) (ops : list (Cmp K * (map_op K V * N))), exists m outs l,
  run skip_any_step skip_new ops = Ok (m, outs) /\ loose_run [] (map (fun p => (fst p, fst (snd p))) ops) outs l /\
  skip_iter m = Ok l /\ sk_len m = length l /\ live_nodes (sk_heap m) = S (length l) /\
  exists h, skip_drop m = Ok (h, l) /\ live_nodes h = 0.
Proof. exact @skip_any_order. Qed.
Print Assumptions C69_skip_map.

Example C69_skip_map_example :
  outputs skip_any_step skip_new (with_draws uneven mixed_calls) = Ok
    [RPair None; RPair (Some (1, 10)); RPair None; RPair None; RPair None; RVal (Some 31);
     RPair (Some (2, 20)); RPair (Some (8, 80)); RPair None; RPair (Some (3, 31)); RKey (Some 4);
     RKey (Some 4); RKey (Some 3); RKey (Some 4); RBool false; RIndex (Ok 40); RNat 2; RList [(3, 30); (4, 40)];
     RPair (Some (3, 30)); RPair None; RPair (Some (6, 60)); RBool false; RList [(5, 50); (4, 40)]].
Proof. vm_compute; reflexivity. Qed.

(** The same for AvlMap and TreapMap. *)
Theorem C69_avl_map : forall (K V : Type) (ops : list (Cmp K * map_op K V)), exists m outs,
  run avl_any_step bmap_new ops = Ok (m, outs) /\ loose_run [] ops outs (inorder (bm_tree m)).
Proof. exact @avl_any_order. Qed.
Print Assumptions C69_avl_map.

Example C69_avl_map_example :
  outputs avl_any_step bmap_new mixed_calls = Ok
    [RPair None; RPair None; RPair None; RPair None; RPair None; RVal (Some 10); RPair (Some (1, 10));
     RPair (Some (8, 80)); RPair None; RPair (Some (3, 30)); RKey (Some 2); RKey (Some 2); RKey (Some 2);
     RKey (Some 4); RBool true; RIndex (Ok 20); RNat 3; RList [(2, 20); (3, 31); (4, 40)];
     RPair None; RPair (Some (2, 20)); RPair (Some (3, 31)); RBool false; RList [(6, 60); (5, 50); (4, 40)]].
Proof. vm_compute; reflexivity. Qed.

Theorem C69_treap_map : forall (K V : Type) (ops : list (Cmp K * (map_op K V * N))), exists t outs,
  run treap_any_step Leaf ops = Ok (t, outs) /\ loose_run [] (map (fun p => (fst p, fst (snd p))) ops) outs (inorder t).
Proof. exact @treap_any_order. Qed.
Print Assumptions C69_treap_map.

Example C69_treap_map_example :
  outputs treap_any_step Leaf (with_draws uneven mixed_calls) = Ok
    [RPair None; RPair None; RPair None; RPair None; RPair None; RVal (Some 10); RPair (Some (1, 10));
     RPair (Some (8, 80)); RPair None; RPair (Some (4, 40)); RKey (Some 2); RKey (Some 2); RKey (Some 2);
     RKey (Some 3); RBool true; RIndex (Ok 20); RNat 3; RList [(2, 20); (3, 30); (3, 31)];
     RPair None; RPair (Some (2, 20)); RPair (Some (3, 30)); RBool false; RList [(6, 60); (3, 31); (5, 50)]].
Proof. vm_compute; reflexivity. Qed.

(** What these runs conserve: without calls that write in place, the pairs inserted are the pairs given back
    and the pairs still there. *)
Theorem C69_pairs_conserved : forall (K V : Type) (ops : list (Cmp K * map_op K V)) outs l,
  loose_run [] ops outs l -> (forall p, In p ops -> in_place (snd p) = false) ->
  Permutation (flat_map handed_in (map snd ops)) (given_back (map snd ops) outs ++ l).
Proof. exact (fun K V ops outs l => loose_conserves ops outs [] l). Qed.
Print Assumptions C69_pairs_conserved.

Example C69_pairs_conserved_example :
  flat_map handed_in (map snd mixed_calls) =
    [(1, 10); (2, 20); (3, 30); (3, 31); (4, 40); (8, 80); (5, 50); (6, 60)] /\
  rmap (given_back (map snd mixed_calls)) (outputs skip_any_step skip_new (with_draws uneven mixed_calls)) =
    Ok [(1, 10); (2, 20); (8, 80); (3, 31); (3, 30); (6, 60); (5, 50); (4, 40)] /\
  forallb (fun p => negb (in_place (snd p))) mixed_calls = true.
Proof. split; [|split]; vm_compute; reflexivity. Qed.

(** A comparison that changes while a call runs is another matter: if [remove] finds the key at level 0 but
    did not find it above, the node is freed while links to it remain, and the next call reads it. *)
Theorem C69_skip_remove_by : forall (K V : Type) (C : Cmp K) (m : @skip_map K V) k,
  skip_remove_by (fun _ => C) m k = skip_remove m k.
Proof. exact @remove_by_constant. Qed.
Print Assumptions C69_skip_remove_by.

Theorem C69_skip_changing_refuted : exists (ops : list (Cmp nat * (map_op nat nat * N))) m outs m' e,
  run skip_any_step skip_new ops = Ok (m, outs) /\ skip_remove_by changing m 1 = Ok (m', Some e) /\
  skip_any_step m' (nat_cmp, (MInsert 5 50, 4294967295%N)) = Panic.
Proof. exact skip_changing_refuted. Qed.
Print Assumptions C69_skip_changing_refuted.

(** ** RedBlackMap: nothing is lost as long as calls return... *)
Theorem C69_red_black_map_partial : forall (K V : Type) (ops : list (Cmp K * map_op K V)) m outs,
  run rb_any_step bmap_new ops = Ok (m, outs) -> loose_run [] ops outs (inorder (bm_tree m)).
Proof. exact @rb_any_order. Qed.
Print Assumptions C69_red_black_map_partial.

Example C69_red_black_map_example :
  outputs rb_any_step bmap_new mixed_calls = Ok
    [RPair None; RPair None; RPair None; RPair None; RPair None; RVal (Some 31); RPair (Some (3, 31));
     RPair (Some (8, 80)); RPair None; RPair (Some (1, 10)); RKey (Some 2); RKey (Some 2); RKey (Some 2);
     RKey (Some 4); RBool true; RIndex (Ok 20); RNat 3; RList [(2, 20); (3, 30); (4, 40)];
     RPair None; RPair (Some (2, 20)); RPair (Some (3, 30)); RBool false; RList [(6, 60); (5, 50); (4, 40)]].
Proof. vm_compute; reflexivity. Qed.

(** ... but an inconsistent comparison, the same at every call, makes [remove] panic. *)
Theorem C69_red_black_returns_refuted : exists (c : Cmp nat) (ops : list (map_op nat nat)),
  run rb_any_step bmap_new (map (fun o => (c, o)) ops) = Panic.
Proof. exact red_black_returns_refuted. Qed.
Print Assumptions C69_red_black_returns_refuted.

(** ** SplayMap: every call returns, and nothing is lost without [remove]... *)
Theorem C69_splay_map_returns : forall (K V : Type) (ops : list (Cmp K * map_op K V)), exists m outs,
  run splay_any_step bmap_new ops = Ok (m, outs) /\ length (inorder (bm_tree m)) <= bm_len m.
Proof. exact @splay_any_returns. Qed.
Print Assumptions C69_splay_map_returns.

Theorem C69_splay_map_partial : forall (K V : Type) (ops : list (Cmp K * map_op K V)),
  (forall c k, ~ In (c, MRemove k) ops) -> exists m outs,
  run splay_any_step bmap_new ops = Ok (m, outs) /\ loose_run [] ops outs (inorder (bm_tree m)).
Proof. exact @splay_any_order. Qed.
Print Assumptions C69_splay_map_partial.

Example C69_splay_map_example :
  outputs splay_any_step bmap_new
    [(nonsense, MInsert 1 10); (nonsense, MInsert 2 20); (never_equal, MInsert 2 21); (all_equal, MGetMut 7 22); (nat_cmp, MIter)]
  = Ok [RPair None; RPair None; RPair None; RVal (Some 21); RList [(2, 20); (1, 10); (2, 22)]].
Proof. vm_compute; reflexivity. Qed.

(** ... but [remove] of a key that equals several drops pairs nobody asked to remove, and [len] still counts them. *)
Theorem C69_splay_remove_refuted : exists (c : Cmp nat) (ops : list (map_op nat nat)) m outs l,
  run splay_any_step bmap_new (map (fun o => (c, o)) (ops ++ [MRemove 9])) = Ok (m, outs) /\
  ~ In (MRemove 9) ops /\ spec_run (@map_spec_step nat nat c) [] ops = (l, firstn (length ops) outs) /\
  length l = 5 /\ length (inorder (bm_tree m)) = 3 /\ bm_len m = 4.
Proof. exact splay_remove_refuted. Qed.
Print Assumptions C69_splay_remove_refuted.
