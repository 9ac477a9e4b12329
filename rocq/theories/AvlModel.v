(** Model of /repo/src/avl_tree. *)
From Verif Require Export BstModel.

Section Avl.
  Context {K V : Type} `{Cmp K}.

  (** Extra field of a node: its stored height (avl_tree/node.rs:7-12). *)
  Notation avl := (tree nat K V).

  (** Node::new: avl_tree/node.rs:15-22. *)
  Definition avl_node_new (k : K) (v : V) : avl := Node 1 Leaf (k, v) Leaf.

  (** height: avl_tree/tree.rs:9-14. *)
  Definition height (t : avl) : nat := match t with Leaf => 0 | Node h _ _ _ => h end.

  (** Node::update: avl_tree/node.rs:24-32. *)
  Definition avl_update (t : avl) : avl :=
    match t with
    | Leaf => Leaf
    | Node _ l e r => Node (S (Nat.max (height l) (height r))) l e r
    end.

  (** Node::balance: avl_tree/node.rs:34-36 (i32 subtraction; heights are far below 2^31). *)
  Definition avl_bal (t : avl) : Z :=
    match t with
    | Leaf => 0%Z
    | Node _ l _ r => (Z.of_nat (height l) - Z.of_nat (height r))%Z
    end.

  (** Node::rotate_left: avl_tree/node.rs:38-48. *)
  Definition avl_rotate_left (t : avl) : res avl :=
    match t with
    | Node h l e (Node hc cl ce cr) =>
        let child := avl_update (Node h l e cl) in
        Ok (avl_update (Node hc child ce cr))
    | _ => Panic
    end.

  (** Node::rotate_right: avl_tree/node.rs:50-60. *)
  Definition avl_rotate_right (t : avl) : res avl :=
    match t with
    | Node h (Node hc cl ce cr) e r =>
        let child := avl_update (Node h cr e r) in
        Ok (avl_update (Node hc cl ce child))
    | _ => Panic
    end.

  (** balance: avl_tree/tree.rs:16-41. *)
  Definition avl_balance (t : avl) : res avl :=
    match avl_update t with
    | Leaf => Ok Leaf
    | Node h l e r =>
        let b := avl_bal (Node h l e r) in
        if (1 <? b)%Z then
          let* l' := match l with
                     | Leaf => Ok Leaf
                     | _ => if (avl_bal l <? 0)%Z then avl_rotate_left l else Ok l
                     end in
          avl_rotate_right (Node h l' e r)
        else if (b <? -1)%Z then
          let* r' := match r with
                     | Leaf => Ok Leaf
                     | _ => if (0 <? avl_bal r)%Z then avl_rotate_right r else Ok r
                     end in
          avl_rotate_left (Node h l e r')
        else Ok (Node h l e r)
    end.

  (** remove_min: avl_tree/tree.rs:43-54.  Returns the remaining tree and the detached node; the
      detached node's own children are overwritten by the only caller, so only its height and entry
      are returned.  The path to the minimum is neither updated nor rebalanced. *)
  Fixpoint avl_remove_min (t : avl) : res (avl * (nat * (K * V))) :=
    match t with
    | Leaf => Panic
    | Node h l e r =>
        match l with
        | Leaf => Ok (r, (h, e))
        | _ => let* (l', m) := avl_remove_min l in Ok (Node h l' e r, m)
        end
    end.

  (** combine_subtrees: avl_tree/tree.rs:56-61. *)
  Definition avl_combine (l r : avl) : res avl :=
    let* (r', (h, e)) := avl_remove_min r in Ok (Node h l e r').

  (** insert: avl_tree/tree.rs:63-84. *)
  Fixpoint avl_insert (t : avl) (k : K) (v : V) : res (avl * option (K * V)) :=
    match t with
    | Leaf => Ok (avl_node_new k v, None)
    | Node h l e r =>
        match cmp k (fst e) with
        | Lt =>
            let* (l', o) := avl_insert l k v in
            let* t' := avl_balance (Node h l' e r) in Ok (t', o)
        | Gt =>
            let* (r', o) := avl_insert r k v in
            let* t' := avl_balance (Node h l e r') in Ok (t', o)
        | Eq => Ok (Node h l (k, v) r, Some e)
        end
    end.

  (** remove: avl_tree/tree.rs:86-121. *)
  Fixpoint avl_remove (t : avl) (k : K) : res (avl * option (K * V)) :=
    match t with
    | Leaf => Ok (Leaf, None)
    | Node h l e r =>
        match cmp k (fst e) with
        | Lt =>
            let* (l', o) := avl_remove l k in
            let* t' := avl_balance (Node h l' e r) in Ok (t', o)
        | Gt =>
            let* (r', o) := avl_remove r k in
            let* t' := avl_balance (Node h l e r') in Ok (t', o)
        | Eq =>
            let* t1 := match l, r with
                       | Leaf, _ => Ok r
                       | _, Leaf => Ok l
                       | _, _ => avl_combine l r
                       end in
            let* t' := avl_balance t1 in Ok (t', Some e)
        end
    end.

  Definition avl_get_mut_set (t : avl) (k : K) (v : V) : res (avl * option (K * V)) :=
    Ok (bst_get_mut_set t k v).

  (** AvlMap: avl_tree/map.rs. *)
  Definition avl_map := bmap nat K V.
  Definition avl_new : avl_map := bmap_new.
  Definition avl_step : avl_map -> map_op K V -> res (avl_map * map_out K V) :=
    bmap_step avl_insert avl_remove avl_get_mut_set.
End Avl.
