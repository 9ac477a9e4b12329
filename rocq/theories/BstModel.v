(** Code shared verbatim by the AVL, red-black, splay and treap modules of /repo/src:
    the node type, the read-only searches, get_mut by search, and the three iterators.
    Each of the four modules contains its own textual copy of these functions; the copies are the
    same up to the type of the extra node fields, which is the parameter [A] here. *)
From Verif Require Export MapSpec.

Section Bst.
  Context {A K V : Type} `{Cmp K}.

  (** [Option<Box<Node<T, U>>>]; [a] stands for the extra fields (height / colour / nothing /
      priority and len).  avl_tree/node.rs:7-12, red_black_tree/node.rs:22-27,
      splay_tree/node.rs:5-9, treap/node.rs:5-11; Entry is a pair (entry.rs). *)
  Inductive tree : Type :=
  | Leaf
  | Node (a : A) (l : tree) (e : K * V) (r : tree).

  (** In-order contents (not in the code; the abstraction function). *)
  Fixpoint inorder (t : tree) : list (K * V) :=
    match t with
    | Leaf => []
    | Node _ l e r => inorder l ++ e :: inorder r
    end.

  Fixpoint size (t : tree) : nat :=
    match t with
    | Leaf => 0
    | Node _ l _ r => S (size l + size r)
    end.

  Definition is_none (t : tree) : bool := match t with Leaf => true | _ => false end.

  (** [tree::get]: avl_tree/tree.rs:123-134, red_black_tree/tree.rs:174-185,
      splay_tree/tree.rs:134-145, treap/tree.rs:128-139. *)
  Fixpoint bst_get (t : tree) (k : K) : option (K * V) :=
    match t with
    | Leaf => None
    | Node _ l e r =>
        match cmp k (fst e) with
        | Lt => bst_get l k
        | Gt => bst_get r k
        | Eq => Some e
        end
    end.

  (** [tree::get_mut] (avl_tree/tree.rs:136-147, red_black_tree/tree.rs:187-198,
      treap/tree.rs:141-152) followed by a write of [v] through the returned reference.
      Returns the new tree and the old entry. *)
  Fixpoint bst_get_mut_set (t : tree) (k : K) (v : V) : tree * option (K * V) :=
    match t with
    | Leaf => (Leaf, None)
    | Node a l e r =>
        match cmp k (fst e) with
        | Lt => let (l', o) := bst_get_mut_set l k v in (Node a l' e r, o)
        | Gt => let (r', o) := bst_get_mut_set r k v in (Node a l e r', o)
        | Eq => (Node a l (fst e, v) r, Some e)
        end
    end.

  (** [tree::ceil]: avl_tree/tree.rs:149-163, red_black_tree/tree.rs:200-214,
      splay_tree/tree.rs:161-175, treap/tree.rs:154-168. *)
  Fixpoint bst_ceil (t : tree) (k : K) : option (K * V) :=
    match t with
    | Leaf => None
    | Node _ l e r =>
        match cmp k (fst e) with
        | Gt => bst_ceil r k
        | Lt => match bst_ceil l k with None => Some e | res => res end
        | Eq => Some e
        end
    end.

  (** [tree::floor]: avl_tree/tree.rs:165-179, red_black_tree/tree.rs:216-230,
      splay_tree/tree.rs:177-191, treap/tree.rs:170-184. *)
  Fixpoint bst_floor (t : tree) (k : K) : option (K * V) :=
    match t with
    | Leaf => None
    | Node _ l e r =>
        match cmp k (fst e) with
        | Lt => bst_floor l k
        | Gt => match bst_floor r k with None => Some e | res => res end
        | Eq => Some e
        end
    end.

  (** [tree::min]: avl_tree/tree.rs:181-192, red_black_tree/tree.rs:232-243,
      splay_tree/tree.rs:193-204, treap/tree.rs:186-197. *)
  Fixpoint bst_min (t : tree) : option (K * V) :=
    match t with
    | Leaf => None
    | Node _ l e _ => match l with Leaf => Some e | _ => bst_min l end
    end.

  (** [tree::max]: avl_tree/tree.rs:194-205, red_black_tree/tree.rs:245-256,
      splay_tree/tree.rs:206-217, treap/tree.rs:199-210. *)
  Fixpoint bst_max (t : tree) : option (K * V) :=
    match t with
    | Leaf => None
    | Node _ _ e r => match r with Leaf => Some e | _ => bst_max r end
    end.

  (** ** Iterators by value and by shared reference: state = current tree and a stack of nodes.
      A stack entry keeps the entry and the right child, the only parts of the node read later.
      avl_tree/map.rs:394-449 (AvlMapIntoIter, AvlMapIter) and the same code in
      red_black_tree/map.rs, splay_tree/map.rs, treap/map.rs.  The top of the stack is the head. *)
  Definition iter_state : Type := tree * list ((K * V) * tree).

  (** The [while let Some(node) = current] loop. *)
  Fixpoint push_left (t : tree) (stack : list ((K * V) * tree)) : list ((K * V) * tree) :=
    match t with
    | Leaf => stack
    | Node _ l e r => push_left l ((e, r) :: stack)
    end.

  Definition iter_new (t : tree) : iter_state := (t, []).

  Definition iter_next (s : iter_state) : option (K * V) * iter_state :=
    match push_left (fst s) (snd s) with
    | [] => (None, (Leaf, []))
    | (e, r) :: stack => (Some e, (r, stack))
    end.

  (** What call number [n] of [next()] returns (from 0). *)
  Fixpoint iter_nth (n : nat) (s : iter_state) : option (K * V) :=
    match n with
    | O => fst (iter_next s)
    | S m => iter_nth m (snd (iter_next s))
    end.

  (** Call [next()] until it returns [None], at most [fuel] times. *)
  Fixpoint iter_drain (fuel : nat) (s : iter_state) : res (list (K * V)) :=
    match fuel with
    | O => Timeout
    | S f =>
        match iter_next s with
        | (None, _) => Ok []
        | (Some e, s') => let* l := iter_drain f s' in Ok (e :: l)
        end
    end.

  Definition iter_all (t : tree) : res (list (K * V)) := iter_drain (S (size t)) (iter_new t).

  (** ** Iterator by mutable reference.  A mutable reference to a node is its path from the root
      ([false] = left, innermost step first).  avl_tree/map.rs:457-493 (AvlMapIterMut), same code in
      the other three modules.  The stack keeps (reference to entry, reference to right child). *)
  Definition path := list bool.

  Definition itermut_state : Type := (path * tree) * list (path * (K * V) * (path * tree)).

  Fixpoint push_left_mut (p : path) (t : tree) (stack : list (path * (K * V) * (path * tree)))
    : list (path * (K * V) * (path * tree)) :=
    match t with
    | Leaf => stack
    | Node _ l e r => push_left_mut (false :: p) l ((p, e, (true :: p, r)) :: stack)
    end.

  Definition itermut_new (t : tree) : itermut_state := (([], t), []).

  Definition itermut_next (s : itermut_state) : option (path * (K * V)) * itermut_state :=
    match push_left_mut (fst (fst s)) (snd (fst s)) (snd s) with
    | [] => (None, (([], Leaf), []))
    | (p, e, r) :: stack => (Some (p, e), (r, stack))
    end.

  (** Write [v] to the value of the node at the given path (outermost step first). *)
  Fixpoint write_at (p : list bool) (v : V) (t : tree) : res tree :=
    match t, p with
    | Leaf, _ => Panic
    | Node a l e r, [] => Ok (Node a l (fst e, v) r)
    | Node a l e r, false :: p' => let* l' := write_at p' v l in Ok (Node a l' e r)
    | Node a l e r, true :: p' => let* r' := write_at p' v r in Ok (Node a l e r')
    end.

  (** Call [next()] once per element of [vs], writing the element through the reference obtained.
      Returns the final tree and the pairs seen (before the write). *)
  Fixpoint itermut_writes (s : itermut_state) (vs : list V) (t : tree) : res (tree * list (K * V)) :=
    match vs with
    | [] => Ok (t, [])
    | v :: vs' =>
        match itermut_next s with
        | (None, _) => Ok (t, [])
        | (Some (p, e), s') =>
            let* t' := write_at (rev p) v t in
            let* (t'', es) := itermut_writes s' vs' t' in
            Ok (t'', e :: es)
        end
    end.

  Definition itermut_run (t : tree) (vs : list V) : res (tree * list (K * V)) :=
    itermut_writes (itermut_new t) vs t.

  (** ** The map wrapper shared by AvlMap, RedBlackMap and SplayMap: a tree and a length.
      avl_tree/map.rs:32-298, red_black_tree/map.rs, splay_tree/map.rs. *)
  Record bmap := { bm_tree : tree; bm_len : nat }.

  Definition bmap_new : bmap := {| bm_tree := Leaf; bm_len := 0 |}.

  Variable t_insert : tree -> K -> V -> res (tree * option (K * V)).
  Variable t_remove : tree -> K -> res (tree * option (K * V)).
  Variable t_get_mut_set : tree -> K -> V -> res (tree * option (K * V)).

  (** insert: avl_tree/map.rs:65-80 — len += 1 first, len -= 1 if an old entry was replaced. *)
  Definition bmap_insert (m : bmap) (k : K) (v : V) : res (bmap * option (K * V)) :=
    let len1 := S (bm_len m) in
    let* (t, old) := t_insert (bm_tree m) k v in
    match old with
    | None => Ok ({| bm_tree := t; bm_len := len1 |}, None)
    | Some e => let* len2 := checked_pred len1 in Ok ({| bm_tree := t; bm_len := len2 |}, Some e)
    end.

  (** remove: avl_tree/map.rs:95-109. *)
  Definition bmap_remove (m : bmap) (k : K) : res (bmap * option (K * V)) :=
    let* (t, old) := t_remove (bm_tree m) k in
    match old with
    | None => Ok ({| bm_tree := t; bm_len := bm_len m |}, None)
    | Some e =>
        let* len2 := checked_pred (bm_len m) in Ok ({| bm_tree := t; bm_len := len2 |}, Some e)
    end.

  (** get: avl_tree/map.rs:144-150. *)
  Definition bmap_get (m : bmap) (k : K) : option V := option_map snd (bst_get (bm_tree m) k).

  (** get_mut: avl_tree/map.rs:165-171, followed by a write. *)
  Definition bmap_get_mut_set (m : bmap) (k : K) (v : V) : res (bmap * option V) :=
    let* (t, old) := t_get_mut_set (bm_tree m) k v in
    Ok ({| bm_tree := t; bm_len := bm_len m |}, option_map snd old).

  (** One API call.  avl_tree/map.rs: contains_key 123, len 184, is_empty 198, clear 215, floor 233,
      ceil 254, min 274, max 293, iter 317, iter_mut 345, into_iter 353-363, Index 501-511. *)
  Definition bmap_step (m : bmap) (o : map_op K V) : res (bmap * map_out K V) :=
    match o with
    | MInsert k v => let* (m', old) := bmap_insert m k v in Ok (m', RPair old)
    | MRemove k => let* (m', old) := bmap_remove m k in Ok (m', RPair old)
    | MGet k => Ok (m, RVal (bmap_get m k))
    | MGetMut k v => let* (m', old) := bmap_get_mut_set m k v in Ok (m', RVal old)
    | MIndex k => Ok (m, RIndex (expect (bmap_get m k)))
    | MContains k => Ok (m, RBool (match bmap_get m k with Some _ => true | None => false end))
    | MFloor k => Ok (m, RKey (option_map fst (bst_floor (bm_tree m) k)))
    | MCeil k => Ok (m, RKey (option_map fst (bst_ceil (bm_tree m) k)))
    | MMin => Ok (m, RKey (option_map fst (bst_min (bm_tree m))))
    | MMax => Ok (m, RKey (option_map fst (bst_max (bm_tree m))))
    | MLen => Ok (m, RNat (bm_len m))
    | MIsEmpty => Ok (m, RBool (Nat.eqb (bm_len m) 0))
    | MClear => Ok ({| bm_tree := Leaf; bm_len := 0 |}, RUnit)
    | MIter => let* l := iter_all (bm_tree m) in Ok (m, RList l)
    | MIterMut vs =>
        let* (t, es) := itermut_run (bm_tree m) vs in
        Ok ({| bm_tree := t; bm_len := bm_len m |}, RList es)
    | MIntoIter => let* l := iter_all (bm_tree m) in Ok (bmap_new, RList l)
    end.
End Bst.
Arguments tree : clear implicits.
Arguments bmap : clear implicits.
