(** Model of /repo/src/red_black_tree. *)
From Verif Require Export BstModel.

(** Color: red_black_tree/node.rs:7-19. *)
Inductive color := Red | Black.
Definition flip (c : color) : color := match c with Red => Black | Black => Red end.

Section Rb.
  Context {K V : Type} `{Cmp K}.

  Notation rb := (tree color K V).

  (** is_red: red_black_tree/tree.rs:9-14. *)
  Definition is_red (t : rb) : bool := match t with Node Red _ _ _ => true | _ => false end.

  (** The test [if let Some(child) = t { child.color == Red && is_red(&child.left) } else false]:
      node.rs:78-84, tree.rs:87-93. *)
  Definition red_red (t : rb) : bool := match t with Node Red cl _ _ => is_red cl | _ => false end.

  (** The test [if let Some(child) = t { child.color != Red && !is_red(&child.left) } else false]:
      tree.rs:20-26, 113-119, 137-143. *)
  Definition should_shift (t : rb) : bool :=
    match t with Node Black cl _ _ => negb (is_red cl) | _ => false end.

  Definition flip_root (t : rb) : rb :=
    match t with Leaf => Leaf | Node c l e r => Node (flip c) l e r end.

  (** Node::flip_colors: red_black_tree/node.rs:39-47. *)
  Definition flip_colors (t : rb) : rb :=
    match t with
    | Leaf => Leaf
    | Node c l e r => Node (flip c) (flip_root l) e (flip_root r)
    end.

  (** Node::rotate_left: red_black_tree/node.rs:49-59. *)
  Definition rb_rotate_left (t : rb) : res rb :=
    match t with
    | Node c l e (Node _ cl ce cr) => Ok (Node c (Node Red l e cl) ce cr)
    | _ => Panic
    end.

  (** Node::rotate_right: red_black_tree/node.rs:61-71. *)
  Definition rb_rotate_right (t : rb) : res rb :=
    match t with
    | Node c (Node _ cl ce cr) e r => Ok (Node c cl ce (Node Red cr e r))
    | _ => Panic
    end.

  Definition left_of (t : rb) : rb := match t with Leaf => Leaf | Node _ l _ _ => l end.
  Definition right_of (t : rb) : rb := match t with Leaf => Leaf | Node _ _ _ r => r end.
  Definition set_left (t l' : rb) : rb := match t with Leaf => Leaf | Node c _ e r => Node c l' e r end.
  Definition set_right (t r' : rb) : rb := match t with Leaf => Leaf | Node c l e _ => Node c l e r' end.

  (** Node::balance: red_black_tree/node.rs:73-92. *)
  Definition rb_balance (t : rb) : res rb :=
    let* t1 := if is_red (right_of t) then rb_rotate_left t else Ok t in
    let* t2 := if red_red (left_of t1) then rb_rotate_right t1 else Ok t1 in
    Ok (if is_red (left_of t2) && is_red (right_of t2) then flip_colors t2 else t2).

  (** Node::shift_left: red_black_tree/node.rs:94-106. *)
  Definition shift_left (t : rb) : res rb :=
    let t1 := flip_colors t in
    match right_of t1 with
    | Leaf => Ok t1
    | Node c cl e cr =>
        if is_red cl then
          let* child := rb_rotate_right (Node c cl e cr) in
          let* t2 := rb_rotate_left (set_right t1 child) in
          Ok (flip_colors t2)
        else Ok t1
    end.

  (** Node::shift_right: red_black_tree/node.rs:108-119. *)
  Definition shift_right (t : rb) : res rb :=
    let t1 := flip_colors t in
    match left_of t1 with
    | Leaf => Ok t1
    | Node _ cl _ _ =>
        if is_red cl then
          let* t2 := rb_rotate_right t1 in
          Ok (flip_colors t2)
        else Ok t1
    end.

  (** remove_min: red_black_tree/tree.rs:16-40.  Recursion goes into the left child of the shifted
      node, so it takes fuel.  Only the entry of the detached node is used by the caller. *)
  Fixpoint rb_remove_min (fuel : nat) (t : rb) : res (rb * (K * V)) :=
    match fuel with
    | O => Timeout
    | S f =>
        match t with
        | Leaf => Panic
        | Node _ l e r =>
            if is_none l then Ok (r, e)
            else
              let* t1 := if should_shift l then shift_left t else Ok t in
              let* (l', m) := rb_remove_min f (left_of t1) in
              let* t2 := rb_balance (set_left t1 l') in
              Ok (t2, m)
        end
    end.

  (** combine_subtrees: red_black_tree/tree.rs:42-52. *)
  Definition rb_combine (fuel : nat) (l r : rb) (c : color) : res rb :=
    let* (r', m) := rb_remove_min fuel r in Ok (Node c l m r').

  (** fix_root: red_black_tree/tree.rs:54-60. *)
  Definition fix_root (t : rb) : rb :=
    match t with
    | Leaf => Leaf
    | Node c l e r => if negb (is_red l) && negb (is_red r) then Node Red l e r else t
    end.

  (** The tail of insert: red_black_tree/tree.rs:81-100. *)
  Definition rb_insert_fix (t : rb) : res rb :=
    let* t1 := if is_red (right_of t) && negb (is_red (left_of t)) then rb_rotate_left t else Ok t in
    let* t2 := if red_red (left_of t1) then rb_rotate_right t1 else Ok t1 in
    Ok (if is_red (left_of t2) && is_red (right_of t2) then flip_colors t2 else t2).

  (** insert: red_black_tree/tree.rs:62-103. *)
  Fixpoint rb_ins (t : rb) (k : K) (v : V) : res (rb * option (K * V)) :=
    match t with
    | Leaf => Ok (Node Red Leaf (k, v) Leaf, None)
    | Node c l e r =>
        let* (t1, o) :=
          match cmp k (fst e) with
          | Lt => let* (l', o) := rb_ins l k v in Ok (Node c l' e r, o)
          | Gt => let* (r', o) := rb_ins r k v in Ok (Node c l e r', o)
          | Eq => Ok (Node c l (k, v) r, Some e)
          end in
        let* t2 := rb_insert_fix t1 in
        Ok (t2, o)
    end.

  Definition entry_of (t : rb) : option (K * V) :=
    match t with Leaf => None | Node _ _ e _ => Some e end.
  Definition key_is (k : K) (t : rb) : bool :=
    match t with Leaf => false | Node _ _ e _ => is_eq (cmp k (fst e)) end.

  (** remove: red_black_tree/tree.rs:105-172.  Fuel bounds the recursion depth. *)
  Fixpoint rb_rem (fuel : nat) (t : rb) (k : K) : res (rb * option (K * V)) :=
    match fuel with
    | O => Timeout
    | S f =>
        match t with
        | Leaf => Ok (Leaf, None)
        | Node _ l e r =>
            if is_lt (cmp k (fst e)) then
              let* t1 := if should_shift l then shift_left t else Ok t in
              let* (l', o) := rb_rem f (left_of t1) k in
              let* t2 := rb_balance (set_left t1 l') in
              Ok (t2, o)
            else
              let* t1 := if is_red l then rb_rotate_right t else Ok t in
              if key_is k t1 && is_none (right_of t1) then
                let* _ := assert (is_none (left_of t1)) in
                Ok (Leaf, entry_of t1)
              else
                let* t2 := if should_shift (right_of t1) then shift_right t1 else Ok t1 in
                if key_is k t2 then
                  match t2 with
                  | Leaf => Panic
                  | Node c2 l2 e2 r2 =>
                      let* t3 := rb_combine f l2 r2 c2 in
                      let* t4 := rb_balance t3 in
                      Ok (t4, Some e2)
                  end
                else
                  let* (r', o) := rb_rem f (right_of t2) k in
                  let* t3 := rb_balance (set_right t2 r') in
                  Ok (t3, o)
        end
    end.

  Definition blacken (t : rb) : rb := match t with Leaf => Leaf | Node _ l e r => Node Black l e r end.

  (** RedBlackMap::insert on the tree: red_black_tree/map.rs:66-87. *)
  Definition rb_insert (t : rb) (k : K) (v : V) : res (rb * option (K * V)) :=
    let* (t', o) := rb_ins t k v in Ok (blacken t', o).

  (** RedBlackMap::remove on the tree: red_black_tree/map.rs:102-125. *)
  Definition rb_remove (t : rb) (k : K) : res (rb * option (K * V)) :=
    let t1 := fix_root t in
    let* (t', o) := rb_rem (S (size t1)) t1 k in Ok (blacken t', o).

  Definition rb_get_mut_set (t : rb) (k : K) (v : V) : res (rb * option (K * V)) :=
    Ok (bst_get_mut_set t k v).

  (** RedBlackMap: red_black_tree/map.rs. *)
  Definition rb_map := bmap color K V.
  Definition rb_new : rb_map := bmap_new.
  Definition rb_step : rb_map -> map_op K V -> res (rb_map * map_out K V) :=
    bmap_step rb_insert rb_remove rb_get_mut_set.
End Rb.
