(** The functions of /repo/src/avl_tree and /repo/src/red_black_tree with a count of their steps: one for each node entered
    and one for each comparison of keys ([cmp], [<] or [==]).  The results are those of AvlModel.v and RbModel.v
    (TreeCostProofs.v); rotations and colour changes, of which there are at most four for each node entered, are not counted. *)
From Verif Require Export AvlModel RbModel.

Section Search.
  Context {A K V : Type} `{Cmp K}.
  Notation tree := (tree A K V).

  (** get, get_mut, ceil, floor, which enter the same nodes: avl_tree/tree.rs:123-179, red_black_tree/tree.rs:174-230 *)
  Fixpoint search_steps (t : tree) (k : K) : nat :=
    match t with
    | Leaf => 0
    | Node _ l e r =>
        2 + match cmp k (fst e) with
            | Lt => search_steps l k
            | Gt => search_steps r k
            | Eq => 0
            end
    end.
  (** min, max: avl_tree/tree.rs:181-205, red_black_tree/tree.rs:232-256 *)
  Fixpoint min_steps (t : tree) : nat := match t with Leaf => 0 | Node _ l _ _ => 1 + min_steps l end.
  Fixpoint max_steps (t : tree) : nat := match t with Leaf => 0 | Node _ _ _ r => 1 + max_steps r end.

  Variable t_insert_c : tree -> K -> V -> res ((tree * option (K * V)) * nat).
  Variable t_remove_c : tree -> K -> res ((tree * option (K * V)) * nat).

  (** One call: avl_tree/map.rs, red_black_tree/map.rs; its result and the number of steps, 0 for the calls that do not look for a key *)
  Definition call_steps (m : bmap A K V) (o : map_op K V) : res nat :=
    match o with
    | MInsert k v => rmap snd (t_insert_c (bm_tree m) k v)
    | MRemove k => rmap snd (t_remove_c (bm_tree m) k)
    | MGet k | MGetMut k _ | MIndex k | MContains k | MFloor k | MCeil k => Ok (search_steps (bm_tree m) k)
    | MMin => Ok (min_steps (bm_tree m))
    | MMax => Ok (max_steps (bm_tree m))
    | _ => Ok 0
    end.
  Definition bmap_step_c (m : bmap A K V) (o : map_op K V) : res (bmap A K V * (map_out K V * nat)) :=
    let* (m', out) := bmap_step (fun t k v => rmap fst (t_insert_c t k v)) (fun t k => rmap fst (t_remove_c t k))
                                (fun t k v => Ok (bst_get_mut_set t k v)) m o in
    let* c := call_steps m o in
    Ok (m', (out, c)).
End Search.

Section AvlCost.
  Context {K V : Type} `{Cmp K}.
  Notation avl := (tree nat K V).

  (** remove_min: avl_tree/tree.rs:43-54 *)
  Fixpoint avl_remove_min_c (t : avl) : res ((avl * (nat * (K * V))) * nat) :=
    match t with
    | Leaf => Panic
    | Node h l e r =>
        match l with
        | Leaf => Ok ((r, (h, e)), 1)
        | _ => let* ((l', m), c) := avl_remove_min_c l in Ok ((Node h l' e r, m), 1 + c)
        end
    end.
  (** combine_subtrees: avl_tree/tree.rs:56-61 *)
  Definition avl_combine_c (l r : avl) : res (avl * nat) :=
    let* ((r', (h, e)), c) := avl_remove_min_c r in Ok (Node h l e r', c).
  (** insert: avl_tree/tree.rs:63-84 *)
  Fixpoint avl_insert_c (t : avl) (k : K) (v : V) : res ((avl * option (K * V)) * nat) :=
    match t with
    | Leaf => Ok ((avl_node_new k v, None), 0)
    | Node h l e r =>
        match cmp k (fst e) with
        | Lt =>
            let* ((l', o), c) := avl_insert_c l k v in
            let* t' := avl_balance (Node h l' e r) in Ok ((t', o), 2 + c)
        | Gt =>
            let* ((r', o), c) := avl_insert_c r k v in
            let* t' := avl_balance (Node h l e r') in Ok ((t', o), 2 + c)
        | Eq => Ok ((Node h l (k, v) r, Some e), 2)
        end
    end.
  (** remove: avl_tree/tree.rs:86-121 *)
  Fixpoint avl_remove_c (t : avl) (k : K) : res ((avl * option (K * V)) * nat) :=
    match t with
    | Leaf => Ok ((Leaf, None), 0)
    | Node h l e r =>
        match cmp k (fst e) with
        | Lt =>
            let* ((l', o), c) := avl_remove_c l k in
            let* t' := avl_balance (Node h l' e r) in Ok ((t', o), 2 + c)
        | Gt =>
            let* ((r', o), c) := avl_remove_c r k in
            let* t' := avl_balance (Node h l e r') in Ok ((t', o), 2 + c)
        | Eq =>
            let* (t1, c) := match l, r with
                            | Leaf, _ => Ok (r, 0)
                            | _, Leaf => Ok (l, 0)
                            | _, _ => avl_combine_c l r
                            end in
            let* t' := avl_balance t1 in Ok ((t', Some e), 2 + c)
        end
    end.

  (** AvlMap: avl_tree/map.rs *)
  Definition avl_step_c : avl_map -> map_op K V -> res (avl_map * (map_out K V * nat)) := bmap_step_c avl_insert_c avl_remove_c.
End AvlCost.

Section RbCost.
  Context {K V : Type} `{Cmp K}.
  Notation rb := (tree color K V).

  (** remove_min: red_black_tree/tree.rs:16-40 *)
  Fixpoint rb_remove_min_c (fuel : nat) (t : rb) : res ((rb * (K * V)) * nat) :=
    match fuel with
    | O => Timeout
    | S f =>
        match t with
        | Leaf => Panic
        | Node _ l e r =>
            if is_none l then Ok ((r, e), 1)
            else
              let* t1 := if should_shift l then shift_left t else Ok t in
              let* ((l', m), c) := rb_remove_min_c f (left_of t1) in
              let* t2 := rb_balance (set_left t1 l') in
              Ok ((t2, m), 1 + c)
        end
    end.
  (** combine_subtrees: red_black_tree/tree.rs:42-52 *)
  Definition rb_combine_c (fuel : nat) (l r : rb) (col : color) : res (rb * nat) :=
    let* ((r', m), c) := rb_remove_min_c fuel r in Ok (Node col l m r', c).
  (** insert: red_black_tree/tree.rs:62-103 *)
  Fixpoint rb_ins_c (t : rb) (k : K) (v : V) : res ((rb * option (K * V)) * nat) :=
    match t with
    | Leaf => Ok ((Node Red Leaf (k, v) Leaf, None), 0)
    | Node col l e r =>
        let* ((t1, o), c) :=
          match cmp k (fst e) with
          | Lt => let* ((l', o), c) := rb_ins_c l k v in Ok ((Node col l' e r, o), 2 + c)
          | Gt => let* ((r', o), c) := rb_ins_c r k v in Ok ((Node col l e r', o), 2 + c)
          | Eq => Ok ((Node col l (k, v) r, Some e), 2)
          end in
        let* t2 := rb_insert_fix t1 in
        Ok ((t2, o), c)
    end.
  (** remove: red_black_tree/tree.rs:105-172 *)
  Fixpoint rb_rem_c (fuel : nat) (t : rb) (k : K) : res ((rb * option (K * V)) * nat) :=
    match fuel with
    | O => Timeout
    | S f =>
        match t with
        | Leaf => Ok ((Leaf, None), 0)
        | Node _ l e r =>
            if is_lt (cmp k (fst e)) then
              let* t1 := if should_shift l then shift_left t else Ok t in
              let* ((l', o), c) := rb_rem_c f (left_of t1) k in
              let* t2 := rb_balance (set_left t1 l') in
              Ok ((t2, o), 2 + c)
            else
              let* t1 := if is_red l then rb_rotate_right t else Ok t in
              if key_is k t1 && is_none (right_of t1) then
                let* _ := assert (is_none (left_of t1)) in
                Ok ((Leaf, entry_of t1), 3)
              else
                let* t2 := if should_shift (right_of t1) then shift_right t1 else Ok t1 in
                if key_is k t2 then
                  match t2 with
                  | Leaf => Panic
                  | Node c2 l2 e2 r2 =>
                      let* (t3, c) := rb_combine_c f l2 r2 c2 in
                      let* t4 := rb_balance t3 in
                      Ok ((t4, Some e2), 4 + c)
                  end
                else
                  let* ((r', o), c) := rb_rem_c f (right_of t2) k in
                  let* t3 := rb_balance (set_right t2 r') in
                  Ok ((t3, o), 4 + c)
        end
    end.

  (** RedBlackMap::insert and remove: red_black_tree/map.rs:66-87, 102-125 *)
  Definition rb_insert_c (t : rb) (k : K) (v : V) : res ((rb * option (K * V)) * nat) :=
    let* ((t', o), c) := rb_ins_c t k v in Ok ((blacken t', o), c).
  Definition rb_remove_c (t : rb) (k : K) : res ((rb * option (K * V)) * nat) :=
    let t1 := fix_root t in
    let* ((t', o), c) := rb_rem_c (S (size t1)) t1 k in Ok ((blacken t', o), c).
  Definition rb_step_c : rb_map -> map_op K V -> res (rb_map * (map_out K V * nat)) := bmap_step_c rb_insert_c rb_remove_c.
End RbCost.
