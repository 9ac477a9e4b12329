(** The tree maps when a comparison of two keys panics and the caller catches the panic and goes on with the map.

    [b] is the number of comparisons that return before one panics (calls of [cmp], [<], [==] and [!=] on keys are counted alike; a call that
    makes no more than [b] comparisons returns).  The functions are those of AvlModel.v, RbModel.v, SplayModel.v and TreapModel.v;
    they also say what the unwinding leaves in the tree: local variables are dropped, so a node that was taken
    out of the tree is lost with everything below it, and what is behind a [&mut] stays as it is at that moment. *)
From Verif Require Export AvlModel RbModel SplayModel TreapModel.

(** [Came b t r]: the call returned [r], left [t], and [b] comparisons are left.  [Threw t]: it panicked and left [t]. *)
Inductive outcome (T R : Type) : Type :=
| Came (b : nat) (t : T) (r : R)
| Threw (t : T).
Arguments Came {T R}. Arguments Threw {T R}.

Section BstUnwind.
  Context {A K V : Type} `{Cmp K}.
  Notation tr := (tree A K V).
  Notation out := (outcome tr (option (K * V))).

  (** [None]: the call panicked.  Code references: BstModel.v. *)
  Fixpoint bst_get_u (b : nat) (t : tr) (k : K) {struct t} : option (option (K * V)) :=
    match t with
    | Leaf => Some None
    | Node _ l e r =>
        match b with
        | 0 => None
        | S b =>
            match cmp k (fst e) with
            | Lt => bst_get_u b l k
            | Gt => bst_get_u b r k
            | Eq => Some (Some e)
            end
        end
    end.
  Fixpoint bst_ceil_u (b : nat) (t : tr) (k : K) {struct t} : option (option (K * V)) :=
    match t with
    | Leaf => Some None
    | Node _ l e r =>
        match b with
        | 0 => None
        | S b =>
            match cmp k (fst e) with
            | Gt => bst_ceil_u b r k
            | Lt => match bst_ceil_u b l k with Some None => Some (Some e) | res => res end
            | Eq => Some (Some e)
            end
        end
    end.
  Fixpoint bst_floor_u (b : nat) (t : tr) (k : K) {struct t} : option (option (K * V)) :=
    match t with
    | Leaf => Some None
    | Node _ l e r =>
        match b with
        | 0 => None
        | S b =>
            match cmp k (fst e) with
            | Lt => bst_floor_u b l k
            | Gt => match bst_floor_u b r k with Some None => Some (Some e) | res => res end
            | Eq => Some (Some e)
            end
        end
    end.
  Fixpoint bst_get_mut_set_u (b : nat) (t : tr) (k : K) (v : V) {struct t} : out :=
    match t with
    | Leaf => Came b Leaf None
    | Node a l e r =>
        match b with
        | 0 => Threw t
        | S b =>
            match cmp k (fst e) with
            | Lt => match bst_get_mut_set_u b l k v with
                    | Came b l' o => Came b (Node a l' e r) o
                    | Threw l' => Threw (Node a l' e r)
                    end
            | Gt => match bst_get_mut_set_u b r k v with
                    | Came b r' o => Came b (Node a l e r') o
                    | Threw r' => Threw (Node a l e r')
                    end
            | Eq => Came b (Node a l (fst e, v) r) (Some e)
            end
        end
    end.

  Variable t_insert : nat -> tr -> K -> V -> res out.
  Variable t_remove : nat -> tr -> K -> res out.
  Variable t_get_mut_set : nat -> tr -> K -> V -> res out.

  (** A call of a map with a length field, as in [bmap_step]; [None]: it panicked.  avl_tree/map.rs:65-80 (insert counts first), 95-109. *)
  Definition reading (m : bmap A K V) {X} (o : option X) (f : X -> map_out K V) : res (bmap A K V * option (map_out K V)) :=
    Ok (m, option_map f o).
  Definition bmap_step_u (m : bmap A K V) (op : map_op K V * nat) : res (bmap A K V * option (map_out K V)) :=
    let (o, b) := op in
    let t := bm_tree m in
    let n := bm_len m in
    match o with
    | MInsert k v =>
        let* x := t_insert b t k v in
        match x with
        | Came _ t None => Ok ({| bm_tree := t; bm_len := S n |}, Some (RPair None))
        | Came _ t (Some e) => let* n := checked_pred (S n) in Ok ({| bm_tree := t; bm_len := n |}, Some (RPair (Some e)))
        | Threw t => Ok ({| bm_tree := t; bm_len := S n |}, None)
        end
    | MRemove k =>
        let* x := t_remove b t k in
        match x with
        | Came _ t None => Ok ({| bm_tree := t; bm_len := n |}, Some (RPair None))
        | Came _ t (Some e) => let* n := checked_pred n in Ok ({| bm_tree := t; bm_len := n |}, Some (RPair (Some e)))
        | Threw t => Ok ({| bm_tree := t; bm_len := n |}, None)
        end
    | MGetMut k v =>
        let* x := t_get_mut_set b t k v in
        match x with
        | Came _ t o => Ok ({| bm_tree := t; bm_len := n |}, Some (RVal (option_map snd o)))
        | Threw t => Ok ({| bm_tree := t; bm_len := n |}, None)
        end
    | MGet k => reading m (bst_get_u b t k) (fun e => RVal (option_map snd e))
    | MIndex k => reading m (bst_get_u b t k) (fun e => RIndex (expect (option_map snd e)))
    | MContains k => reading m (bst_get_u b t k) (fun e => RBool (match e with Some _ => true | None => false end))
    | MFloor k => reading m (bst_floor_u b t k) (fun e => RKey (option_map fst e))
    | MCeil k => reading m (bst_ceil_u b t k) (fun e => RKey (option_map fst e))
    | MMin => Ok (m, Some (RKey (option_map fst (bst_min t))))
    | MMax => Ok (m, Some (RKey (option_map fst (bst_max t))))
    | MLen => Ok (m, Some (RNat n))
    | MIsEmpty => Ok (m, Some (RBool (Nat.eqb n 0)))
    | MClear => Ok ({| bm_tree := Leaf; bm_len := 0 |}, Some RUnit)
    | MIter => let* l := iter_all t in Ok (m, Some (RList l))
    | MIterMut vs => let* (t', es) := itermut_run t vs in Ok ({| bm_tree := t'; bm_len := n |}, Some (RList es))
    | MIntoIter => let* l := iter_all t in Ok (bmap_new, Some (RList l))
    end.
End BstUnwind.

Section TreeUnwind.
  Context {K V : Type} `{Cmp K}.

  (** avl_tree/tree.rs:63-84: [node] is a [&mut], so the subtree that is left stays in its place; nothing is balanced. *)
  Fixpoint avl_insert_u (b : nat) (t : tree nat K V) (k : K) (v : V) {struct t} : res (outcome (tree nat K V) (option (K * V))) :=
    match t with
    | Leaf => Ok (Came b (avl_node_new k v) None)
    | Node h l e r =>
        match b with
        | 0 => Ok (Threw t)
        | S b =>
            match cmp k (fst e) with
            | Lt =>
                let* x := avl_insert_u b l k v in
                match x with
                | Came b l' o => let* t' := avl_balance (Node h l' e r) in Ok (Came b t' o)
                | Threw l' => Ok (Threw (Node h l' e r))
                end
            | Gt =>
                let* x := avl_insert_u b r k v in
                match x with
                | Came b r' o => let* t' := avl_balance (Node h l e r') in Ok (Came b t' o)
                | Threw r' => Ok (Threw (Node h l e r'))
                end
            | Eq => Ok (Came b (Node h l (k, v) r) (Some e))
            end
        end
    end.

  (** avl_tree/tree.rs:86-121: [node] was taken out of the tree. *)
  Fixpoint avl_remove_u (b : nat) (t : tree nat K V) (k : K) {struct t} : res (outcome (tree nat K V) (option (K * V))) :=
    match t with
    | Leaf => Ok (Came b Leaf None)
    | Node h l e r =>
        match b with
        | 0 => Ok (Threw Leaf)
        | S b =>
            match cmp k (fst e) with
            | Lt =>
                let* x := avl_remove_u b l k in
                match x with
                | Came b l' o => let* t' := avl_balance (Node h l' e r) in Ok (Came b t' o)
                | Threw _ => Ok (Threw Leaf)
                end
            | Gt =>
                let* x := avl_remove_u b r k in
                match x with
                | Came b r' o => let* t' := avl_balance (Node h l e r') in Ok (Came b t' o)
                | Threw _ => Ok (Threw Leaf)
                end
            | Eq =>
                let* t1 := match l, r with
                           | Leaf, _ => Ok r
                           | _, Leaf => Ok l
                           | _, _ => avl_combine l r
                           end in
                let* t' := avl_balance t1 in Ok (Came b t' (Some e))
            end
        end
    end.
  Definition search_get_mut_u {A} (b : nat) (t : tree A K V) (k : K) (v : V) : res (outcome (tree A K V) (option (K * V))) :=
    Ok (bst_get_mut_set_u b t k v).
  Definition avl_step_u : bmap nat K V -> map_op K V * nat -> res (bmap nat K V * option (map_out K V)) :=
    bmap_step_u avl_insert_u avl_remove_u search_get_mut_u.

  (** red_black_tree/tree.rs:62-103, as [rb_ins] *)
  Fixpoint rb_ins_u (b : nat) (t : tree color K V) (k : K) (v : V) {struct t} : res (outcome (tree color K V) (option (K * V))) :=
    match t with
    | Leaf => Ok (Came b (Node Red Leaf (k, v) Leaf) None)
    | Node c l e r =>
        match b with
        | 0 => Ok (Threw t)
        | S b =>
            match cmp k (fst e) with
            | Lt =>
                let* x := rb_ins_u b l k v in
                match x with
                | Came b l' o => let* t' := rb_insert_fix (Node c l' e r) in Ok (Came b t' o)
                | Threw l' => Ok (Threw (Node c l' e r))
                end
            | Gt =>
                let* x := rb_ins_u b r k v in
                match x with
                | Came b r' o => let* t' := rb_insert_fix (Node c l e r') in Ok (Came b t' o)
                | Threw r' => Ok (Threw (Node c l e r'))
                end
            | Eq => let* t' := rb_insert_fix (Node c l (k, v) r) in Ok (Came b t' (Some e))
            end
        end
    end.
  (** red_black_tree/map.rs:66-87: the root is blackened when the call has returned. *)
  Definition rb_insert_u (b : nat) (t : tree color K V) (k : K) (v : V) : res (outcome (tree color K V) (option (K * V))) :=
    let* x := rb_ins_u b t k v in
    match x with
    | Came b t' o => Ok (Came b (blacken t') o)
    | Threw t' => Ok (Threw t')
    end.

  (** red_black_tree/tree.rs:105-172: comparisons in lines 112, 132 and 148; [node] was taken out of the tree. *)
  Fixpoint rb_rem_u (fuel : nat) (b : nat) (t : tree color K V) (k : K) : res (outcome (tree color K V) (option (K * V))) :=
    match fuel with
    | O => Timeout
    | S f =>
        match t with
        | Leaf => Ok (Came b Leaf None)
        | Node _ l e r =>
            match b with
            | 0 => Ok (Threw Leaf)
            | S b =>
                if is_lt (cmp k (fst e)) then
                  let* t1 := if should_shift l then shift_left t else Ok t in
                  let* x := rb_rem_u f b (left_of t1) k in
                  match x with
                  | Came b l' o => let* t2 := rb_balance (set_left t1 l') in Ok (Came b t2 o)
                  | Threw _ => Ok (Threw Leaf)
                  end
                else
                  let* t1 := if is_red l then rb_rotate_right t else Ok t in
                  match b with
                  | 0 => Ok (Threw Leaf)
                  | S b =>
                      if key_is k t1 && is_none (right_of t1) then
                        let* _ := assert (is_none (left_of t1)) in
                        Ok (Came b Leaf (entry_of t1))
                      else
                        let* t2 := if should_shift (right_of t1) then shift_right t1 else Ok t1 in
                        match b with
                        | 0 => Ok (Threw Leaf)
                        | S b =>
                            if key_is k t2 then
                              match t2 with
                              | Leaf => Panic
                              | Node c2 l2 e2 r2 =>
                                  let* t3 := rb_combine f l2 r2 c2 in
                                  let* t4 := rb_balance t3 in
                                  Ok (Came b t4 (Some e2))
                              end
                            else
                              let* x := rb_rem_u f b (right_of t2) k in
                              match x with
                              | Came b r' o => let* t3 := rb_balance (set_right t2 r') in Ok (Came b t3 o)
                              | Threw _ => Ok (Threw Leaf)
                              end
                        end
                  end
            end
        end
    end.
  (** red_black_tree/map.rs:102-125 *)
  Definition rb_remove_u (b : nat) (t : tree color K V) (k : K) : res (outcome (tree color K V) (option (K * V))) :=
    let t1 := fix_root t in
    let* x := rb_rem_u (S (size t1)) b t1 k in
    match x with
    | Came b t' o => Ok (Came b (blacken t') o)
    | Threw t' => Ok (Threw t')
    end.
  Definition rb_step_u : bmap color K V -> map_op K V * nat -> res (bmap color K V * option (map_out K V)) :=
    bmap_step_u rb_insert_u rb_remove_u search_get_mut_u.

  (** splay_tree/tree.rs:19-63: comparisons in lines 20, 23 and 43; the two trees under construction are local variables, the current
      node stays in the tree. *)
  Notation sp := (tree unit K V).
  Fixpoint splay_loop_u (fuel : nat) (b : nat) (k : K) (l : sp) (e : K * V) (r : sp)
    (zl : list (sp * (K * V))) (zr : list ((K * V) * sp)) : res (outcome sp unit) :=
    match fuel with
    | O => Timeout
    | S f =>
        match b with
        | 0 => Ok (Threw (Node tt l e r))
        | S b =>
            match cmp k (fst e) with
            | Lt =>
                match l with
                | Leaf => Ok (Came b (splay_finish zl zr l e r) tt)
                | Node _ cl ce cr =>
                    match b with
                    | 0 => Ok (Threw (Node tt l e r))
                    | S b =>
                        let '(l1, e1, r1) := if is_lt (cmp k (fst ce)) then (cl, ce, Node tt cr e r) else (l, e, r) in
                        match l1 with
                        | Leaf => Ok (Came b (splay_finish zl zr l1 e1 r1) tt)
                        | Node _ ll le lr => splay_loop_u f b k ll le lr zl ((e1, r1) :: zr)
                        end
                    end
                end
            | Gt =>
                match r with
                | Leaf => Ok (Came b (splay_finish zl zr l e r) tt)
                | Node _ cl ce cr =>
                    match b with
                    | 0 => Ok (Threw (Node tt l e r))
                    | S b =>
                        let '(l1, e1, r1) := if is_gt (cmp k (fst ce)) then (Node tt l e cl, ce, cr) else (l, e, r) in
                        match r1 with
                        | Leaf => Ok (Came b (splay_finish zl zr l1 e1 r1) tt)
                        | Node _ rl re rr => splay_loop_u f b k rl re rr ((l1, e1) :: zl) zr
                        end
                    end
                end
            | Eq => Ok (Came b (splay_finish zl zr l e r) tt)
            end
        end
    end.
  Definition splay_u (b : nat) (t : sp) (k : K) : res (outcome sp unit) :=
    match t with
    | Leaf => Ok (Came b Leaf tt)
    | Node _ l e r => splay_loop_u (size t) b k l e r [] []
    end.
  (** splay_tree/tree.rs:73-104: comparison in line 80 *)
  Definition splay_insert_u (b : nat) (t : sp) (k : K) (v : V) : res (outcome sp (option (K * V))) :=
    match t with
    | Leaf => Ok (Came b (Node tt Leaf (k, v) Leaf) None)
    | _ =>
        let* x := splay_u b t k in
        match x with
        | Threw t1 => Ok (Threw t1)
        | Came 0 t1 _ => Ok (Threw t1)
        | Came (S b) t1 _ =>
            match t1 with
            | Leaf => Panic
            | Node _ l e r =>
                match cmp k (fst e) with
                | Lt => Ok (Came b (Node tt l (k, v) (Node tt Leaf e r)) None)
                | Gt => Ok (Came b (Node tt (Node tt l e Leaf) (k, v) r) None)
                | Eq => Ok (Came b (Node tt l (k, v) r) (Some e))
                end
            end
        end
    end.
  (** splay_tree/tree.rs:106-132: comparison in line 114; the root was taken out of the tree when its left child is splayed. *)
  Definition splay_remove_u (b : nat) (t : sp) (k : K) : res (outcome sp (option (K * V))) :=
    match t with
    | Leaf => Ok (Came b Leaf None)
    | _ =>
        let* x := splay_u b t k in
        match x with
        | Threw t1 => Ok (Threw t1)
        | Came 0 t1 _ => Ok (Threw t1)
        | Came (S b) t1 _ =>
            match t1 with
            | Leaf => Panic
            | Node _ l e r =>
                if is_eq (cmp k (fst e)) then
                  match l with
                  | Leaf => Ok (Came b r (Some e))
                  | _ =>
                      let* y := splay_u b l k in
                      match y with
                      | Threw _ => Ok (Threw Leaf)
                      | Came b l1 _ =>
                          match l1 with
                          | Leaf => Panic
                          | Node _ ll le _ => Ok (Came b (Node tt ll le r) (Some e))
                          end
                      end
                  end
                else Ok (Came b t1 None)
            end
        end
    end.
  (** splay_tree/tree.rs:147-159: comparison in line 154 *)
  Definition splay_get_mut_set_u (b : nat) (t : sp) (k : K) (v : V) : res (outcome sp (option (K * V))) :=
    match t with
    | Leaf => Ok (Came b Leaf None)
    | _ =>
        let* x := splay_u b t k in
        match x with
        | Threw t1 => Ok (Threw t1)
        | Came 0 t1 _ => Ok (Threw t1)
        | Came (S b) t1 _ =>
            match t1 with
            | Leaf => Panic
            | Node _ l e r =>
                if is_eq (cmp k (fst e)) then Ok (Came b (Node tt l (fst e, v) r) (Some e)) else Ok (Came b t1 None)
            end
        end
    end.
  Definition splay_step_u : bmap unit K V -> map_op K V * nat -> res (bmap unit K V * option (map_out K V)) :=
    bmap_step_u splay_insert_u splay_remove_u splay_get_mut_set_u.

  (** ** Treap *)
  Notation treap := (tree (N * nat) K V).
  (** treap/tree.rs:28-60: [None]: a comparison panicked; the tree was taken out of its place, which is empty then. *)
  Fixpoint t_split_u (b : nat) (t : treap) (k : K) {struct t} : option (nat * (treap * (treap * treap))) :=
    match t with
    | Leaf => Some (b, (Leaf, (Leaf, Leaf)))
    | Node (p, n) l e r =>
        match b with
        | 0 => None
        | S b =>
            match cmp k (fst e) with
            | Lt => match t_split_u b l k with
                    | Some (b, (l', (d, g))) => Some (b, (l', (d, t_upd p g e r)))
                    | None => None
                    end
            | Gt => match t_split_u b r k with
                    | Some (b, (r', dg)) => Some (b, (t_upd p l e r', dg))
                    | None => None
                    end
            | Eq => Some (b, (l, (t_upd p Leaf e Leaf, r)))
            end
        end
    end.
  (** treap/tree.rs:62-98: a node above keeps its stored length if the call below it panics. *)
  Fixpoint t_insert_u (b : nat) (t : treap) (k : K) (v : V) (p : N) {struct t} : outcome treap (option (K * V)) :=
    match t with
    | Leaf => Came b (Node (p, 1) Leaf (k, v) Leaf) None
    | Node (q, n) l e r =>
        if (p <=? q)%N then
          match b with
          | 0 => Threw t
          | S b =>
              match cmp k (fst e) with
              | Lt => match t_insert_u b l k v p with
                      | Came b l' o => Came b (t_upd q l' e r) o
                      | Threw l' => Threw (Node (q, n) l' e r)
                      end
              | Gt => match t_insert_u b r k v p with
                      | Came b r' o => Came b (t_upd q l e r') o
                      | Threw r' => Threw (Node (q, n) l e r')
                      end
              | Eq => Came b (Node (q, n) l (k, v) r) (Some e)
              end
          end
        else
          match t_split_u b t k with
          | Some (b, (l', (d, g))) => Came b (t_upd p l' (k, v) g) (t_entry d)
          | None => Threw Leaf
          end
    end.
  (** treap/tree.rs:100-126 *)
  Fixpoint t_remove_u (b : nat) (t : treap) (k : K) {struct t} : outcome treap (option (K * V)) :=
    match t with
    | Leaf => Came b Leaf None
    | Node (q, n) l e r =>
        match b with
        | 0 => Threw t
        | S b =>
            match cmp k (fst e) with
            | Lt => match t_remove_u b l k with
                    | Came b l' o => Came b (t_upd q l' e r) o
                    | Threw l' => Threw (Node (q, n) l' e r)
                    end
            | Gt => match t_remove_u b r k with
                    | Came b r' o => Came b (t_upd q l e r') o
                    | Threw r' => Threw (Node (q, n) l e r')
                    end
            | Eq => Came b (t_merge l r) (Some e)
            end
        end
    end.
  (** A call of a TreapMap, as in [treap_step]; [None]: it panicked. *)
  Definition treap_step_u (t : treap) (op : map_op K V * N * nat) : res (treap * option (map_out K V)) :=
    let '(o, p, b) := op in
    match o with
    | MInsert k v => match t_insert_u b t k v p with
                     | Came _ t' o => Ok (t', Some (RPair o))
                     | Threw t' => Ok (t', None)
                     end
    | MRemove k => match t_remove_u b t k with
                   | Came _ t' o => Ok (t', Some (RPair o))
                   | Threw t' => Ok (t', None)
                   end
    | MGetMut k v => match bst_get_mut_set_u b t k v with
                     | Came _ t' o => Ok (t', Some (RVal (option_map snd o)))
                     | Threw t' => Ok (t', None)
                     end
    | MGet k => Ok (t, option_map (fun e => RVal (option_map snd e)) (bst_get_u b t k))
    | MIndex k => Ok (t, option_map (fun e => RIndex (expect (option_map snd e))) (bst_get_u b t k))
    | MContains k => Ok (t, option_map (fun e => RBool (match e with Some _ => true | None => false end)) (bst_get_u b t k))
    | MFloor k => Ok (t, option_map (fun e => RKey (option_map fst e)) (bst_floor_u b t k))
    | MCeil k => Ok (t, option_map (fun e => RKey (option_map fst e)) (bst_ceil_u b t k))
    | _ => let* (t', out) := treap_step t (o, p) in Ok (t', Some out)
    end.
End TreeUnwind.
