(** Model of /repo/src/splay_tree. *)
From Verif Require Export BstModel.

Section Splay.
  Context {K V : Type} `{Cmp K}.

  Notation sp := (tree unit K V).
  Notation N l e r := (Node tt l e r).

  (** The two trees under construction in [splay] (tree.rs:14-18) with the mutable references
      [left] and [right] into them are zippers: a list of nodes, innermost first, whose missing
      child is the place the reference points to.
      Left tree: nodes (left child, entry) whose right child is missing.
      Right tree: nodes (entry, right child) whose left child is missing. *)
  Fixpoint plug_left (z : list (sp * (K * V))) (t : sp) : sp :=
    match z with
    | [] => t
    | (l, e) :: z' => plug_left z' (N l e t)
    end.

  Fixpoint plug_right (z : list ((K * V) * sp)) (t : sp) : sp :=
    match z with
    | [] => t
    | (e, r) :: z' => plug_right z' (N t e r)
    end.

  (** Lines 65-70: close both trees and hang them under the node. *)
  Definition splay_finish (zl : list (sp * (K * V))) (zr : list ((K * V) * sp))
    (l : sp) (e : K * V) (r : sp) : sp :=
    N (plug_left zl l) e (plug_right zr r).

  (** The loop of [splay]: splay_tree/tree.rs:19-63; [l e r] is the current node. *)
  Fixpoint splay_loop (fuel : nat) (k : K) (l : sp) (e : K * V) (r : sp)
    (zl : list (sp * (K * V))) (zr : list ((K * V) * sp)) : res sp :=
    match fuel with
    | O => Timeout
    | S f =>
        match cmp k (fst e) with
        | Lt =>
            match l with
            | Leaf => Ok (splay_finish zl zr l e r)
            | Node _ cl ce cr =>
                let '(l1, e1, r1) :=
                  if is_lt (cmp k (fst ce)) then (cl, ce, N cr e r)   (* rotate_right, node.rs:30-38 *)
                  else (l, e, r) in
                match l1 with
                | Leaf => Ok (splay_finish zl zr l1 e1 r1)
                | Node _ ll le lr => splay_loop f k ll le lr zl ((e1, r1) :: zr)
                end
            end
        | Gt =>
            match r with
            | Leaf => Ok (splay_finish zl zr l e r)
            | Node _ cl ce cr =>
                let '(l1, e1, r1) :=
                  if is_gt (cmp k (fst ce)) then (N l e cl, ce, cr)   (* rotate_left, node.rs:20-28 *)
                  else (l, e, r) in
                match r1 with
                | Leaf => Ok (splay_finish zl zr l1 e1 r1)
                | Node _ rl re rr => splay_loop f k rl re rr ((l1, e1) :: zl) zr
                end
            end
        | Eq => Ok (splay_finish zl zr l e r)
        end
    end.

  (** splay: splay_tree/tree.rs:9-71 (on a node; an empty tree is never splayed). *)
  Definition splay (t : sp) (k : K) : res sp :=
    match t with
    | Leaf => Ok Leaf
    | Node _ l e r => splay_loop (size t) k l e r [] []
    end.

  (** insert: splay_tree/tree.rs:73-104. *)
  Definition splay_insert (t : sp) (k : K) (v : V) : res (sp * option (K * V)) :=
    match t with
    | Leaf => Ok (N Leaf (k, v) Leaf, None)
    | _ =>
        let* t1 := splay t k in
        match t1 with
        | Leaf => Panic
        | Node _ l e r =>
            match cmp k (fst e) with
            | Lt => Ok (N l (k, v) (N Leaf e r), None)
            | Gt => Ok (N (N l e Leaf) (k, v) r, None)
            | Eq => Ok (N l (k, v) r, Some e)
            end
        end
    end.

  (** remove: splay_tree/tree.rs:106-132.  The tree stays splayed when the key is absent. *)
  Definition splay_remove (t : sp) (k : K) : res (sp * option (K * V)) :=
    match t with
    | Leaf => Ok (Leaf, None)
    | _ =>
        let* t1 := splay t k in
        match t1 with
        | Leaf => Panic
        | Node _ l e r =>
            if is_eq (cmp k (fst e)) then
              match l with
              | Leaf => Ok (r, Some e)
              | _ =>
                  let* l1 := splay l k in
                  match l1 with
                  | Leaf => Panic
                  | Node _ ll le _ => Ok (N ll le r, Some e)
                  end
              end
            else Ok (t1, None)
        end
    end.

  (** get_mut: splay_tree/tree.rs:147-159, followed by a write. *)
  Definition splay_get_mut_set (t : sp) (k : K) (v : V) : res (sp * option (K * V)) :=
    match t with
    | Leaf => Ok (Leaf, None)
    | _ =>
        let* t1 := splay t k in
        match t1 with
        | Leaf => Panic
        | Node _ l e r =>
            if is_eq (cmp k (fst e)) then Ok (N l (fst e, v) r, Some e) else Ok (t1, None)
        end
    end.

  (** SplayMap: splay_tree/map.rs. *)
  Definition splay_map := bmap unit K V.
  Definition splay_new : splay_map := bmap_new.
  Definition splay_step : splay_map -> map_op K V -> res (splay_map * map_out K V) :=
    bmap_step splay_insert splay_remove splay_get_mut_set.
End Splay.
