(** Freeing the trees.  No file defines [Drop] for a node, so the compiler frees a node by freeing its fields in the order of their
    declaration: avl_tree/node.rs:7-12, red_black_tree/node.rs:22-27, splay_tree/node.rs:5-9, treap/node.rs:5-11 and 14-20 (entry, then
    left, then right), radix/node.rs:4-9 (value, then next, then child).  Each nested call takes a frame of the stack; [frames] is how many are left.
    If there is none the process is aborted, here [Panic].  A frame stands for the few calls that free one Box.  The functions return the
    entries in the order in which they are freed. *)
From Verif Require Export BstModel RadixModel.

Section DropTree.
  Context {A K V : Type}.
  Notation tree := (tree A K V).

  (** Dropping a map, and assigning to [self.tree]: avl_tree/map.rs:215-218 (clear), likewise in the other modules *)
  Fixpoint drop_tree (frames : nat) (t : tree) {struct t} : res (list (K * V)) :=
    match t with
    | Leaf => Ok []
    | Node _ l e r =>
        match frames with
        | 0 => Panic
        | S f => let* a := drop_tree f l in let* b := drop_tree f r in Ok (e :: a ++ b)
        end
    end.

  (** Dropping an iterator by value: avl_tree/map.rs:394-397, first the current tree, then the nodes on the stack from the bottom up; their
      left children have been taken. *)
  Fixpoint drop_stack (frames : nat) (st : list ((K * V) * tree)) : res (list (K * V)) :=
    match st with
    | [] => Ok []
    | (e, r) :: st' => let* a := drop_stack frames st' in let* b := drop_tree frames r in Ok (a ++ e :: b)
    end.
  Definition drop_into_iter (frames : nat) (s : @iter_state A K V) : res (list (K * V)) :=
    let* a := drop_tree frames (fst s) in let* b := drop_stack frames (snd s) in Ok (a ++ b).

  (** The iterator after [n] calls of next *)
  Fixpoint iter_skip (n : nat) (s : @iter_state A K V) : @iter_state A K V :=
    match n with 0 => s | S n' => iter_skip n' (snd (iter_next s)) end.
End DropTree.

(** radix/map.rs:204-207 (clear) *)
Fixpoint drop_rtree {T} (frames : nat) (t : rtree T) {struct t} : res (list T) :=
  match t with
  | RNil => Ok []
  | RNode _ v n c =>
      match frames with
      | 0 => Panic
      | S f => let* a := drop_rtree f n in let* b := drop_rtree f c in Ok (match v with Some x => [x] | None => [] end ++ a ++ b)
      end
  end.
