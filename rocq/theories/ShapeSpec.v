(** Shape properties that the documentation promises about the search trees, stated on plain trees.
    Nothing here refers to the operations of any model. *)
From Verif Require Export BstModel.
From Coq Require Import NArith.

(** Depth of a tree: number of nodes on the longest path. *)
Fixpoint depth {A K V} (t : tree A K V) : nat :=
  match t with Leaf => 0 | Node _ l _ r => S (Nat.max (depth l) (depth r)) end.

(** "the heights of the two child subtrees of any node differ by at most one"
    (avl_tree/map.rs:10-13). *)
Fixpoint avl_balanced {A K V} (t : tree A K V) : Prop :=
  match t with
  | Leaf => True
  | Node _ l _ r =>
      avl_balanced l /\ avl_balanced r /\ depth l <= S (depth r) /\ depth r <= S (depth l)
  end.

Fixpoint fib (n : nat) : nat :=
  match n with
  | O => 0
  | S m => match m with O => 1 | S p => fib m + fib p end
  end.

(** The logarithmic depth bound of AVL trees: a tree of depth d has at least fib(d+2)-1 nodes. *)
Definition fib_depth {A K V} (t : tree A K V) : Prop := fib (depth t + 2) <= S (size t).

(** Is every key that a history removes absent at that time, or the smallest or the largest key present?
    (The map as a queue from whose two ends keys are taken.) *)
Fixpoint removes_ends {K V} `{Cmp K} (l : list (K * V)) (ops : list (map_op K V)) : Prop :=
  match ops with
  | [] => True
  | o :: ops' =>
      match o with MRemove k => at_key k l = [] \/ below k l = [] \/ above k l = [] | _ => True end /\
      removes_ends (fst (map_spec_step l o)) ops'
  end.

(** Left-leaning red-black trees (red_black_tree/map.rs:10-20); [red] tells the colour of a node. *)
Section RedBlackSpec.
  Context {A K V : Type}.
  Variable red : A -> bool.

  Definition root_red (t : tree A K V) : bool := match t with Leaf => false | Node a _ _ _ => red a end.

  (** No red right child, no red node with a red child. *)
  Fixpoint red_ok (t : tree A K V) : Prop :=
    match t with
    | Leaf => True
    | Node a l _ r =>
        red_ok l /\ red_ok r /\ root_red r = false /\ (red a = true -> root_red l = false)
    end.

  (** Number of black nodes on every path from the root to an empty subtree. *)
  Fixpoint black_counts (t : tree A K V) : list nat :=
    match t with
    | Leaf => [0]
    | Node a l _ r =>
        map (fun n => if red a then n else S n) (black_counts l ++ black_counts r)
    end.

  Definition rb_balanced (t : tree A K V) : Prop :=
    root_red t = false /\ red_ok t /\
    (forall x y, In x (black_counts t) -> In y (black_counts t) -> x = y).
End RedBlackSpec.

(** Depth at most 2 * log2 (n + 1). *)
Definition log_depth {A K V} (t : tree A K V) : Prop := depth t <= 2 * Nat.log2 (S (size t)).

(** Treaps: every node's priority is at least its children's. *)
Section TreapSpec.
  Context {A K V : Type}.
  Variable prio : A -> N.

  Definition root_le (p : N) (t : tree A K V) : Prop :=
    match t with Leaf => True | Node a _ _ _ => (prio a <= p)%N end.

  Fixpoint heap_ordered (t : tree A K V) : Prop :=
    match t with
    | Leaf => True
    | Node a l _ r =>
        root_le (prio a) l /\ root_le (prio a) r /\ heap_ordered l /\ heap_ordered r
    end.

  (** Keys with value and priority, in key order. *)
  Fixpoint inorder_prio (t : tree A K V) : list (K * (V * N)) :=
    match t with
    | Leaf => []
    | Node a l e r => inorder_prio l ++ (fst e, (snd e, prio a)) :: inorder_prio r
    end.
End TreapSpec.

(** Which priority every key has after a history of calls with their random draws: a new key gets
    the drawn priority, inserting an existing key keeps the larger of the old and the drawn one. *)
Section PrioritySpec.
  Context {K V : Type} `{Cmp K}.
  Notation pmap := (list (K * (V * N))).

  Definition old_prio (k : K) (l : pmap) : N :=
    match at_key k l with (_, (_, q)) :: _ => q | [] => 0%N end.

  Fixpoint write_vals_prio (l : pmap) (vs : list V) : pmap :=
    match l, vs with
    | (k, (_, p)) :: l', v :: vs' => (k, (v, p)) :: write_vals_prio l' vs'
    | _, _ => l
    end.

  Definition prio_spec_step (l : pmap) (op : map_op K V * N) : pmap :=
    let '(o, p) := op in
    match o with
    | MInsert k v => below k l ++ (k, (v, N.max p (old_prio k l))) :: above k l
    | MRemove k => below k l ++ above k l
    | MGetMut k v => below k l ++ map (fun x => (fst x, (v, snd (snd x)))) (at_key k l) ++ above k l
    | MClear | MIntoIter => []
    | MIterMut vs => write_vals_prio l vs
    | _ => l
    end.

  Definition prio_spec (ops : list (map_op K V * N)) : pmap := fold_left prio_spec_step ops [].
End PrioritySpec.
