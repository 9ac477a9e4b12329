(** What "compact" means for a radix tree.  Refers to the tree type of RadixModel.v only. *)
From Verif Require Export RadixModel.

(** The nodes of a sibling list: key, value, first child. *)
Fixpoint siblings {T} (t : rtree T) : list (bytes * option T * rtree T) :=
  match t with
  | RNil => []
  | RNode k v n c => (k, v, c) :: siblings n
  end.

(** Edge labels are not empty, siblings' first bytes ascend strictly, a node without a value has at least
    two children; the same below. *)
Inductive compact {T} (t : rtree T) : Prop :=
| Compact : Forall (fun s => fst (fst s) <> []) (siblings t) ->
    StronglySorted lt (map (fun s => hd 0 (fst (fst s))) (siblings t)) ->
    Forall (fun s => snd (fst s) = None -> 2 <= length (siblings (snd s))) (siblings t) ->
    (forall s, In s (siblings t) -> compact (snd s)) -> compact t.

Fixpoint node_count {T} (t : rtree T) : nat :=
  match t with RNil => 0 | RNode _ _ n c => S (node_count n + node_count c) end.
