(** The iterator of [BpMap], one call of [next] at a time: [/repo/src/bp_tree/map.rs:709-785].  The iterator holds a mutable
    borrow of the map, so no other call comes between.  [BIter] of BpMapModel.v is the same code, called until it returns
    [None].  Failing reads: BpIterIoModel.v. *)
From Verif Require Export BpMapModel BpCostModel.

Section BpIter.
  Context {K V : Type} `{Cmp K}.
  Notation entry := (K * V)%type.
  Notation leaf := (leaf K V).

  (** BpMapIterMut, map.rs:749-753; [pager] is the file on which the programs run. *)
  Record bp_iter : Type := mkBpIter { it_leaf : leaf; it_index : nat }.

  (** map.rs:709-730, and 741-743: into_iter *)
  Definition iter_open : io K V bp_iter :=
    let! l := edge_leaf (fun _ => 0) in Ret (mkBpIter l 0).

  (** map.rs:781-784; [take] leaves [None] behind *)
  Definition iter_take (l : leaf) (i : nat) : io K V (option entry * bp_iter) :=
    let? c := cell (lf_entries l) i in
    Ret (c, mkBpIter (mkLeaf (lf_len l) (list_set (lf_entries l) i None) (lf_next l)) (i + 1)).

  (** map.rs:762-784 *)
  Definition iter_next (it : bp_iter) : io K V (option entry * bp_iter) :=
    let l := it_leaf it in
    if lf_len l <=? it_index it then
      match lf_next l with
      | Some p => GetPage p (fun nd => let! l' := expect_leaf nd in iter_take l' 0)
      | None => Ret (None, it)
      end
    else iter_take l (it_index it).

  (** [n] calls of [next] *)
  Fixpoint iter_nexts (n : nat) (it : bp_iter) : io K V (list (option entry)) :=
    match n with
    | 0 => Ret []
    | S n =>
        let! r := iter_next it in
        let! rs := iter_nexts n (snd r) in
        Ret (fst r :: rs)
    end.

  (** iter_mut followed by [n] calls of [next] *)
  Definition iter_some (n : nat) : io K V (list (option entry)) :=
    let! it := iter_open in iter_nexts n it.
End BpIter.
Arguments bp_iter : clear implicits.
