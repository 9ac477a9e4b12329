(** Model of /repo/src/treap/{implicit_tree,list}.rs and ImplicitNode of node.rs.
    The tree type is the one of TreapModel.v; the entry of a node is [(tt, value)], there is no key.
    Indices are unbounded: [index + 1] at the largest usize is not modelled. *)
From Verif Require Export TreapModel SeqSpec.

Section TreapList.
  Context {T : Type}.
  Notation itree := (tree (N * nat) unit T).

  (** ImplicitNode::get_implicit_key: treap/node.rs:81-86. *)
  Definition ikey (l : itree) : nat := t_len l + 1.

  (** split: treap/implicit_tree.rs:26-47.  Returns (what stays in [tree], what is returned). *)
  Fixpoint i_split (t : itree) (index : nat) (left_inclusive : bool) : res (itree * itree) :=
    match t with
    | Leaf => Ok (Leaf, Leaf)
    | Node (p, n) l e r =>
        let key := ikey l in
        if (index <? key) || ((index =? key) && left_inclusive) then
          let* (keep, give) := i_split l index left_inclusive in
          Ok (keep, t_upd p give e r)
        else
          let* i' := checked_sub index key in
          let* (keep, give) := i_split r i' left_inclusive in
          Ok (t_upd p l e keep, give)
    end.

  (** insert: treap/implicit_tree.rs:49-54; merge (implicit_tree.rs:7-24) is the text of
      treap/tree.rs:9-26, [t_merge]. *)
  Definition i_insert (t : itree) (index : nat) (v : T) (p : N) : res itree :=
    if (1 <=? index) && (index <=? t_len t + 1) then
      let* (keep, give) := i_split t index true in
      Ok (t_merge (t_merge keep (Node (p, 1) Leaf (tt, v) Leaf)) give)
    else Panic.

  (** remove: treap/implicit_tree.rs:56-87. *)
  Fixpoint i_remove (t : itree) (index : nat) : res (itree * T) :=
    if (1 <=? index) && (index <=? t_len t) then
      match t with
      | Leaf => Panic
      | Node (p, n) l e r =>
          let key := ikey l in
          match Nat.compare index key with
          | Lt => let* (l', v) := i_remove l index in Ok (t_upd p l' e r, v)
          | Gt =>
              let* i' := checked_sub index key in
              let* (r', v) := i_remove r i' in Ok (t_upd p l e r', v)
          | Eq => Ok (t_merge l r, snd e)
          end
      end
    else Panic.

  (** get: treap/implicit_tree.rs:89-98. *)
  Fixpoint i_get (t : itree) (index : nat) : res (option T) :=
    match t with
    | Leaf => Ok None
    | Node _ l e r =>
        let key := ikey l in
        match Nat.compare index key with
        | Lt => i_get l index
        | Gt => let* i' := checked_sub index key in i_get r i'
        | Eq => Ok (Some (snd e))
        end
    end.

  (** get_mut followed by a write of [v]: treap/implicit_tree.rs:100-109.  Returns the old value. *)
  Fixpoint i_get_mut_set (t : itree) (index : nat) (v : T) : res (itree * option T) :=
    match t with
    | Leaf => Ok (Leaf, None)
    | Node a l e r =>
        let key := ikey l in
        match Nat.compare index key with
        | Lt => let* (l', o) := i_get_mut_set l index v in Ok (Node a l' e r, o)
        | Gt =>
            let* i' := checked_sub index key in
            let* (r', o) := i_get_mut_set r i' v in Ok (Node a l e r', o)
        | Eq => Ok (Node a l (fst e, v) r, Some (snd e))
        end
    end.

  (** TreapList::insert and remove: treap/list.rs:73-79, 92-94.  When the range assertion at the entry
      of implicit_tree::insert / remove fails, nothing has been changed yet. *)
  Definition tl_insert (t : itree) (index : nat) (v : T) (p : N) : res (itree * seq_out T) :=
    match i_insert t (index + 1) v p with
    | Ok t' => Ok (t', QDone (Ok tt))
    | Panic => Ok (t, QDone Panic)
    | Timeout => Timeout
    end.
  Definition tl_remove (t : itree) (index : nat) : res (itree * seq_out T) :=
    match i_remove t (index + 1) with
    | Ok (t', v) => Ok (t', QVal (Ok v))
    | Panic => Ok (t, QVal Panic)
    | Timeout => Timeout
    end.

  (** One API call; [p] is the priority drawn if the call inserts.  treap/list.rs:73-298, 445-457
      (index, index_mut).  The iterators (list.rs:301-425) are the stack machines of BstModel.v. *)
  Definition tl_step (t : itree) (op : seq_op T * N) : res (itree * seq_out T) :=
    let '(o, p) := op in
    match o with
    | QInsert i v => tl_insert t i v p
    | QRemove i => tl_remove t i
    | QPushFront v => tl_insert t 0 v p
    | QPushBack v => tl_insert t (t_len t) v p
    | QPopFront => tl_remove t 0
    | QPopBack =>
        match checked_sub (t_len t) 1 with
        | Ok i => tl_remove t i
        | _ => Ok (t, QVal Panic)
        end
    | QGet i => let* x := i_get t (i + 1) in Ok (t, QOpt x)
    | QGetMut i v => let* (t', x) := i_get_mut_set t (i + 1) v in Ok (t', QOpt x)
    | QIndex i => let* x := i_get t (i + 1) in Ok (t, QVal (expect x))
    | QIndexMut i v => let* (t', x) := i_get_mut_set t (i + 1) v in Ok (t', QVal (expect x))
    | QLen => Ok (t, QNat (t_len t))
    | QIsEmpty => Ok (t, QBool (is_none t))
    | QClear => Ok (Leaf, QDone (Ok tt))
    | QIter => let* l := iter_all t in Ok (t, QList (map snd l))
    | QIterMut vs => let* (t', es) := itermut_run t vs in Ok (t', QList (map snd es))
    | QIntoIter => let* l := iter_all t in Ok (Leaf, QList (map snd l))
    end.

  (** Programs over several TreapLists; [+] is treap/list.rs:433-443. *)
  Definition tl_prog_step (rs : nat -> itree) (op : sprog_op T * N) : res ((nat -> itree) * seq_out T) :=
    let '(o, p) := op in
    match o with
    | QPOp i o => let* (t, out) := tl_step (rs i) (o, p) in Ok (update rs i t, out)
    | QPAdd d i j =>
        let a := rs i in let rs1 := update rs i Leaf in
        let b := rs1 j in let rs2 := update rs1 j Leaf in
        Ok (update rs2 d (t_merge a b), QDone (Ok tt))
    end.
End TreapList.
