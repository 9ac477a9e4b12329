(** Model of /repo/src/treap/{node,tree,map}.rs.  Priorities are the numbers drawn by
    [rng.next_u32()]; they are inputs of the model. *)
From Verif Require Export BstModel SetAlgSpec.
From Coq Require Export NArith.

Section Treap.
  Context {K V : Type} `{Cmp K}.

  (** Extra node fields: priority and len (treap/node.rs:5-11). *)
  Notation treap := (tree (N * nat) K V).

  (** Stored length: treap/node.rs:8, treap/map.rs:186-191. *)
  Definition t_len (t : treap) : nat := match t with Leaf => 0 | Node (_, n) _ _ _ => n end.

  Definition priority (t : treap) : N := match t with Leaf => 0%N | Node (p, _) _ _ _ => p end.

  (** Build a node with priority [p] and run Node::update on it: treap/node.rs:33-47. *)
  Definition t_upd (p : N) (l : treap) (e : K * V) (r : treap) : treap :=
    Node (p, 1 + t_len l + t_len r) l e r.

  (** merge: treap/tree.rs:9-26. *)
  Fixpoint t_merge (lt : treap) : treap -> treap :=
    fix merge_r (rt : treap) : treap :=
      match lt, rt with
      | Node (pl, nl) ll le lr, Node (pr, nr) rl re rr =>
          if (pr <? pl)%N then t_upd pl ll le (t_merge lr rt)
          else t_upd pr (merge_r rl) re rr
      | _, Leaf => lt
      | Leaf, _ => rt
      end.

  (** split: treap/tree.rs:28-60.  Returns (what stays in the tree, node with the key, the rest). *)
  Fixpoint t_split (t : treap) (k : K) : treap * (treap * treap) :=
    match t with
    | Leaf => (Leaf, (Leaf, Leaf))
    | Node (p, n) l e r =>
        match cmp k (fst e) with
        | Lt => let '(l', (d, g)) := t_split l k in (l', (d, t_upd p g e r))
        | Gt => let '(r', dg) := t_split r k in (t_upd p l e r', dg)
        | Eq => (l, (t_upd p Leaf e Leaf, r))
        end
    end.

  Definition t_entry (t : treap) : option (K * V) :=
    match t with Leaf => None | Node _ _ e _ => Some e end.

  (** insert of a new node with priority [p]: treap/tree.rs:62-98. *)
  Fixpoint t_insert (t : treap) (k : K) (v : V) (p : N) : treap * option (K * V) :=
    match t with
    | Leaf => (Node (p, 1) Leaf (k, v) Leaf, None)
    | Node (q, n) l e r =>
        if (p <=? q)%N then
          match cmp k (fst e) with
          | Lt => let (l', o) := t_insert l k v p in (t_upd q l' e r, o)
          | Gt => let (r', o) := t_insert r k v p in (t_upd q l e r', o)
          | Eq => (Node (q, n) l (k, v) r, Some e)
          end
        else
          let '(l', (d, g)) := t_split t k in
          (t_upd p l' (k, v) g, t_entry d)
    end.

  (** remove: treap/tree.rs:100-126. *)
  Fixpoint t_remove (t : treap) (k : K) : treap * option (K * V) :=
    match t with
    | Leaf => (Leaf, None)
    | Node (q, n) l e r =>
        match cmp k (fst e) with
        | Lt => let (l', o) := t_remove l k in (t_upd q l' e r, o)
        | Gt => let (r', o) := t_remove r k in (t_upd q l e r', o)
        | Eq => (t_merge l r, Some e)
        end
    end.

  (** union: treap/tree.rs:212-245. *)
  Fixpoint t_union (fuel : nat) (lt rt : treap) (swapped : bool) : res treap :=
    match fuel with
    | O => Timeout
    | S f =>
        match lt, rt with
        | Leaf, _ => Ok rt
        | _, Leaf => Ok lt
        | Node _ _ _ _, Node _ _ _ _ =>
            let '(lt, rt, swapped) :=
              if (priority lt <? priority rt)%N then (rt, lt, negb swapped) else (lt, rt, swapped) in
            match lt with
            | Leaf => Panic
            | Node (p, _) l e r =>
                let '(rl, (dup, rr)) := t_split rt (fst e) in
                let* l' := t_union f l rl swapped in
                let* r' := t_union f r rr swapped in
                let e' := match t_entry dup with
                          | Some d => if swapped then d else e
                          | None => e
                          end in
                Ok (t_upd p l' e' r')
            end
        end
    end.

  (** intersection: treap/tree.rs:247-289. *)
  Fixpoint t_inter (fuel : nat) (lt rt : treap) (swapped : bool) : res treap :=
    match fuel with
    | O => Timeout
    | S f =>
        match lt, rt with
        | Node _ _ _ _, Node _ _ _ _ =>
            let '(lt, rt, swapped) :=
              if (priority lt <? priority rt)%N then (rt, lt, negb swapped) else (lt, rt, swapped) in
            match lt with
            | Leaf => Panic
            | Node (p, _) l e r =>
                let '(rl, (dup, rr)) := t_split rt (fst e) in
                let* l' := t_inter f l rl swapped in
                let* r' := t_inter f r rr swapped in
                match t_entry dup with
                | Some d => Ok (t_upd p l' (if swapped then d else e) r')
                | None => Ok (t_merge l' r')
                end
            end
        | _, _ => Ok Leaf
        end
    end.

  (** difference: treap/tree.rs:291-342. *)
  Fixpoint t_diff (fuel : nat) (lt rt : treap) (swapped symmetric : bool) : res treap :=
    match fuel with
    | O => Timeout
    | S f =>
        match lt, rt with
        | Node _ _ _ _, Node _ _ _ _ =>
            let '(lt, rt, swapped) :=
              if (priority lt <? priority rt)%N then (rt, lt, negb swapped) else (lt, rt, swapped) in
            match lt with
            | Leaf => Panic
            | Node (p, _) l e r =>
                let '(rl, (dup, rr)) := t_split rt (fst e) in
                let* l' := t_diff f l rl swapped symmetric in
                let* r' := t_diff f r rr swapped symmetric in
                if negb (is_none dup) || (swapped && negb symmetric)
                then Ok (t_merge l' r')
                else Ok (t_upd p l' e r')
            end
        | _, _ =>
            Ok (if symmetric then t_merge lt rt else if swapped then rt else lt)
        end
    end.

  (** Enough fuel for the three functions above: every recursive call loses at least one node. *)
  Definition t_fuel (lt rt : treap) : nat := S (size lt + size rt).

  (** TreapMap::split_off: treap/map.rs:323-343.  Returns (what stays, what is returned). *)
  Definition t_split_off (t : treap) (k : K) (inclusive : bool) : treap * treap :=
    let '(l, (d, g)) := t_split t k in
    if inclusive then (t_merge l d, g) else (l, t_merge d g).

  (** One API call on one TreapMap; [p] is the number drawn if the call is an insert.
      treap/map.rs:73-302, 514-560, 720-730. *)
  Definition treap_step (t : treap) (op : map_op K V * N) : res (treap * map_out K V) :=
    let '(o, p) := op in
    match o with
    | MInsert k v => let (t', old) := t_insert t k v p in Ok (t', RPair old)
    | MRemove k => let (t', old) := t_remove t k in Ok (t', RPair old)
    | MGet k => Ok (t, RVal (option_map snd (bst_get t k)))
    | MGetMut k v => let (t', old) := bst_get_mut_set t k v in Ok (t', RVal (option_map snd old))
    | MIndex k => Ok (t, RIndex (expect (option_map snd (bst_get t k))))
    | MContains k =>
        Ok (t, RBool (match option_map snd (bst_get t k) with Some _ => true | None => false end))
    | MFloor k => Ok (t, RKey (option_map fst (bst_floor t k)))
    | MCeil k => Ok (t, RKey (option_map fst (bst_ceil t k)))
    | MMin => Ok (t, RKey (option_map fst (bst_min t)))
    | MMax => Ok (t, RKey (option_map fst (bst_max t)))
    | MLen => Ok (t, RNat (t_len t))
    | MIsEmpty => Ok (t, RBool (Nat.eqb (t_len t) 0))
    | MClear => Ok (Leaf, RUnit)
    | MIter => let* l := iter_all t in Ok (t, RList l)
    | MIterMut vs => let* (t', es) := itermut_run t vs in Ok (t', RList es)
    | MIntoIter => let* l := iter_all t in Ok (Leaf, RList l)
    end.

  (** The four set operations: treap/map.rs:368-383 (union), 407-419 (intersection),
      444-456 (difference), 480-495 (symmetric_difference). *)
  Definition t_set_op (s : set_op) (lt rt : treap) : res treap :=
    match s with
    | SUnion => t_union (t_fuel lt rt) lt rt false
    | SInter => t_inter (t_fuel lt rt) lt rt false
    | SDiff => t_diff (t_fuel lt rt) lt rt false false
    | SSymDiff => t_diff (t_fuel lt rt) lt rt false true
    end.

  (** Programs over several TreapMap variables; a consumed variable is left empty. *)
  Definition treap_prog_step (rs : nat -> treap) (op : prog_op K V * N)
    : res ((nat -> treap) * map_out K V) :=
    let '(o, p) := op in
    match o with
    | POp i o =>
        let* (t, out) := treap_step (rs i) (o, p) in Ok (update rs i t, out)
    | PSet s d i j =>
        let a := rs i in let rs1 := update rs i Leaf in
        let b := rs1 j in let rs2 := update rs1 j Leaf in
        let* t := t_set_op s a b in
        Ok (update rs2 d t, RUnit)
    | PSplit d i k inc =>
        let (stay, give) := t_split_off (rs i) k inc in
        Ok (update (update rs i stay) d give, RUnit)
    end.
End Treap.
