(** The functions of /repo/src/treap/tree.rs and implicit_tree.rs with a count of their steps: one for each node entered and one
    for each comparison of keys; [merge] takes one for each pair of nodes it compares, the set operations as well.  The results are those of TreapModel.v and
    TreapListModel.v (TreapCostProofs.v). *)
From Verif Require Export TreapModel TreapListModel TreeCostModel.

Section TreapCost.
  Context {K V : Type} `{Cmp K}.
  Notation treap := (tree (N * nat) K V).

  (** merge: treap/tree.rs:9-26 *)
  Fixpoint t_merge_c (lt : treap) : treap -> treap * nat :=
    fix merge_r (rt : treap) : treap * nat :=
      match lt, rt with
      | Node (pl, nl) ll le lr, Node (pr, nr) rl re rr =>
          if (pr <? pl)%N then let (t, c) := t_merge_c lr rt in (t_upd pl ll le t, 1 + c)
          else let (t, c) := merge_r rl in (t_upd pr t re rr, 1 + c)
      | _, Leaf => (lt, 0)
      | Leaf, _ => (rt, 0)
      end.

  (** split: treap/tree.rs:28-60 *)
  Fixpoint t_split_c (t : treap) (k : K) : (treap * (treap * treap)) * nat :=
    match t with
    | Leaf => ((Leaf, (Leaf, Leaf)), 0)
    | Node (p, n) l e r =>
        match cmp k (fst e) with
        | Lt => let '((l', (d, g)), c) := t_split_c l k in ((l', (d, t_upd p g e r)), 2 + c)
        | Gt => let '((r', dg), c) := t_split_c r k in ((t_upd p l e r', dg), 2 + c)
        | Eq => ((l, (t_upd p Leaf e Leaf, r)), 2)
        end
    end.

  (** insert: treap/tree.rs:62-98 *)
  Fixpoint t_insert_c (t : treap) (k : K) (v : V) (p : N) : (treap * option (K * V)) * nat :=
    match t with
    | Leaf => ((Node (p, 1) Leaf (k, v) Leaf, None), 0)
    | Node (q, n) l e r =>
        if (p <=? q)%N then
          match cmp k (fst e) with
          | Lt => let '((l', o), c) := t_insert_c l k v p in ((t_upd q l' e r, o), 2 + c)
          | Gt => let '((r', o), c) := t_insert_c r k v p in ((t_upd q l e r', o), 2 + c)
          | Eq => ((Node (q, n) l (k, v) r, Some e), 2)
          end
        else
          let '((l', (d, g)), c) := t_split_c t k in
          ((t_upd p l' (k, v) g, t_entry d), 1 + c)
    end.

  (** remove: treap/tree.rs:100-126 *)
  Fixpoint t_remove_c (t : treap) (k : K) : (treap * option (K * V)) * nat :=
    match t with
    | Leaf => ((Leaf, None), 0)
    | Node (q, n) l e r =>
        match cmp k (fst e) with
        | Lt => let '((l', o), c) := t_remove_c l k in ((t_upd q l' e r, o), 2 + c)
        | Gt => let '((r', o), c) := t_remove_c r k in ((t_upd q l e r', o), 2 + c)
        | Eq => let (t', c) := t_merge_c l r in ((t', Some e), 2 + c)
        end
    end.

  (** One call: treap/map.rs; its result and the number of steps, 0 for the calls that do not look for a key.
      get, get_mut, ceil, floor, min, max (treap/tree.rs:128-210) enter the nodes that those of the other trees enter. *)
  Definition treap_step_c (t : treap) (op : map_op K V * N) : res (treap * (map_out K V * nat)) :=
    match fst op with
    | MInsert k v => let '((t', old), c) := t_insert_c t k v (snd op) in Ok (t', (RPair old, c))
    | MRemove k => let '((t', old), c) := t_remove_c t k in Ok (t', (RPair old, c))
    | MGet k | MGetMut k _ | MIndex k | MContains k | MFloor k | MCeil k =>
        let* (t', out) := treap_step t op in Ok (t', (out, search_steps t k))
    | MMin => let* (t', out) := treap_step t op in Ok (t', (out, min_steps t))
    | MMax => let* (t', out) := treap_step t op in Ok (t', (out, max_steps t))
    | _ => let* (t', out) := treap_step t op in Ok (t', (out, 0))
    end.

  (** union: treap/tree.rs:212-245 *)
  Fixpoint t_union_c (fuel : nat) (lt rt : treap) (swapped : bool) : res (treap * nat) :=
    match fuel with
    | O => Timeout
    | S f =>
        match lt, rt with
        | Leaf, _ => Ok (rt, 0)
        | _, Leaf => Ok (lt, 0)
        | Node _ _ _ _, Node _ _ _ _ =>
            let '(lt, rt, swapped) :=
              if (priority lt <? priority rt)%N then (rt, lt, negb swapped) else (lt, rt, swapped) in
            match lt with
            | Leaf => Panic
            | Node (p, _) l e r =>
                let '((rl, (dup, rr)), c) := t_split_c rt (fst e) in
                let* (l', cl) := t_union_c f l rl swapped in
                let* (r', cr) := t_union_c f r rr swapped in
                let e' := match t_entry dup with
                          | Some d => if swapped then d else e
                          | None => e
                          end in
                Ok (t_upd p l' e' r', 1 + c + cl + cr)
            end
        end
    end.

  (** intersection: treap/tree.rs:247-289 *)
  Fixpoint t_inter_c (fuel : nat) (lt rt : treap) (swapped : bool) : res (treap * nat) :=
    match fuel with
    | O => Timeout
    | S f =>
        match lt, rt with
        | Node _ _ _ _, Node _ _ _ _ =>
            let '(lt, rt, swapped) :=
              if (priority lt <? priority rt)%N then (rt, lt, negb swapped) else (lt, rt, swapped) in
            match lt with
            | Leaf => Panic
            | Node (p, _) l e r =>
                let '((rl, (dup, rr)), c) := t_split_c rt (fst e) in
                let* (l', cl) := t_inter_c f l rl swapped in
                let* (r', cr) := t_inter_c f r rr swapped in
                match t_entry dup with
                | Some d => Ok (t_upd p l' (if swapped then d else e) r', 1 + c + cl + cr)
                | None => let (t, cm) := t_merge_c l' r' in Ok (t, 1 + c + cl + cr + cm)
                end
            end
        | _, _ => Ok (Leaf, 0)
        end
    end.

  (** difference: treap/tree.rs:291-342 *)
  Fixpoint t_diff_c (fuel : nat) (lt rt : treap) (swapped symmetric : bool) : res (treap * nat) :=
    match fuel with
    | O => Timeout
    | S f =>
        match lt, rt with
        | Node _ _ _ _, Node _ _ _ _ =>
            let '(lt, rt, swapped) :=
              if (priority lt <? priority rt)%N then (rt, lt, negb swapped) else (lt, rt, swapped) in
            match lt with
            | Leaf => Panic
            | Node (p, _) l e r =>
                let '((rl, (dup, rr)), c) := t_split_c rt (fst e) in
                let* (l', cl) := t_diff_c f l rl swapped symmetric in
                let* (r', cr) := t_diff_c f r rr swapped symmetric in
                if negb (is_none dup) || (swapped && negb symmetric)
                then let (t, cm) := t_merge_c l' r' in Ok (t, 1 + c + cl + cr + cm)
                else Ok (t_upd p l' e r', 1 + c + cl + cr)
            end
        | _, _ =>
            Ok (if symmetric then t_merge_c lt rt else if swapped then (rt, 0) else (lt, 0))
        end
    end.

  (** treap/map.rs:368-495 *)
  Definition t_set_op_c (s : set_op) (lt rt : treap) : res (treap * nat) :=
    match s with
    | SUnion => t_union_c (t_fuel lt rt) lt rt false
    | SInter => t_inter_c (t_fuel lt rt) lt rt false
    | SDiff => t_diff_c (t_fuel lt rt) lt rt false false
    | SSymDiff => t_diff_c (t_fuel lt rt) lt rt false true
    end.

  (** split_off: treap/map.rs:323-343 *)
  Definition t_split_off_c (t : treap) (k : K) (inclusive : bool) : (treap * treap) * nat :=
    let '((l, (d, g)), c) := t_split_c t k in
    if inclusive then let (l', c') := t_merge_c l d in ((l', g), c + c')
    else let (g', c') := t_merge_c d g in ((l, g'), c + c').

  (** One call of a program over several maps *)
  Definition treap_prog_step_c (rs : nat -> treap) (op : prog_op K V * N) : res ((nat -> treap) * (map_out K V * nat)) :=
    let '(o, p) := op in
    match o with
    | POp i o => let* (t, out) := treap_step_c (rs i) (o, p) in Ok (update rs i t, out)
    | PSet s d i j =>
        let a := rs i in let rs1 := update rs i Leaf in
        let b := rs1 j in let rs2 := update rs1 j Leaf in
        let* (t, c) := t_set_op_c s a b in
        Ok (update rs2 d t, (RUnit, c))
    | PSplit d i k inc =>
        let '((stay, give), c) := t_split_off_c (rs i) k inc in
        Ok (update (update rs i stay) d give, (RUnit, c))
    end.
End TreapCost.

Section TreapListCost.
  Context {T : Type}.
  Notation itree := (tree (N * nat) unit T).

  (** split: treap/implicit_tree.rs:26-47 *)
  Fixpoint i_split_c (t : itree) (index : nat) (left_inclusive : bool) : res ((itree * itree) * nat) :=
    match t with
    | Leaf => Ok ((Leaf, Leaf), 0)
    | Node (p, n) l e r =>
        let key := ikey l in
        if (index <? key) || ((index =? key) && left_inclusive) then
          let* ((keep, give), c) := i_split_c l index left_inclusive in
          Ok ((keep, t_upd p give e r), 2 + c)
        else
          let* i' := checked_sub index key in
          let* ((keep, give), c) := i_split_c r i' left_inclusive in
          Ok ((t_upd p l e keep, give), 2 + c)
    end.

  (** insert: treap/implicit_tree.rs:49-54 *)
  Definition i_insert_c (t : itree) (index : nat) (v : T) (p : N) : res (itree * nat) :=
    if (1 <=? index) && (index <=? t_len t + 1) then
      let* ((keep, give), c) := i_split_c t index true in
      let (m, c1) := t_merge_c keep (Node (p, 1) Leaf (tt, v) Leaf) in
      let (t', c2) := t_merge_c m give in
      Ok (t', c + c1 + c2)
    else Panic.

  (** remove: treap/implicit_tree.rs:56-87 *)
  Fixpoint i_remove_c (t : itree) (index : nat) : res ((itree * T) * nat) :=
    if (1 <=? index) && (index <=? t_len t) then
      match t with
      | Leaf => Panic
      | Node (p, n) l e r =>
          let key := ikey l in
          match Nat.compare index key with
          | Lt => let* ((l', v), c) := i_remove_c l index in Ok ((t_upd p l' e r, v), 2 + c)
          | Gt =>
              let* i' := checked_sub index key in
              let* ((r', v), c) := i_remove_c r i' in Ok ((t_upd p l e r', v), 2 + c)
          | Eq => let (t', c) := t_merge_c l r in Ok ((t', snd e), 2 + c)
          end
      end
    else Panic.

  (** get, get_mut: treap/implicit_tree.rs:89-109 *)
  Fixpoint i_get_steps (t : itree) (index : nat) : nat :=
    match t with
    | Leaf => 0
    | Node _ l e r =>
        2 + match Nat.compare index (ikey l) with
            | Lt => i_get_steps l index
            | Gt => i_get_steps r (index - ikey l)
            | Eq => 0
            end
    end.

  (** TreapList::insert and remove: treap/list.rs:73-79, 92-94; a call that fails its range assertion takes no steps *)
  Definition tl_insert_c (t : itree) (index : nat) (v : T) (p : N) : res (itree * (seq_out T * nat)) :=
    match i_insert_c t (index + 1) v p with
    | Ok (t', c) => Ok (t', (QDone (Ok tt), c))
    | Panic => Ok (t, (QDone Panic, 0))
    | Timeout => Timeout
    end.
  Definition tl_remove_c (t : itree) (index : nat) : res (itree * (seq_out T * nat)) :=
    match i_remove_c t (index + 1) with
    | Ok ((t', v), c) => Ok (t', (QVal (Ok v), c))
    | Panic => Ok (t, (QVal Panic, 0))
    | Timeout => Timeout
    end.

  (** One call: treap/list.rs:73-298, 445-457 *)
  Definition tl_step_c (t : itree) (op : seq_op T * N) : res (itree * (seq_out T * nat)) :=
    let p := snd op in
    match fst op with
    | QInsert i v => tl_insert_c t i v p
    | QRemove i => tl_remove_c t i
    | QPushFront v => tl_insert_c t 0 v p
    | QPushBack v => tl_insert_c t (t_len t) v p
    | QPopFront => tl_remove_c t 0
    | QPopBack =>
        match checked_sub (t_len t) 1 with
        | Ok i => tl_remove_c t i
        | _ => Ok (t, (QVal Panic, 0))
        end
    | QGet i | QGetMut i _ | QIndex i | QIndexMut i _ =>
        let* (t', out) := tl_step t op in Ok (t', (out, i_get_steps t (i + 1)))
    | _ => let* (t', out) := tl_step t op in Ok (t', (out, 0))
    end.

  (** One call of a program over several lists; [+] is treap/list.rs:433-443 *)
  Definition tl_prog_step_c (rs : nat -> itree) (op : sprog_op T * N) : res ((nat -> itree) * (seq_out T * nat)) :=
    let '(o, p) := op in
    match o with
    | QPOp i o => let* (t, out) := tl_step_c (rs i) (o, p) in Ok (update rs i t, out)
    | QPAdd d i j =>
        let a := rs i in let rs1 := update rs i Leaf in
        let b := rs1 j in let rs2 := update rs1 j Leaf in
        let (t, c) := t_merge_c a b in
        Ok (update rs2 d t, (QDone (Ok tt), c))
    end.
End TreapListCost.
