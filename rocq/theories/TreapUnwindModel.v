(** Programs over several TreapMaps in which comparisons of keys panic and the panics are caught: /repo/src/treap/tree.rs:28-60 (split), 212-342
    (set operations), /repo/src/treap/map.rs:323-495.  [b] is the number of comparisons that return before one panics.

    split_off takes the root out of its map before the first comparison, and a set operation owns both maps, so unwinding drops all of
    their nodes. *)
From Verif Require Export UnwindModel.

Section TreapUnwindModel.
  Context {K V : Type} `{Cmp K}.
  Notation treap := (tree (N * nat) K V).
  (** [None]: a comparison panicked; else what is left of [b], and the tree. *)
  Notation result := (res (option (nat * treap))).

  Definition and_then (x : result) (f : nat -> treap -> result) : result :=
    let* o := x in
    match o with
    | Some (b, t) => f b t
    | None => Ok None
    end.

  (** union: treap/tree.rs:212-245. *)
  Fixpoint t_union_u (fuel b : nat) (lt rt : treap) (swapped : bool) : result :=
    match fuel with
    | O => Timeout
    | S f =>
        match lt, rt with
        | Leaf, _ => Ok (Some (b, rt))
        | _, Leaf => Ok (Some (b, lt))
        | Node _ _ _ _, Node _ _ _ _ =>
            let '(lt, rt, swapped) :=
              if (priority lt <? priority rt)%N then (rt, lt, negb swapped) else (lt, rt, swapped) in
            match lt with
            | Leaf => Panic
            | Node (p, _) l e r =>
                match t_split_u b rt (fst e) with
                | None => Ok None
                | Some (b, (rl, (dup, rr))) =>
                    and_then (t_union_u f b l rl swapped) (fun b l' =>
                    and_then (t_union_u f b r rr swapped) (fun b r' =>
                    let e' := match t_entry dup with
                              | Some d => if swapped then d else e
                              | None => e
                              end in
                    Ok (Some (b, t_upd p l' e' r'))))
                end
            end
        end
    end.
  (** intersection: treap/tree.rs:247-289. *)
  Fixpoint t_inter_u (fuel b : nat) (lt rt : treap) (swapped : bool) : result :=
    match fuel with
    | O => Timeout
    | S f =>
        match lt, rt with
        | Node _ _ _ _, Node _ _ _ _ =>
            let '(lt, rt, swapped) :=
              if (priority lt <? priority rt)%N then (rt, lt, negb swapped) else (lt, rt, swapped) in
            match lt with
            | Leaf => Panic
            | Node (p, _) l e r =>
                match t_split_u b rt (fst e) with
                | None => Ok None
                | Some (b, (rl, (dup, rr))) =>
                    and_then (t_inter_u f b l rl swapped) (fun b l' =>
                    and_then (t_inter_u f b r rr swapped) (fun b r' =>
                    match t_entry dup with
                    | Some d => Ok (Some (b, t_upd p l' (if swapped then d else e) r'))
                    | None => Ok (Some (b, t_merge l' r'))
                    end))
                end
            end
        | _, _ => Ok (Some (b, Leaf))
        end
    end.
  (** difference: treap/tree.rs:291-342. *)
  Fixpoint t_diff_u (fuel b : nat) (lt rt : treap) (swapped symmetric : bool) : result :=
    match fuel with
    | O => Timeout
    | S f =>
        match lt, rt with
        | Node _ _ _ _, Node _ _ _ _ =>
            let '(lt, rt, swapped) :=
              if (priority lt <? priority rt)%N then (rt, lt, negb swapped) else (lt, rt, swapped) in
            match lt with
            | Leaf => Panic
            | Node (p, _) l e r =>
                match t_split_u b rt (fst e) with
                | None => Ok None
                | Some (b, (rl, (dup, rr))) =>
                    and_then (t_diff_u f b l rl swapped symmetric) (fun b l' =>
                    and_then (t_diff_u f b r rr swapped symmetric) (fun b r' =>
                    if negb (is_none dup) || (swapped && negb symmetric)
                    then Ok (Some (b, t_merge l' r'))
                    else Ok (Some (b, t_upd p l' e r'))))
                end
            end
        | _, _ =>
            Ok (Some (b, if symmetric then t_merge lt rt else if swapped then rt else lt))
        end
    end.

  (** treap/map.rs:368-495. *)
  Definition t_set_op_u (s : set_op) (b : nat) (lt rt : treap) : result :=
    match s with
    | SUnion => t_union_u (t_fuel lt rt) b lt rt false
    | SInter => t_inter_u (t_fuel lt rt) b lt rt false
    | SDiff => t_diff_u (t_fuel lt rt) b lt rt false false
    | SSymDiff => t_diff_u (t_fuel lt rt) b lt rt false true
    end.

  (** Programs over several variables: a call that panicked assigns to none. *)
  Definition treap_prog_step_u (rs : nat -> treap) (op : prog_op K V * N * nat)
    : res ((nat -> treap) * option (map_out K V)) :=
    let '(o, p, b) := op in
    match o with
    | POp i o =>
        let* (t, out) := treap_step_u (rs i) (o, p, b) in Ok (update rs i t, out)
    | PSet s d i j =>
        let x := rs i in let rs1 := update rs i Leaf in
        let y := rs1 j in let rs2 := update rs1 j Leaf in
        let* o := t_set_op_u s b x y in
        match o with
        | Some (_, t) => Ok (update rs2 d t, Some RUnit)
        | None => Ok (rs2, None)
        end
    | PSplit d i k inc =>
        match t_split_u b (rs i) k with
        | Some (_, (l, (m, g))) =>
            let (stay, give) := if inc : bool then (t_merge l m, g) else (l, t_merge m g) in
            Ok (update (update rs i stay) d give, Some RUnit)
        | None => Ok (update rs i Leaf, None)
        end
    end.
End TreapUnwindModel.
