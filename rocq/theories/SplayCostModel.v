(** The functions of /repo/src/splay_tree with a count of the keys they compare: one for each [cmp], [==] or [!=] on keys.
    The results are those of SplayModel.v (SplayCostProofs.v). *)
From Verif Require Export SplayModel.

Section SplayCost.
  Context {K V : Type} `{Cmp K}.
  Notation sp := (tree unit K V).
  Notation N l e r := (Node tt l e r).

  Definition tick {A} (n : nat) (x : res (A * nat)) : res (A * nat) := let* (a, c) := x in Ok (a, n + c).

  (** The loop of [splay]: splay_tree/tree.rs:19-63, as [splay_loop] *)
  Fixpoint splay_loop_c (fuel : nat) (k : K) (l : sp) (e : K * V) (r : sp)
    (zl : list (sp * (K * V))) (zr : list ((K * V) * sp)) : res (sp * nat) :=
    match fuel with
    | O => Timeout
    | S f =>
        match cmp k (fst e) with
        | Lt =>
            match l with
            | Leaf => Ok (splay_finish zl zr l e r, 1)
            | Node _ cl ce cr =>
                let '(l1, e1, r1) := if is_lt (cmp k (fst ce)) then (cl, ce, N cr e r) else (l, e, r) in
                match l1 with
                | Leaf => Ok (splay_finish zl zr l1 e1 r1, 2)
                | Node _ ll le lr => tick 2 (splay_loop_c f k ll le lr zl ((e1, r1) :: zr))
                end
            end
        | Gt =>
            match r with
            | Leaf => Ok (splay_finish zl zr l e r, 1)
            | Node _ cl ce cr =>
                let '(l1, e1, r1) := if is_gt (cmp k (fst ce)) then (N l e cl, ce, cr) else (l, e, r) in
                match r1 with
                | Leaf => Ok (splay_finish zl zr l1 e1 r1, 2)
                | Node _ rl re rr => tick 2 (splay_loop_c f k rl re rr ((l1, e1) :: zl) zr)
                end
            end
        | Eq => Ok (splay_finish zl zr l e r, 1)
        end
    end.
  (** splay: splay_tree/tree.rs:9-71 *)
  Definition splay_c (t : sp) (k : K) : res (sp * nat) :=
    match t with
    | Leaf => Ok (Leaf, 0)
    | Node _ l e r => splay_loop_c (size t) k l e r [] []
    end.

  (** insert: splay_tree/tree.rs:73-104 *)
  Definition splay_insert_c (t : sp) (k : K) (v : V) : res ((sp * option (K * V)) * nat) :=
    match t with
    | Leaf => Ok ((N Leaf (k, v) Leaf, None), 0)
    | _ =>
        let* (t1, c) := splay_c t k in
        match t1 with
        | Leaf => Panic
        | Node _ l e r =>
            match cmp k (fst e) with
            | Lt => Ok ((N l (k, v) (N Leaf e r), None), c + 1)
            | Gt => Ok ((N (N l e Leaf) (k, v) r, None), c + 1)
            | Eq => Ok ((N l (k, v) r, Some e), c + 1)
            end
        end
    end.

  (** remove: splay_tree/tree.rs:106-132 *)
  Definition splay_remove_c (t : sp) (k : K) : res ((sp * option (K * V)) * nat) :=
    match t with
    | Leaf => Ok ((Leaf, None), 0)
    | _ =>
        let* (t1, c) := splay_c t k in
        match t1 with
        | Leaf => Panic
        | Node _ l e r =>
            if is_eq (cmp k (fst e)) then
              match l with
              | Leaf => Ok ((r, Some e), c + 1)
              | _ =>
                  let* (l1, c1) := splay_c l k in
                  match l1 with
                  | Leaf => Panic
                  | Node _ ll le _ => Ok ((N ll le r, Some e), c + 1 + c1)
                  end
              end
            else Ok ((t1, None), c + 1)
        end
    end.

  (** get_mut: splay_tree/tree.rs:147-159, followed by a write *)
  Definition splay_get_mut_set_c (t : sp) (k : K) (v : V) : res ((sp * option (K * V)) * nat) :=
    match t with
    | Leaf => Ok ((Leaf, None), 0)
    | _ =>
        let* (t1, c) := splay_c t k in
        match t1 with
        | Leaf => Panic
        | Node _ l e r =>
            if is_eq (cmp k (fst e)) then Ok ((N l (fst e, v) r, Some e), c + 1) else Ok ((t1, None), c + 1)
        end
    end.

  (** get, ceil, floor: splay_tree/tree.rs:134-145, 161-191; they compare the same keys. *)
  Fixpoint search_c (t : sp) (k : K) : nat :=
    match t with
    | Leaf => 0
    | Node _ l e r =>
        1 + match cmp k (fst e) with
            | Lt => search_c l k
            | Gt => search_c r k
            | Eq => 0
            end
    end.

  (** One call: splay_tree/map.rs; the result and how many keys were compared *)
  Definition call_c (m : splay_map) (o : map_op K V) : res nat :=
    match o with
    | MInsert k v => rmap snd (splay_insert_c (bm_tree m) k v)
    | MRemove k => rmap snd (splay_remove_c (bm_tree m) k)
    | MGetMut k v => rmap snd (splay_get_mut_set_c (bm_tree m) k v)
    | MGet k | MIndex k | MContains k | MFloor k | MCeil k => Ok (search_c (bm_tree m) k)
    | _ => Ok 0
    end.
  Definition splay_step_c (m : splay_map) (o : map_op K V) : res (splay_map * (map_out K V * nat)) :=
    let* (m', out) := bmap_step (fun t k v => rmap fst (splay_insert_c t k v)) (fun t k => rmap fst (splay_remove_c t k))
                                (fun t k v => rmap fst (splay_get_mut_set_c t k v)) m o in
    let* c := call_c m o in
    Ok (m', (out, c)).
End SplayCost.
