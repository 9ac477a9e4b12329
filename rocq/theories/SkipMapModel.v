(** Model of /repo/src/skiplist/map.rs.  Each map owns its nodes, so it has a memory of its own; the head
    node is at address 0.  [curr_node], a reference to the link cell that points to the current node, is
    modelled by the address of that node: no link cell through which [curr_node] was reached is written
    before [curr_node] is next read.  [==] and [<] on keys are read off [cmp].  Random draws are inputs. *)
From Verif Require Export SkipHeap MapSpec SetAlgSpec.

Section SkipMap.
  Context {K V : Type} `{Cmp K}.
  Notation link := (option nat).
  Notation hp := (heap (K * V) link).

  (** SkipMap: map.rs:95-99. *)
  Record skip_map := SkipMap { sk_heap : hp; sk_len : nat }.

  (** new: map.rs:111-117. *)
  Definition skip_new : skip_map := SkipMap (fst (alloc [] None (S max_height) None)) 0.

  (** get_starting_height: map.rs:119-121. *)
  Definition starting_height (len : nat) : nat := N.to_nat (N.size (N.of_nat len mod two32)).

  (** The inner loop of all searches, e.g. map.rs:154-158: move along level [i] while [go] holds of the
      next key.  Returns the current node and the next one. *)
  Fixpoint walk (fuel : nat) (h : hp) (cur i : nat) (go : K -> bool) : res (nat * link) :=
    match fuel with
    | O => Timeout
    | S f =>
        let* nx := get_link h cur i in
        match nx with
        | None => Ok (cur, None)
        | Some y => let* e := get_data h y in if go (fst e) then walk f h y i go else Ok (cur, Some y)
        end
    end.
  Definition walk_all (h : hp) := walk (S (length h)) h.

  (** map.rs:160-172 (insert) and 219-231 (remove): unlink the next node at this level if its key is
      equal; at level 0 it is also freed.  Returns the memory and the freed entry. *)
  Definition unlink (h : hp) (cur i : nat) (nx : link) (k : K) : res (hp * option (K * V)) :=
    match nx with
    | None => Ok (h, None)
    | Some y =>
        let* e := get_data h y in
        if is_eq (cmp (fst e) k) then
          let* nn := get_link h y i in
          let* h := set_link h cur i nn in
          match i with
          | O => let* h := dealloc h y in Ok (h, Some e)
          | S _ => Ok (h, None)
          end
        else Ok (h, None)
    end.

  (** insert: map.rs:141-187, the loop from level [i] down. *)
  Fixpoint insert_loop (i : nat) (h : hp) (cur new new_height : nat) (k : K) : res (hp * option (K * V)) :=
    let* (cur, nx) := walk_all h cur i (fun x => is_lt (cmp x k)) in
    let* (h, ret) := unlink h cur i nx k in
    let* h := (if i <=? new_height then
                 let* p := get_link h cur i in
                 let* h := set_link h cur i (Some new) in
                 set_link h new i p
               else Ok h) in
    match i with
    | O => Ok (h, ret)
    | S j => insert_loop j h cur new new_height k
    end.

  Definition skip_insert (m : skip_map) (k : K) (v : V) (d : N) : res (skip_map * option (K * V)) :=
    let len := S (sk_len m) in
    let new_height := height_of d in
    let (h, new) := alloc (sk_heap m) (Some (k, v)) (S new_height) None in
    let* (h, ret) := insert_loop max_height h 0 new new_height k in
    let* len := match ret with Some _ => checked_pred len | None => Ok len end in
    Ok (SkipMap h len, ret).

  (** remove: map.rs:202-241. *)
  Fixpoint remove_loop (i : nat) (h : hp) (cur : nat) (k : K) : res (hp * option (K * V)) :=
    let* (cur, nx) := walk_all h cur i (fun x => is_lt (cmp x k)) in
    let* (h, ret) := unlink h cur i nx k in
    match i with
    | O => Ok (h, ret)
    | S j => remove_loop j h cur k
    end.

  Definition skip_remove (m : skip_map) (k : K) : res (skip_map * option (K * V)) :=
    let* (h, ret) := remove_loop max_height (sk_heap m) 0 k in
    let* len := match ret with Some _ => checked_pred (sk_len m) | None => Ok (sk_len m) end in
    Ok (SkipMap h len, ret).

  (** get and get_mut: map.rs:276-304, 319-347: the address of the node found. *)
  Fixpoint find_loop (i : nat) (h : hp) (cur : nat) (k : K) : res (option nat) :=
    let* (cur, nx) := walk_all h cur i (fun x => is_lt (cmp x k)) in
    let* found := match nx with
                  | None => Ok None
                  | Some y => let* e := get_data h y in Ok (if is_eq (cmp (fst e) k) then Some y else None)
                  end in
    match found, i with
    | Some y, _ => Ok (Some y)
    | None, O => Ok None
    | None, S j => find_loop j h cur k
    end.
  Definition skip_find (m : skip_map) (k : K) : res (option nat) :=
    find_loop (starting_height (sk_len m)) (sk_heap m) 0 k.
  Definition skip_get (m : skip_map) (k : K) : res (option V) :=
    let* p := skip_find m k in
    match p with None => Ok None | Some y => let* e := get_data (sk_heap m) y in Ok (Some (snd e)) end.
  (** get_mut followed by a write of [v]. *)
  Definition skip_get_mut (m : skip_map) (k : K) (v : V) : res (skip_map * option V) :=
    let* p := skip_find m k in
    match p with
    | None => Ok (m, None)
    | Some y =>
        let* e := get_data (sk_heap m) y in
        let* h := set_data (sk_heap m) y (fst e, v) in
        Ok (SkipMap h (sk_len m), Some (snd e))
    end.

  (** The descent shared by floor (map.rs:416-443), ceil (458-485) and max (525-551). *)
  Fixpoint descend (i : nat) (h : hp) (cur : nat) (go : K -> bool) : res (nat * link) :=
    let* (cur, nx) := walk_all h cur i go in
    match i with
    | O => Ok (cur, nx)
    | S j => descend j h cur go
    end.
  Definition key_at (h : hp) (p : link) : res (option K) :=
    match p with None => Ok None | Some y => let* e := get_data h y in Ok (Some (fst e)) end.
  Definition not_head (cur : nat) : link := match cur with O => None | _ => Some cur end.
  Definition skip_floor (m : skip_map) (k : K) : res (option K) :=
    let* (cur, _) := descend (starting_height (sk_len m)) (sk_heap m) 0 (fun x => negb (is_gt (cmp x k))) in
    key_at (sk_heap m) (not_head cur).
  Definition skip_ceil (m : skip_map) (k : K) : res (option K) :=
    let* (_, nx) := descend (starting_height (sk_len m)) (sk_heap m) 0 (fun x => is_lt (cmp x k)) in
    key_at (sk_heap m) nx.
  Definition skip_max (m : skip_map) : res (option K) :=
    let* (cur, _) := descend (starting_height (sk_len m)) (sk_heap m) 0 (fun _ => true) in
    key_at (sk_heap m) (not_head cur).
  (** min: map.rs:499-511. *)
  Definition skip_min (m : skip_map) : res (option K) :=
    let* p := get_link (sk_heap m) 0 0 in key_at (sk_heap m) p.

  (** Free every node of level 0 from [p] on: map.rs:395-398 (clear), 944-947 (drop).  Also returns the
      entries dropped. *)
  Fixpoint free_from (fuel : nat) (h : hp) (p : link) : res (hp * list (K * V)) :=
    match p, fuel with
    | None, _ => Ok (h, [])
    | Some _, O => Timeout
    | Some y, S f =>
        let* nn := get_link h y 0 in
        let* e := get_data h y in
        let* h := dealloc h y in
        let* (h, es) := free_from f h nn in
        Ok (h, e :: es)
    end.
  (** clear: map.rs:391-401.  [write_bytes] covers the MAX_HEIGHT + 1 links of the head. *)
  Definition skip_clear (m : skip_map) : res (skip_map * list (K * V)) :=
    let* p := get_link (sk_heap m) 0 0 in
    let* (h, es) := free_from (length (sk_heap m)) (sk_heap m) p in
    let* h := zero_links h 0 None in
    Ok (SkipMap h 0, es).
  (** drop: map.rs:939-950. *)
  Definition skip_drop (m : skip_map) : res (hp * list (K * V)) :=
    let* p := get_link (sk_heap m) 0 0 in
    let* h := dealloc (sk_heap m) 0 in
    free_from (length h) h p.

  (** iter: map.rs:901-907, 1033-1056, run to the end. *)
  Fixpoint iter_from (fuel : nat) (h : hp) (p : link) : res (list (K * V)) :=
    match p, fuel with
    | None, _ => Ok []
    | Some _, O => Timeout
    | Some y, S f =>
        let* e := get_data h y in
        let* nn := get_link h y 0 in
        let* es := iter_from f h nn in
        Ok (e :: es)
    end.
  Definition skip_iter (m : skip_map) : res (list (K * V)) :=
    let* p := get_link (sk_heap m) 0 0 in iter_from (length (sk_heap m)) (sk_heap m) p.

  (** iter_mut: map.rs:930-936, 1061-1087: one [next()] and one write per element of [vs]. *)
  Fixpoint itermut_from (h : hp) (p : link) (vs : list V) : res (hp * list (K * V)) :=
    match p, vs with
    | Some y, v :: vs' =>
        let* e := get_data h y in
        let* nn := get_link h y 0 in
        let* h := set_data h y (fst e, v) in
        let* (h, es) := itermut_from h nn vs' in
        Ok (h, e :: es)
    | _, _ => Ok (h, [])
    end.
  Definition skip_iter_mut (m : skip_map) (vs : list V) : res (skip_map * list (K * V)) :=
    let* p := get_link (sk_heap m) 0 0 in
    let* (h, es) := itermut_from (sk_heap m) p vs in
    Ok (SkipMap h (sk_len m), es).

  (** into_iter: map.rs:956-964: take the first pointer, zero the head's links; [self] is then dropped, which
      frees the head (the loop of drop finds nothing). *)
  Definition into_iter_new (m : skip_map) : res (hp * link) :=
    let* p := get_link (sk_heap m) 0 0 in
    let* h := zero_links (sk_heap m) 0 None in
    let* (h, _) := skip_drop (SkipMap h (sk_len m)) in
    Ok (h, p).
  (** next: map.rs:1003-1014, called [n] times; the entries handed out. *)
  Fixpoint into_iter_take (n : nat) (h : hp) (p : link) : res (hp * link * list (K * V)) :=
    match n, p with
    | O, _ | _, None => Ok (h, p, [])
    | S n', Some y =>
        let* e := get_data h y in
        let* nn := get_link h y 0 in
        let* h := dealloc h y in
        let* (hp', es) := into_iter_take n' h nn in
        Ok (hp', e :: es)
    end.
  (** drop of the iterator: map.rs:1017-1027.  [drop_in_place] and then [Node::free], which drops again.
      Returns the entries dropped, in order. *)
  Fixpoint into_iter_drop (fuel : nat) (h : hp) (p : link) : res (hp * list (K * V)) :=
    match p, fuel with
    | None, _ => Ok (h, [])
    | Some _, O => Timeout
    | Some y, S f =>
        let* e := get_data h y in
        let* nn := get_link h y 0 in
        let* e2 := get_data h y in
        let* h := dealloc h y in
        let* (h, es) := into_iter_drop f h nn in
        Ok (h, e :: e2 :: es)
    end.
  (** [map.into_iter()], [next()] called [n] times, iterator dropped: (memory, handed out, dropped). *)
  Definition skip_into_iter (m : skip_map) (n : nat) : res (hp * list (K * V) * list (K * V)) :=
    let* (h, p) := into_iter_new m in
    let* (h, p, es) := into_iter_take n h p in
    let* (h, ds) := into_iter_drop (length h) h p in
    Ok (h, es, ds).

  (** One API call on one SkipMap. *)
  Definition skip_step (m : skip_map) (op : map_op K V * N) : res (skip_map * map_out K V) :=
    let '(o, d) := op in
    match o with
    | MInsert k v => let* (m, old) := skip_insert m k v d in Ok (m, RPair old)
    | MRemove k => let* (m, old) := skip_remove m k in Ok (m, RPair old)
    | MGet k => let* v := skip_get m k in Ok (m, RVal v)
    | MGetMut k v => let* (m, old) := skip_get_mut m k v in Ok (m, RVal old)
    | MIndex k => let* v := skip_get m k in Ok (m, RIndex (expect v))
    | MContains k => let* v := skip_get m k in Ok (m, RBool (match v with Some _ => true | None => false end))
    | MFloor k => let* x := skip_floor m k in Ok (m, RKey x)
    | MCeil k => let* x := skip_ceil m k in Ok (m, RKey x)
    | MMin => let* x := skip_min m in Ok (m, RKey x)
    | MMax => let* x := skip_max m in Ok (m, RKey x)
    | MLen => Ok (m, RNat (sk_len m))
    | MIsEmpty => Ok (m, RBool (Nat.eqb (sk_len m) 0))
    | MClear => let* (m, _) := skip_clear m in Ok (m, RUnit)
    | MIter => let* l := skip_iter m in Ok (m, RList l)
    | MIterMut vs => let* (m, es) := skip_iter_mut m vs in Ok (m, RList es)
    | MIntoIter =>
        let* (h, es, ds) := skip_into_iter m (length (sk_heap m)) in
        Ok (skip_new, RList es)
    end.

  (** ** Set operations.  [left] and [right] are consumed: each iteration takes or frees the first node of
      one of them.  A node that goes into the result keeps its entry and its number of links; in the model
      it moves to the memory of the result. *)

  (** The result under construction: memory, [curr_nodes] (the last node of each level), length. *)
  Record builder := Builder { b_heap : hp; b_tails : list nat; b_len : nat }.
  Definition builder_new : builder :=
    Builder (fst (alloc [] None (S max_height) None)) (repeat 0 (S max_height)) 0.

  (** [for (i, curr_node) in curr_nodes.iter_mut().enumerate().take(n)], from index [i]: map.rs:635-638. *)
  Fixpoint link_tails (n i : nat) (h : hp) (tails : list nat) (a : nat) : res (hp * list nat) :=
    match n with
    | O => Ok (h, tails)
    | S n' =>
        match nth_error tails i with
        | None => Ok (h, tails)
        | Some t =>
            let* h := set_link h t i (Some a) in
            link_tails n' (S i) h (list_set tails i a) a
        end
    end.

  (** map.rs:626-638, 723-735, 805-817: append the node; [extra] is added to the number of levels that are linked. *)
  Definition append (b : builder) (e : K * V) (links_len extra : nat) : res builder :=
    let (h, a) := alloc (b_heap b) (Some e) links_len None in
    let* (h, tails) := link_tails (links_len + extra) 0 h (b_tails b) a in
    Ok (Builder h tails (S (b_len b))).

  (** E.g. map.rs:611-614: the first node leaves the list [p]. *)
  Definition take (h : hp) (p : link) : res (hp * link * (K * V) * nat) :=
    match p with
    | None => Panic
    | Some y =>
        let* nn := get_link h y 0 in
        let* e := get_data h y in
        let* n := read h y in
        let* h := dealloc h y in
        Ok (h, nn, e, length (sn_links n))
    end.
  (** The same followed by [Node::free]. *)
  Definition discard (h : hp) (p : link) : res (hp * link) :=
    let* (h, nn, _, _) := take h p in Ok (h, nn).

  (** union: map.rs:576-644. *)
  Fixpoint union_loop (fuel : nat) (hl : hp) (pl : link) (hr : hp) (pr : link) (b : builder) : res (hp * hp * builder) :=
    match fuel with
    | O => Timeout
    | S f =>
        match pl, pr with
        | None, None => Ok (hl, hr, b)
        | Some x, Some y =>
            let* ex := get_data hl x in
            let* ey := get_data hr y in
            match cmp (fst ex) (fst ey) with
            | Eq => let* (hr, pr) := discard hr pr in union_loop f hl pl hr pr b
            | Lt =>
                let* (hl, pl, e, n) := take hl pl in
                let* b := append b e n 0 in union_loop f hl pl hr pr b
            | Gt =>
                let* (hr, pr, e, n) := take hr pr in
                let* b := append b e n 0 in union_loop f hl pl hr pr b
            end
        | None, Some _ =>
            let* (hr, pr, e, n) := take hr pr in
            let* b := append b e n 0 in union_loop f hl pl hr pr b
        | Some _, None =>
            let* (hl, pl, e, n) := take hl pl in
            let* b := append b e n 0 in union_loop f hl pl hr pr b
        end
    end.

  (** intersection: map.rs:668-741.  The loop links [links_len + 1] levels (line 732). *)
  Fixpoint inter_loop (fuel : nat) (hl : hp) (pl : link) (hr : hp) (pr : link) (b : builder) : res (hp * hp * builder) :=
    match fuel with
    | O => Timeout
    | S f =>
        match pl, pr with
        | None, None => Ok (hl, hr, b)
        | Some x, Some y =>
            let* ex := get_data hl x in
            let* ey := get_data hr y in
            match cmp (fst ex) (fst ey) with
            | Eq =>
                let* (hl, pl, e, n) := take hl pl in
                let* (hr, pr) := discard hr pr in
                let* b := append b e n 1 in inter_loop f hl pl hr pr b
            | Lt => let* (hl, pl) := discard hl pl in inter_loop f hl pl hr pr b
            | Gt => let* (hr, pr) := discard hr pr in inter_loop f hl pl hr pr b
            end
        | None, Some _ => let* (hr, pr) := discard hr pr in inter_loop f hl pl hr pr b
        | Some _, None => let* (hl, pl) := discard hl pl in inter_loop f hl pl hr pr b
        end
    end.

  (** map_difference: map.rs:743-823.  With [right] exhausted the code advances [right], not [left]
      (lines 800-803): [take hr None], a null dereference. *)
  Fixpoint diff_loop (fuel : nat) (hl : hp) (pl : link) (hr : hp) (pr : link) (symmetric : bool) (b : builder) : res (hp * hp * builder) :=
    match fuel with
    | O => Timeout
    | S f =>
        match pl, pr with
        | None, None => Ok (hl, hr, b)
        | Some x, Some y =>
            let* ex := get_data hl x in
            let* ey := get_data hr y in
            match cmp (fst ex) (fst ey) with
            | Eq =>
                let* (hl, pl) := discard hl pl in
                let* (hr, pr) := discard hr pr in
                diff_loop f hl pl hr pr symmetric b
            | Lt =>
                let* (hl, pl, e, n) := take hl pl in
                let* b := append b e n 0 in diff_loop f hl pl hr pr symmetric b
            | Gt =>
                if symmetric then
                  let* (hr, pr, e, n) := take hr pr in
                  let* b := append b e n 0 in diff_loop f hl pl hr pr symmetric b
                else
                  let* (hr, pr) := discard hr pr in diff_loop f hl pl hr pr symmetric b
            end
        | None, Some _ =>
            if symmetric then
              let* (hr, pr, e, n) := take hr pr in
              let* b := append b e n 0 in diff_loop f hl pl hr pr symmetric b
            else
              let* (hr, pr) := discard hr pr in diff_loop f hl pl hr pr symmetric b
        | Some _, None =>
            let* (hr, pr, e, n) := take hr pr in
            let* b := append b e n 0 in diff_loop f hl pl hr pr symmetric b
        end
    end.

  (** At the end [left] and [right] own their heads again, with all links null, and are dropped.  Returns
      the memories of [left] and [right] and the result. *)
  Definition skip_set_op (s : set_op) (l r : skip_map) : res (hp * hp * skip_map) :=
    let* pl := get_link (sk_heap l) 0 0 in
    let* pr := get_link (sk_heap r) 0 0 in
    let* hl := zero_links (sk_heap l) 0 None in
    let* hr := zero_links (sk_heap r) 0 None in
    let fuel := S (length hl + length hr) in
    let* (hl, hr, b) := match s with
                        | SUnion => union_loop fuel hl pl hr pr builder_new
                        | SInter => inter_loop fuel hl pl hr pr builder_new
                        | SDiff => diff_loop fuel hl pl hr pr false builder_new
                        | SSymDiff => diff_loop fuel hl pl hr pr true builder_new
                        end in
    let* (hl, _) := skip_drop (SkipMap hl (sk_len l)) in
    let* (hr, _) := skip_drop (SkipMap hr (sk_len r)) in
    Ok (hl, hr, SkipMap (b_heap b) (b_len b)).

  (** Programs over several SkipMap variables; a consumed variable is left empty.  There is no split_off. *)
  Definition skip_prog_step (rs : nat -> skip_map) (op : prog_op K V * N) : res ((nat -> skip_map) * map_out K V) :=
    let '(o, d) := op in
    match o with
    | POp i o => let* (m, out) := skip_step (rs i) (o, d) in Ok (update rs i m, out)
    | PSet s d i j =>
        let a := rs i in let rs1 := update rs i skip_new in
        let b := rs1 j in let rs2 := update rs1 j skip_new in
        let* (_, _, m) := skip_set_op s a b in
        Ok (update rs2 d m, RUnit)
    | PSplit _ _ _ _ => Panic
    end.
End SkipMap.
Arguments skip_map : clear implicits.
Arguments builder : clear implicits.
