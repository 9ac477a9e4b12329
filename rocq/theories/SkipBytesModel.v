(** SkipMap on bytes: /repo/src/skiplist/map.rs with the nodes of NodeBytesModel.v.  A pointer is an address, the null pointer is 0.  The map
    shares memory and allocator with everything else in the process.  As in SkipMapModel.v [curr_node] is the address of the current node,
    and the random draws are inputs; the key of a new node is not read back from it.  [None] for a state: an allocation failed and the
    process has ended.  Which entries are dropped is in SkipMapModel.v.  [by_ptrs] only bounds the loops: [Timeout] beyond it. *)
From Verif Require Export NodePtrModel SkipMapModel.

Section SkipBytes.
  Context {K V : Type} `{Cmp K}.
  Variables (ly : layout) (new : allocator) (enc : K * V -> list nat) (dec : list nat -> option (K * V)).

  (** The operations on nodes (NodePtrModel.v).  A link is one word. *)
  Definition b_link (s : bytes) (p i : nat) : res nat := let* ws := p_link ly s p i in Ok (hd 0 ws).
  Definition b_set_link (s : bytes) (p i q : nat) : res bytes := p_set_link ly s p i [q].
  Definition b_entry : bytes -> nat -> res (K * V) := p_entry ly dec.
  Definition b_set_entry : bytes -> nat -> K * V -> res bytes := p_set_entry ly enc.
  Definition b_new : bytes -> option (K * V) -> nat -> res (option (bytes * nat)) := p_new ly new enc.
  Definition b_free : bytes -> nat -> res bytes := p_free ly.
  (** [write_bytes(links.get_unchecked_mut(0), 0, MAX_HEIGHT + 1)]: map.rs:399, 961 *)
  Definition b_zero (s : bytes) (p : nat) : res bytes := p_zero ly s p (S max_height).

  (** SkipMap: map.rs:95-99 *)
  Record byte_map := ByteMap { bm_bytes : bytes; bm_head : nat; bm_len : nat }.

  (** new: map.rs:111-117 *)
  Definition bmap_new (s : bytes) : res (option byte_map) :=
    let* r := b_new s None (S max_height) in
    match r with None => Ok None | Some (s, head) => Ok (Some (ByteMap s head 0)) end.

  (** E.g. map.rs:154-158 *)
  Fixpoint b_walk (fuel : nat) (s : bytes) (cur i : nat) (go : K -> bool) : res (nat * nat) :=
    match fuel with
    | O => Timeout
    | S f =>
        let* nx := b_link s cur i in
        if nx =? 0 then Ok (cur, 0)
        else let* e := b_entry s nx in if go (fst e) then b_walk f s nx i go else Ok (cur, nx)
    end.
  Definition b_walk_all (s : bytes) := b_walk (S (length (by_ptrs s))) s.

  (** map.rs:160-172, 219-231 *)
  Definition b_unlink (s : bytes) (cur i nx : nat) (k : K) : res (bytes * option (K * V)) :=
    if nx =? 0 then Ok (s, None)
    else
      let* e := b_entry s nx in
      if is_eq (cmp (fst e) k) then
        let* nn := b_link s nx i in
        let* s := b_set_link s cur i nn in
        match i with
        | O => let* s := b_free s nx in Ok (s, Some e)
        | S _ => Ok (s, None)
        end
      else Ok (s, None).

  (** insert: map.rs:141-187 *)
  Fixpoint b_insert_loop (i : nat) (s : bytes) (cur node new_height : nat) (k : K) : res (bytes * option (K * V)) :=
    let* (cur, nx) := b_walk_all s cur i (fun x => is_lt (cmp x k)) in
    let* (s, ret) := b_unlink s cur i nx k in
    let* s := (if i <=? new_height then
                 let* p := b_link s cur i in
                 let* s := b_set_link s cur i node in
                 b_set_link s node i p
               else Ok s) in
    match i with
    | O => Ok (s, ret)
    | S j => b_insert_loop j s cur node new_height k
    end.
  Definition bmap_insert (m : byte_map) (k : K) (v : V) (d : N) : res (option (byte_map * option (K * V))) :=
    let len := S (bm_len m) in
    let new_height := height_of d in
    let* r := b_new (bm_bytes m) (Some (k, v)) (S new_height) in
    match r with
    | None => Ok None
    | Some (s, node) =>
        let* (s, ret) := b_insert_loop max_height s (bm_head m) node new_height k in
        let* len := match ret with Some _ => checked_pred len | None => Ok len end in
        Ok (Some (ByteMap s (bm_head m) len, ret))
    end.

  (** remove: map.rs:202-241 *)
  Fixpoint b_remove_loop (i : nat) (s : bytes) (cur : nat) (k : K) : res (bytes * option (K * V)) :=
    let* (cur, nx) := b_walk_all s cur i (fun x => is_lt (cmp x k)) in
    let* (s, ret) := b_unlink s cur i nx k in
    match i with
    | O => Ok (s, ret)
    | S j => b_remove_loop j s cur k
    end.
  Definition bmap_remove (m : byte_map) (k : K) : res (byte_map * option (K * V)) :=
    let* (s, ret) := b_remove_loop max_height (bm_bytes m) (bm_head m) k in
    let* len := match ret with Some _ => checked_pred (bm_len m) | None => Ok (bm_len m) end in
    Ok (ByteMap s (bm_head m) len, ret).

  (** get and get_mut: map.rs:276-304, 319-347; 0 if there is no such node *)
  Fixpoint b_find_loop (i : nat) (s : bytes) (cur : nat) (k : K) : res nat :=
    let* (cur, nx) := b_walk_all s cur i (fun x => is_lt (cmp x k)) in
    let* found := (if nx =? 0 then Ok false else let* e := b_entry s nx in Ok (is_eq (cmp (fst e) k))) in
    if found : bool then Ok nx else match i with O => Ok 0 | S j => b_find_loop j s cur k end.
  Definition bmap_find (m : byte_map) (k : K) : res nat := b_find_loop (starting_height (bm_len m)) (bm_bytes m) (bm_head m) k.
  Definition bmap_get (m : byte_map) (k : K) : res (option V) :=
    let* y := bmap_find m k in
    if y =? 0 then Ok None else let* e := b_entry (bm_bytes m) y in Ok (Some (snd e)).
  Definition bmap_get_mut (m : byte_map) (k : K) (v : V) : res (byte_map * option V) :=
    let* y := bmap_find m k in
    if y =? 0 then Ok (m, None)
    else
      let* e := b_entry (bm_bytes m) y in
      let* s := b_set_entry (bm_bytes m) y (fst e, v) in
      Ok (ByteMap s (bm_head m) (bm_len m), Some (snd e)).

  (** floor: map.rs:416-443, ceil: 458-485, max: 525-551, min: 499-511.  [curr_node == &self.head] compares pointers. *)
  Fixpoint b_descend (i : nat) (s : bytes) (cur : nat) (go : K -> bool) : res (nat * nat) :=
    let* (cur, nx) := b_walk_all s cur i go in
    match i with
    | O => Ok (cur, nx)
    | S j => b_descend j s cur go
    end.
  Definition b_key_at (s : bytes) (p : nat) : res (option K) := if p =? 0 then Ok None else let* e := b_entry s p in Ok (Some (fst e)).
  Definition b_key_of (m : byte_map) (cur : nat) : res (option K) :=
    if cur =? bm_head m then Ok None else let* e := b_entry (bm_bytes m) cur in Ok (Some (fst e)).
  Definition bmap_floor (m : byte_map) (k : K) : res (option K) :=
    let* (cur, _) := b_descend (starting_height (bm_len m)) (bm_bytes m) (bm_head m) (fun x => negb (is_gt (cmp x k))) in
    b_key_of m cur.
  Definition bmap_ceil (m : byte_map) (k : K) : res (option K) :=
    let* (_, nx) := b_descend (starting_height (bm_len m)) (bm_bytes m) (bm_head m) (fun x => is_lt (cmp x k)) in
    b_key_at (bm_bytes m) nx.
  Definition bmap_max (m : byte_map) : res (option K) :=
    let* (cur, _) := b_descend (starting_height (bm_len m)) (bm_bytes m) (bm_head m) (fun _ => true) in
    b_key_of m cur.
  Definition bmap_min (m : byte_map) : res (option K) :=
    let* p := b_link (bm_bytes m) (bm_head m) 0 in b_key_at (bm_bytes m) p.

  (** map.rs:395-398, 944-947 *)
  Fixpoint b_free_from (fuel : nat) (s : bytes) (p : nat) : res bytes :=
    if p =? 0 then Ok s
    else match fuel with
         | O => Timeout
         | S f =>
             let* nn := b_link s p 0 in
             let* _ := b_entry s p in
             let* s := b_free s p in
             b_free_from f s nn
         end.
  (** clear: map.rs:391-401 *)
  Definition bmap_clear (m : byte_map) : res byte_map :=
    let* p := b_link (bm_bytes m) (bm_head m) 0 in
    let* s := b_free_from (length (by_ptrs (bm_bytes m))) (bm_bytes m) p in
    let* s := b_zero s (bm_head m) in
    Ok (ByteMap s (bm_head m) 0).
  (** drop: map.rs:939-950 *)
  Definition bmap_drop (m : byte_map) : res bytes :=
    let* p := b_link (bm_bytes m) (bm_head m) 0 in
    let* s := b_free (bm_bytes m) (bm_head m) in
    b_free_from (length (by_ptrs s)) s p.

  (** iter: map.rs:901-907, 1033-1056 *)
  Fixpoint b_iter_from (fuel : nat) (s : bytes) (p : nat) : res (list (K * V)) :=
    if p =? 0 then Ok []
    else match fuel with
         | O => Timeout
         | S f =>
             let* e := b_entry s p in
             let* nn := b_link s p 0 in
             let* es := b_iter_from f s nn in
             Ok (e :: es)
         end.
  Definition bmap_iter (m : byte_map) : res (list (K * V)) :=
    let* p := b_link (bm_bytes m) (bm_head m) 0 in b_iter_from (length (by_ptrs (bm_bytes m))) (bm_bytes m) p.

  (** iter_mut: map.rs:930-936, 1061-1087 *)
  Fixpoint b_itermut_from (s : bytes) (p : nat) (vs : list V) : res (bytes * list (K * V)) :=
    match vs with
    | [] => Ok (s, [])
    | v :: vs' =>
        if p =? 0 then Ok (s, [])
        else
          let* e := b_entry s p in
          let* nn := b_link s p 0 in
          let* s := b_set_entry s p (fst e, v) in
          let* (s, es) := b_itermut_from s nn vs' in
          Ok (s, e :: es)
    end.
  Definition bmap_iter_mut (m : byte_map) (vs : list V) : res (byte_map * list (K * V)) :=
    let* p := b_link (bm_bytes m) (bm_head m) 0 in
    let* (s, es) := b_itermut_from (bm_bytes m) p vs in
    Ok (ByteMap s (bm_head m) (bm_len m), es).

  (** into_iter: map.rs:956-964; next: 1003-1014; drop: 1017-1027 *)
  Definition b_into_iter_new (m : byte_map) : res (bytes * nat) :=
    let* p := b_link (bm_bytes m) (bm_head m) 0 in
    let* s := b_zero (bm_bytes m) (bm_head m) in
    let* s := bmap_drop (ByteMap s (bm_head m) (bm_len m)) in
    Ok (s, p).
  Fixpoint b_into_iter_take (n : nat) (s : bytes) (p : nat) : res (bytes * nat * list (K * V)) :=
    match n with
    | O => Ok (s, p, [])
    | S n' =>
        if p =? 0 then Ok (s, p, [])
        else
          let* e := b_entry s p in
          let* nn := b_link s p 0 in
          let* s := b_free s p in
          let* (sp, es) := b_into_iter_take n' s nn in
          Ok (sp, e :: es)
    end.
  Fixpoint b_into_iter_drop (fuel : nat) (s : bytes) (p : nat) : res bytes :=
    if p =? 0 then Ok s
    else match fuel with
         | O => Timeout
         | S f =>
             let* _ := b_entry s p in
             let* nn := b_link s p 0 in
             let* _ := b_entry s p in
             let* s := b_free s p in
             b_into_iter_drop f s nn
         end.
  (** [map.into_iter()], [next()] called [n] times, iterator dropped *)
  Definition bmap_into_iter (m : byte_map) (n : nat) : res (bytes * list (K * V)) :=
    let* (s, p) := b_into_iter_new m in
    let* (s, p, es) := b_into_iter_take n s p in
    let* s := b_into_iter_drop (length (by_ptrs s)) s p in
    Ok (s, es).

  (** One API call; after [into_iter] the variable holds a new map.  No result: an allocation failed. *)
  Definition bmap_op (m : byte_map) (op : map_op K V * N) : res (option byte_map * option (map_out K V)) :=
    let '(o, d) := op in
    match o with
    | MInsert k v =>
        let* r := bmap_insert m k v d in
        match r with None => Ok (None, None) | Some (m, old) => Ok (Some m, Some (RPair old)) end
    | MRemove k => let* (m, old) := bmap_remove m k in Ok (Some m, Some (RPair old))
    | MGet k => let* v := bmap_get m k in Ok (Some m, Some (RVal v))
    | MGetMut k v => let* (m, old) := bmap_get_mut m k v in Ok (Some m, Some (RVal old))
    | MIndex k => let* v := bmap_get m k in Ok (Some m, Some (RIndex (expect v)))
    | MContains k => let* v := bmap_get m k in Ok (Some m, Some (RBool (match v with Some _ => true | None => false end)))
    | MFloor k => let* x := bmap_floor m k in Ok (Some m, Some (RKey x))
    | MCeil k => let* x := bmap_ceil m k in Ok (Some m, Some (RKey x))
    | MMin => let* x := bmap_min m in Ok (Some m, Some (RKey x))
    | MMax => let* x := bmap_max m in Ok (Some m, Some (RKey x))
    | MLen => Ok (Some m, Some (RNat (bm_len m)))
    | MIsEmpty => Ok (Some m, Some (RBool (Nat.eqb (bm_len m) 0)))
    | MClear => let* m := bmap_clear m in Ok (Some m, Some RUnit)
    | MIter => let* l := bmap_iter m in Ok (Some m, Some (RList l))
    | MIterMut vs => let* (m, es) := bmap_iter_mut m vs in Ok (Some m, Some (RList es))
    | MIntoIter =>
        let* (s, es) := bmap_into_iter m (length (by_ptrs (bm_bytes m))) in
        let* r := bmap_new (Bytes (by_mem s) (by_live s) []) in
        match r with None => Ok (None, None) | Some m => Ok (Some m, Some (RList es)) end
    end.
  Definition bmap_step (m : option byte_map) (op : map_op K V * N) : res (option byte_map * option (map_out K V)) :=
    match m with None => Ok (None, None) | Some m => bmap_op m op end.
  (** [SkipMap::new()] and then calls *)
  Definition bmap_run (s : bytes) (ops : list (map_op K V * N)) : res (option byte_map * list (option (map_out K V))) :=
    let* m := bmap_new s in run bmap_step m ops.
End SkipBytes.
