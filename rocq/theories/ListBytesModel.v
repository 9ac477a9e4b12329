(** SkipList on bytes: /repo/src/skiplist/list.rs with the nodes of NodeBytesModel.v, as SkipBytesModel.v for SkipMap.  A pointer is an address,
    the null pointer is 0, a link is two words: the next node and the distance.  A write of a distance writes the whole link.  Lengths and
    distances are [usize]: a sum that does not fit into a word is [Panic] (a panic with overflow checks, wrapping without).  The sums that
    are not stored are plain: the code compares them with stored distances or they are at most [index].  [None] for a state: an allocation
    failed and the process has ended.  [by_ptrs] only bounds the loops: [Timeout] beyond it. *)
From Verif Require Export NodePtrModel SkipListModel.

Section ListBytes.
  Context {T : Type}.
  Variables (ly : layout) (new : allocator) (enc : T -> list nat) (dec : list nat -> option T).

  (** The operations on nodes (NodePtrModel.v) *)
  Definition usize (n : nat) : res nat := if fits (word ly) n then Ok n else Panic.
  Definition c_link (s : bytes) (p i : nat) : res (nat * nat) := let* ws := p_link ly s p i in Ok (hd 0 ws, nth 1 ws 0).
  Definition c_set_link (s : bytes) (p i : nat) (l : nat * nat) : res bytes := p_set_link ly s p i [fst l; snd l].
  Definition c_set_dist (s : bytes) (p i d : nat) : res bytes := let* l := c_link s p i in c_set_link s p i (fst l, d).
  Definition c_entry : bytes -> nat -> res T := p_entry ly dec.
  Definition c_set_entry : bytes -> nat -> T -> res bytes := p_set_entry ly enc.
  Definition c_new : bytes -> option T -> nat -> res (option (bytes * nat)) := p_new ly new enc.
  Definition c_free : bytes -> nat -> res bytes := p_free ly.
  (** [write_bytes(links.get_unchecked_mut(0), 0, MAX_HEIGHT + 1)]: list.rs:442, 521 *)
  Definition c_zero (s : bytes) (p : nat) : res bytes := p_zero ly s p (S max_height).

  (** SkipList: list.rs:101-105 *)
  Record byte_list := ByteList { bl_bytes : bytes; bl_head : nat; bl_len : nat }.

  (** new: list.rs:117-123 *)
  Definition blist_new (s : bytes) : res (option byte_list) :=
    let* r := c_new s None (S max_height) in
    match r with None => Ok None | Some (s, head) => Ok (Some (ByteList s head 0)) end.

  (** E.g. list.rs:154-160: the current node, its link, the rest of [index], the distance moved *)
  Fixpoint c_walk (fuel : nat) (s : bytes) (cur i index moved : nat) : res (nat * (nat * nat) * nat * nat) :=
    match fuel with
    | O => Timeout
    | S f =>
        let* l := c_link s cur i in
        if fst l =? 0 then Ok (cur, l, index, moved)
        else if snd l <=? index then c_walk f s (fst l) i (index - snd l) (moved + snd l)
        else Ok (cur, l, index, moved)
    end.
  Definition c_walk_all (s : bytes) (cur i index : nat) := c_walk (S (length (by_ptrs s))) s cur i index 0.

  (** insert: list.rs:143-190.  [last] is [last_nodes]. *)
  Fixpoint c_insert_loop (i : nat) (s : bytes) (cur index node new_height : nat) (last : list (nat * nat)) : res (bytes * list (nat * nat)) :=
    let* (cur, l, index, moved) := c_walk_all s cur i index in
    let last := list_set last i (cur, moved) in
    let* s := (if i <=? new_height then
                 let* s := c_set_link s cur i (node, 1) in
                 c_set_link s node i l
               else Ok s) in
    match i with
    | O => Ok (s, last)
    | S j => c_insert_loop j s cur index node new_height last
    end.
  Fixpoint c_dist_loop (n i prev : nat) (s : bytes) (node new_height : nat) (last : list (nat * nat)) : res bytes :=
    match n with
    | O => Ok s
    | S n' =>
        let* (p, d) := expect (nth_error last i) in
        let* s := (if i <=? new_height then
                     let* d1 := usize (prev + 1) in
                     let* s := c_set_dist s p i d1 in
                     let* l := c_link s node i in
                     let* d' := checked_sub (snd l) prev in
                     c_set_dist s node i d'
                   else
                     let* l := c_link s p i in
                     let* d1 := usize (snd l + 1) in
                     c_set_dist s p i d1) in
        c_dist_loop n' (S i) (d + prev) s node new_height last
    end.
  Definition blist_insert (m : byte_list) (index : nat) (v : T) (d : N) : res (option (byte_list * seq_out T)) :=
    if index <=? bl_len m then
      let* len := usize (bl_len m + 1) in
      let new_height := height_of d in
      let* r := c_new (bl_bytes m) (Some v) (S new_height) in
      match r with
      | None => Ok None
      | Some (s, node) =>
          let* (s, last) := c_insert_loop max_height s (bl_head m) index node new_height (repeat (bl_head m, 0) (S max_height)) in
          let* (_, d0) := expect (nth_error last 0) in
          let* s := c_dist_loop max_height 1 d0 s node new_height last in
          Ok (Some (ByteList s (bl_head m) len, QDone (Ok tt)))
      end
    else Ok (Some (m, QDone Panic)).

  (** remove: list.rs:203-236 *)
  Fixpoint c_remove_loop (i : nat) (s : bytes) (cur index : nat) : res (bytes * T) :=
    let* (cur, l, index, _) := c_walk_all s cur i index in
    let* found := (if fst l =? 0 then Ok (s, 0)
                   else if snd l =? index + 1 then
                     let* ly := c_link s (fst l) i in
                     let* s := c_set_link s cur i ly in
                     let* s := c_set_link s (fst l) i l in
                     let* d := checked_sub (snd l) 1 in
                     let* d := usize (snd ly + d) in
                     let* s := c_set_dist s cur i d in
                     Ok (s, fst l)
                   else
                     let* d := checked_sub (snd l) 1 in
                     let* s := c_set_dist s cur i d in
                     Ok (s, 0)) in
    let '(s, y) := found in
    match i with
    | O => if y =? 0 then Panic else let* v := c_entry s y in let* s := c_free s y in Ok (s, v)
    | S j => c_remove_loop j s cur index
    end.
  Definition blist_remove (m : byte_list) (index : nat) : res (byte_list * seq_out T) :=
    if index <? bl_len m then
      let* (s, v) := c_remove_loop max_height (bl_bytes m) (bl_head m) index in
      let* n := checked_pred (bl_len m) in
      Ok (ByteList s (bl_head m) n, QVal (Ok v))
    else Ok (m, QVal Panic).

  (** get and get_mut: list.rs:325-350, 365-390; 0 if there is no such node *)
  Fixpoint c_find_loop (i : nat) (s : bytes) (cur index : nat) : res nat :=
    let* (cur, l, index, _) := c_walk_all s cur i index in
    let down := match i with O => Ok 0 | S j => c_find_loop j s cur index end in
    if fst l =? 0 then down else if snd l =? index + 1 then Ok (fst l) else down.
  Definition blist_find (m : byte_list) (index : nat) : res nat := c_find_loop max_height (bl_bytes m) (bl_head m) index.
  Definition blist_get (m : byte_list) (index : nat) : res (option T) :=
    let* y := blist_find m index in
    if y =? 0 then Ok None else let* v := c_entry (bl_bytes m) y in Ok (Some v).
  Definition blist_get_mut (m : byte_list) (index : nat) (v : T) : res (byte_list * option T) :=
    let* y := blist_find m index in
    if y =? 0 then Ok (m, None)
    else
      let* old := c_entry (bl_bytes m) y in
      let* s := c_set_entry (bl_bytes m) y v in
      Ok (ByteList s (bl_head m) (bl_len m), Some old).

  (** list.rs:438-441, 504-507 *)
  Fixpoint c_free_from (fuel : nat) (s : bytes) (p : nat) : res bytes :=
    if p =? 0 then Ok s
    else match fuel with
         | O => Timeout
         | S f =>
             let* l := c_link s p 0 in
             let* _ := c_entry s p in
             let* s := c_free s p in
             c_free_from f s (fst l)
         end.
  (** clear: list.rs:434-444 *)
  Definition blist_clear (m : byte_list) : res byte_list :=
    let* l := c_link (bl_bytes m) (bl_head m) 0 in
    let* s := c_free_from (length (by_ptrs (bl_bytes m))) (bl_bytes m) (fst l) in
    let* s := c_zero s (bl_head m) in
    Ok (ByteList s (bl_head m) 0).
  (** drop: list.rs:499-510 *)
  Definition blist_drop (m : byte_list) : res bytes :=
    let* l := c_link (bl_bytes m) (bl_head m) 0 in
    let* s := c_free (bl_bytes m) (bl_head m) in
    c_free_from (length (by_ptrs s)) s (fst l).

  (** iter: list.rs:462-468, 594-612 *)
  Fixpoint c_iter_from (fuel : nat) (s : bytes) (p : nat) : res (list T) :=
    if p =? 0 then Ok []
    else match fuel with
         | O => Timeout
         | S f =>
             let* v := c_entry s p in
             let* l := c_link s p 0 in
             let* vs := c_iter_from f s (fst l) in
             Ok (v :: vs)
         end.
  Definition blist_iter (m : byte_list) : res (list T) :=
    let* l := c_link (bl_bytes m) (bl_head m) 0 in c_iter_from (length (by_ptrs (bl_bytes m))) (bl_bytes m) (fst l).

  (** iter_mut: list.rs:490-496, 621-639 *)
  Fixpoint c_itermut_from (s : bytes) (p : nat) (vs : list T) : res (bytes * list T) :=
    match vs with
    | [] => Ok (s, [])
    | v :: vs' =>
        if p =? 0 then Ok (s, [])
        else
          let* old := c_entry s p in
          let* l := c_link s p 0 in
          let* s := c_set_entry s p v in
          let* (s, os) := c_itermut_from s (fst l) vs' in
          Ok (s, old :: os)
    end.
  Definition blist_iter_mut (m : byte_list) (vs : list T) : res (byte_list * list T) :=
    let* l := c_link (bl_bytes m) (bl_head m) 0 in
    let* (s, os) := c_itermut_from (bl_bytes m) (fst l) vs in
    Ok (ByteList s (bl_head m) (bl_len m), os).

  (** into_iter: list.rs:516-524; next: 561-572; drop: 575-585 *)
  Definition c_into_iter_new (m : byte_list) : res (bytes * nat) :=
    let* l := c_link (bl_bytes m) (bl_head m) 0 in
    let* s := c_zero (bl_bytes m) (bl_head m) in
    let* s := blist_drop (ByteList s (bl_head m) (bl_len m)) in
    Ok (s, fst l).
  Fixpoint c_into_iter_take (n : nat) (s : bytes) (p : nat) : res (bytes * nat * list T) :=
    match n with
    | O => Ok (s, p, [])
    | S n' =>
        if p =? 0 then Ok (s, p, [])
        else
          let* v := c_entry s p in
          let* l := c_link s p 0 in
          let* s := c_free s p in
          let* (sp, vs) := c_into_iter_take n' s (fst l) in
          Ok (sp, v :: vs)
    end.
  Fixpoint c_into_iter_drop (fuel : nat) (s : bytes) (p : nat) : res bytes :=
    if p =? 0 then Ok s
    else match fuel with
         | O => Timeout
         | S f =>
             let* _ := c_entry s p in
             let* l := c_link s p 0 in
             let* _ := c_entry s p in
             let* s := c_free s p in
             c_into_iter_drop f s (fst l)
         end.
  (** [list.into_iter()], [next()] called [n] times, iterator dropped *)
  Definition blist_into_iter (m : byte_list) (n : nat) : res (bytes * list T) :=
    let* (s, p) := c_into_iter_new m in
    let* (s, p, vs) := c_into_iter_take n s p in
    let* s := c_into_iter_drop (length (by_ptrs s)) s p in
    Ok (s, vs).

  (** One API call, as [slist_step]; after [into_iter] the variable holds a new list.  No result: an allocation failed. *)
  Definition blist_op (m : byte_list) (op : seq_op T * N) : res (option byte_list * option (seq_out T)) :=
    let '(o, d) := op in
    let put (r : res (option (byte_list * seq_out T))) :=
      let* r := r in match r with None => Ok (None, None) | Some (m, out) => Ok (Some m, Some out) end in
    match o with
    | QInsert i v => put (blist_insert m i v d)
    | QRemove i => let* (m, out) := blist_remove m i in Ok (Some m, Some out)
    | QPushFront v => put (blist_insert m 0 v d)
    | QPushBack v => put (blist_insert m (bl_len m) v d)
    | QPopFront => let* (m, out) := blist_remove m 0 in Ok (Some m, Some out)
    | QPopBack =>
        match checked_sub (bl_len m) 1 with
        | Ok i => let* (m, out) := blist_remove m i in Ok (Some m, Some out)
        | _ => Ok (Some m, Some (QVal Panic))
        end
    | QGet i => let* x := blist_get m i in Ok (Some m, Some (QOpt x))
    | QGetMut i v => let* (m, x) := blist_get_mut m i v in Ok (Some m, Some (QOpt x))
    | QIndex i => let* x := blist_get m i in Ok (Some m, Some (QVal (expect x)))
    | QIndexMut i v => let* (m, x) := blist_get_mut m i v in Ok (Some m, Some (QVal (expect x)))
    | QLen => Ok (Some m, Some (QNat (bl_len m)))
    | QIsEmpty => Ok (Some m, Some (QBool (bl_len m =? 0)))
    | QClear => let* m := blist_clear m in Ok (Some m, Some (QDone (Ok tt)))
    | QIter => let* l := blist_iter m in Ok (Some m, Some (QList l))
    | QIterMut vs => let* (m, os) := blist_iter_mut m vs in Ok (Some m, Some (QList os))
    | QIntoIter =>
        let* (s, vs) := blist_into_iter m (length (by_ptrs (bl_bytes m))) in
        let* r := blist_new (Bytes (by_mem s) (by_live s) []) in
        match r with None => Ok (None, None) | Some m => Ok (Some m, Some (QList vs)) end
    end.
  Definition blist_step (m : option byte_list) (op : seq_op T * N) : res (option byte_list * option (seq_out T)) :=
    match m with None => Ok (None, None) | Some m => blist_op m op end.
  (** [SkipList::new()] and then calls *)
  Definition blist_run (s : bytes) (ops : list (seq_op T * N)) : res (option byte_list * list (option (seq_out T))) :=
    let* m := blist_new s in run blist_step m ops.
End ListBytes.
