(** Model of /repo/src/skiplist/list.rs.  As in SkipMapModel.v each list owns a memory of its own with the
    head node at address 0, [curr_node] is the address of the current node, and random draws are inputs.
    A link is (next, distance); [usize] arithmetic is exact, subtraction panics on underflow. *)
From Verif Require Export SkipHeap SeqSpec.

Section SkipList.
  Context {T : Type}.
  Notation link := (option nat * nat)%type.
  Notation hp := (heap T link).

  (** SkipList: list.rs:101-105. *)
  Record skip_list := SkipList { sl_heap : hp; sl_len : nat }.

  (** A zeroed Link: list.rs:7-12. *)
  Definition null_link : link := (None, 0).

  (** new: list.rs:117-123. *)
  Definition slist_new : skip_list := SkipList (fst (alloc [] None (S max_height) null_link)) 0.

  (** The inner loop of insert, remove, get and get_mut, e.g. list.rs:154-160: move along level [i] while
      the next node is not beyond [index].  Returns the current node, its link, the rest of [index] and
      the distance moved. *)
  Fixpoint lwalk (fuel : nat) (h : hp) (cur i index moved : nat) : res (nat * link * nat * nat) :=
    match fuel with
    | O => Timeout
    | S f =>
        let* l := get_link h cur i in
        match fst l with
        | None => Ok (cur, l, index, moved)
        | Some y =>
            if snd l <=? index then lwalk f h y i (index - snd l) (moved + snd l)
            else Ok (cur, l, index, moved)
        end
    end.
  Definition lwalk_all (h : hp) (cur i index : nat) := lwalk (S (length h)) h cur i index 0.

  (** insert, first loop: list.rs:152-178.  [last] is [last_nodes]. *)
  Fixpoint linsert_loop (i : nat) (h : hp) (cur index new new_height : nat) (last : list (nat * nat)) :
      res (hp * list (nat * nat)) :=
    let* (cur, l, index, moved) := lwalk_all h cur i index in
    let last := list_set last i (cur, moved) in
    let* h := (if i <=? new_height then
                 let* h := set_link h cur i (Some new, 1) in
                 set_link h new i l
               else Ok h) in
    match i with
    | O => Ok (h, last)
    | S j => linsert_loop j h cur index new new_height last
    end.
  (** [get_pointer_mut(i).distance = d] on the node at [a]. *)
  Definition set_dist (h : hp) (a i d : nat) : res hp := let* l := get_link h a i in set_link h a i (fst l, d).
  (** insert, second loop: list.rs:180-188, [n] rounds from [i] on; [prev] is [last_nodes[i - 1].1]. *)
  Fixpoint ldist_loop (n i prev : nat) (h : hp) (new new_height : nat) (last : list (nat * nat)) : res hp :=
    match n with
    | O => Ok h
    | S n' =>
        let* (p, d) := expect (nth_error last i) in
        let* h := (if i <=? new_height then
                     let* h := set_dist h p i (prev + 1) in
                     let* l := get_link h new i in
                     let* d' := checked_sub (snd l) prev in
                     set_dist h new i d'
                   else
                     let* l := get_link h p i in
                     set_dist h p i (snd l + 1)) in
        ldist_loop n' (S i) (d + prev) h new new_height last
    end.
  (** insert: list.rs:143-190.  A failed assertion changes nothing. *)
  Definition slist_insert (m : skip_list) (index : nat) (v : T) (d : N) : res (skip_list * seq_out T) :=
    if index <=? sl_len m then
      let new_height := height_of d in
      let (h, new) := alloc (sl_heap m) (Some v) (S new_height) null_link in
      let* (h, last) := linsert_loop max_height h 0 index new new_height (repeat (0, 0) (S max_height)) in
      let* (_, d0) := expect (nth_error last 0) in
      let* h := ldist_loop max_height 1 d0 h new new_height last in
      Ok (SkipList h (S (sl_len m)), QDone (Ok tt))
    else Ok (m, QDone Panic).

  (** remove: list.rs:203-236.  [curr_height -= 1] underflows if the node is not found at level 0. *)
  Fixpoint lremove_loop (i : nat) (h : hp) (cur index : nat) : res (hp * T) :=
    let* (cur, l, index, _) := lwalk_all h cur i index in
    let* found := match fst l with
                  | None => Ok (h, None)
                  | Some y =>
                      if snd l =? index + 1 then
                        let* ly := get_link h y i in
                        let* h := set_link h cur i ly in
                        let* h := set_link h y i l in
                        let* d := checked_sub (snd l) 1 in
                        let* h := set_dist h cur i (snd ly + d) in
                        Ok (h, Some y)
                      else
                        let* d := checked_sub (snd l) 1 in
                        let* h := set_dist h cur i d in
                        Ok (h, None)
                  end in
    let '(h, found) := found in
    match i, found with
    | O, Some y => let* v := get_data h y in let* h := dealloc h y in Ok (h, v)
    | O, None => Panic
    | S j, _ => lremove_loop j h cur index
    end.
  Definition slist_remove (m : skip_list) (index : nat) : res (skip_list * seq_out T) :=
    if index <? sl_len m then
      let* (h, v) := lremove_loop max_height (sl_heap m) 0 index in
      let* n := checked_pred (sl_len m) in
      Ok (SkipList h n, QVal (Ok v))
    else Ok (m, QVal Panic).

  (** get and get_mut: list.rs:325-350, 365-390: the node found. *)
  Fixpoint lfind_loop (i : nat) (h : hp) (cur index : nat) : res (option nat) :=
    let* (cur, l, index, _) := lwalk_all h cur i index in
    let down := match i with O => Ok None | S j => lfind_loop j h cur index end in
    match fst l with
    | None => down
    | Some y => if snd l =? index + 1 then Ok (Some y) else down
    end.
  Definition slist_find (m : skip_list) (index : nat) : res (option nat) := lfind_loop max_height (sl_heap m) 0 index.
  Definition slist_get (m : skip_list) (index : nat) : res (option T) :=
    let* p := slist_find m index in
    match p with None => Ok None | Some y => let* v := get_data (sl_heap m) y in Ok (Some v) end.
  (** get_mut followed by a write of [v]. *)
  Definition slist_get_mut (m : skip_list) (index : nat) (v : T) : res (skip_list * option T) :=
    let* p := slist_find m index in
    match p with
    | None => Ok (m, None)
    | Some y =>
        let* old := get_data (sl_heap m) y in
        let* h := set_data (sl_heap m) y v in
        Ok (SkipList h (sl_len m), Some old)
    end.

  (** Free every node of level 0 from [p] on: list.rs:438-441 (clear), 504-507 (drop). *)
  Fixpoint lfree_from (fuel : nat) (h : hp) (p : option nat) : res (hp * list T) :=
    match p, fuel with
    | None, _ => Ok (h, [])
    | Some _, O => Timeout
    | Some y, S f =>
        let* l := get_link h y 0 in
        let* v := get_data h y in
        let* h := dealloc h y in
        let* (h, vs) := lfree_from f h (fst l) in
        Ok (h, v :: vs)
    end.
  (** clear: list.rs:434-444. *)
  Definition slist_clear (m : skip_list) : res (skip_list * list T) :=
    let* l := get_link (sl_heap m) 0 0 in
    let* (h, vs) := lfree_from (length (sl_heap m)) (sl_heap m) (fst l) in
    let* h := zero_links h 0 null_link in
    Ok (SkipList h 0, vs).
  (** drop of a list whose head is at [a]: list.rs:499-510. *)
  Definition ldrop (h : hp) (a : nat) : res (hp * list T) :=
    let* l := get_link h a 0 in
    let* h := dealloc h a in
    lfree_from (length h) h (fst l).
  Definition slist_drop (m : skip_list) : res (hp * list T) := ldrop (sl_heap m) 0.

  (** iter: list.rs:462-468, 594-612, run to the end. *)
  Fixpoint liter_from (fuel : nat) (h : hp) (p : option nat) : res (list T) :=
    match p, fuel with
    | None, _ => Ok []
    | Some _, O => Timeout
    | Some y, S f =>
        let* v := get_data h y in
        let* l := get_link h y 0 in
        let* vs := liter_from f h (fst l) in
        Ok (v :: vs)
    end.
  Definition slist_iter (m : skip_list) : res (list T) :=
    let* l := get_link (sl_heap m) 0 0 in liter_from (length (sl_heap m)) (sl_heap m) (fst l).

  (** iter_mut: list.rs:490-496, 621-639: one [next()] and one write per element of [vs]. *)
  Fixpoint litermut_from (h : hp) (p : option nat) (vs : list T) : res (hp * list T) :=
    match p, vs with
    | Some y, v :: vs' =>
        let* old := get_data h y in
        let* l := get_link h y 0 in
        let* h := set_data h y v in
        let* (h, os) := litermut_from h (fst l) vs' in
        Ok (h, old :: os)
    | _, _ => Ok (h, [])
    end.
  Definition slist_iter_mut (m : skip_list) (vs : list T) : res (skip_list * list T) :=
    let* l := get_link (sl_heap m) 0 0 in
    let* (h, os) := litermut_from (sl_heap m) (fst l) vs in
    Ok (SkipList h (sl_len m), os).

  (** into_iter: list.rs:516-524, then drop of [self]. *)
  Definition linto_iter_new (m : skip_list) : res (hp * option nat) :=
    let* l := get_link (sl_heap m) 0 0 in
    let* h := zero_links (sl_heap m) 0 null_link in
    let* (h, _) := ldrop h 0 in
    Ok (h, fst l).
  (** next: list.rs:561-572, called [n] times. *)
  Fixpoint linto_iter_take (n : nat) (h : hp) (p : option nat) : res (hp * option nat * list T) :=
    match n, p with
    | O, _ | _, None => Ok (h, p, [])
    | S n', Some y =>
        let* v := get_data h y in
        let* l := get_link h y 0 in
        let* h := dealloc h y in
        let* (hp', vs) := linto_iter_take n' h (fst l) in
        Ok (hp', v :: vs)
    end.
  (** drop of the iterator: list.rs:575-585: [drop_in_place], then [Node::free], which drops again. *)
  Fixpoint linto_iter_drop (fuel : nat) (h : hp) (p : option nat) : res (hp * list T) :=
    match p, fuel with
    | None, _ => Ok (h, [])
    | Some _, O => Timeout
    | Some y, S f =>
        let* v := get_data h y in
        let* l := get_link h y 0 in
        let* v2 := get_data h y in
        let* h := dealloc h y in
        let* (h, vs) := linto_iter_drop f h (fst l) in
        Ok (h, v :: v2 :: vs)
    end.
  (** [list.into_iter()], [next()] called [n] times, iterator dropped: (memory, handed out, dropped). *)
  Definition slist_into_iter (m : skip_list) (n : nat) : res (hp * list T * list T) :=
    let* (h, p) := linto_iter_new m in
    let* (h, p, vs) := linto_iter_take n h p in
    let* (h, ds) := linto_iter_drop (length h) h p in
    Ok (h, vs, ds).

  (** [+], search for the last node of every level: list.rs:653-666. *)
  Fixpoint tails_loop (fuel : nat) (h : hp) (cur i : nat) (tails : list nat) : res (list nat) :=
    match fuel with
    | O => Timeout
    | S f =>
        let* l := get_link h cur i in
        match fst l with
        | None =>
            let tails := list_set tails i cur in
            match i with O => Ok tails | S j => tails_loop f h cur j tails end
        | Some y => tails_loop f h y i tails
        end
    end.
  (** list.rs:668-675, from level [i] on; [o] is the head of [other]. *)
  Fixpoint join_loop (i : nat) (h : hp) (o : nat) (tails : list nat) : res hp :=
    match tails with
    | [] => Ok h
    | a :: tails' =>
        let* la := get_link h a i in
        let* lo := get_link h o i in
        let* h := set_link h a i lo in
        let* h := set_link h o i la in
        let* h := set_dist h a i (snd lo + snd la) in
        join_loop (S i) h o tails'
    end.
  (** The memories of the two lists are joined: the nodes of [other] get addresses from [n] on. *)
  Definition moved_link (n : nat) (l : link) : link := (option_map (fun a => n + a) (fst l), snd l).
  Definition moved_node (n : nat) (x : snode T link) : snode T link := SN (sn_data x) (map (moved_link n) (sn_links x)).
  (** add: list.rs:650-678, and the drop of [other].  Returns the values dropped. *)
  Definition slist_add (a b : skip_list) : res (skip_list * list T) :=
    let n := length (sl_heap a) in
    let h := sl_heap a ++ map (option_map (moved_node n)) (sl_heap b) in
    let* tails := tails_loop (S (length h + S max_height)) h 0 max_height (repeat 0 (S max_height)) in
    let* h := join_loop 0 h n tails in
    let* (h, vs) := ldrop h n in
    Ok (SkipList h (sl_len a + sl_len b), vs).

  (** One API call on one list; [d] is the number drawn if the call inserts.  push and pop: list.rs:250-310;
      index: 681-693.  [len() - 1] on an empty list panics, or wraps and fails the assertion of remove. *)
  Definition slist_step (m : skip_list) (op : seq_op T * N) : res (skip_list * seq_out T) :=
    let '(o, d) := op in
    match o with
    | QInsert i v => slist_insert m i v d
    | QRemove i => slist_remove m i
    | QPushFront v => slist_insert m 0 v d
    | QPushBack v => slist_insert m (sl_len m) v d
    | QPopFront => slist_remove m 0
    | QPopBack =>
        match checked_sub (sl_len m) 1 with
        | Ok i => slist_remove m i
        | _ => Ok (m, QVal Panic)
        end
    | QGet i => let* x := slist_get m i in Ok (m, QOpt x)
    | QGetMut i v => let* (m, x) := slist_get_mut m i v in Ok (m, QOpt x)
    | QIndex i => let* x := slist_get m i in Ok (m, QVal (expect x))
    | QIndexMut i v => let* (m, x) := slist_get_mut m i v in Ok (m, QVal (expect x))
    | QLen => Ok (m, QNat (sl_len m))
    | QIsEmpty => Ok (m, QBool (sl_len m =? 0))
    | QClear => let* (m, _) := slist_clear m in Ok (m, QDone (Ok tt))
    | QIter => let* l := slist_iter m in Ok (m, QList l)
    | QIterMut vs => let* (m, os) := slist_iter_mut m vs in Ok (m, QList os)
    | QIntoIter => let* (_, vs, _) := slist_into_iter m (length (sl_heap m)) in Ok (slist_new, QList vs)
    end.

  (** Programs over several SkipLists; a consumed variable is left empty. *)
  Definition slist_prog_step (rs : nat -> skip_list) (op : sprog_op T * N) : res ((nat -> skip_list) * seq_out T) :=
    let '(o, d) := op in
    match o with
    | QPOp i o => let* (m, out) := slist_step (rs i) (o, d) in Ok (update rs i m, out)
    | QPAdd d i j =>
        let a := rs i in let rs1 := update rs i slist_new in
        let b := rs1 j in let rs2 := update rs1 j slist_new in
        let* (m, _) := slist_add a b in
        Ok (update rs2 d m, QDone (Ok tt))
    end.
End SkipList.
Arguments skip_list : clear implicits.
