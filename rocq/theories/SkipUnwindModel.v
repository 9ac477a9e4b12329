(** SkipMap when a comparison of two keys panics and the caller catches the panic and goes on with the map:
    /repo/src/skiplist/map.rs.

    [b] is the number of comparisons that return before one panics, as in UnwindModel.v.  The functions are those of
    SkipMapModel.v; they also say what the unwinding leaves in memory.  The map works on raw pointers, so nothing is undone:
    memory stays as it is at that moment, and the new node of an insert is not freed. *)
From Verif Require Export SkipMapModel UnwindModel.

Section SkipUnwind.
  Context {K V : Type} `{Cmp K}.
  Notation link := (option nat).
  Notation hp := (heap (K * V) link).
  Notation skip_map := (skip_map K V).

  (** The inner loop of all searches, e.g. map.rs:154-158; [None]: it panicked. *)
  Fixpoint walk_u (fuel b : nat) (h : hp) (cur i : nat) (go : K -> bool) : res (option (nat * (nat * link))) :=
    match fuel with
    | O => Timeout
    | S f =>
        let* nx := get_link h cur i in
        match nx with
        | None => Ok (Some (b, (cur, None)))
        | Some y =>
            let* e := get_data h y in
            match b with
            | 0 => Ok None
            | S b => if go (fst e) then walk_u f b h y i go else Ok (Some (b, (cur, Some y)))
            end
        end
    end.
  Definition walk_all_u (b : nat) (h : hp) := walk_u (S (length h)) b h.

  (** map.rs:160-172 and 219-231: one comparison, if there is a next node. *)
  Definition unlink_u (b : nat) (h : hp) (cur i : nat) (nx : link) (k : K) : res (option (nat * (hp * option (K * V)))) :=
    match nx, b with
    | None, _ => Ok (Some (b, (h, None)))
    | Some _, 0 => Ok None
    | Some _, S b => let* x := unlink h cur i nx k in Ok (Some (b, x))
    end.

  (** insert: map.rs:141-187 *)
  Fixpoint insert_loop_u (i b : nat) (h : hp) (cur new new_height : nat) (k : K) : res (outcome hp (option (K * V))) :=
    let* w := walk_all_u b h cur i (fun x => is_lt (cmp x k)) in
    match w with
    | None => Ok (Threw h)
    | Some (b, (cur, nx)) =>
        let* u := unlink_u b h cur i nx k in
        match u with
        | None => Ok (Threw h)
        | Some (b, (h, ret)) =>
            let* h := (if i <=? new_height then
                         let* p := get_link h cur i in
                         let* h := set_link h cur i (Some new) in
                         set_link h new i p
                       else Ok h) in
            match i with
            | O => Ok (Came b h ret)
            | S j => insert_loop_u j b h cur new new_height k
            end
        end
    end.
  (** The length is raised before the search: map.rs:145. *)
  Definition skip_insert_u (m : skip_map) (k : K) (v : V) (d : N) (b : nat) : res (skip_map * option (option (K * V))) :=
    let len := S (sk_len m) in
    let new_height := height_of d in
    let (h, new) := alloc (sk_heap m) (Some (k, v)) (S new_height) None in
    let* x := insert_loop_u max_height b h 0 new new_height k in
    match x with
    | Came _ h ret =>
        let* len := match ret with Some _ => checked_pred len | None => Ok len end in
        Ok (SkipMap h len, Some ret)
    | Threw h => Ok (SkipMap h len, None)
    end.

  (** remove: map.rs:202-241 *)
  Fixpoint remove_loop_u (i b : nat) (h : hp) (cur : nat) (k : K) : res (outcome hp (option (K * V))) :=
    let* w := walk_all_u b h cur i (fun x => is_lt (cmp x k)) in
    match w with
    | None => Ok (Threw h)
    | Some (b, (cur, nx)) =>
        let* u := unlink_u b h cur i nx k in
        match u with
        | None => Ok (Threw h)
        | Some (b, (h, ret)) =>
            match i with
            | O => Ok (Came b h ret)
            | S j => remove_loop_u j b h cur k
            end
        end
    end.
  Definition skip_remove_u (m : skip_map) (k : K) (b : nat) : res (skip_map * option (option (K * V))) :=
    let* x := remove_loop_u max_height b (sk_heap m) 0 k in
    match x with
    | Came _ h ret =>
        let* len := match ret with Some _ => checked_pred (sk_len m) | None => Ok (sk_len m) end in
        Ok (SkipMap h len, Some ret)
    | Threw h => Ok (SkipMap h (sk_len m), None)
    end.

  (** get and get_mut: map.rs:276-304, 319-347; [None]: it panicked. *)
  Fixpoint find_loop_u (i b : nat) (h : hp) (cur : nat) (k : K) : res (option (option nat)) :=
    let* w := walk_all_u b h cur i (fun x => is_lt (cmp x k)) in
    match w with
    | None => Ok None
    | Some (b, (cur, nx)) =>
        let* u := match nx, b with
                  | None, _ => Ok (Some (b, None))
                  | Some _, 0 => Ok None
                  | Some y, S b => let* e := get_data h y in Ok (Some (b, if is_eq (cmp (fst e) k) then Some y else None))
                  end in
        match u, i with
        | None, _ => Ok None
        | Some (_, Some y), _ => Ok (Some (Some y))
        | Some (_, None), O => Ok (Some None)
        | Some (b, None), S j => find_loop_u j b h cur k
        end
    end.
  Definition skip_find_u (m : skip_map) (k : K) (b : nat) : res (option (option nat)) :=
    find_loop_u (starting_height (sk_len m)) b (sk_heap m) 0 k.
  Definition skip_get_u (m : skip_map) (k : K) (b : nat) : res (option (option V)) :=
    let* p := skip_find_u m k b in
    match p with
    | None => Ok None
    | Some None => Ok (Some None)
    | Some (Some y) => let* e := get_data (sk_heap m) y in Ok (Some (Some (snd e)))
    end.
  Definition skip_get_mut_u (m : skip_map) (k : K) (v : V) (b : nat) : res (skip_map * option (option V)) :=
    let* p := skip_find_u m k b in
    match p with
    | None => Ok (m, None)
    | Some None => Ok (m, Some None)
    | Some (Some y) =>
        let* e := get_data (sk_heap m) y in
        let* h := set_data (sk_heap m) y (fst e, v) in
        Ok (SkipMap h (sk_len m), Some (Some (snd e)))
    end.

  (** floor and ceil: map.rs:416-443, 458-485; [None]: it panicked. *)
  Fixpoint descend_u (i b : nat) (h : hp) (cur : nat) (go : K -> bool) : res (option (nat * link)) :=
    let* w := walk_all_u b h cur i go in
    match w, i with
    | None, _ => Ok None
    | Some (_, x), O => Ok (Some x)
    | Some (b, (cur, _)), S j => descend_u j b h cur go
    end.
  Definition skip_floor_u (m : skip_map) (k : K) (b : nat) : res (option (option K)) :=
    let* x := descend_u (starting_height (sk_len m)) b (sk_heap m) 0 (fun x => negb (is_gt (cmp x k))) in
    match x with
    | None => Ok None
    | Some (cur, _) => let* r := key_at (sk_heap m) (not_head cur) in Ok (Some r)
    end.
  Definition skip_ceil_u (m : skip_map) (k : K) (b : nat) : res (option (option K)) :=
    let* x := descend_u (starting_height (sk_len m)) b (sk_heap m) 0 (fun x => is_lt (cmp x k)) in
    match x with
    | None => Ok None
    | Some (_, nx) => let* r := key_at (sk_heap m) nx in Ok (Some r)
    end.

  (** A call of a SkipMap, as in [skip_step]; [None]: it panicked. *)
  Definition skip_step_u (m : skip_map) (op : map_op K V * N * nat) : res (skip_map * option (map_out K V)) :=
    let '(o, d, b) := op in
    match o with
    | MInsert k v => let* (m, x) := skip_insert_u m k v d b in Ok (m, option_map RPair x)
    | MRemove k => let* (m, x) := skip_remove_u m k b in Ok (m, option_map RPair x)
    | MGet k => let* x := skip_get_u m k b in Ok (m, option_map RVal x)
    | MGetMut k v => let* (m, x) := skip_get_mut_u m k v b in Ok (m, option_map RVal x)
    | MIndex k => let* x := skip_get_u m k b in Ok (m, option_map (fun v => RIndex (expect v)) x)
    | MContains k => let* x := skip_get_u m k b in
        Ok (m, option_map (fun v => RBool (match v with Some _ => true | None => false end)) x)
    | MFloor k => let* x := skip_floor_u m k b in Ok (m, option_map RKey x)
    | MCeil k => let* x := skip_ceil_u m k b in Ok (m, option_map RKey x)
    | _ => let* (m, out) := skip_step m (o, d) in Ok (m, Some out)
    end.
End SkipUnwind.
