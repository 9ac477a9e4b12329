(** The functions of /repo/src/skiplist/map.rs with a count of their steps: one for each level entered and one for each comparison of
    keys ([max] compares nothing; there it is one for each node looked at).  The results are those of SkipMapModel.v
    (SkipCostProofs.v). *)
From Verif Require Export SkipMapModel.

Section SkipMapCost.
  Context {K V : Type} `{Cmp K}.
  Notation link := (option nat).
  Notation hp := (heap (K * V) link).

  (** The inner loop of all searches, e.g. map.rs:154-158 *)
  Fixpoint walk_c (fuel : nat) (h : hp) (cur i : nat) (go : K -> bool) : res ((nat * link) * nat) :=
    match fuel with
    | O => Timeout
    | S f =>
        let* nx := get_link h cur i in
        match nx with
        | None => Ok ((cur, None), 0)
        | Some y =>
            let* e := get_data h y in
            if go (fst e) then let* (r, c) := walk_c f h y i go in Ok (r, 1 + c) else Ok ((cur, Some y), 1)
        end
    end.
  Definition walk_all_c (h : hp) := walk_c (S (length h)) h.

  (** The comparison for equality with the next key, if there is one *)
  Definition equal_c (nx : link) : nat := match nx with None => 0 | Some _ => 1 end.

  (** insert: map.rs:141-187 *)
  Fixpoint insert_loop_c (i : nat) (h : hp) (cur new new_height : nat) (k : K) : res ((hp * option (K * V)) * nat) :=
    let* ((cur, nx), c) := walk_all_c h cur i (fun x => is_lt (cmp x k)) in
    let* (h, ret) := unlink h cur i nx k in
    let* h := (if i <=? new_height then
                 let* p := get_link h cur i in
                 let* h := set_link h cur i (Some new) in
                 set_link h new i p
               else Ok h) in
    match i with
    | O => Ok ((h, ret), 1 + c + equal_c nx)
    | S j => let* (r, c') := insert_loop_c j h cur new new_height k in Ok (r, 1 + c + equal_c nx + c')
    end.
  Definition skip_insert_c (m : skip_map K V) (k : K) (v : V) (d : N) : res ((skip_map K V * option (K * V)) * nat) :=
    let len := S (sk_len m) in
    let new_height := height_of d in
    let (h, new) := alloc (sk_heap m) (Some (k, v)) (S new_height) None in
    let* ((h, ret), c) := insert_loop_c max_height h 0 new new_height k in
    let* len := match ret with Some _ => checked_pred len | None => Ok len end in
    Ok ((SkipMap h len, ret), c).

  (** remove: map.rs:202-241 *)
  Fixpoint remove_loop_c (i : nat) (h : hp) (cur : nat) (k : K) : res ((hp * option (K * V)) * nat) :=
    let* ((cur, nx), c) := walk_all_c h cur i (fun x => is_lt (cmp x k)) in
    let* (h, ret) := unlink h cur i nx k in
    match i with
    | O => Ok ((h, ret), 1 + c + equal_c nx)
    | S j => let* (r, c') := remove_loop_c j h cur k in Ok (r, 1 + c + equal_c nx + c')
    end.
  Definition skip_remove_c (m : skip_map K V) (k : K) : res ((skip_map K V * option (K * V)) * nat) :=
    let* ((h, ret), c) := remove_loop_c max_height (sk_heap m) 0 k in
    let* len := match ret with Some _ => checked_pred (sk_len m) | None => Ok (sk_len m) end in
    Ok ((SkipMap h len, ret), c).

  (** get and get_mut: map.rs:276-304, 319-347 *)
  Fixpoint find_loop_c (i : nat) (h : hp) (cur : nat) (k : K) : res (option nat * nat) :=
    let* ((cur, nx), c) := walk_all_c h cur i (fun x => is_lt (cmp x k)) in
    let* found := match nx with
                  | None => Ok None
                  | Some y => let* e := get_data h y in Ok (if is_eq (cmp (fst e) k) then Some y else None)
                  end in
    match found, i with
    | Some y, _ => Ok (Some y, 1 + c + equal_c nx)
    | None, O => Ok (None, 1 + c + equal_c nx)
    | None, S j => let* (r, c') := find_loop_c j h cur k in Ok (r, 1 + c + equal_c nx + c')
    end.
  Definition skip_find_c (m : skip_map K V) (k : K) : res (option nat * nat) :=
    find_loop_c (starting_height (sk_len m)) (sk_heap m) 0 k.

  (** The descent of floor (map.rs:416-443), ceil (458-485) and max (525-551) *)
  Fixpoint descend_c (i : nat) (h : hp) (cur : nat) (go : K -> bool) : res ((nat * link) * nat) :=
    let* ((cur, nx), c) := walk_all_c h cur i go in
    match i with
    | O => Ok ((cur, nx), 1 + c)
    | S j => let* (r, c') := descend_c j h cur go in Ok (r, 1 + c + c')
    end.

  (** One call on one SkipMap *)
  Definition skip_step_c (m : skip_map K V) (op : map_op K V * N) : res (skip_map K V * (map_out K V * nat)) :=
    let from := starting_height (sk_len m) in
    match fst op with
    | MInsert k v => let* ((m, old), c) := skip_insert_c m k v (snd op) in Ok (m, (RPair old, c))
    | MRemove k => let* ((m, old), c) := skip_remove_c m k in Ok (m, (RPair old, c))
    | MGet k | MGetMut k _ | MIndex k | MContains k =>
        let* (_, c) := skip_find_c m k in
        let* (m', out) := skip_step m op in Ok (m', (out, c))
    | MFloor k =>
        let* ((cur, _), c) := descend_c from (sk_heap m) 0 (fun x => negb (is_gt (cmp x k))) in
        let* x := key_at (sk_heap m) (not_head cur) in Ok (m, (RKey x, c))
    | MCeil k =>
        let* ((_, nx), c) := descend_c from (sk_heap m) 0 (fun x => is_lt (cmp x k)) in
        let* x := key_at (sk_heap m) nx in Ok (m, (RKey x, c))
    | MMax =>
        let* ((cur, _), c) := descend_c from (sk_heap m) 0 (fun _ => true) in
        let* x := key_at (sk_heap m) (not_head cur) in Ok (m, (RKey x, c))
    | MMin => let* (m', out) := skip_step m op in Ok (m', (out, 1))
    | _ => let* (m', out) := skip_step m op in Ok (m', (out, 0))
    end.
End SkipMapCost.
