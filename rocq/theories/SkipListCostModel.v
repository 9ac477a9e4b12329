(** The functions of /repo/src/skiplist/list.rs with a count of their steps: one for each level entered, one for each node moved to, and
    one for each round of the second loop of [insert].  The results are those of SkipListModel.v (SkipListCostProofs.v). *)
From Verif Require Export SkipListModel.

Section SkipListCost.
  Context {T : Type}.
  Notation link := (option nat * nat)%type.
  Notation hp := (heap T link).

  (** The inner loop of insert, remove, get and get_mut, e.g. list.rs:154-160 *)
  Fixpoint lwalk_c (fuel : nat) (h : hp) (cur i index moved : nat) : res ((nat * link * nat * nat) * nat) :=
    match fuel with
    | O => Timeout
    | S f =>
        let* l := get_link h cur i in
        match fst l with
        | None => Ok ((cur, l, index, moved), 0)
        | Some y =>
            if snd l <=? index then
              let* (r, c) := lwalk_c f h y i (index - snd l) (moved + snd l) in Ok (r, 1 + c)
            else Ok ((cur, l, index, moved), 0)
        end
    end.
  Definition lwalk_all_c (h : hp) (cur i index : nat) := lwalk_c (S (length h)) h cur i index 0.

  (** insert, first loop: list.rs:152-178 *)
  Fixpoint linsert_loop_c (i : nat) (h : hp) (cur index new new_height : nat) (last : list (nat * nat)) :
      res ((hp * list (nat * nat)) * nat) :=
    let* ((cur, l, index, moved), c) := lwalk_all_c h cur i index in
    let last := list_set last i (cur, moved) in
    let* h := (if i <=? new_height then
                 let* h := set_link h cur i (Some new, 1) in
                 set_link h new i l
               else Ok h) in
    match i with
    | O => Ok ((h, last), 1 + c)
    | S j => let* (r, c') := linsert_loop_c j h cur index new new_height last in Ok (r, 1 + c + c')
    end.
  (** insert: list.rs:143-190.  The second loop, list.rs:180-188, makes [max_height] rounds. *)
  Definition slist_insert_c (m : skip_list T) (index : nat) (v : T) (d : N) : res (skip_list T * (seq_out T * nat)) :=
    if index <=? sl_len m then
      let new_height := height_of d in
      let (h, new) := alloc (sl_heap m) (Some v) (S new_height) null_link in
      let* ((h, last), c) := linsert_loop_c max_height h 0 index new new_height (repeat (0, 0) (S max_height)) in
      let* (_, d0) := expect (nth_error last 0) in
      let* h := ldist_loop max_height 1 d0 h new new_height last in
      Ok (SkipList h (S (sl_len m)), (QDone (Ok tt), c + max_height))
    else Ok (m, (QDone Panic, 0)).

  (** remove: list.rs:203-236 *)
  Fixpoint lremove_loop_c (i : nat) (h : hp) (cur index : nat) : res ((hp * T) * nat) :=
    let* ((cur, l, index, _), c) := lwalk_all_c h cur i index in
    let* found := match fst l with
                  | None => Ok (h, None)
                  | Some y =>
                      if snd l =? index + 1 then
                        let* ly := get_link h y i in
                        let* h := set_link h cur i ly in
                        let* h := set_link h y i l in
                        let* d := checked_sub (snd l) 1 in
                        let* h := set_dist h cur i (snd ly + d) in
                        Ok (h, Some y)
                      else
                        let* d := checked_sub (snd l) 1 in
                        let* h := set_dist h cur i d in
                        Ok (h, None)
                  end in
    let '(h, found) := found in
    match i, found with
    | O, Some y => let* v := get_data h y in let* h := dealloc h y in Ok ((h, v), 1 + c)
    | O, None => Panic
    | S j, _ => let* (r, c') := lremove_loop_c j h cur index in Ok (r, 1 + c + c')
    end.
  Definition slist_remove_c (m : skip_list T) (index : nat) : res (skip_list T * (seq_out T * nat)) :=
    if index <? sl_len m then
      let* ((h, v), c) := lremove_loop_c max_height (sl_heap m) 0 index in
      let* n := checked_pred (sl_len m) in
      Ok (SkipList h n, (QVal (Ok v), c))
    else Ok (m, (QVal Panic, 0)).

  (** get and get_mut: list.rs:325-350, 365-390 *)
  Fixpoint lfind_loop_c (i : nat) (h : hp) (cur index : nat) : res (option nat * nat) :=
    let* ((cur, l, index, _), c) := lwalk_all_c h cur i index in
    let down := match i with
                | O => Ok (None, 1 + c)
                | S j => let* (r, c') := lfind_loop_c j h cur index in Ok (r, 1 + c + c')
                end in
    match fst l with
    | None => down
    | Some y => if snd l =? index + 1 then Ok (Some y, 1 + c) else down
    end.
  Definition slist_find_c (m : skip_list T) (index : nat) : res (option nat * nat) := lfind_loop_c max_height (sl_heap m) 0 index.

  (** One API call.  Calls that look for no index are not counted. *)
  Definition slist_step_c (m : skip_list T) (op : seq_op T * N) : res (skip_list T * (seq_out T * nat)) :=
    match fst op with
    | QInsert i v => slist_insert_c m i v (snd op)
    | QRemove i => slist_remove_c m i
    | QPushFront v => slist_insert_c m 0 v (snd op)
    | QPushBack v => slist_insert_c m (sl_len m) v (snd op)
    | QPopFront => slist_remove_c m 0
    | QPopBack =>
        match checked_sub (sl_len m) 1 with
        | Ok i => slist_remove_c m i
        | _ => Ok (m, (QVal Panic, 0))
        end
    | QGet i | QGetMut i _ | QIndex i | QIndexMut i _ =>
        let* (_, c) := slist_find_c m i in let* (m, out) := slist_step m op in Ok (m, (out, c))
    | _ => let* (m, out) := slist_step m op in Ok (m, (out, 0))
    end.
End SkipListCost.
