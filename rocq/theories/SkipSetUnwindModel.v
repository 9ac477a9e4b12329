(** Set operations of SkipMap when a comparison of two keys panics: /repo/src/skiplist/map.rs:576-823.  The loops are those of
    SkipMapModel.v; [n] is the number of comparisons that return before one panics, and the entries freed are recorded.

    During the loop [left.head] and [right.head] are the first nodes that are left; the head nodes are in local variables
    without a destructor (lines 588-591, 640-641).  Unwinding drops [ret], [right] and [left]. *)
From Verif Require Export SkipMapModel.

Section SkipSetUnwind.
  Context {K V : Type} `{Cmp K}.
  Notation hp := (heap (K * V) (option nat)).
  Notation link := (option nat).
  Notation entries := (list (K * V)).

  (** How a loop ends: as without panics, or in the middle. *)
  Inductive ending : Type :=
  | Ended (hl hr : hp) (b : builder K V)
  | Struck (hl : hp) (pl : link) (hr : hp) (pr : link) (b : builder K V).

  (** [Node::free]: with the entry that is dropped. *)
  Definition discard_u (h : hp) (p : link) (ds : entries) : res (hp * link * entries) :=
    let* (h, nn, e, _) := take h p in Ok (h, nn, ds ++ [e]).

  (** union: map.rs:576-644. *)
  Fixpoint union_loop_u (fuel n : nat) (hl : hp) (pl : link) (hr : hp) (pr : link) (b : builder K V) (ds : entries) {struct fuel}
    : res (ending * entries) :=
    match fuel with
    | O => Timeout
    | S f =>
        match pl, pr with
        | None, None => Ok (Ended hl hr b, ds)
        | Some x, Some y =>
            let* ex := get_data hl x in
            let* ey := get_data hr y in
            match n with
            | 0 => Ok (Struck hl pl hr pr b, ds)
            | S n =>
                match cmp (fst ex) (fst ey) with
                | Eq => let* (hr, pr, ds) := discard_u hr pr ds in union_loop_u f n hl pl hr pr b ds
                | Lt =>
                    let* (hl, pl, e, m) := take hl pl in
                    let* b := append b e m 0 in union_loop_u f n hl pl hr pr b ds
                | Gt =>
                    let* (hr, pr, e, m) := take hr pr in
                    let* b := append b e m 0 in union_loop_u f n hl pl hr pr b ds
                end
            end
        | None, Some _ =>
            let* (hr, pr, e, m) := take hr pr in
            let* b := append b e m 0 in union_loop_u f n hl pl hr pr b ds
        | Some _, None =>
            let* (hl, pl, e, m) := take hl pl in
            let* b := append b e m 0 in union_loop_u f n hl pl hr pr b ds
        end
    end.

  (** intersection: map.rs:668-741. *)
  Fixpoint inter_loop_u (fuel n : nat) (hl : hp) (pl : link) (hr : hp) (pr : link) (b : builder K V) (ds : entries) {struct fuel}
    : res (ending * entries) :=
    match fuel with
    | O => Timeout
    | S f =>
        match pl, pr with
        | None, None => Ok (Ended hl hr b, ds)
        | Some x, Some y =>
            let* ex := get_data hl x in
            let* ey := get_data hr y in
            match n with
            | 0 => Ok (Struck hl pl hr pr b, ds)
            | S n =>
                match cmp (fst ex) (fst ey) with
                | Eq =>
                    let* (hl, pl, e, m) := take hl pl in
                    let* (hr, pr, ds) := discard_u hr pr ds in
                    let* b := append b e m 1 in inter_loop_u f n hl pl hr pr b ds
                | Lt => let* (hl, pl, ds) := discard_u hl pl ds in inter_loop_u f n hl pl hr pr b ds
                | Gt => let* (hr, pr, ds) := discard_u hr pr ds in inter_loop_u f n hl pl hr pr b ds
                end
            end
        | None, Some _ => let* (hr, pr, ds) := discard_u hr pr ds in inter_loop_u f n hl pl hr pr b ds
        | Some _, None => let* (hl, pl, ds) := discard_u hl pl ds in inter_loop_u f n hl pl hr pr b ds
        end
    end.

  (** map_difference: map.rs:743-823. *)
  Fixpoint diff_loop_u (fuel n : nat) (hl : hp) (pl : link) (hr : hp) (pr : link) (symmetric : bool) (b : builder K V) (ds : entries) {struct fuel}
    : res (ending * entries) :=
    match fuel with
    | O => Timeout
    | S f =>
        match pl, pr with
        | None, None => Ok (Ended hl hr b, ds)
        | Some x, Some y =>
            let* ex := get_data hl x in
            let* ey := get_data hr y in
            match n with
            | 0 => Ok (Struck hl pl hr pr b, ds)
            | S n =>
                match cmp (fst ex) (fst ey) with
                | Eq =>
                    let* (hl, pl, ds) := discard_u hl pl ds in
                    let* (hr, pr, ds) := discard_u hr pr ds in
                    diff_loop_u f n hl pl hr pr symmetric b ds
                | Lt =>
                    let* (hl, pl, e, m) := take hl pl in
                    let* b := append b e m 0 in diff_loop_u f n hl pl hr pr symmetric b ds
                | Gt =>
                    if symmetric then
                      let* (hr, pr, e, m) := take hr pr in
                      let* b := append b e m 0 in diff_loop_u f n hl pl hr pr symmetric b ds
                    else
                      let* (hr, pr, ds) := discard_u hr pr ds in diff_loop_u f n hl pl hr pr symmetric b ds
                end
            end
        | None, Some _ =>
            if symmetric then
              let* (hr, pr, e, m) := take hr pr in
              let* b := append b e m 0 in diff_loop_u f n hl pl hr pr symmetric b ds
            else
              let* (hr, pr, ds) := discard_u hr pr ds in diff_loop_u f n hl pl hr pr symmetric b ds
        | Some _, None =>
            let* (hr, pr, e, m) := take hr pr in
            let* b := append b e m 0 in diff_loop_u f n hl pl hr pr symmetric b ds
        end
    end.

  (** drop of a map whose [head] is the node [p]: map.rs:939-950.  The first node is deallocated, its entry is not dropped. *)
  Definition drop_at (h : hp) (p : link) : res (hp * entries) :=
    match p with
    | None => Panic
    | Some y =>
        let* nn := get_link h y 0 in
        let* h := dealloc h y in
        free_from (length h) h nn
    end.

  (** The map returned, or the memory of [ret] after unwinding. *)
  Inductive set_result : Type :=
  | Returned (m : skip_map K V)
  | Thrown (h : hp).
  (** The memories of [left] and [right], the result, the entries dropped. *)
  Definition skip_set_op_u (s : set_op) (n : nat) (l r : skip_map K V) : res (hp * hp * set_result * entries) :=
    let* pl := get_link (sk_heap l) 0 0 in
    let* pr := get_link (sk_heap r) 0 0 in
    let* hl := zero_links (sk_heap l) 0 None in
    let* hr := zero_links (sk_heap r) 0 None in
    let fuel := S (length hl + length hr) in
    let* (e, ds) := match s with
                    | SUnion => union_loop_u fuel n hl pl hr pr builder_new []
                    | SInter => inter_loop_u fuel n hl pl hr pr builder_new []
                    | SDiff => diff_loop_u fuel n hl pl hr pr false builder_new []
                    | SSymDiff => diff_loop_u fuel n hl pl hr pr true builder_new []
                    end in
    match e with
    | Ended hl hr b =>
        let* (hl, _) := skip_drop (SkipMap hl (sk_len l)) in
        let* (hr, _) := skip_drop (SkipMap hr (sk_len r)) in
        Ok (hl, hr, Returned (SkipMap (b_heap b) (b_len b)), ds)
    | Struck hl pl hr pr b =>
        let* (h, d0) := skip_drop (SkipMap (b_heap b) (b_len b)) in
        let* (hr, d1) := drop_at hr pr in
        let* (hl, d2) := drop_at hl pl in
        Ok (hl, hr, Thrown h, ds ++ d0 ++ d1 ++ d2)
    end.
End SkipSetUnwind.
