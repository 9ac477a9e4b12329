(** Programs over several [SkipMap]s with a count of their steps: the operations of SkipMapModel.v that also return a number.  The set
    operations count one step for each iteration of their loop, for each comparison of keys and for each link of the result that they
    write (skiplist/map.rs:576-823).  Left out: the 33 links of each of the three heads that they clear. *)
From Verif Require Export SkipCostModel.

Section SkipProgCost.
  Context {K V : Type} `{Cmp K}.
  Notation hp := (heap (K * V) (option nat)).
  Notation link := (option nat).
  Notation builder := (builder K V).

  (** map.rs:635-638, 732-735, 814-817 *)
  Fixpoint link_tails_c (n i : nat) (h : hp) (tails : list nat) (a : nat) : res ((hp * list nat) * nat) :=
    match n with
    | O => Ok ((h, tails), 0)
    | S n' =>
        match nth_error tails i with
        | None => Ok ((h, tails), 0)
        | Some t =>
            let* h := set_link h t i (Some a) in
            let* (r, c) := link_tails_c n' (S i) h (list_set tails i a) a in Ok (r, 1 + c)
        end
    end.
  Definition append_c (b : builder) (e : K * V) (links_len extra : nat) : res (builder * nat) :=
    let (h, a) := alloc (b_heap b) (Some e) links_len None in
    let* ((h, tails), c) := link_tails_c (links_len + extra) 0 h (b_tails b) a in
    Ok (Builder h tails (S (b_len b)), c).

  Notation out := (res ((hp * hp * builder) * nat)).
  Definition plus (c : nat) (r : out) : out := let* (x, c') := r in Ok (x, c + c').

  (** union: map.rs:576-644 *)
  Fixpoint union_loop_c (fuel : nat) (hl : hp) (pl : link) (hr : hp) (pr : link) (b : builder) : out :=
    match fuel with
    | O => Timeout
    | S f =>
        match pl, pr with
        | None, None => Ok ((hl, hr, b), 1)
        | Some x, Some y =>
            let* ex := get_data hl x in
            let* ey := get_data hr y in
            match cmp (fst ex) (fst ey) with
            | Eq => let* (hr, pr) := discard hr pr in plus 2 (union_loop_c f hl pl hr pr b)
            | Lt =>
                let* (hl, pl, e, n) := take hl pl in
                let* (b, c) := append_c b e n 0 in plus (2 + c) (union_loop_c f hl pl hr pr b)
            | Gt =>
                let* (hr, pr, e, n) := take hr pr in
                let* (b, c) := append_c b e n 0 in plus (2 + c) (union_loop_c f hl pl hr pr b)
            end
        | None, Some _ =>
            let* (hr, pr, e, n) := take hr pr in
            let* (b, c) := append_c b e n 0 in plus (1 + c) (union_loop_c f hl pl hr pr b)
        | Some _, None =>
            let* (hl, pl, e, n) := take hl pl in
            let* (b, c) := append_c b e n 0 in plus (1 + c) (union_loop_c f hl pl hr pr b)
        end
    end.

  (** intersection: map.rs:668-741 *)
  Fixpoint inter_loop_c (fuel : nat) (hl : hp) (pl : link) (hr : hp) (pr : link) (b : builder) : out :=
    match fuel with
    | O => Timeout
    | S f =>
        match pl, pr with
        | None, None => Ok ((hl, hr, b), 1)
        | Some x, Some y =>
            let* ex := get_data hl x in
            let* ey := get_data hr y in
            match cmp (fst ex) (fst ey) with
            | Eq =>
                let* (hl, pl, e, n) := take hl pl in
                let* (hr, pr) := discard hr pr in
                let* (b, c) := append_c b e n 1 in plus (2 + c) (inter_loop_c f hl pl hr pr b)
            | Lt => let* (hl, pl) := discard hl pl in plus 2 (inter_loop_c f hl pl hr pr b)
            | Gt => let* (hr, pr) := discard hr pr in plus 2 (inter_loop_c f hl pl hr pr b)
            end
        | None, Some _ => let* (hr, pr) := discard hr pr in plus 1 (inter_loop_c f hl pl hr pr b)
        | Some _, None => let* (hl, pl) := discard hl pl in plus 1 (inter_loop_c f hl pl hr pr b)
        end
    end.

  (** map_difference: map.rs:743-823 *)
  Fixpoint diff_loop_c (fuel : nat) (hl : hp) (pl : link) (hr : hp) (pr : link) (symmetric : bool) (b : builder) : out :=
    match fuel with
    | O => Timeout
    | S f =>
        match pl, pr with
        | None, None => Ok ((hl, hr, b), 1)
        | Some x, Some y =>
            let* ex := get_data hl x in
            let* ey := get_data hr y in
            match cmp (fst ex) (fst ey) with
            | Eq =>
                let* (hl, pl) := discard hl pl in
                let* (hr, pr) := discard hr pr in
                plus 2 (diff_loop_c f hl pl hr pr symmetric b)
            | Lt =>
                let* (hl, pl, e, n) := take hl pl in
                let* (b, c) := append_c b e n 0 in plus (2 + c) (diff_loop_c f hl pl hr pr symmetric b)
            | Gt =>
                if symmetric then
                  let* (hr, pr, e, n) := take hr pr in
                  let* (b, c) := append_c b e n 0 in plus (2 + c) (diff_loop_c f hl pl hr pr symmetric b)
                else
                  let* (hr, pr) := discard hr pr in plus 2 (diff_loop_c f hl pl hr pr symmetric b)
            end
        | None, Some _ =>
            if symmetric then
              let* (hr, pr, e, n) := take hr pr in
              let* (b, c) := append_c b e n 0 in plus (1 + c) (diff_loop_c f hl pl hr pr symmetric b)
            else
              let* (hr, pr) := discard hr pr in plus 1 (diff_loop_c f hl pl hr pr symmetric b)
        | Some _, None =>
            let* (hr, pr, e, n) := take hr pr in
            let* (b, c) := append_c b e n 0 in plus (1 + c) (diff_loop_c f hl pl hr pr symmetric b)
        end
    end.

  Definition skip_set_op_c (s : set_op) (l r : skip_map K V) : res ((hp * hp * skip_map K V) * nat) :=
    let* pl := get_link (sk_heap l) 0 0 in
    let* pr := get_link (sk_heap r) 0 0 in
    let* hl := zero_links (sk_heap l) 0 None in
    let* hr := zero_links (sk_heap r) 0 None in
    let fuel := S (length hl + length hr) in
    let* ((hl, hr, b), c) := match s with
                             | SUnion => union_loop_c fuel hl pl hr pr builder_new
                             | SInter => inter_loop_c fuel hl pl hr pr builder_new
                             | SDiff => diff_loop_c fuel hl pl hr pr false builder_new
                             | SSymDiff => diff_loop_c fuel hl pl hr pr true builder_new
                             end in
    let* (hl, _) := skip_drop (SkipMap hl (sk_len l)) in
    let* (hr, _) := skip_drop (SkipMap hr (sk_len r)) in
    Ok ((hl, hr, SkipMap (b_heap b) (b_len b)), c).

  Definition skip_prog_step_c (rs : nat -> skip_map K V) (op : prog_op K V * N) : res ((nat -> skip_map K V) * (map_out K V * nat)) :=
    let '(o, d) := op in
    match o with
    | POp i o => let* (m, out) := skip_step_c (rs i) (o, d) in Ok (update rs i m, out)
    | PSet s d i j =>
        let a := rs i in let rs1 := update rs i skip_new in
        let b := rs1 j in let rs2 := update rs1 j skip_new in
        let* ((_, _, m), c) := skip_set_op_c s a b in
        Ok (update rs2 d m, (RUnit, c))
    | PSplit _ _ _ _ => Panic
    end.
End SkipProgCost.

(** The numbers that the maps of a program draw.  Every SkipMap has a generator of its own, and [new] starts each of them at the same
    constant state (rand::XorShiftRng::new_unseeded).  A generator is the number of draws made from it; what it returns is not modelled.
    - an insertion draws one number: map.rs:123-125, 153
    - union, intersection, difference and symmetric difference return a map with a new generator: map.rs:582, 674, 749
    - a map that is consumed is replaced by [new]: map.rs:111-117 *)
Definition skip_generators {K V} (g : nat -> nat) (o : prog_op K V) : nat -> nat :=
  match o with
  | POp i (MInsert _ _) => update g i (S (g i))
  | POp i MIntoIter => update g i 0
  | POp _ _ => g
  | PSet _ d i j => update (update (update g i 0) j 0) d 0
  | PSplit _ _ _ _ => g
  end.
(** A program whose generators each return [f 0], [f 1], ... *)
Definition skip_seeded_step {K V} `{Cmp K} (f : nat -> N) (s : (nat -> skip_map K V) * (nat -> nat)) (o : prog_op K V) :
    res (((nat -> skip_map K V) * (nat -> nat)) * (map_out K V * nat)) :=
  let (rs, g) := s in
  let p := match o with POp i _ => f (g i) | _ => 0%N end in
  let* (rs', out) := skip_prog_step_c rs (o, p) in Ok ((rs', skip_generators g o), out).
Definition skip_seeded {K V} : (nat -> skip_map K V) * (nat -> nat) := (fun _ => skip_new, fun _ => 0).
