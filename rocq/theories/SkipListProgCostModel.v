(** Programs over several [SkipList]s with a count of their steps: the operations of SkipListModel.v that also return a number.  [+] counts
    one step for each level whose last node is found, one for each node moved to and one for each level joined (skiplist/list.rs:650-678). *)
From Verif Require Export SkipListCostModel.

Section SkipListProgCost.
  Context {T : Type}.
  Notation link := (option nat * nat)%type.
  Notation hp := (heap T link).
  Notation skip_list := (skip_list T).

  (** list.rs:653-666 *)
  Fixpoint tails_loop_c (fuel : nat) (h : hp) (cur i : nat) (tails : list nat) : res (list nat * nat) :=
    match fuel with
    | O => Timeout
    | S f =>
        let* l := get_link h cur i in
        match fst l with
        | None =>
            let tails := list_set tails i cur in
            match i with
            | O => Ok (tails, 1)
            | S j => let* (r, c) := tails_loop_c f h cur j tails in Ok (r, 1 + c)
            end
        | Some y => let* (r, c) := tails_loop_c f h y i tails in Ok (r, 1 + c)
        end
    end.
  Definition slist_add_c (a b : skip_list) : res (skip_list * nat) :=
    let n := length (sl_heap a) in
    let h := sl_heap a ++ map (option_map (moved_node n)) (sl_heap b) in
    let* (tails, c) := tails_loop_c (S (length h + S max_height)) h 0 max_height (repeat 0 (S max_height)) in
    let* h := join_loop 0 h n tails in
    let* (h, vs) := ldrop h n in
    Ok (SkipList h (sl_len a + sl_len b), c + length tails).

  Definition slist_prog_step_c (rs : nat -> skip_list) (op : sprog_op T * N) : res ((nat -> skip_list) * (seq_out T * nat)) :=
    let '(o, d) := op in
    match o with
    | QPOp i o => let* (m, out) := slist_step_c (rs i) (o, d) in Ok (update rs i m, out)
    | QPAdd d i j =>
        let a := rs i in let rs1 := update rs i slist_new in
        let b := rs1 j in let rs2 := update rs1 j slist_new in
        let* (m, c) := slist_add_c a b in
        Ok (update rs2 d m, (QDone (Ok tt), c))
    end.

  (** The numbers that the lists of a program draw.  Every SkipList has a generator of its own, and [new] starts each of them at the same
      constant state (list.rs:117-123).  A generator is the number of draws made from it; what it returns is not modelled.
      - an insertion draws one number, after the range assertion: list.rs:143-147
      - [+] keeps the generator of the left list: list.rs:650-678
      - a list that is consumed is replaced by [new] *)
  Definition slist_generators (rs : nat -> skip_list) (g : nat -> nat) (o : sprog_op T) : nat -> nat :=
    match o with
    | QPOp i (QInsert k _) => if k <=? sl_len (rs i) then update g i (S (g i)) else g
    | QPOp i (QPushFront _ | QPushBack _) => update g i (S (g i))
    | QPOp i QIntoIter => update g i 0
    | QPOp _ _ => g
    | QPAdd d i j => update (update (update g i 0) j 0) d (g i)
    end.
  (** A program whose generators each return [f 0], [f 1], ... *)
  Definition slist_seeded_step (f : nat -> N) (s : (nat -> skip_list) * (nat -> nat)) (o : sprog_op T) :
      res (((nat -> skip_list) * (nat -> nat)) * (seq_out T * nat)) :=
    let (rs, g) := s in
    let p := match o with QPOp i _ => f (g i) | _ => 0%N end in
    let* (rs', out) := slist_prog_step_c rs (o, p) in Ok ((rs', slist_generators rs g o), out).
End SkipListProgCost.
Definition slist_seeded {T} : (nat -> skip_list T) * (nat -> nat) := (fun _ => slist_new, fun _ => 0).
