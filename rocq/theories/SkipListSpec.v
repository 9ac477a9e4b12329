(** When does [+] on SkipLists behave as concatenation?  A list is worn once an element has been removed from
    it; clearing makes it fresh again.  Nothing here refers to any model. *)
From Verif Require Export SeqSpec.

Section SkipListSpec.
  Context {T : Type}.

  (** Is the list [l] worn after [o]? *)
  Definition worn_after (o : seq_op T) (l : list T) (w : bool) : bool :=
    match o with
    | QRemove i => w || (i <? length l)
    | QPopFront | QPopBack => w || negb (length l =? 0)
    | QClear | QIntoIter => false
    | _ => w
    end.

  (** No [+] of the program has a worn left and a nonempty right operand. *)
  Fixpoint joins_fresh (rs : nat -> list T) (ws : nat -> bool) (ops : list (sprog_op T)) : bool :=
    match ops with
    | [] => true
    | o :: ops =>
        let rs' := fst (sprog_spec_step rs o) in
        match o with
        | QPOp i o => joins_fresh rs' (update ws i (worn_after o (rs i) (ws i))) ops
        | QPAdd d i j =>
            let a := rs i in let b := update rs i [] j in
            let wa := ws i in let ws1 := update ws i false in
            let wb := ws1 j in let ws2 := update ws1 j false in
            (negb wa || (length b =? 0)) && joins_fresh rs' (update ws2 d (wa || wb)) ops
        end
    end.
End SkipListSpec.
