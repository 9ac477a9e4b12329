(** What programs over several TreapMaps do when comparisons panic.  Nothing here refers to a model. *)
From Verif Require Export UnwindSpec SetAlgSpec.

Section TreapUnwindSpec.
  Context {K V : Type} `{Cmp K}.
  Notation pairs := (list (K * V)).

  (** [slack i]: the number of pairs that are lost and may still be counted by the length of map [i]. *)
  Definition slack_after (o : prog_op K V) (slack : nat -> nat) : nat -> nat :=
    match o with
    | POp i MClear | POp i MIntoIter => update slack i 0
    | POp _ _ => slack
    | PSet _ d i j => update (update (update slack i 0) j 0) d (slack i + update slack i 0 j)
    | PSplit d i _ _ => update slack d (slack i)
    end.

  (** [None]: a call that panicked.  A set operation that panicked has emptied both maps, a split_off that panicked its map. *)
  Fixpoint unwind_progs (rs : nat -> pairs) (slack : nat -> nat) (tr : list (prog_op K V * option (map_out K V))) : Prop :=
    match tr with
    | [] => True
    | (o, Some out) :: tr' =>
        match o with
        | POp i o' => exists x, length (rs i) <= x <= length (rs i) + slack i /\ (rs i = [] -> x = 0) /\ out = answer o' (rs i) x
        | _ => out = RUnit
        end /\ unwind_progs (fst (prog_spec_step rs o)) (slack_after o slack) tr'
    | (o, None) :: tr' =>
        match o with
        | POp i o' => exists l', all_but_around o' (rs i) l' /\
            unwind_progs (update rs i l') (update slack i (slack i + (length (rs i) - length l'))) tr'
        | PSet _ _ i j => unwind_progs (update (update rs i []) j []) (update (update slack i 0) j 0) tr'
        | PSplit _ i _ _ => unwind_progs (update rs i []) (update slack i 0) tr'
        end
    end.
  (** What a user expects: a split_off that panicked changes nothing. *)
  Fixpoint splits_kept (rs : nat -> pairs) (tr : list (prog_op K V * option (map_out K V))) : Prop :=
    match tr with
    | [] => True
    | (o, Some out) :: tr' => out = snd (prog_spec_step rs o) /\ splits_kept (fst (prog_spec_step rs o)) tr'
    | (PSplit _ _ _ _, None) :: tr' => splits_kept rs tr'
    | (_, None) :: _ => True
    end.
End TreapUnwindSpec.
