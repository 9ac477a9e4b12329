(** Where the set operations of SkipMap are right, stated on the specification's maps.  Nothing here refers
    to any model. *)
From Verif Require Export SetAlgSpec.

Section SkipSpec.
  Context {K V : Type} `{Cmp K}.
  Notation amap := (list (K * V)).

  (** [a] has a key above every key of [b]. *)
  Definition reaches_beyond (a b : amap) : bool :=
    match last_error a with
    | None => false
    | Some p => forallb (fun q => is_lt (cmp (fst q) (fst p))) b
    end.

  Definition set_allowed (s : set_op) (a b : amap) : Prop :=
    match s with
    | SUnion => True
    | SInter => spec_inter a b = []
    | SDiff | SSymDiff => reaches_beyond a b = false
    end.

  (** Programs that use no split_off and only the set operations above, along the specification's run. *)
  Fixpoint prog_allowed (rs : nat -> amap) (ops : list (prog_op K V)) : Prop :=
    match ops with
    | [] => True
    | o :: ops' =>
        match o with
        | POp _ _ => True
        | PSet s _ i j => set_allowed s (rs i) (update rs i [] j)
        | PSplit _ _ _ _ => False
        end /\ prog_allowed (fst (prog_spec_step rs o)) ops'
    end.
End SkipSpec.
