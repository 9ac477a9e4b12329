(** Specification of [LsmMap] when calls return [Err] and the caller goes on with the map: LsmSpec.v, and what the caller
    may rely on after an [Err]. *)
From Verif Require Export LsmSpec LsmIoModel.

Section IoSpec.
  Context {K V : Type} `{Cmp K}.
  Notation op := (lsm_op K V).

  (** May the map be closed and opened again? *)
  Inductive closing : Type :=
  | Sound                  (* as without errors *)
  | Unsound                (* a call returned [Err], nothing was written since *)
  | Written.               (* something was written since *)
  Record iosp : Type := mkIosp {
    io_sp : sp K V;
    io_room : bool;        (* may be written to *)
    io_closing : closing;
    io_lost : list nat }.  (* places among the iterators kept of those that an [iter] that returned [Err] left behind *)
  Definition io_new : iosp := mkIosp sp_new true Sound [].

  Definition writes (o : op) : bool := match o with LInsert _ _ | LRemove _ => true | _ => false end.
  (** Calls that flush *)
  Definition flushes (o : op) : bool := match o with LFlush | LLen | LIsEmpty | LIter | LIterOpen => true | _ => false end.
  (** Calls that can return [Err] and that do not change the contents, even if they return [Ok] *)
  Definition reads (o : op) : bool := match o with LGet _ | LContains _ | LLenHint | LMin | LMax => true | _ => false end.
  Definition extremal (o : op) : bool := match o with LMin | LMax => true | _ => false end.

  (** Is the call covered?  As in LsmSpec.v; after an [Err] of a flush the map is written to after the next flush or [clear];
      after an [Err] it is reopened after something was written and flushed. *)
  Definition io_allowed (x : iosp) (o : op) : bool :=
    allowed (io_sp x) o &&
    match o with
    | LInsert _ _ | LRemove _ => io_room x
    | LReopen => match io_closing x with Sound => true | _ => false end
    | LIterDrop i => negb (existsb (Nat.eqb i) (io_lost x))
    | _ => true
    end.
  (** After a call that returned: [a] is the new state of LsmSpec.v *)
  Definition io_ok (x : iosp) (o : op) (a : sp K V) : iosp :=
    mkIosp a
      (io_room x || flushes o || match o with LClear | LReopen => true | _ => false end)
      (match io_closing x with
       | Sound => Sound
       | Unsound => if writes o then Written else Unsound
       | Written => if flushes o || match o with LClear => true | _ => false end then Sound else Written
       end)
      (match o with LReopen => [] | _ => io_lost x end).

  (** What was written since the last flush is lost, or the last part of it. *)
  Definition forgets (a a' : sp K V) : Prop :=
    exists m, In m (sp_recover a) /\ a' = mkSp m (sp_iters a) true (sp_written a) false [m].
  Definition leave_iter (a : sp K V) : sp K V := set_sp_iters a (sp_iters a ++ [IStale]).
  (** What the call [o] may leave behind if it returns [Err]: the state, may it be written to, an iterator left behind *)
  Inductive leaves (a : sp K V) (room : bool) (o : op) : sp K V -> bool -> list nat -> Prop :=
  | leaves_same : writes o || reads o || flushes o = true -> leaves a room o a room []
  | leaves_written b : writes o = true -> leaves a room o (fst (lsm_spec_step a o)) b []
  | leaves_forgotten a' : writes o = true -> forgets (fst (lsm_spec_step a o)) a' -> leaves a room o a' true []
  | leaves_full b : flushes o = true -> leaves a room o a b []
  | leaves_lost a' : flushes o = true -> forgets a a' -> leaves a room o a' true []
  | leaves_iter : extremal o = true -> leaves a room o (leave_iter a) room [length (sp_iters a)]
  | leaves_iter_flushed : flushes o = true -> o <> LFlush -> leaves a room o (leave_iter (flushed a)) true [length (sp_iters a)]
  | leaves_cleared : o = LClear -> leaves a room o (fst (lsm_spec_step a o)) true [].

  (** [n] calls from now on, of those that [may] admits, in whatever order and whatever fails in them: every call returns; a
      result agrees, an [Err] occurs only if something failed and leaves behind what is said above. *)
  Context {Z : Sizes K V} (St : strategy K V) (may : op -> Prop) (slip : sp K V -> sp K V -> Prop).
  Fixpoint persists (n : nat) (x : iosp) (s : lsm K V (st_meta St)) : Prop :=
    match n with
    | 0 => True
    | S n => forall o f, may o -> io_allowed x o = true -> exists s' r a a', io_step St s (o, f) = Ok (s', r) /\ slip (io_sp x) a /\
        match r with
        | Some out => answers a o out /\ slip (fst (lsm_spec_step a o)) a' /\ persists n (io_ok x o a') s'
        | None => f <> None /\ exists b room lost, leaves a (io_room x) o b room lost /\ slip b a' /\
            persists n (mkIosp a' room Unsound (io_lost x ++ lost)) s'
        end
    end.
End IoSpec.
Arguments iosp : clear implicits.
