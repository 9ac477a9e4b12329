(** Vocabulary for the properties of calls that the compaction thread is interleaved with. *)
From Verif Require Export LsmThreadModel LsmSpec.

(** How often the thread stores its result, later ends, and later the caller gets on *)
Fixpoint cycles (k : nat) (ts : list turn) : nat :=
  match ts with
  | [] => 0
  | t :: r => match k, t with
              | 0, Publish => cycles 1 r
              | 1, Finish => cycles 2 r
              | 2, Main => S (cycles 0 r)
              | _, _ => cycles k r
              end
  end.

Section ThreadSpec.
  Context {K V : Type} `{Cmp K} {Z : Sizes K V} (St : strategy K V) (may : lsm_op K V -> Prop).
  Definition after (a : sp K V) (ops : list (lsm_op K V)) : sp K V := fst (spec_run lsm_spec_step a ops).

  (** Up to [b] calls from now on, of those that [may] admits, whatever turns are taken: nothing panics, and what the calls
      return agrees with the specification.  A crash during the next turn, at a point where the directory is intact, leaves
      a directory that opens to a map that had been flushed before or after the call under way, with or without some of
      the calls since; the rest of the [b] calls can be made on it, and so on, for [c] crashes. *)
  Fixpoint endures (c b : nat) (a : sp K V) (s : lsm K V (st_meta St)) : Prop :=
    forall ops ts, Forall may ops -> length ops <= b -> well_used a ops ->
      exists w outs, take_turns St (mkWorld St s None ops) ts = Ok (w, outs) /\ agree a (firstn (length outs) ops) outs /\
        match c with
        | 0 => True
        | S c => forall t w' o p q, take_turn St w t = Ok (w', o) -> log (w_map St w') = p ++ q -> length (log (w_map St w)) <= length p -> intact p ->
            exists s2 m, lsm_open St p (fresh (w_map St w')) = Ok s2 /\
              In m (sp_recover (after a (firstn (length outs) ops)) ++ sp_recover (after a (firstn (S (length outs)) ops))) /\
              endures c (b - length ops) (reopened m) s2
        end.

  (** The same, except that the state may change as [slip] allows before and after each call *)
  Definition midway (slip : sp K V -> sp K V -> Prop) (a : sp K V) (o : option (lsm_op K V)) (x : sp K V) : Prop :=
    slip a x \/ exists a1 o', o = Some o' /\ slip a a1 /\ slip (fst (lsm_spec_step a1 o')) x.
  Fixpoint endures_loosely (slip : sp K V -> sp K V -> Prop) (c b : nat) (a : sp K V) (s : lsm K V (st_meta St)) : Prop :=
    forall ops ts, Forall may ops -> length ops <= b -> well_used a ops ->
      exists w outs a', take_turns St (mkWorld St s None ops) ts = Ok (w, outs) /\ loosely slip a (firstn (length outs) ops) outs a' /\
        match c with
        | 0 => True
        | S c => forall t w' o p q, take_turn St w t = Ok (w', o) -> log (w_map St w') = p ++ q -> length (log (w_map St w)) <= length p -> intact p ->
            exists s2 m x, lsm_open St p (fresh (w_map St w')) = Ok s2 /\ midway slip a' (nth_error ops (length outs)) x /\ In m (sp_recover x) /\
              endures_loosely slip c (b - length ops) (reopened m) s2
        end.
End ThreadSpec.
