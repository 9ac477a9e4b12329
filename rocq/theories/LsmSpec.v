(** Specification of [LsmMap]: a sorted list of pairs, and what to expect of iterators, of closing and reopening the
    directory, and of a crash.  Tables, levels and compactions do not occur here. *)
From Verif Require Export MapSpec LsmMapModel.

Section LsmSpec.
  Context {K V : Type} `{Cmp K}.
  Notation pair := (K * V)%type.

  (** An iterator that is kept *)
  Inductive sp_iter : Type :=
  | IOpen (l : list pair)                   (* has still to yield [l] *)
  | IStale                                  (* the map was cleared since it was made *)
  | IGone.                                  (* was dropped *)
  Record sp : Type := mkSp {
    sp_map : list pair;
    sp_iters : list sp_iter;
    sp_clean : bool;                        (* nothing was written since the last flush *)
    sp_written : bool;                      (* something was ever written *)
    sp_removed : bool;                      (* something was removed since the last flush *)
    sp_recover : list (list pair) }.        (* the contents at the last flush and since *)
  Definition sp_new : sp := mkSp [] [] true false false [[]].

  Definition put (k : K) (v : V) (l : list pair) : list pair := below k l ++ (k, v) :: above k l.
  Definition drop (k : K) (l : list pair) : list pair := below k l ++ above k l.
  Definition lookup (k : K) (l : list pair) : option V := option_map snd (hd_error (at_key k l)).
  Definition set_sp_iters (s : sp) (l : list sp_iter) : sp :=
    mkSp (sp_map s) l (sp_clean s) (sp_written s) (sp_removed s) (sp_recover s).
  Definition written (s : sp) (m : list pair) (removed : bool) : sp :=
    mkSp m (sp_iters s) false true (sp_removed s || removed) (sp_recover s ++ [m]).
  Definition stale (i : sp_iter) : sp_iter := match i with IGone => IGone | _ => IStale end.
  Definition flushed (s : sp) : sp := mkSp (sp_map s) (sp_iters s) true (sp_written s) false [sp_map s].

  Definition lsm_spec_step (s : sp) (o : lsm_op K V) : sp * lsm_out K V :=
    match o with
    | LInsert k v => (written s (put k v (sp_map s)) false, OUnit)
    | LRemove k => (written s (drop k (sp_map s)) true, OUnit)
    | LGet k => (s, OVal (lookup k (sp_map s)))
    | LContains k => (s, OBool (match lookup k (sp_map s) with Some _ => true | None => false end))
    | LLen => (flushed s, OLen (length (sp_map s)))
    | LIsEmpty => (flushed s, OBool (length (sp_map s) =? 0))
    | LLenHint => (s, OHint (length (sp_map s)))
    | LClear => (mkSp [] (map stale (sp_iters s)) true (sp_written s) false [[]], OUnit)
    | LMin => (s, OKey (option_map fst (hd_error (sp_map s))))
    | LMax => (s, OKey (option_map fst (last_error (sp_map s))))
    | LFlush => (flushed s, OUnit)
    | LIter => (flushed s, OList (sp_map s))
    | LIterOpen => (set_sp_iters (flushed s) (sp_iters s ++ [IOpen (sp_map s)]), OUnit)
    | LIterNext i =>
        match nth_error (sp_iters s) i with
        | Some (IOpen l) => (set_sp_iters s (list_set (sp_iters s) i (IOpen (tl l))), ONext (hd_error l))
        | _ => (s, ONext None)
        end
    | LIterDrop i => (set_sp_iters s (list_set (sp_iters s) i IGone), OUnit)
    | LReopen => (set_sp_iters s [], OUnit)
    | BgPublish | BgDone | BgFail | BgDie => (s, OUnit)
    end.

  (** Is the call covered?  A map is reopened after a flush, and only if something was ever written; an iterator is not
      used after a [clear]. *)
  Definition allowed (s : sp) (o : lsm_op K V) : bool :=
    match o with
    | LReopen => sp_clean s && sp_written s
    | LIterNext i => match nth_error (sp_iters s) i with Some IStale => false | _ => true end
    | _ => true
    end.
  Fixpoint well_used (s : sp) (ops : list (lsm_op K V)) : Prop :=
    match ops with
    | [] => True
    | o :: r => allowed s o = true /\ well_used (fst (lsm_spec_step s o)) r
    end.

  (** Results agree: keys may be different representatives of the same key, a hint may be too large. *)
  Definition same_pair (p q : pair) : Prop := cmp (fst p) (fst q) = Eq /\ snd p = snd q.
  Definition same_opt {A} (R : A -> A -> Prop) (x y : option A) : Prop :=
    match x, y with Some a, Some b => R a b | None, None => True | _, _ => False end.
  Definition same_out (o o' : lsm_out K V) : Prop :=
    match o, o' with
    | OUnit, OUnit => True
    | OVal v, OVal v' => v = v'
    | OBool b, OBool b' => b = b'
    | OLen n, OLen n' => n = n'
    | OHint n, OHint n' => n' <= n
    | OKey k, OKey k' => same_opt (fun a b => cmp a b = Eq) k k'
    | OList l, OList l' => Forall2 same_pair l l'
    | ONext e, ONext e' => same_opt same_pair e e'
    | _, _ => False
    end.

  (** Is the result promised?  Those of [min] and [max] are not between a removal and the next flush. *)
  Definition promised (s : sp) (o : lsm_op K V) : bool :=
    match o with
    | LMin | LMax => negb (sp_removed s)
    | _ => true
    end.
  (** In any case [min] and [max] return the smallest and the largest of the keys that are present and of those that were
      present at some moment since the last flush. *)
  Definition smallest (l : list pair) (k : option K) : Prop :=
    match k with
    | None => l = []
    | Some x => (exists p, In p l /\ cmp (fst p) x = Eq) /\ forall p, In p l -> cmp x (fst p) <> Gt
    end.
  Definition largest (l : list pair) (k : option K) : Prop :=
    match k with
    | None => l = []
    | Some x => (exists p, In p l /\ cmp (fst p) x = Eq) /\ forall p, In p l -> cmp x (fst p) <> Lt
    end.
  Definition extreme (s : sp) (o : lsm_op K V) (out : lsm_out K V) : Prop :=
    match o with
    | LMin => exists k m, out = OKey k /\ In m (sp_recover s) /\ smallest (sp_map s ++ m) k
    | LMax => exists k m, out = OKey k /\ In m (sp_recover s) /\ largest (sp_map s ++ m) k
    | _ => True
    end.
  Definition answers (s : sp) (o : lsm_op K V) (out : lsm_out K V) : Prop :=
    (promised s o = true -> same_out out (snd (lsm_spec_step s o))) /\ extreme s o out.
  Fixpoint agree (s : sp) (ops : list (lsm_op K V)) (outs : list (lsm_out K V)) : Prop :=
    match ops, outs with
    | [], [] => True
    | o :: ops', out :: outs' => answers s o out /\ agree (fst (lsm_spec_step s o)) ops' outs'
    | _, _ => False
    end.

  (** The results are as specified, except that the state may change as [slip] allows before and after each call. *)
  Inductive loosely (slip : sp -> sp -> Prop) : sp -> list (lsm_op K V) -> list (lsm_out K V) -> sp -> Prop :=
  | loosely_nil a : loosely slip a [] [] a
  | loosely_cons a a1 a2 a3 o out ops outs :
      slip a a1 -> answers a1 o out -> slip (fst (lsm_spec_step a1 o)) a2 ->
      loosely slip a2 ops outs a3 -> loosely slip a (o :: ops) (out :: outs) a3.

  Definition sp_after (ops : list (lsm_op K V)) : sp := fst (spec_run lsm_spec_step sp_new ops).
  (** A directory that held [m] was opened. *)
  Definition reopened (m : list pair) : sp := mkSp m [] true true false [m].

  Definition any_call (o : lsm_op K V) : Prop := True.
  Definition no_removal (o : lsm_op K V) : Prop := match o with LRemove _ => False | _ => True end.

  (** What the calls of [next] of the [i]-th iterator returned *)
  Fixpoint nexts (i : nat) (ops : list (lsm_op K V)) (outs : list (lsm_out K V)) : list (option pair) :=
    match ops, outs with
    | LIterNext j :: ops', ONext e :: outs' => if i =? j then e :: nexts i ops' outs' else nexts i ops' outs'
    | _ :: ops', _ :: outs' => nexts i ops' outs'
    | _, _ => []
    end.
  (** The calls leave the [i]-th iterator alone, except for its [next]. *)
  Definition keeps (i : nat) (o : lsm_op K V) : Prop :=
    match o with LClear | LReopen => False | LIterDrop j => i <> j | _ => True end.
End LsmSpec.
Arguments sp : clear implicits. Arguments sp_iter : clear implicits.

(** *** Crashes *)
Section CrashSpec.
  Context {M : Type}.
  Definition is_remove (e : effect M) : bool := match e with ERemove _ => true | _ => false end.
  Definition is_meta (e : effect M) : bool := match e with EMeta _ => true | _ => false end.
  (** No table was removed since metadata.dat was last written. *)
  Definition settled (l : list (effect M)) : Prop :=
    forall a b, l = a ++ b -> existsb is_meta b = false -> existsb is_remove b = false.
End CrashSpec.

(** [n] calls from now on, of those that [may] admits, in whatever order and with a crash and a reopening wherever [point] allows one, go as
    specified: every call returns, with a result that agrees; a crash during a call leaves a directory that opens to a
    map that had been flushed, with or without some of the calls since. *)
Section Survival.
  Context {K V : Type} `{Cmp K} {Z : Sizes K V} (St : strategy K V) (may : lsm_op K V -> Prop) (point : list (effect (st_meta St)) -> Prop).
  Fixpoint survives (n : nat) (a : sp K V) (s : lsm K V (st_meta St)) : Prop :=
    match n with
    | 0 => True
    | S n => forall o, may o -> allowed a o = true -> exists s' out, lsm_step St s o = Ok (s', out) /\
        answers a o out /\ survives n (fst (lsm_spec_step a o)) s' /\
        forall p q, log s' = p ++ q -> length (log s) <= length p -> point p -> exists s2 m, lsm_open St p (fresh s') = Ok s2 /\
          In m (sp_recover a ++ sp_recover (fst (lsm_spec_step a o))) /\ survives n (reopened m) s2
    end.
  (** The same, except that the state may change as [slip] allows before and after each call *)
  Fixpoint survives_loosely (slip : sp K V -> sp K V -> Prop) (n : nat) (a : sp K V) (s : lsm K V (st_meta St)) : Prop :=
    match n with
    | 0 => True
    | S n => forall o, may o -> allowed a o = true -> exists s' out a1 a2, lsm_step St s o = Ok (s', out) /\
        slip a a1 /\ answers a1 o out /\ slip (fst (lsm_spec_step a1 o)) a2 /\
        survives_loosely slip n a2 s' /\
        forall p q, log s' = p ++ q -> length (log s) <= length p -> point p -> exists s2 m, lsm_open St p (fresh s') = Ok s2 /\
          In m (sp_recover a1 ++ sp_recover a2) /\ survives_loosely slip n (reopened m) s2
    end.
End Survival.
(** A crash point at which the directory is intact: logical_time.dat exists, and no table was removed since metadata.dat was
    last written. *)
Definition intact {M} (l : list (effect M)) : Prop := settled l /\ d_time (disk_of l) <> None.
