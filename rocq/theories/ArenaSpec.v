(** Specification of TypedArena: which answers a client may see.  Nothing here refers to the model. *)
From Verif Require Export Base.

(** [Entry { chunk_index, block_index }]: a handle. *)
Definition entry : Type := (nat * nat)%type.
Definition entry_eqb (a b : entry) : bool := Nat.eqb (fst a) (fst b) && Nat.eqb (snd a) (snd b).

Inductive arena_op (T : Type) : Type :=
| AAlloc (v : T)
| AFree (e : entry)
| AGet (e : entry)
| AGetMut (e : entry) (v : T)      (* if let Some(x) = get_mut(e) { old = *x; *x = v } *)
| AIndex (e : entry)               (* arena[e] *)
| AIndexMut (e : entry) (v : T).   (* old = arena[e]; arena[e] = v *)
Arguments AAlloc {T}. Arguments AFree {T}. Arguments AGet {T}. Arguments AGetMut {T}.
Arguments AIndex {T}. Arguments AIndexMut {T}.

Inductive arena_out (T : Type) : Type :=
| AEntry (e : entry) | AOpt (o : option T) | AVal (r : res T).
Arguments AEntry {T}. Arguments AOpt {T}. Arguments AVal {T}.

Section ArenaSpec.
  Context {T : Type}.

  Fixpoint lookup (e : entry) (l : list (entry * T)) : option T :=
    match l with
    | [] => None
    | (e', v) :: l' => if entry_eqb e e' then Some v else lookup e l'
    end.
  Definition forget (e : entry) (l : list (entry * T)) : list (entry * T) :=
    filter (fun p => negb (entry_eqb e (fst p))) l.
  Definition write (e : entry) (v : T) (l : list (entry * T)) : list (entry * T) :=
    map (fun p => if entry_eqb e (fst p) then (e, v) else p) l.

  (** [live_trace live tr]: the answers in [tr] are those of a store that currently holds exactly the
      allocated and not yet freed values [live].  The only freedom is the handle chosen by allocate,
      which must not be one of the handles in use. *)
  Fixpoint live_trace (live : list (entry * T)) (tr : list (arena_op T * arena_out T)) : Prop :=
    match tr with
    | [] => True
    | (AAlloc v, out) :: tr' => exists e, out = AEntry e /\ lookup e live = None /\ live_trace ((e, v) :: live) tr'
    | (AFree e, out) :: tr' => out = AVal (expect (lookup e live)) /\ live_trace (forget e live) tr'
    | (AGet e, out) :: tr' => out = AOpt (lookup e live) /\ live_trace live tr'
    | (AGetMut e v, out) :: tr' => out = AOpt (lookup e live) /\ live_trace (write e v live) tr'
    | (AIndex e, out) :: tr' => out = AVal (expect (lookup e live)) /\ live_trace live tr'
    | (AIndexMut e v, out) :: tr' => out = AVal (expect (lookup e live)) /\ live_trace (write e v live) tr'
    end.

  (** [reuse_trace live freed tr]: allocate hands out the most recently freed slot if there is one, and
      otherwise a slot that was never handed out before (the slots handed out so far are those in [live]
      and [freed]). *)
  Fixpoint reuse_trace (live freed : list entry) (tr : list (arena_op T * arena_out T)) : Prop :=
    match tr with
    | [] => True
    | (AAlloc _, AEntry e) :: tr' =>
        match freed with
        | f :: fs => e = f /\ reuse_trace (e :: live) fs tr'
        | [] => ~ In e live /\ reuse_trace (e :: live) [] tr'
        end
    | (AFree e, AVal (Ok _)) :: tr' =>
        reuse_trace (filter (fun x => negb (entry_eqb e x)) live) (e :: freed) tr'
    | _ :: tr' => reuse_trace live freed tr'
    end.

  (** No call of free was rejected. *)
  Definition no_bad_free (tr : list (arena_op T * arena_out T)) : Prop :=
    Forall (fun p => match p with (AFree _, AVal Panic) => False | _ => True end) tr.

  (** Largest number of simultaneously live values, starting from [n] now and [peak] so far. *)
  Fixpoint peak_live (n peak : nat) (tr : list (arena_op T * arena_out T)) : nat :=
    match tr with
    | [] => peak
    | (AAlloc _, _) :: tr' => peak_live (S n) (Nat.max peak (S n)) tr'
    | (AFree _, AVal (Ok _)) :: tr' => peak_live (n - 1) peak tr'
    | _ :: tr' => peak_live n peak tr'
    end.
End ArenaSpec.
