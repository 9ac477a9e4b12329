(** Model of /repo/src/sync/stack.rs: an interleaving machine whose steps are the individual atomic
    operations.  Memory is sequentially consistent.  Epoch-based reclamation (crossbeam_epoch) is modelled
    by its contract: a deferred destructor runs some time after every thread that was pinned at the
    moment of [defer] has unpinned; the address can then be allocated again. *)
From Verif Require Export StackSpec.

Definition two64 : N := 18446744073709551616.

Section Stack.
  Context {T : Type}.

  (** Node: stack.rs:5-8. *)
  Record snode := SNode { n_value : T; n_next : option nat }.

  (** Where a thread is.  push: stack.rs:62-83; try_pop: 100-122; len: 137-139. *)
  Inductive loc : Type :=
  | Idle
  | PushNew (v : T)                          (* about to allocate the node (63-66) *)
  | PushLoad (a : nat)                       (* pinned (68); about to load head (70) *)
  | PushStore (a : nat) (h : option nat)     (* about to store next (71) *)
  | PushCas (a : nat) (h : option nat)       (* about to compare_and_set (72-75) *)
  | PushAdd                                  (* about to fetch_add (77) *)
  | PopPin                                   (* about to pin (101) *)
  | PopLoad                                  (* pinned; about to load head (103) *)
  | PopNext (p : nat)                        (* about to load the next field of p (106) *)
  | PopCas (p : nat) (n : option nat)        (* about to compare_and_set (107-110) *)
  | PopSub (p : nat)                         (* about to fetch_sub (113) *)
  | PopDefer (p : nat)                       (* about to defer the destruction of p (114) *)
  | PopRead (p : nat)                        (* about to ptr::read the value (115) *)
  | LenLoad                                  (* about to load len (138) *)
  | Done (o : stack_out T).                  (* about to return, dropping the guard *)

  Definition loc_pinned (l : loc) : bool :=
    match l with
    | Idle | PushNew _ | PopPin | LenLoad => false
    | PushLoad _ | PushStore _ _ | PushCas _ _ | PushAdd => true
    | PopLoad | PopNext _ | PopCas _ _ | PopSub _ | PopDefer _ | PopRead _ => true
    | Done (OLen _) => false
    | Done _ => true
    end.

  (** Stack (30-33), memory, threads, pinned threads, and nodes waiting for destruction, each with the
      threads that are still pinned since the node was deferred. *)
  Record sstate := SState {
    st_head : option nat;
    st_len : N;
    st_heap : nat -> option snode;
    st_threads : nat -> loc;
    st_pinned : list nat;
    st_retired : list (nat * list nat)
  }.

  (** new: stack.rs:45-50. *)
  Definition stack_new : sstate := SState None 0 (fun _ => None) (fun _ => Idle) [] [].

  Definition opt_eqb (a b : option nat) : bool :=
    match a, b with
    | Some x, Some y => Nat.eqb x y
    | None, None => true
    | _, _ => false
    end.

  Definition without (t : nat) (l : list nat) : list nat := filter (fun x => negb (Nat.eqb x t)) l.

  (** What the scheduler may do: thread [t] starts a call; thread [t] executes its next operation (an
      allocation returns address [a], which must be unused); the node at [a] is destroyed. *)
  Inductive label : Type := LCall (t : nat) (c : stack_call T) | LStep (t a : nat) | LFree (a : nat).

  Definition set_loc (s : sstate) (t : nat) (l : loc) : sstate :=
    SState (st_head s) (st_len s) (st_heap s) (update (st_threads s) t l) (st_pinned s) (st_retired s).
  Definition set_heap (s : sstate) (a : nat) (n : option snode) : sstate :=
    SState (st_head s) (st_len s) (update (st_heap s) a n) (st_threads s) (st_pinned s) (st_retired s).
  Definition set_head (s : sstate) (h : option nat) : sstate :=
    SState h (st_len s) (st_heap s) (st_threads s) (st_pinned s) (st_retired s).
  Definition set_len (s : sstate) (n : N) : sstate :=
    SState (st_head s) n (st_heap s) (st_threads s) (st_pinned s) (st_retired s).
  Definition set_retired (s : sstate) (r : list (nat * list nat)) : sstate :=
    SState (st_head s) (st_len s) (st_heap s) (st_threads s) (st_pinned s) r.

  Definition pin (s : sstate) (t : nat) : sstate :=
    SState (st_head s) (st_len s) (st_heap s) (st_threads s) (t :: st_pinned s) (st_retired s).
  Definition unpin (s : sstate) (t : nat) : sstate :=
    SState (st_head s) (st_len s) (st_heap s) (st_threads s) (without t (st_pinned s))
      (map (fun r => (fst r, without t (snd r))) (st_retired s)).

  (** A label that is not enabled leaves the state unchanged.  Reading or writing a node that has been
      destroyed is [Panic]. *)
  Definition stack_step (s : sstate) (l : label) : res (sstate * list (stack_event T)) :=
    match l with
    | LCall t c =>
        match st_threads s t with
        | Idle =>
            let l' := match c with CPush v => PushNew v | CPop => PopPin | CLen => LenLoad end in
            Ok (set_loc s t l', [EInv t c])
        | _ => Ok (s, [])
        end
    | LFree a =>
        match find (fun r => Nat.eqb (fst r) a && match snd r with [] => true | _ => false end) (st_retired s) with
        | None => Ok (s, [])
        | Some _ =>
            match st_heap s a with
            | None => Panic
            | Some n =>
                Ok (set_retired (set_heap s a None) (filter (fun r => negb (Nat.eqb (fst r) a)) (st_retired s)),
                    [EDrop (n_value n)])
            end
        end
    | LStep t a =>
        match st_threads s t with
        | Idle => Ok (s, [])
        | PushNew v =>
            match st_heap s a with
            | Some _ => Ok (s, [])
            | None => Ok (set_loc (pin (set_heap s a (Some (SNode v None))) t) t (PushLoad a), [])
            end
        | PushLoad b => Ok (set_loc s t (PushStore b (st_head s)), [])
        | PushStore b h =>
            match st_heap s b with
            | None => Panic
            | Some n => Ok (set_loc (set_heap s b (Some (SNode (n_value n) h))) t (PushCas b h), [])
            end
        | PushCas b h =>
            if opt_eqb (st_head s) h then Ok (set_loc (set_head s (Some b)) t PushAdd, [])
            else Ok (set_loc s t (PushLoad b), [])
        | PushAdd => Ok (set_loc (set_len s ((st_len s + 1) mod two64)) t (Done OUnit), [])
        | PopPin => Ok (set_loc (pin s t) t PopLoad, [])
        | PopLoad =>
            match st_head s with
            | None => Ok (set_loc s t (Done (OPop None)), [])
            | Some p => Ok (set_loc s t (PopNext p), [])
            end
        | PopNext p =>
            match st_heap s p with
            | None => Panic
            | Some n => Ok (set_loc s t (PopCas p (n_next n)), [])
            end
        | PopCas p n =>
            if opt_eqb (st_head s) (Some p) then Ok (set_loc (set_head s n) t (PopSub p), [])
            else Ok (set_loc s t PopLoad, [])
        | PopSub p => Ok (set_loc (set_len s ((st_len s + (two64 - 1)) mod two64)) t (PopDefer p), [])
        | PopDefer p => Ok (set_loc (set_retired s ((p, st_pinned s) :: st_retired s)) t (PopRead p), [])
        | PopRead p =>
            match st_heap s p with
            | None => Panic
            | Some n => Ok (set_loc s t (Done (OPop (Some (n_value n)))), [])
            end
        | LenLoad => Ok (set_loc s t (Done (OLen (st_len s))), [])
        | Done o => Ok (set_loc (unpin s t) t Idle, [ERet t o])
        end
    end.

  (** A whole execution: final state and the events seen. *)
  Fixpoint exec (s : sstate) (ls : list label) : res (sstate * list (stack_event T)) :=
    match ls with
    | [] => Ok (s, [])
    | l :: ls' =>
        let* (s1, e1) := stack_step s l in
        let* (s2, e2) := exec s1 ls' in
        Ok (s2, e1 ++ e2)
    end.

  (** A whole call executed while no other thread moves (schedules used in statements). *)
  Definition solo_len (t : nat) : list label := [LCall t CLen; LStep t 0; LStep t 0].
  Definition solo_pop (t : nat) : list label := LCall t CPop :: repeat (LStep t 0) 8.
End Stack.
Arguments snode : clear implicits.
Arguments loc : clear implicits.
Arguments sstate : clear implicits.
Arguments label : clear implicits.
