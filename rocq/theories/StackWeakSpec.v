(** Specification vocabulary for the concurrent stack on memory that is not sequentially consistent.  Nothing here
    refers to the model. *)
From Verif Require Export StackSpec.

(** What is observed: thread [t] calls, thread [t] returns, thread [u] synchronises with thread [t] by other means than
    the stack (it joins [t], receives a message from it, takes a lock that it released), so that all that happened to
    [t] so far happens before what [u] does from now on. *)
Inductive wevent (T : Type) : Type := WCall (t : nat) (c : stack_call T) | WRet (t : nat) (o : stack_out T) | WSync (t u : nat).
Arguments WCall {T}. Arguments WRet {T}. Arguments WSync {T}.

Section WeakSpec.
  Context {T : Type}.
  (** A call, what it returned if it has, and the calls that had returned before it was made: those of the same thread
      and those that the thread knows of by synchronisation.  Calls are numbered in the order of a trace. *)
  Record wcall : Type := mkWcall { c_call : stack_call T; c_out : option (stack_out T); c_after : list nat }.
  Record wobs : Type := mkWobs { o_calls : list wcall; o_cur : nat -> option nat; o_know : nat -> list nat }.
  Definition obs_new : wobs := mkWobs [] (fun _ => None) (fun _ => []).
  Definition with_out (o : stack_out T) (c : wcall) : wcall := mkWcall (c_call c) (Some o) (c_after c).
  Fixpoint edit {A} (f : A -> A) (i : nat) (l : list A) : list A :=
    match l, i with [], _ => [] | x :: r, 0 => f x :: r | x :: r, S i => x :: edit f i r end.
  Definition observe (ob : wobs) (e : wevent T) : wobs :=
    match e with
    | WCall t c => mkWobs (o_calls ob ++ [mkWcall c None (o_know ob t)]) (update (o_cur ob) t (Some (length (o_calls ob)))) (o_know ob)
    | WRet t o =>
        match o_cur ob t with
        | Some i => mkWobs (edit (with_out o) i (o_calls ob)) (update (o_cur ob) t None) (update (o_know ob) t (i :: o_know ob t))
        | None => ob
        end
    | WSync t u => mkWobs (o_calls ob) (o_cur ob) (update (o_know ob) u (o_know ob t ++ o_know ob u))
    end.
  Definition observed (tr : list (wevent T)) : wobs := fold_left observe tr obs_new.

  (** Calls in some order with their results are what a stack with contents [s] (top first) would do. *)
  Fixpoint stack_runs (calls : list wcall) (s : list T) (order : list (nat * stack_out T)) : Prop :=
    match order with
    | [] => True
    | (i, o) :: r =>
        match option_map c_call (nth_error calls i) with
        | Some (CPush v) => o = OUnit /\ stack_runs calls (v :: s) r
        | Some CPop => o = OPop (hd_error s) /\ stack_runs calls (tl s) r
        | _ => False
        end
    end.
  Definition is_len (c : wcall) : bool := match c_call c with CLen => true | _ => false end.
  (** [n] is the number of pushes minus the number of successful pops, modulo 2^64. *)
  Definition did_push (x : nat * stack_out T) : bool := match snd x with OUnit => true | _ => false end.
  Definition did_pop (x : nat * stack_out T) : bool := match snd x with OPop (Some _) => true | _ => false end.
  Definition counts (n : N) (done : list (nat * stack_out T)) : Prop :=
    (n < 2 ^ 64 /\ (n + N.of_nat (length (filter did_pop done))) mod 2 ^ 64 = N.of_nat (length (filter did_push done)) mod 2 ^ 64)%N.
  (** Every trace of calls is explained by one order of all calls other than [len] that have returned, and some that
      have not, in which what happened before a call comes before it.  A call of [len] counts some of these calls; it
      counts all that happened before it. *)
  Definition explained (tr : list (wevent T)) : Prop :=
    let calls := o_calls (observed tr) in
    exists order : list (nat * stack_out T), NoDup (map fst order) /\ stack_runs calls [] order /\
      (forall i c o, nth_error calls i = Some c -> is_len c = false -> c_out c = Some o -> In (i, o) order) /\
      (forall l1 i o l2 c, order = l1 ++ (i, o) :: l2 -> nth_error calls i = Some c ->
         forall j d, In j (c_after c) -> nth_error calls j = Some d -> is_len d = false -> In j (map fst l1)) /\
      (forall i c o, nth_error calls i = Some c -> is_len c = true -> c_out c = Some o ->
         exists n done, o = OLen n /\ counts n done /\ NoDup (map fst done) /\ incl done order /\
           forall j d x, In j (c_after c) -> nth_error calls j = Some d -> is_len d = false -> c_out d = Some x -> x = OPop None \/ In (j, x) done).

  (** Of all calls other than [len], all have returned and happened before [c]. *)
  Definition knows_all (calls : list wcall) (c : wcall) : Prop :=
    forall j d, nth_error calls j = Some d -> is_len d = false -> In j (c_after c) /\ c_out d <> None.
  Definition was_push (c : wcall) : bool := match c_call c with CPush _ => true | _ => false end.
  Definition was_popped (c : wcall) : bool := match c_out c with Some (OPop (Some _)) => true | _ => false end.
End WeakSpec.
Arguments wcall : clear implicits. Arguments wobs : clear implicits.
