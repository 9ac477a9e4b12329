(** Specification vocabulary for the concurrent stack.  Nothing here refers to the model. *)
From Coq Require Export NArith.
From Verif Require Export Base SetAlgSpec.

Inductive stack_call (T : Type) : Type := CPush (v : T) | CPop | CLen.
Arguments CPush {T}. Arguments CPop {T}. Arguments CLen {T}.
Inductive stack_out (T : Type) : Type := OUnit | OPop (v : option T) | OLen (n : N).
Arguments OUnit {T}. Arguments OPop {T}. Arguments OLen {T}.

(** What an observer sees: thread [t] calls, thread [t] returns, the value [v] stored in the stack is
    dropped by the stack's own memory reclamation. *)
Inductive stack_event (T : Type) : Type :=
| EInv (t : nat) (c : stack_call T) | ERet (t : nat) (o : stack_out T) | EDrop (v : T).
Arguments EInv {T}. Arguments ERet {T}. Arguments EDrop {T}.

Section StackSpec.
  Context {T : Type}.

  (** Calls and returns only. *)
  Definition history (tr : list (stack_event T)) : list (stack_event T) :=
    filter (fun e => match e with EDrop _ => false | _ => true end) tr.

  (** A sequential stack whose calls take effect at one moment between call and return.  A thread is idle,
      has called, or has taken effect and is about to return. *)
  Inductive astatus : Type := AIdle | ACalled (c : stack_call T) | ADone (o : stack_out T).

  (** [atomic_run_with ok s th h s' th']: starting with stack contents [s] (top first) and thread states [th] the
      history [h] can be observed, ending in [s'], [th'].  [ok s th n]: len may return [n] at such a moment. *)
  Inductive atomic_run_with (ok : list T -> (nat -> astatus) -> N -> Prop) :
      list T -> (nat -> astatus) -> list (stack_event T) -> list T -> (nat -> astatus) -> Prop :=
  | at_end s th : atomic_run_with ok s th [] s th
  | at_call s th t c h s' th' : th t = AIdle ->
      atomic_run_with ok s (update th t (ACalled c)) h s' th' -> atomic_run_with ok s th (EInv t c :: h) s' th'
  | at_return s th t o h s' th' : th t = ADone o ->
      atomic_run_with ok s (update th t AIdle) h s' th' -> atomic_run_with ok s th (ERet t o :: h) s' th'
  | at_push s th t v h s' th' : th t = ACalled (CPush v) ->
      atomic_run_with ok (v :: s) (update th t (ADone OUnit)) h s' th' -> atomic_run_with ok s th h s' th'
  | at_pop s th t v h s' th' : th t = ACalled CPop ->
      atomic_run_with ok s (update th t (ADone (OPop (Some v)))) h s' th' -> atomic_run_with ok (v :: s) th h s' th'
  | at_pop_empty th t h s' th' : th t = ACalled CPop ->
      atomic_run_with ok [] (update th t (ADone (OPop None))) h s' th' -> atomic_run_with ok [] th h s' th'
  | at_len s th t n h s' th' : th t = ACalled CLen -> ok s th n ->
      atomic_run_with ok s (update th t (ADone (OLen n))) h s' th' -> atomic_run_with ok s th h s' th'.

  (** [len] may return anything. *)
  Definition any_len (s : list T) (th : nat -> astatus) (n : N) : Prop := True.
  Definition linearizable (h : list (stack_event T)) : Prop :=
    exists s' th', atomic_run_with any_len [] (fun _ => AIdle) h s' th'.

  (** [len] returns the number of values on the stack, except that some of the pushes that have taken effect and
      not yet returned are not counted, and some of the values whose pop has taken effect and not yet returned
      are still counted, modulo 2^64. *)
  Definition near_len (s : list T) (th : nat -> astatus) (n : N) : Prop :=
    exists pushing popping : list nat, NoDup pushing /\ NoDup popping /\
      (forall t, In t pushing -> th t = ADone OUnit) /\
      (forall t, In t popping -> exists v, th t = ADone (OPop (Some v))) /\
      (n < 2 ^ 64 /\
       (n + N.of_nat (length pushing)) mod 2 ^ 64 = N.of_nat (length s + length popping) mod 2 ^ 64)%N.
  Definition linearizable_near (h : list (stack_event T)) : Prop :=
    exists s' th', atomic_run_with near_len [] (fun _ => AIdle) h s' th'.

  (** An atomic stack and, apart from it, an atomic counter: a push or a successful pop takes effect on the stack at
      one moment and on the counter at a later one, both between its call and its return; [len] reads the counter.
      Threads: idle, called, effect on the stack but not on the counter, about to return. *)
  Inductive kstatus : Type := KIdle | KCalled (c : stack_call T) | KEffect (o : stack_out T) | KDone (o : stack_out T).
  Inductive counted_run : list T -> N -> (nat -> kstatus) -> list (stack_event T) -> list T -> N -> (nat -> kstatus) -> Prop :=
  | k_end s n th : counted_run s n th [] s n th
  | k_call s n th t c h s' n' th' : th t = KIdle ->
      counted_run s n (update th t (KCalled c)) h s' n' th' -> counted_run s n th (EInv t c :: h) s' n' th'
  | k_return s n th t o h s' n' th' : th t = KDone o ->
      counted_run s n (update th t KIdle) h s' n' th' -> counted_run s n th (ERet t o :: h) s' n' th'
  | k_push s n th t v h s' n' th' : th t = KCalled (CPush v) ->
      counted_run (v :: s) n (update th t (KEffect OUnit)) h s' n' th' -> counted_run s n th h s' n' th'
  | k_pop s n th t v h s' n' th' : th t = KCalled CPop ->
      counted_run s n (update th t (KEffect (OPop (Some v)))) h s' n' th' -> counted_run (v :: s) n th h s' n' th'
  | k_pop_empty n th t h s' n' th' : th t = KCalled CPop ->
      counted_run [] n (update th t (KDone (OPop None))) h s' n' th' -> counted_run [] n th h s' n' th'
  | k_add s n th t h s' n' th' : th t = KEffect OUnit ->
      counted_run s ((n + 1) mod 2 ^ 64) (update th t (KDone OUnit)) h s' n' th' -> counted_run s n th h s' n' th'
  | k_sub s n th t v h s' n' th' : th t = KEffect (OPop (Some v)) ->
      counted_run s ((n + (2 ^ 64 - 1)) mod 2 ^ 64) (update th t (KDone (OPop (Some v)))) h s' n' th' -> counted_run s n th h s' n' th'
  | k_len s n th t h s' n' th' : th t = KCalled CLen ->
      counted_run s n (update th t (KDone (OLen n))) h s' n' th' -> counted_run s n th h s' n' th'.
  Definition counted (h : list (stack_event T)) : Prop :=
    exists s n th, counted_run [] 0 (fun _ => KIdle) h s n th.

  (** Values handed to push, values returned by try_pop, values dropped by the stack. *)
  Definition pushed (tr : list (stack_event T)) : list T :=
    flat_map (fun e => match e with EInv _ (CPush v) => [v] | _ => [] end) tr.
  Definition popped (tr : list (stack_event T)) : list T :=
    flat_map (fun e => match e with ERet _ (OPop (Some v)) => [v] | _ => [] end) tr.
  Definition dropped (tr : list (stack_event T)) : list T :=
    flat_map (fun e => match e with EDrop v => [v] | _ => [] end) tr.

  (** Thread [t] has a call in progress after [tr]. *)
  Fixpoint in_call (t : nat) (b : bool) (tr : list (stack_event T)) : bool :=
    match tr with
    | [] => b
    | EInv t' _ :: tr' => in_call t (if Nat.eqb t t' then true else b) tr'
    | ERet t' _ :: tr' => in_call t (if Nat.eqb t t' then false else b) tr'
    | EDrop _ :: tr' => in_call t b tr'
    end.
  Definition quiescent (tr : list (stack_event T)) : Prop := forall t, in_call t false tr = false.
End StackSpec.
Arguments astatus : clear implicits.
Arguments kstatus : clear implicits.
