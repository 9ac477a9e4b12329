(** Model of /repo/src/sync/stack.rs on memory with the orderings that the code asks for.  An atomic location has a
    history of messages in modification order; a thread has a view, the oldest message of each location that it may
    still read.  A load may read any message that is not older; an acquire load adds the view of the message to that of
    the thread; a release write puts the view of the thread into the message.  A read-modify-write reads the message
    that its own follows in modification order, and its message carries on the view of the one read (release sequence).
    A failed compare-and-set reads like a relaxed load (its failure ordering is [Relaxed], crossbeam_epoch
    [strongest_failure_ordering]).  Not covered: executions in which a load reads from a write that depends on it
    ("out of thin air").

    A pointer is a node, not an address: each allocation makes a new node, at an address that no living node has.
    Comparing pointers compares addresses.  Reading a node that is destroyed, and reading one whose initialisation the
    thread has not seen (a data race), is [Panic].

    crossbeam_epoch is modelled by its contract: a deferred destructor runs only after every thread that is pinned and
    that pinned before the [defer] or has not seen it when it pinned has unpinned.  So a thread that pins sees what
    happened before the [defer] of every node already destroyed, and, of the nodes waiting for destruction, it sees the
    [defer] or is waited for. *)
From Verif Require Export StackWeakSpec.

Definition wrap64 (n : N) : N := (n mod 18446744073709551616)%N.

(** The orderings used in stack.rs *)
Inductive ordering : Type := Relaxed | Acquire | Release.

(** For the head, the counter and the [next] field of each node: the oldest message to be read, as its place in
    modification order; [None] if the initialisation of the node has not been seen. *)
Record view : Type := mkView { v_head : nat; v_len : nat; v_node : nat -> option nat }.
Definition view0 : view := mkView 0 0 (fun _ => None).
Definition later (a b : option nat) : option nat :=
  match a, b with Some x, Some y => Some (Nat.max x y) | None, _ => b | _, None => a end.
Definition vjoin (a b : view) : view :=
  mkView (Nat.max (v_head a) (v_head b)) (Nat.max (v_len a) (v_len b)) (fun i => later (v_node a i) (v_node b i)).
Definition see_head (v : view) (i : nat) : view := mkView (Nat.max (v_head v) i) (v_len v) (v_node v).
Definition see_len (v : view) (i : nat) : view := mkView (v_head v) (Nat.max (v_len v) i) (v_node v).
Definition see_node (v : view) (n i : nat) : view := mkView (v_head v) (v_len v) (update (v_node v) n (later (v_node v n) (Some i))).
(** The view of a thread after reading a message with view [m]; the view of the message of a read-modify-write by a
    thread with view [v] that reads a message with view [m] *)
Definition on_read (o : ordering) (v m : view) : view := match o with Acquire => vjoin v m | _ => v end.
Definition on_write (o : ordering) (v m : view) : view := match o with Release => vjoin v m | _ => m end.

Section Stack.
  Context {T : Type}.

  (** Node (5-8) and its address; the values [next] has had *)
  Record wnode := WNode { n_addr : nat; n_value : T; n_next : list (option nat) }.

  (** Where a thread is.  push: stack.rs:62-83; try_pop: 100-122; len: 137-139. *)
  Inductive loc : Type :=
  | Idle
  | PushNew (v : T)                          (* about to allocate the node (63-66) *)
  | PushPin (b : nat)                        (* about to pin (68) *)
  | PushLoad (b : nat)                       (* about to load head (70) *)
  | PushStore (b : nat) (h : option nat)     (* about to store next (71) *)
  | PushCas (b : nat) (h : option nat)       (* about to compare_and_set (72-75) *)
  | PushAdd                                  (* about to fetch_add (77) *)
  | PopPin                                   (* about to pin (101) *)
  | PopLoad                                  (* about to load head (103) *)
  | PopNext (p : nat)                        (* about to load the next field of p (106) *)
  | PopCas (p : nat) (n : option nat)        (* about to compare_and_set (107-110) *)
  | PopSub (p : nat)                         (* about to fetch_sub (113) *)
  | PopDefer (p : nat)                       (* about to defer the destruction of p (114) *)
  | PopRead (p : nat)                        (* about to ptr::read the value (115) *)
  | LenLoad                                  (* about to load len (138) *)
  | Done (o : stack_out T).                  (* about to return, dropping the guard *)

  (** Stack (30-33): messages of head and of len, oldest first; nodes, which node is at an address; threads and their
      views; pinned threads; nodes waiting for destruction with the view at the [defer] and the threads to wait for;
      what a thread that pins sees. *)
  Record wstate := WState {
    w_head : list (option nat * view);
    w_len : list (N * view);
    w_node : nat -> option wnode;
    w_fresh : nat;
    w_mem : nat -> option nat;
    w_thread : nat -> loc;
    w_view : nat -> view;
    w_pinned : list nat;
    w_retired : list (nat * view * list nat);
    w_gone : view }.

  (** new: stack.rs:45-50; every thread has seen it. *)
  Definition wstack_new : wstate :=
    WState [(None, view0)] [(0%N, view0)] (fun _ => None) 0 (fun _ => None) (fun _ => Idle) (fun _ => view0) [] [] view0.

  (** What the scheduler may do: thread [t] starts a call; thread [t] executes its next operation; the node [i] is
      destroyed; [u] synchronises with [t].  An allocation returns address [a]; a load reads message [a]; a thread that
      pins does not see the [defer] of the nodes [blind]. *)
  Inductive label : Type := LCall (t : nat) (c : stack_call T) | LStep (t a : nat) (blind : list nat) | LFree (i : nat) | LSync (t u : nat).

  Definition set_thread (s : wstate) (t : nat) (l : loc) (v : view) : wstate :=
    WState (w_head s) (w_len s) (w_node s) (w_fresh s) (w_mem s) (update (w_thread s) t l) (update (w_view s) t v) (w_pinned s) (w_retired s) (w_gone s).
  Definition add_head (s : wstate) (h : option nat) (v : view) : wstate :=
    WState (w_head s ++ [(h, v)]) (w_len s) (w_node s) (w_fresh s) (w_mem s) (w_thread s) (w_view s) (w_pinned s) (w_retired s) (w_gone s).
  Definition add_len (s : wstate) (n : N) (v : view) : wstate :=
    WState (w_head s) (w_len s ++ [(n, v)]) (w_node s) (w_fresh s) (w_mem s) (w_thread s) (w_view s) (w_pinned s) (w_retired s) (w_gone s).
  Definition set_node (s : wstate) (i : nat) (n : wnode) : wstate :=
    WState (w_head s) (w_len s) (update (w_node s) i (Some n)) (w_fresh s) (w_mem s) (w_thread s) (w_view s) (w_pinned s) (w_retired s) (w_gone s).
  Definition alloc (s : wstate) (a : nat) (v : T) : wstate :=
    WState (w_head s) (w_len s) (update (w_node s) (w_fresh s) (Some (WNode a v [None]))) (S (w_fresh s)) (update (w_mem s) a (Some (w_fresh s)))
      (w_thread s) (w_view s) (w_pinned s) (w_retired s) (w_gone s).
  Definition retire (s : wstate) (t p : nat) : wstate :=
    WState (w_head s) (w_len s) (w_node s) (w_fresh s) (w_mem s) (w_thread s) (w_view s) (w_pinned s) ((p, w_view s t, w_pinned s) :: w_retired s) (w_gone s).
  Definition mem_nat (x : nat) (l : list nat) : bool := existsb (Nat.eqb x) l.
  Definition without (t : nat) (l : list nat) : list nat := filter (fun x => negb (Nat.eqb x t)) l.
  Definition seen_defers (blind : list nat) (r : list (nat * view * list nat)) (v : view) : view :=
    fold_right (fun x v => let '(i, w, _) := x in if mem_nat i blind then v else vjoin v w) v r.
  Definition pin (s : wstate) (t : nat) (blind : list nat) : wstate :=
    WState (w_head s) (w_len s) (w_node s) (w_fresh s) (w_mem s) (w_thread s)
      (update (w_view s) t (seen_defers blind (w_retired s) (vjoin (w_view s t) (w_gone s))))
      (t :: w_pinned s) (map (fun x => let '(i, w, l) := x in if mem_nat i blind then (i, w, t :: l) else (i, w, l)) (w_retired s)) (w_gone s).
  Definition unpin (s : wstate) (t : nat) : wstate :=
    WState (w_head s) (w_len s) (w_node s) (w_fresh s) (w_mem s) (w_thread s) (w_view s) (without t (w_pinned s))
      (map (fun x => let '(i, w, l) := x in (i, w, without t l)) (w_retired s)) (w_gone s).
  Definition destroy (s : wstate) (i a : nat) (v : view) : wstate :=
    WState (w_head s) (w_len s) (w_node s) (w_fresh s) (update (w_mem s) a None) (w_thread s) (w_view s) (w_pinned s)
      (filter (fun x => negb (Nat.eqb (fst (fst x)) i)) (w_retired s)) (vjoin (w_gone s) v).

  (** A node that is not destroyed *)
  Definition node (s : wstate) (i : nat) : option wnode :=
    match w_node s i with
    | Some n => match w_mem s (n_addr n) with Some j => if Nat.eqb i j then Some n else None | None => None end
    | None => None
    end.
  Definition address (s : wstate) (p : option nat) : option nat :=
    match p with Some i => option_map n_addr (w_node s i) | None => None end.
  Definition same_pointer (s : wstate) (p q : option nat) : bool :=
    match address s p, address s q with
    | Some a, Some b => Nat.eqb a b
    | None, None => true
    | _, _ => false
    end.

  (** The message [i] of a history, if a thread that must not read before [from] can read it *)
  Definition readable {A} (l : list A) (from i : nat) : option A := if from <=? i then nth_error l i else None.
  (** compare_and_set of head by thread [t] that reads message [i]: 72-75, 107-110 *)
  Definition cas (o : ordering) (s : wstate) (t i : nat) (old new : option nat) (yes no : loc) : wstate :=
    let v := w_view s t in
    match readable (w_head s) (v_head v) i with
    | None => s
    | Some (h, m) =>
        if same_pointer s h old
        then if S i =? length (w_head s)
             then let v' := see_head v (S i) in set_thread (add_head s new (on_write o v' (see_head m (S i)))) t yes v'
             else s      (* another message follows this one *)
        else set_thread s t no (see_head v i)
    end.
  (** fetch_add of len: 83, 120 *)
  Definition bump (o : ordering) (s : wstate) (t : nat) (d : N) (next : loc) : wstate :=
    let v := see_len (w_view s t) (length (w_len s)) in
    let '(n, m) := last (w_len s) (0%N, view0) in
    set_thread (add_len s (wrap64 (n + d)) (on_write o v (see_len m (length (w_len s))))) t next v.

  (** A label that is not enabled leaves the state unchanged. *)
  Definition wstep (s : wstate) (l : label) : res (wstate * list (wevent T)) :=
    match l with
    | LCall t c =>
        match w_thread s t with
        | Idle => Ok (set_thread s t (match c with CPush v => PushNew v | CPop => PopPin | CLen => LenLoad end) (w_view s t), [WCall t c])
        | _ => Ok (s, [])
        end
    | LSync t u => Ok (set_thread s u (w_thread s u) (vjoin (w_view s u) (w_view s t)), [WSync t u])
    | LFree i =>
        match find (fun x => Nat.eqb (fst (fst x)) i && match snd x with [] => true | _ => false end) (w_retired s) with
        | None => Ok (s, [])
        | Some (_, v, _) =>
            match node s i with
            | None => Panic
            | Some n => Ok (destroy s i (n_addr n) v, [])
            end
        end
    | LStep t a blind =>
        let v := w_view s t in
        match w_thread s t with
        | Idle => Ok (s, [])
        | PushNew x =>
            match w_mem s a with
            | Some _ => Ok (s, [])
            | None => Ok (set_thread (alloc s a x) t (PushPin (w_fresh s)) (see_node v (w_fresh s) 0), [])
            end
        | PushPin b => let s := pin s t blind in Ok (set_thread s t (PushLoad b) (w_view s t), [])
        | PushLoad b =>
            match readable (w_head s) (v_head v) a with
            | None => Ok (s, [])
            | Some (h, m) => Ok (set_thread s t (PushStore b h) (on_read Relaxed (see_head v a) m), [])
            end
        | PushStore b h =>
            match node s b, v_node v b with
            | Some n, Some _ =>
                let n' := WNode (n_addr n) (n_value n) (n_next n ++ [h]) in
                Ok (set_thread (set_node s b n') t (PushCas b h) (see_node v b (length (n_next n))), [])
            | _, _ => Panic
            end
        | PushCas b h => Ok (cas Release s t a h (Some b) PushAdd (PushLoad b), [])
        | PushAdd => Ok (bump Release s t 1 (Done OUnit), [])
        | PopPin => let s := pin s t blind in Ok (set_thread s t PopLoad (w_view s t), [])
        | PopLoad =>
            match readable (w_head s) (v_head v) a with
            | None => Ok (s, [])
            | Some (h, m) =>
                Ok (set_thread s t (match h with None => Done (OPop None) | Some p => PopNext p end) (on_read Acquire (see_head v a) m), [])
            end
        | PopNext p =>
            match node s p, v_node v p with
            | Some n, Some k =>
                match readable (n_next n) k a with
                | None => Ok (s, [])
                | Some h => Ok (set_thread s t (PopCas p h) (see_node v p a), [])
                end
            | _, _ => Panic
            end
        | PopCas p n => Ok (cas Release s t a (Some p) n (PopSub p) PopLoad, [])
        | PopSub p => Ok (bump Release s t 18446744073709551615 (PopDefer p), [])
        | PopDefer p => Ok (set_thread (retire s t p) t (PopRead p) v, [])
        | PopRead p =>
            match node s p, v_node v p with
            | Some n, Some _ => Ok (set_thread s t (Done (OPop (Some (n_value n)))) v, [])
            | _, _ => Panic
            end
        | LenLoad =>
            match readable (w_len s) (v_len v) a with
            | None => Ok (s, [])
            | Some (n, m) => Ok (set_thread s t (Done (OLen n)) (on_read Acquire (see_len v a) m), [])
            end
        | Done o => Ok (set_thread (unpin s t) t Idle v, [WRet t o])
        end
    end.

  (** A whole execution: final state and the events observed. *)
  Fixpoint wexec (s : wstate) (ls : list label) : res (wstate * list (wevent T)) :=
    match ls with
    | [] => Ok (s, [])
    | l :: ls' =>
        let* (s1, e1) := wstep s l in
        let* (s2, e2) := wexec s1 ls' in
        Ok (s2, e1 ++ e2)
    end.
End Stack.
Arguments wnode : clear implicits. Arguments loc : clear implicits. Arguments wstate : clear implicits. Arguments label : clear implicits.
