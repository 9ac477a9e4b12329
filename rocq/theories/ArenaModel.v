(** Model of /repo/src/arena.rs. *)
From Verif Require Export ArenaSpec.

Section Arena.
  Context {T : Type}.

  (** Block: arena.rs:14-17. *)
  Inductive block : Type := Occupied (v : T) | Vacant (next : option entry).

  (** TypedArena: arena.rs:42-48.  Machine integers are unbounded. *)
  Record arena : Type := Arena {
    a_head : option entry;
    a_chunks : list (list block);
    a_chunk_size : nat;
    a_size : nat;
    a_capacity : nat
  }.

  (** new: arena.rs:66-74. *)
  Definition arena_new (chunk_size : nat) : arena := Arena None [] chunk_size 0 0.

  (** [self.chunks[e.chunk_index][e.block_index]]; [None] stands for an index out of bounds. *)
  Definition get_block (cs : list (list block)) (e : entry) : option block :=
    match nth_error cs (fst e) with Some c => nth_error c (snd e) | None => None end.

  (** [self.chunks[e.chunk_index][e.block_index] = b] *)
  Definition set_block (cs : list (list block)) (e : entry) (b : block) : list (list block) :=
    match nth_error cs (fst e) with
    | Some c => list_set cs (fst e) (list_set c (snd e) b)
    | None => cs
    end.

  (** is_valid_entry: arena.rs:51-54. *)
  Definition is_valid_entry (a : arena) (e : entry) : bool :=
    (fst e <? length (a_chunks a)) &&
    match nth_error (a_chunks a) (fst e) with Some c => snd e <? length c | None => false end.

  (** allocate: arena.rs:87-120. *)
  Definition arena_allocate (a : arena) (v : T) : res (arena * entry) :=
    let '(cs, cap) :=
      if a_size a =? a_capacity a then (a_chunks a ++ [[]], a_capacity a + a_chunk_size a)
      else (a_chunks a, a_capacity a) in
    let size := a_size a + 1 in
    match a_head a with
    | None =>
        let* last := checked_sub (length cs) 1 in
        match nth_error cs last with
        | None => Panic
        | Some c =>
            Ok (Arena None (list_set cs last (c ++ [Occupied v])) (a_chunk_size a) size cap, (last, length c))
        end
    | Some e =>
        match get_block cs e with
        | Some (Vacant next) => Ok (Arena next (set_block cs e (Occupied v)) (a_chunk_size a) size cap, e)
        | _ => Panic
        end
    end.

  (** free: arena.rs:137-156.  The result is what the call returns or [Panic]; the arena is the one left
      behind in both cases (a rejected free of a vacant block has already taken the free-list head). *)
  Definition arena_free (a : arena) (e : entry) : res (arena * res T) :=
    if is_valid_entry a e then
      match get_block (a_chunks a) e with
      | None => Panic
      | Some old =>
          let cs := set_block (a_chunks a) e (Vacant (a_head a)) in
          match old with
          | Vacant _ => Ok (Arena None cs (a_chunk_size a) (a_size a) (a_capacity a), Panic)
          | Occupied v =>
              let* size := checked_pred (a_size a) in
              Ok (Arena (Some e) cs (a_chunk_size a) size (a_capacity a), Ok v)
          end
      end
    else Ok (a, Panic).

  (** get: arena.rs:170-178. *)
  Definition arena_get (a : arena) (e : entry) : res (option T) :=
    if is_valid_entry a e then
      match get_block (a_chunks a) e with
      | None => Panic
      | Some (Occupied v) => Ok (Some v)
      | Some (Vacant _) => Ok None
      end
    else Ok None.

  (** get_mut followed by a write of [v]: arena.rs:192-200.  Returns the old value. *)
  Definition arena_get_mut_set (a : arena) (e : entry) (v : T) : res (arena * option T) :=
    if is_valid_entry a e then
      match get_block (a_chunks a) e with
      | None => Panic
      | Some (Occupied x) =>
          Ok (Arena (a_head a) (set_block (a_chunks a) e (Occupied v)) (a_chunk_size a) (a_size a) (a_capacity a), Some x)
      | Some (Vacant _) => Ok (a, None)
      end
    else Ok (a, None).

  (** One API call; Index and IndexMut: arena.rs:203-215. *)
  Definition arena_step (a : arena) (o : arena_op T) : res (arena * arena_out T) :=
    match o with
    | AAlloc v => let* (a', e) := arena_allocate a v in Ok (a', AEntry e)
    | AFree e => let* (a', r) := arena_free a e in Ok (a', AVal r)
    | AGet e => let* x := arena_get a e in Ok (a, AOpt x)
    | AGetMut e v => let* (a', x) := arena_get_mut_set a e v in Ok (a', AOpt x)
    | AIndex e => let* x := arena_get a e in Ok (a, AVal (expect x))
    | AIndexMut e v => let* (a', x) := arena_get_mut_set a e v in Ok (a', AVal (expect x))
    end.
End Arena.
Arguments block : clear implicits.
Arguments arena : clear implicits.
