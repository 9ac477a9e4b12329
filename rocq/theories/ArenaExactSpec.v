(** What TypedArena does in every history, rejected frees included.  Nothing here refers to the model. *)
From Verif Require Export ArenaSpec.

(** [sh_live]: the values in use; [sh_freed]: the slots that will be used again, next one first; [sh_lost]:
    the slots that are neither; [sh_lens]: the number of slots of each chunk. *)
Record shelf (T : Type) : Type := Shelf {
  sh_live : list (entry * T);
  sh_freed : list entry;
  sh_lost : list entry;
  sh_lens : list nat
}.
Arguments Shelf {T}. Arguments sh_live {T}. Arguments sh_freed {T}. Arguments sh_lost {T}. Arguments sh_lens {T}.

Section Shelf.
  Context {T : Type}.
  Implicit Types s : shelf T.

  Definition shelf_new : shelf T := Shelf [] [] [] [].

  (** The slot has been made. *)
  Definition made (lens : list nat) (e : entry) : bool := snd e <? nth (fst e) lens 0.

  (** A chunk is added when as many values are in use as the chunks were made for. *)
  Definition with_room (n : nat) s : list nat :=
    if length (sh_live s) =? n * length (sh_lens s) then sh_lens s ++ [0] else sh_lens s.
  (** The next slot of the last chunk. *)
  Definition fresh (lens : list nat) : entry := (length lens - 1, nth (length lens - 1) lens 0).
  Definition with_fresh (lens : list nat) : list nat := removelast lens ++ [S (last lens 0)].

  Definition shelf_step (n : nat) s (o : arena_op T) : shelf T * arena_out T :=
    match o with
    | AAlloc v =>
        let lens := with_room n s in
        match sh_freed s with
        | f :: fs => (Shelf ((f, v) :: sh_live s) fs (sh_lost s) lens, AEntry f)
        | [] => (Shelf ((fresh lens, v) :: sh_live s) [] (sh_lost s) (with_fresh lens), AEntry (fresh lens))
        end
    | AFree e =>
        match lookup e (sh_live s) with
        | Some x => (Shelf (forget e (sh_live s)) (e :: sh_freed s) (sh_lost s) (sh_lens s), AVal (Ok x))
        | None =>
            if made (sh_lens s) e then (Shelf (sh_live s) [] (sh_freed s ++ sh_lost s) (sh_lens s), AVal Panic)
            else (s, AVal Panic)
        end
    | AGet e => (s, AOpt (lookup e (sh_live s)))
    | AIndex e => (s, AVal (expect (lookup e (sh_live s))))
    | AGetMut e v =>
        (Shelf (write e v (sh_live s)) (sh_freed s) (sh_lost s) (sh_lens s), AOpt (lookup e (sh_live s)))
    | AIndexMut e v =>
        (Shelf (write e v (sh_live s)) (sh_freed s) (sh_lost s) (sh_lens s), AVal (expect (lookup e (sh_live s))))
    end.

  Fixpoint shelf_run (n : nat) s (ops : list (arena_op T)) : shelf T * list (arena_out T) :=
    match ops with
    | [] => (s, [])
    | o :: ops' =>
        let '(s1, out) := shelf_step n s o in
        let '(s2, outs) := shelf_run n s1 ops' in (s2, out :: outs)
    end.

  (** The largest number of slots in use or lost at once, [peak] so far. *)
  Fixpoint peak_held (n peak : nat) s (ops : list (arena_op T)) : nat :=
    let now := Nat.max peak (length (sh_live s) + length (sh_lost s)) in
    match ops with
    | [] => now
    | o :: ops' => peak_held n now (fst (shelf_step n s o)) ops'
    end.
End Shelf.

(** [m] rounds of: allocate, free, free again (rejected), each with the slot of that round. *)
Definition double_frees (m : nat) : list (arena_op unit) :=
  concat (map (fun i => [AAlloc tt; AFree (0, i); AFree (0, i)]) (seq 0 m)).
