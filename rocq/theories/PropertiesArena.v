(** Properties of TypedArena.  Statements only; proofs are in ArenaProofs.v. *)
From Verif Require Import ArenaSpec ArenaModel ArenaProofs ArenaExactSpec ArenaExactProofs.

(** ** C17: handles stay valid, distinct and private; anything else is rejected.  Holds for every chunk
    size (zero included) and also after rejected calls. *)
Theorem C17_arena_live : forall (T : Type) (chunk_size : nat) (ops : list (arena_op T)),
  exists a outs, run arena_step (arena_new chunk_size) ops = Ok (a, outs) /\ length outs = length ops /\
                 live_trace [] (combine ops outs).
Proof. exact @arena_live. Qed.
Print Assumptions C17_arena_live.

Definition C17_ops : list (arena_op nat) :=
  [AAlloc 10; AAlloc 11; AAlloc 12; AFree (0, 1); AGet (0, 1); AFree (0, 1); AAlloc 13; AIndexMut (0, 0) 5; AIndex (0, 0);
   AFree (7, 7); AGetMut (1, 0) 6; AGet (1, 0)].
Example C17_example :
  outputs arena_step (arena_new 2) C17_ops
  = Ok [AEntry (0, 0); AEntry (0, 1); AEntry (1, 0); AVal (Ok 11); AOpt None; AVal Panic; AEntry (1, 1); AVal (Ok 10);
        AVal (Ok 5); AVal Panic; AOpt (Some 12); AOpt (Some 6)].
Proof. vm_compute; reflexivity. Qed.

(** ** C47: freed slots are reused (last freed first) before new ones are made, so the number of slots is
    the largest number of values that were live at once; chunks never outgrow the size they were
    allocated with.  True for histories in which no free was rejected ... *)
Theorem C47_arena_reuse_partial : forall (T : Type) (chunk_size : nat) (ops : list (arena_op T)) a outs,
  run arena_step (arena_new chunk_size) ops = Ok (a, outs) -> no_bad_free (combine ops outs) ->
  reuse_trace [] [] (combine ops outs) /\
  length (concat (a_chunks a)) = peak_live 0 0 (combine ops outs).
Proof. exact @arena_reuse. Qed.
Print Assumptions C47_arena_reuse_partial.

Theorem C47_arena_chunks_partial : forall (T : Type) (chunk_size : nat) (ops : list (arena_op T)) a outs,
  chunk_size <> 0 ->
  run arena_step (arena_new chunk_size) ops = Ok (a, outs) -> no_bad_free (combine ops outs) ->
  Forall (fun c => length c <= chunk_size) (a_chunks a).
Proof. exact @arena_chunks_bounded. Qed.
Print Assumptions C47_arena_chunks_partial.

Example C47_example : exists a outs,
  run arena_step (arena_new 2) [AAlloc 1; AAlloc 2; AAlloc 3; AFree (0, 0); AFree (1, 0); AAlloc 4; AAlloc 5; AAlloc 6] = Ok (a, outs) /\
  no_bad_free (combine [AAlloc 1; AAlloc 2; AAlloc 3; AFree (0, 0); AFree (1, 0); AAlloc 4; AAlloc 5; AAlloc 6] outs) /\
  outs = [AEntry (0, 0); AEntry (0, 1); AEntry (1, 0); AVal (Ok 1); AVal (Ok 3); AEntry (1, 0); AEntry (0, 0); AEntry (1, 1)] /\
  length (concat (a_chunks a)) = 4.
Proof. do 2 eexists; vm_compute; repeat split; repeat constructor. Qed.

(** ... but a rejected free of a vacant slot (a caught panic) throws the free list away: the freed slot
    is not reused, and chunks then outgrow their allocation. *)
Theorem C47_arena_reuse_refuted : exists (ops : list (arena_op nat)) a outs,
  run arena_step (arena_new 1) ops = Ok (a, outs) /\ ~ reuse_trace [] [] (combine ops outs) /\
  length (concat (a_chunks a)) > peak_live 0 0 (combine ops outs) /\
  ~ Forall (fun c => length c <= 1) (a_chunks a).
Proof. exact arena_reuse_refuted. Qed.
Print Assumptions C47_arena_reuse_refuted.

(** A chunk size of zero (accepted by the constructor) also makes chunks outgrow their allocation. *)
Theorem C47_arena_chunk_zero_refuted : exists (ops : list (arena_op nat)) a outs,
  run arena_step (arena_new 0) ops = Ok (a, outs) /\ no_bad_free (combine ops outs) /\
  ~ Forall (fun c => length c <= 0) (a_chunks a).
Proof. exact arena_chunk_zero_refuted. Qed.
Print Assumptions C47_arena_chunk_zero_refuted.

(** What the code does in every history, for every chunk size: all answers and the sizes of all chunks are
    those of [shelf_step], in which a rejected free of a slot that was made loses all slots waiting to be
    used again (and a rejected free of any other handle changes nothing). *)
Theorem C47_arena_exact : forall (T : Type) (chunk_size : nat) (ops : list (arena_op T)), exists a,
  run arena_step (arena_new chunk_size) ops = Ok (a, snd (shelf_run chunk_size shelf_new ops)) /\
  map (@length _) (a_chunks a) = sh_lens (fst (shelf_run chunk_size shelf_new ops)).
Proof. exact @arena_exact. Qed.
Print Assumptions C47_arena_exact.

(** Every slot that was made is in use, waiting or lost, and in one of these ways only. *)
Theorem C47_arena_parts : forall (T : Type) (chunk_size : nat) (ops : list (arena_op T)),
  let s := fst (shelf_run chunk_size shelf_new ops) in
  NoDup (map fst (sh_live s) ++ sh_freed s ++ sh_lost s) /\
  (forall e, In e (map fst (sh_live s) ++ sh_freed s ++ sh_lost s) <-> made (sh_lens s) e = true).
Proof. exact @shelf_parts. Qed.
Print Assumptions C47_arena_parts.

(** A lost slot is lost for ever. *)
Theorem C47_arena_lost : forall (T : Type) (chunk_size : nat) (ops ops' : list (arena_op T)) e,
  In e (sh_lost (fst (shelf_run chunk_size shelf_new ops))) ->
  In e (sh_lost (fst (shelf_run chunk_size shelf_new (ops ++ ops')))).
Proof. exact @shelf_lost. Qed.
Print Assumptions C47_arena_lost.

(** The number of slots is the largest number of slots in use or lost at once. *)
Theorem C47_arena_slots : forall (T : Type) (chunk_size : nat) (ops : list (arena_op T)) a outs,
  run arena_step (arena_new chunk_size) ops = Ok (a, outs) ->
  length (concat (a_chunks a)) = peak_held chunk_size 0 shelf_new ops.
Proof. exact @arena_slots. Qed.
Print Assumptions C47_arena_slots.

Definition C47_ops : list (arena_op nat) :=
  [AAlloc 1; AAlloc 2; AAlloc 3; AFree (0, 0); AFree (1, 0); AFree (5, 5); AFree (0, 0); AAlloc 4; AAlloc 5; AFree (0, 1);
   AAlloc 6; AAlloc 7].
Example C47_exact_example :
  shelf_run 2 shelf_new C47_ops
  = (Shelf [((1, 3), 7); ((0, 1), 6); ((1, 2), 5); ((1, 1), 4)] [] [(1, 0); (0, 0)] [2; 4],
     [AEntry (0, 0); AEntry (0, 1); AEntry (1, 0); AVal (Ok 1); AVal (Ok 3); AVal Panic; AVal Panic; AEntry (1, 1);
      AEntry (1, 2); AVal (Ok 2); AEntry (0, 1); AEntry (1, 3)]) /\
  peak_held 2 0 shelf_new C47_ops = 6.
Proof. vm_compute. auto. Qed.

(** So memory can grow without bound while at most one value is in use, in a chunk made for one. *)
Theorem C47_arena_leak_refuted : forall m : nat, exists a outs,
  run arena_step (arena_new 1) (double_frees m) = Ok (a, outs) /\
  peak_live 0 0 (combine (double_frees m) outs) <= 1 /\
  map (@length _) (a_chunks a) = (if m =? 0 then [] else [m]).
Proof. exact arena_leak. Qed.
Print Assumptions C47_arena_leak_refuted.
