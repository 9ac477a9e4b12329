(** What is asked of an iterator of [BpMap] when reads fail. *)
From Verif Require Export BpIterIoModel.

(** An iterator of the entries [l] that stands at position [at_].  [reads] are the positions for which it has to read
    the file; if that fails the call returns an error and the position is kept. *)
Fixpoint resumes {A B : Type} (l : list (A * B)) (reads : nat -> bool) (at_ : nat) (fails : list bool) : list (yielded A B) :=
  match fails with
  | [] => []
  | f :: fails =>
      if f && reads at_ then Error :: resumes l reads at_ fails
      else match nth_error l at_ with Some e => Entry e | None => End end :: resumes l reads (at_ + 1) fails
  end.

(** The entries among what was returned. *)
Definition entries_of {A B : Type} (ys : list (yielded A B)) : list (A * B) :=
  flat_map (fun y => match y with Entry e => [e] | _ => [] end) ys.
