(** The iterator of [BpMap] when reads of the file fail: [/repo/src/bp_tree/map.rs:709-785].  The programs are those of
    BpIterModel.v, run by [run_fault] of BpIoModel.v. *)
From Verif Require Export BpIterModel BpIoModel.

Section BpIterIo.
  Context {K V : Type} `{Cmp K}.
  Notation store := (store K V).

  (** What a call of [next] returns: [Some(Ok(..))], [None], [Some(Err(..))]; map.rs:760. *)
  Inductive yielded : Type :=
  | Entry (e : K * V)
  | End
  | Error.

  (** map.rs:762-784, where the read of the file fails if there is one and [fails]: the error is returned before
      [curr_node] and [curr_index] are assigned, 766-775. *)
  Definition next_io (s : store) (it : bp_iter K V) (fails : bool) : res (bp_iter K V * yielded) :=
    let* (_, r) := run_fault (if fails then 0 else 1) [] s (iter_next it) in
    Ok match r with
       | Done (Some e, it') => (it', Entry e)
       | Done (None, it') => (it', End)
       | Failed _ _ => (it, Error)
       end.

  (** One call of [next] for each flag. *)
  Definition nexts_io (s : store) (it : bp_iter K V) (fails : list bool) : res (list yielded) :=
    let* (_, ys) := run (next_io s) it fails in Ok ys.

  (** [iter_mut], where the read after [n] others fails, 709-730. *)
  Definition open_io (s : store) (n : nat) : res (outcome (bp_iter K V)) :=
    let* (_, r) := run_fault n [] s iter_open in Ok r.

  (** [into_iter], 741-743: the error is unwrapped. *)
  Definition into_iter_io (s : store) (n : nat) : res (bp_iter K V) :=
    let* r := open_io s n in
    match r with Done it => Ok it | Failed _ _ => Panic end.
End BpIterIo.
Arguments yielded : clear implicits.
