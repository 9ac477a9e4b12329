(** Model of the merging iterators when reads of the tables fail and the caller goes on with the iterator:
    [/repo/src/lsm_tree/compaction/leveled.rs], [size_tiered.rs], and the calls that use them up.

    As in LsmTableModel.v; [fs] says for each call of [next] on a run whether it returns [Err] (no more of it: none does).
    A run that returned [Err] is not pushed again, so it is not read again; the model gives it up at once.
    Simplification: the reads when the iterator is made succeed (LsmIoModel.v has them fail). *)
From Verif Require Export LsmMapModel.

Section Scan.
  Context {K V : Type} `{Cmp K} (has : nat -> bool).
  Notation entry := (K * sval V)%type.
  Notation miter := (miter K V).

  (** leveled.rs:771-801, size_tiered.rs:613-636; [Some None]: [Err].  The entry that was taken from the heap is dropped with
      the [Err], and [last_key_opt] is not set to its key. *)
  Fixpoint sc_loop (fuel : nat) (fs : list bool) (it : miter) : res (option (option entry) * (miter * list bool)) :=
    match fuel with
    | 0 => Timeout
    | S fuel =>
        match h_pop (mi_heap it) with
        | None => Ok (None, (it, fs))
        | Some ((e, i), h) =>
            if hd false fs then Ok (Some None, (mkIter (list_set (mi_runs it) i []) h (mi_last it), tl fs))
            else
              let* r := expect (nth_error (mi_runs it) i) in
              let* x := r_next has r in
              let (runs, h) := match x with
                               | Some (e', r') => (list_set (mi_runs it) i r', (e', i) :: h)
                               | None => (list_set (mi_runs it) i [], h)
                               end in
              let fresh := match mi_last it with Some l => negb (is_eq (cmp l (fst e))) | None => true end in
              let it := mkIter runs h (Some (fst e)) in
              if fresh then Ok (Some (Some e), (it, tl fs)) else sc_loop fuel (tl fs) it
        end
    end.
  Definition sc_next (fs : list bool) (it : miter) : res (option (option entry) * (miter * list bool)) := sc_loop (S (mi_left it)) fs it.
  (** Call [next] until it returns [None]. *)
  Fixpoint sc_all (fuel : nat) (fs : list bool) (it : miter) : res (list (option entry)) :=
    match fuel with
    | 0 => Timeout
    | S fuel =>
        let* (o, (it, fs)) := sc_next fs it in
        match o with
        | None => Ok []
        | Some x => let* l := sc_all fuel fs it in Ok (x :: l)
        end
    end.
  (** leveled.rs:672-678, size_tiered.rs:554-560 *)
  Definition filter_items (l : list (option entry)) : list (option (K * V)) :=
    flat_map (fun x => match x with
                       | Some (k, v) => match sv_data v with Some d => [Some (k, d)] | None => [] end
                       | None => [None]
                       end) l.
  Definition sc_items (fs : list bool) (it : miter) : res (list (option (K * V))) := let* l := sc_all (S (mi_left it)) fs it in Ok (filter_items l).
End Scan.

(** The items of a new iterator of the map: map.rs:511-514 *)
Definition scan {K V : Type} `{Cmp K} {Z : Sizes K V} (St : strategy K V) (fs : list bool) (s : lsm K V (st_meta St)) : res (lsm K V (st_meta St) * list (option (K * V))) :=
  let* s := flush St s in
  let* (s, it) := disk_iter St s in
  let* l := sc_items (has St s) fs it in
  Ok (s, l).
(** What the calls of the strategy make of the items, [None]: [Err].  leveled.rs:593-595 and 628-640, size_tiered.rs:490-492 and 524-536 *)
Definition items_len {A} (l : list (option A)) : option nat := Some (length l).
Definition items_min {K V} (l : list (option (K * V))) : option (option K) :=
  match l with [] => Some None | Some e :: _ => Some (Some (fst e)) | None :: _ => None end.
Definition items_max {K V} (l : list (option (K * V))) : option (option K) :=
  match last_error l with None => Some None | Some (Some e) => Some (Some (fst e)) | Some None => None end.
