(** Which tables a lookup in an [LsmMap] opens: [/repo/src/lsm_tree/sstable.rs:285-326],
    [/repo/src/lsm_tree/compaction/leveled.rs:528-564], [size_tiered.rs:452-472], [/repo/src/lsm_tree/map.rs:254-266].

    The functions are those of LsmTableModel.v, LeveledModel.v, SizeTieredModel.v and LsmMapModel.v; they also return the names
    of the tables whose index file is opened, in the order in which that happens.  [sieve id k]: does the Bloom filter of the
    table [id] let [k] through?  The summaries and the filters of tables are in memory. *)
From Verif Require Export SizeTieredModel.

Section LsmRead.
  Context {K V : Type} `{Cmp K} {Z : Sizes K V}.
  Notation sval := (sval V).
  Notation table := (table K V).
  Context (sieve : nat -> K -> bool).

  (** sstable.rs:285-326: out of range 291-293, filter 295-297, index file 304 *)
  Definition tab_get_r (has : nat -> bool) (t : table) (k : K) : res (option sval * list nat) :=
    if is_lt (cmp k (fst (t_range t))) || is_gt (cmp k (snd (t_range t))) then Ok (None, [])
    else if negb (sieve (t_id t) k) then Ok (None, [])
    else let* es := read has t in Ok (find_version es k, [t_id t]).

  (** leveled.rs:539-545, size_tiered.rs:463-469 *)
  Fixpoint newest_version_r (has : nat -> bool) (ts : list table) (k : K) (ret : option sval) : res (option sval * list nat) :=
    match ts with
    | [] => Ok (ret, [])
    | t :: r =>
        let* (o, a) := tab_get_r has t k in
        let* (o, b) := newest_version_r has r k
          (match o, ret with
           | Some v, None => o
           | Some v, Some w => if is_lt (sv_cmp v w) then o else ret
           | None, _ => ret
           end) in
        Ok (o, a ++ b)
    end.
  (** leveled.rs:551-561 *)
  Fixpoint levels_get_r (has : nat -> bool) (ls : list (level K V)) (k : K) : res (option sval * list nat) :=
    match ls with
    | [] => Ok (None, [])
    | l :: r =>
        match find (fun kt => negb (is_lt (cmp (fst kt) k))) l with
        | Some (_, t) =>
            let* (o, a) := tab_get_r has t k in
            match o with
            | Some v => Ok (Some v, a)
            | None => let* (o, b) := levels_get_r has r k in Ok (o, a ++ b)
            end
        | None => levels_get_r has r k
        end
    end.
  Definition lv_get_r (has : nat -> bool) (m : lmeta K V) (k : K) : res (option sval * list nat) :=
    let* (o, a) := newest_version_r has (lm_tabs m) k None in
    match o with
    | Some v => Ok (Some v, a)
    | None => let* (o, b) := levels_get_r has (lm_levels m) k in Ok (o, a ++ b)
    end.
  Definition sz_get_r (has : nat -> bool) (ts : list table) (k : K) : res (option sval * list nat) := newest_version_r has ts k None.

  (** map.rs:254-266 *)
  Definition get_r (St : strategy K V) (look : (nat -> bool) -> st_meta St -> K -> res (option sval * list nat))
      (s : lsm K V (st_meta St)) (k : K) : res (lsm K V (st_meta St) * option V * list nat) :=
    match find_version (mem s) k with
    | Some v => Ok (s, sv_data v, [])
    | None => let* s := try_replace St s in
              let* (o, a) := look (has St s) (cur s) k in
              Ok (s, match o with Some v => sv_data v | None => None end, a)
    end.
End LsmRead.
