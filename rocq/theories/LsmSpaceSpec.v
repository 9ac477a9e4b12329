(** Specification of the space that an [LsmMap] takes: in memory, and on disk. *)
From Verif Require Export LsmSpec.

Section Memory.
  Context {K V : Type} `{Cmp K} {Z : Sizes K V}.
  (** Encoded size of all entries *)
  Definition held_bytes (l : list (K * sval V)) : N := fold_right (fun e n => (ksize (fst e) + vsize (snd e) + n)%N) 0%N l.
  (** The entries after a write; an equal key stays *)
  Definition mem_put (k : K) (v : sval V) (l : list (K * sval V)) : list (K * sval V) :=
    below k l ++ (match at_key k l with e :: _ => fst e | [] => k end, v) :: above k l.
  (** What a call writes *)
  Definition written_by (o : lsm_op K V) : option (K * option V) :=
    match o with LInsert k v => Some (k, Some v) | LRemove k => Some (k, None) | _ => None end.
  Definition no_clear (o : lsm_op K V) : Prop := match o with LClear => False | _ => True end.
End Memory.

Section Files.
  Context {K V : Type} (St : strategy K V).
  Definition ids (m : st_meta St) : list nat := map t_id (st_tables St m).
  (** The directories that the metadata refer to, also those that a compaction has made and that are not yet installed *)
  Definition in_use (s : lsm K V (st_meta St)) : list nat := ids (cur s) ++ match nxt s with Some m => ids m | None => [] end.
  Definition on_disk (s : lsm K V (st_meta St)) : list nat := d_dirs (disk_of (log s)).
  (** The others: no call but [clear] will ever read or remove them *)
  Definition left_behind (s : lsm K V (st_meta St)) : list nat := filter (fun i => negb (existsb (Nat.eqb i) (in_use s))) (on_disk s).
  (** No removals, no compaction that fails, and reopened right after a flush only *)
  Fixpoint steady (flushed : bool) (ops : list (lsm_op K V)) : Prop :=
    match ops with
    | [] => True
    | o :: r => match o with LRemove _ | BgFail | BgDie => False | LReopen => flushed = true | _ => True end /\
                steady (match o with LFlush => true | _ => false end) r
    end.
End Files.
