(** Vocabulary for statements about [SizeTieredStrategy]. *)
From Verif Require Export LsmSpec LsmTableSpec SizeTieredModel.

Section SizeTieredSpec.
  Context {K V : Type} `{Cmp K} {Z : Sizes K V} (cfg : sconfig).
  Notation entry := (K * sval V)%type.
  (** The newest of the entries is a tombstone. *)
  Definition newest_dead (es : list entry) : bool :=
    existsb (fun e => match sv_data (snd e) with
                      | None => forallb (fun e' => (sv_time (snd e') <=? sv_time (snd e))%N) es
                      | Some _ => false
                      end) es.
  (** The compaction of the tables takes all of them in and the newest entry is a tombstone.  Then the tombstone is dropped,
      and tables that were merged are taken for newer ones when the metadata is replaced. *)
  Definition risky (ts : list (table K V)) : bool :=
    match compaction_range cfg ts with
    | Some (0, n) => (length ts <=? n) && newest_dead (run_entries ts)
    | _ => false
    end.
  (** The strategy that stops at such a compaction and is the same otherwise *)
  Definition watched : strategy K V := {|
    st_meta := list (table K V);
    st_new := [];
    st_max_mem := sc_max_mem cfg;
    st_tables ts := ts;
    st_push ts t := ts ++ [t];
    st_due ts := match compaction_range cfg ts with Some _ => true | None => false end;
    st_compact has id ts := if risky ts then Timeout else sz_compact cfg has id ts;
    st_replace := sz_replace;
    st_get has ts k := newest_version has ts k None;
    st_runs ts := map (fun t => [t]) ts |}.
  (** No such compaction takes place. *)
  Definition unhurt (ops : list (lsm_op K V)) : Prop := outputs (lsm_step watched) (lsm_new watched) ops <> Timeout.

  (** [y] is [x] with perhaps more pairs, for keys that [x] does not hold and for which [P] holds. *)
  Definition revives (P : K -> V -> Prop) (x y : list (K * V)) : Prop :=
    strictly_ascending y /\ (forall k v, lookup k x = Some v -> lookup k y = Some v) /\
    (forall k v, lookup k y = Some v -> lookup k x = Some v \/ P k v).
  (** Removed pairs for which [P] holds may have come back, also in what is on disk. *)
  Definition revived (P : K -> V -> Prop) (a a' : sp K V) : Prop :=
    sp_iters a' = sp_iters a /\ sp_clean a' = sp_clean a /\ sp_written a' = sp_written a /\ sp_removed a' = sp_removed a /\
    (sp_map a' = sp_map a \/ revives P (sp_map a) (sp_map a')) /\
    (forall m, In m (sp_recover a) -> In m (sp_recover a')) /\
    (forall m', In m' (sp_recover a') -> In m' (sp_recover a) \/ exists m, In m (sp_recover a) /\ revives P m m').
  (** The value was at some time inserted for the key. *)
  Definition inserted (ops : list (lsm_op K V)) (k : K) (v : V) : Prop := exists k', cmp k' k = Eq /\ In (LInsert k' v) ops.
  Definition inserts_only (P : K -> V -> Prop) (o : lsm_op K V) : Prop := match o with LInsert k v => P k v | _ => True end.
End SizeTieredSpec.
