(** Model of [SizeTieredStrategy]: [/repo/src/lsm_tree/compaction/size_tiered.rs].
    The two comparisons of [f64] that decide whether a table fits a bucket (size_tiered.rs:67-72) are a function of
    the sizes that enter them; see SizeTieredInstances.v for rational numbers. *)
From Verif Require Export LsmMapModel LeveledModel.

(** Configuration: size_tiered.rs:28-32.  [sc_in_bucket first current sum count]: is a table of size [current] in
    the bucket that starts with size [first], where [sum] and [count] include the table? *)
Record sconfig : Type := mkSc { sc_max_mem : N; sc_max_count : nat; sc_min_size : N; sc_in_bucket : N -> N -> N -> nat -> bool }.

Section SizeTiered.
  Context {K V : Type} `{Cmp K} {Z : Sizes K V}.
  Notation sval := (sval V).
  Notation entry := (K * sval)%type.
  Notation table := (table K V).
  Context (cfg : sconfig).

  (** [sort_by_key], which is stable *)
  Fixpoint size_insert (t : table) (l : list table) : list table :=
    match l with
    | [] => [t]
    | x :: r => if (t_size t <=? t_size x)%N then t :: l else x :: size_insert t r
    end.
  Definition by_size (l : list table) : list table := fold_right size_insert [] l.

  (** size_tiered.rs:61-88; [start] and [curr] count from the first table *)
  Fixpoint find_range (start curr : nat) (first : option N) (sum : N) (ts : list table) : option (nat * nat) :=
    match ts with
    | [] => if sc_max_count cfg <? curr - start then Some (start, curr) else None
    | t :: r =>
        let size := t_size t in
        let f := match first with Some f => f | None => size end in
        if (size <=? sc_min_size cfg)%N || sc_in_bucket cfg f size (sum + size) (curr - start + 1)
        then find_range start (S curr) (Some f) (sum + size) r
        else if sc_max_count cfg <? S curr - start then Some (start, S curr)
        else find_range (S curr) (S curr) None 0 r
    end.
  (** size_tiered.rs:58-89 *)
  Definition compaction_range (ts : list table) : option (nat * nat) := find_range 0 0 None 0 (by_size ts).

  (** size_tiered.rs:99-121 *)
  Definition range_of (ts : list table) : option (K * K) :=
    fold_left (fun r t => match r with Some r => Some (merge_ranges r (t_range t)) | None => Some (t_range t) end) ts None.
  Definition purgeable (old rest : list table) : bool :=
    forallb (fun t => match newest old with Some x => (x <? fst (t_times t))%N | None => true end &&
                      negb (match range_of old with Some r => is_intersecting r (t_range t) | None => false end)) rest.
  (** size_tiered.rs:91-151 *)
  Definition merge_range (has : nat -> bool) (id : nat) (ts : list table) (range : nat * nat) : res (list table * nat) :=
    let old := firstn (snd range - fst range) (skipn (fst range) ts) in
    let rest := firstn (fst range) ts ++ skipn (snd range) ts in
    let purge := purgeable old rest in
    let* es := merge_tables has (map (fun t => [t]) old) in
    let b := fold_left tb_append (filter (fun e => negb purge || has_data e) es) (tb_new id (list_sum (map t_count old))) in
    match tb_range b with
    | Some _ => let* t := tb_flush b in Ok (rest ++ [t], S id)
    | None => Ok (rest, S id)
    end.
  (** size_tiered.rs:297-317, on the snapshot sorted by [get_compaction_range] *)
  Definition sz_compact (has : nat -> bool) (id : nat) (ts : list table) : res (list table * nat) :=
    match compaction_range ts with
    | Some r => merge_range has id (by_size ts) r
    | None => Panic       (* the thread is not started *)
    end.
  (** size_tiered.rs:350-368 *)
  Definition sz_replace (cur next : list table) : list table :=
    next ++ filter (fun t => match newest next with Some x => (x <? snd (t_times t))%N | None => true end) cur.

  Definition size_tiered : strategy K V := {|
    st_meta := list table;
    st_new := [];
    st_max_mem := sc_max_mem cfg;
    st_tables ts := ts;
    st_push ts t := ts ++ [t];
    st_due ts := match compaction_range ts with Some _ => true | None => false end;
    st_compact := sz_compact;
    st_replace := sz_replace;
    st_get has ts k := newest_version has ts k None;
    st_runs ts := map (fun t => [t]) ts |}.
End SizeTiered.
