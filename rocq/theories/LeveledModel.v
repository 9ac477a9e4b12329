(** Model of [LeveledStrategy]: [/repo/src/lsm_tree/compaction/leveled.rs].
    A [BTreeMap] is an association list in ascending key order.  Arithmetic on [u64] and [usize] wraps, as in a
    release build. *)
From Verif Require Export LsmMapModel.

Definition wrap (n : N) : N := (n mod 2 ^ 64)%N.

(** Configuration: leveled.rs:31-35 *)
Record lconfig : Type := mkLc { lc_max_mem : N; lc_max_count : nat; lc_max_size : N; lc_initial : N; lc_growth : N }.

Section Leveled.
  Context {K V : Type} `{Cmp K} {Z : Sizes K V}.
  Notation sval := (sval V).
  Notation entry := (K * sval)%type.
  Notation table := (table K V).
  Notation tbuilder := (tbuilder K V).
  Context (cfg : lconfig).

  (** leveled.rs:27-38 without the configuration *)
  Definition level : Type := list (K * table).
  Record lmeta : Type := mkLm { lm_tabs : list table; lm_levels : list level }.

  Definition hi (t : table) : K := snd (t_range t).
  (** leveled.rs:66-75, the last line *)
  Definition level_insert (l : level) (t : table) : level := bt_insert (hi t) t l.
  (** [BTreeMap::remove] *)
  Fixpoint level_remove (k : K) (l : level) : option (table * level) :=
    match l with
    | [] => None
    | (k', t) :: r =>
        if is_eq (cmp k' k) then Some (t, r)
        else match level_remove k r with Some (x, r') => Some (x, (k', t) :: r') | None => None end
    end.

  (** The loop over the merged entries, leveled.rs:333-350 and 407-424.  [keep] says which entries are written;
      the builder of name [id] has been made. *)
  Fixpoint pack (keep : entry -> bool) (hint : nat) (b : tbuilder) (es : list entry) : res (list table * nat) :=
    match es with
    | [] =>
        match tb_range b with
        | Some _ => let* t := tb_flush b in Ok ([t], S (tb_id b))
        | None => Ok ([], S (tb_id b))
        end
    | e :: r =>
        let b := if keep e then tb_append b e else b in
        if (lc_max_size cfg <? tb_size b)%N
        then let* t := tb_flush b in
             let* (ts, id) := pack keep hint (tb_new (S (tb_id b)) hint) r in
             Ok (t :: ts, id)
        else pack keep hint b r
    end.
  Definition has_data (e : entry) : bool := match sv_data (snd e) with Some _ => true | None => false end.
  (** Merge, write, insert into a level. *)
  Definition merge_into (has : nat -> bool) (purge : bool) (hint id : nat) (runs : list (list table)) (l : level) : res (level * nat) :=
    let* es := merge_tables has runs in
    let* (ts, id) := pack (fun e => negb purge || has_data e) hint (tb_new id hint) es in
    Ok (fold_left level_insert ts l, id).

  (** leveled.rs:358-363: may level [i] keep [n] tables? *)
  Definition max_len (i : nat) : N := wrap (lc_initial cfg * wrap (lc_growth cfg ^ N.of_nat i)).
  Definition should_merge (levels : list level) (i : nat) : bool :=
    match nth_error levels i with Some l => (max_len i <? N.of_nat (length l))%N | None => false end.

  (** leveled.rs:368-376; [max_by] gives the last of several maxima *)
  Definition more_dead (x y : table) : bool :=
    is_gt (N.compare (wrap (N.of_nat (t_tombs x) * N.of_nat (t_count y))) (wrap (N.of_nat (t_tombs y) * N.of_nat (t_count x)))).
  Definition pick (l : level) : option table :=
    fold_left (fun best kt => match best with
                              | None => Some (snd kt)
                              | Some b => Some (if more_dead b (snd kt) then b else snd kt)
                              end) l None.

  (** One round of the inner loop: leveled.rs:365-425 *)
  Definition merge_down (has : nat -> bool) (hint id index : nat) (levels : list level) : res (list level * nat) :=
    let* l := expect (nth_error levels index) in
    let* t := expect (pick l) in
    let* (t, l) := expect (level_remove (hi t) l) in
    let levels := list_set levels index l in
    if index + 1 =? length levels then Ok (levels ++ [[(hi t, t)]], S id)
    else
      let* below := expect (nth_error levels (index + 1)) in
      let (old, new) := partition (fun kt => is_intersecting (t_range t) (t_range (snd kt))) below in
      let* (below, id) := merge_into has (index + 1 =? length levels - 1) hint id [[t]; map snd old] new in
      Ok (list_set levels (index + 1) below, id).
  Fixpoint inner (fuel : nat) (has : nat -> bool) (hint id index : nat) (levels : list level) : res (list level * nat) :=
    if should_merge levels index
    then match fuel with
         | 0 => Timeout
         | S fuel => let* (levels, id) := merge_down has hint id index levels in inner fuel has hint id index levels
         end
    else Ok (levels, id).
  (** leveled.rs:353-426.  A round of the inner loop takes a table out of the level, so as many rounds as it
      has tables are enough. *)
  Fixpoint outer (fuel : nat) (has : nat -> bool) (hint id index : nat) (levels : list level) : res (list level * nat) :=
    if index =? length levels then Ok (levels, id)
    else match fuel with
         | 0 => Timeout
         | S fuel =>
             let* l := expect (nth_error levels index) in
             let* (levels, id) := inner (length l) has hint id index levels in
             outer fuel has hint id (S index) levels
         end.

  Definition level_tables (ls : list level) : list table := flat_map (map snd) ls.
  Definition lv_tables (m : lmeta) : list table := lm_tabs m ++ level_tables (lm_levels m).
  (** leveled.rs:294-435; the result has [fuel] rounds of the outer loop to come about *)
  Definition lv_compact_fuel (fuel : nat) (has : nat -> bool) (id : nat) (m : lmeta) : res (lmeta * nat) :=
    let levels := match lm_levels m with [] => [[]] | ls => ls end in
    let* l0 := expect (nth_error levels 0) in
    let hint := fold_left (fun h kt => Nat.max h (t_count (snd kt))) l0 (list_sum (map t_count (lm_tabs m))) in
    let* (l0', id) := merge_into has (length levels =? 1) hint id (map (fun t => [t]) (lm_tabs m) ++ [map snd l0]) [] in
    let* (levels, id) := outer fuel has hint id 0 (list_set levels 0 l0') in
    Ok (mkLm [] levels, id).
  (** Enough fuel for configurations with positive limits (LeveledProofs.v) *)
  Definition rounds (m : lmeta) : nat := length (lm_levels m) + list_sum (map (fun t => length (t_es t)) (lv_tables m)) + 2.
  Definition lv_compact (has : nat -> bool) (id : nat) (m : lmeta) : res (lmeta * nat) := lv_compact_fuel (rounds m) has id m.

  (** leveled.rs:243-268; [None < Some _] *)
  Definition opt_max (a b : option N) : option N :=
    match a, b with Some x, Some y => Some (N.max x y) | None, _ => b | _, None => a end.
  Definition newest (ts : list table) : option N := fold_left (fun o t => opt_max o (Some (snd (t_times t)))) ts None.
  Definition lv_replace (cur next : lmeta) : lmeta :=
    let time := newest (level_tables (lm_levels next)) in
    mkLm (lm_tabs next ++ filter (fun t => match time with Some x => (x <? fst (t_times t))%N | None => true end) (lm_tabs cur))
         (lm_levels next).

  (** leveled.rs:539-545, size_tiered.rs:463-469 *)
  Fixpoint newest_version (has : nat -> bool) (ts : list table) (k : K) (ret : option sval) : res (option sval) :=
    match ts with
    | [] => Ok ret
    | t :: r =>
        let* o := tab_get has t k in
        newest_version has r k
          (match o, ret with
           | Some v, None => o
           | Some v, Some w => if is_lt (sv_cmp v w) then o else ret
           | None, _ => ret
           end)
    end.
  (** leveled.rs:551-561 *)
  Fixpoint levels_get (has : nat -> bool) (ls : list level) (k : K) : res (option sval) :=
    match ls with
    | [] => Ok None
    | l :: r =>
        match find (fun kt => negb (is_lt (cmp (fst kt) k))) l with
        | Some (_, t) => let* o := tab_get has t k in
                         match o with Some v => Ok (Some v) | None => levels_get has r k end
        | None => levels_get has r k
        end
    end.
  Definition lv_get (has : nat -> bool) (m : lmeta) (k : K) : res (option sval) :=
    let* o := newest_version has (lm_tabs m) k None in
    match o with Some v => Ok (Some v) | None => levels_get has (lm_levels m) k end.

  Definition leveled : strategy K V := {|
    st_meta := lmeta;
    st_new := mkLm [] [];
    st_max_mem := lc_max_mem cfg;
    st_tables := lv_tables;
    st_push m t := mkLm (lm_tabs m ++ [t]) (lm_levels m);
    st_due m := lc_max_count cfg <? length (lm_tabs m);
    st_compact := lv_compact;
    st_replace := lv_replace;
    st_get := lv_get;
    st_runs m := map (fun t => [t]) (lm_tabs m) ++ map (map snd) (lm_levels m) |}.
End Leveled.
Arguments lmeta : clear implicits. Arguments level : clear implicits.
