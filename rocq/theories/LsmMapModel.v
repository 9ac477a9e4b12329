(** Model of [LsmMap] and of the parts that its two compaction strategies share:
    [/repo/src/lsm_tree/map.rs], [/repo/src/lsm_tree/compaction/leveled.rs], [size_tiered.rs].

    A strategy is a record; LeveledModel.v and SizeTieredModel.v define the two of the library.
    The compaction thread is part of the state; what it does is an operation ([BgPublish], [BgDone], [BgFail],
    [BgDie]) that may stand anywhere in a sequence of operations.  Within one call of the map the thread is not
    interleaved here; LsmThreadModel.v does that.

    Files are a log of effects ([effect]); the state of the disk is what the log adds up to.
    Simplifications: an [Err] of the operating system is [Panic]; writing metadata.dat or logical_time.dat is one
    effect; so are building a table (no one looks at a directory before its table is complete) and removing it.
    Counters do not overflow, sizes neither.  A directory made for a builder that is dropped counts as a table
    that nobody refers to. *)
From Verif Require Export LsmTableModel.

(** *** The strategy: the [CompactionStrategy] trait, compaction/mod.rs, and the private functions around it *)
Record strategy (K V : Type) : Type := mkStrategy {
  st_meta : Type;                                             (* the [sstables] and [levels] of the metadata *)
  st_new : st_meta;
  st_max_mem : N;
  st_tables : st_meta -> list (table K V);                    (* in the order in which [try_replace_metadata] visits them *)
  st_push : st_meta -> table K V -> st_meta;                  (* push_sstable *)
  st_due : st_meta -> bool;                                   (* is a compaction to be started? *)
  (* [compact] with the directories on disk and the next directory name; gives the new metadata and next name *)
  st_compact : (nat -> bool) -> nat -> st_meta -> res (st_meta * nat);
  st_replace : st_meta -> st_meta -> st_meta;                 (* current and next metadata: the new current one *)
  st_get : (nat -> bool) -> st_meta -> K -> res (option (sval V));
  st_runs : st_meta -> list (list (table K V)) }.             (* the runs that [iter] merges *)
Arguments mkStrategy {K V}. Arguments st_meta {K V}. Arguments st_new {K V}. Arguments st_max_mem {K V}. Arguments st_tables {K V}.
Arguments st_push {K V}. Arguments st_due {K V}. Arguments st_compact {K V}. Arguments st_replace {K V}. Arguments st_get {K V}.
Arguments st_runs {K V}.

(** *** Files *)
Section Disk.
  Context {M : Type}.
  Inductive effect : Type :=
  | ETime (t : N)          (* write logical_time.dat *)
  | ETable (id : nat)      (* write all files of a table *)
  | EMeta (m : M)          (* write metadata.dat *)
  | ERemove (id : nat).    (* remove the directory of a table *)
  Record disk : Type := mkDisk { d_time : option N; d_meta : option M; d_dirs : list nat }.
  Definition no_disk : disk := mkDisk None None [].
  Definition apply (d : disk) (e : effect) : disk :=
    match e with
    | ETime t => mkDisk (Some t) (d_meta d) (d_dirs d)
    | ETable id => mkDisk (d_time d) (d_meta d) (id :: d_dirs d)
    | EMeta m => mkDisk (d_time d) (Some m) (d_dirs d)
    | ERemove id => mkDisk (d_time d) (d_meta d) (filter (fun i => negb (i =? id)) (d_dirs d))
    end.
  Definition disk_of (l : list effect) : disk := fold_left apply l no_disk.
  Definition has_dir (d : disk) (id : nat) : bool := existsb (Nat.eqb id) (d_dirs d).
  (** [fs::remove_dir_all] in a loop: removing what is not there is an error *)
  Fixpoint remove_dirs (d : disk) (ids : list nat) : res (list effect) :=
    match ids with
    | [] => Ok []
    | id :: r =>
        if has_dir d id
        then let* es := remove_dirs (apply d (ERemove id)) r in Ok (ERemove id :: es)
        else Panic
    end.
End Disk.
Arguments effect : clear implicits. Arguments disk : clear implicits.

(** *** Calls and results *)
Inductive lsm_op (K V : Type) : Type :=
| LInsert (k : K) (v : V)
| LRemove (k : K)
| LGet (k : K)
| LContains (k : K)
| LLen
| LIsEmpty
| LLenHint
| LClear
| LMin
| LMax
| LFlush
| LIter                    (* iter(), run to the end *)
| LIterOpen                (* iter(), kept *)
| LIterNext (i : nat)      (* next() of the i-th iterator kept *)
| LIterDrop (i : nat)
| LReopen                  (* drop the map, open the strategy from its directory, make a map of it *)
| BgPublish                (* the thread finishes its work and stores [next_metadata] *)
| BgDone                   (* ... and clears [is_compacting] *)
| BgFail                   (* the thread returns an error *)
| BgDie.                   (* the thread panics *)
Arguments LInsert {K V}. Arguments LRemove {K V}. Arguments LGet {K V}. Arguments LContains {K V}. Arguments LLen {K V}.
Arguments LIsEmpty {K V}. Arguments LLenHint {K V}. Arguments LClear {K V}. Arguments LMin {K V}. Arguments LMax {K V}.
Arguments LFlush {K V}. Arguments LIter {K V}. Arguments LIterOpen {K V}. Arguments LIterNext {K V}. Arguments LIterDrop {K V}.
Arguments LReopen {K V}. Arguments BgPublish {K V}. Arguments BgDone {K V}. Arguments BgFail {K V}. Arguments BgDie {K V}.

Inductive lsm_out (K V : Type) : Type :=
| OUnit
| OVal (v : option V)
| OBool (b : bool)
| OLen (n : nat)
| OHint (n : nat)
| OKey (k : option K)
| OList (l : list (K * V))
| ONext (e : option (K * V)).
Arguments OUnit {K V}. Arguments OVal {K V}. Arguments OBool {K V}. Arguments OLen {K V}. Arguments OHint {K V}.
Arguments OKey {K V}. Arguments OList {K V}. Arguments ONext {K V}.

(** *** State: map.rs:52-56, leveled.rs:109-122, size_tiered.rs:169-179 *)
Section State.
  Context {K V M : Type}.
  Inductive thread : Type :=
  | TIdle                  (* not running, [is_compacting] clear *)
  | TRun (m : M)           (* running on a snapshot *)
  | TPub                   (* has stored [next_metadata], [is_compacting] still set *)
  | TDead.                 (* has panicked, [is_compacting] set for ever *)
  Record lsm : Type := mkLsm {
    mem : list (K * sval V); usage : N; time : N;
    cur : M; nxt : option M; thr : thread; joinable : bool;
    iters : list (option (miter K V));     (* the iterators kept; [None] once dropped *)
    fresh : nat; log : list (effect M) }.
End State.
Arguments thread : clear implicits. Arguments lsm : clear implicits.

Section Map.
  Context {K V : Type} `{Cmp K} {Z : Sizes K V}.
  Notation sval := (sval V).
  Notation entry := (K * sval)%type.

  (** *** [BTreeMap::insert]: an equal key stays, its value is replaced *)
  Fixpoint bt_insert {A} (k : K) (v : A) (l : list (K * A)) : list (K * A) :=
    match l with
    | [] => [(k, v)]
    | (k', v') :: r =>
        match cmp k k' with
        | Lt => (k, v) :: l
        | Eq => (k', v) :: r
        | Gt => (k', v') :: bt_insert k v r
        end
    end.

  Context (St : strategy K V).
  Notation meta := (st_meta St).
  Notation lsm := (lsm K V meta).

  Definition has (s : lsm) : nat -> bool := has_dir (disk_of (log s)).
  Definition locked (s : lsm) : bool := existsb (fun o => match o with Some _ => true | None => false end) (iters s).
  Definition busy (s : lsm) : bool := match thr s with TIdle => false | _ => true end.

  (** leveled.rs:145-195, size_tiered.rs:199-249; map.rs:82-88 *)
  Definition lsm_new : lsm := mkLsm [] 0 0 (st_new St) None TIdle false [] 0 [EMeta (st_new St)].
  (** leveled.rs:213-241, size_tiered.rs:267-295: the summary and the filter of each table are read *)
  Definition lsm_open (l : list (effect meta)) (fr : nat) : res lsm :=
    let d := disk_of l in
    let* m := expect (d_meta d) in
    let* t := expect (d_time d) in
    if forallb (fun x => has_dir d (t_id x)) (st_tables St m) then Ok (mkLsm [] 0 t m None TIdle false [] fr l) else Panic.

  (** *** try_replace_metadata and the writing of the metadata behind it:
      leveled.rs:243-292, size_tiered.rs:350-382 *)
  Definition try_replace (s : lsm) : res lsm :=
    match nxt s with
    | None => Ok s
    | Some m =>
        let r := st_replace St (cur s) m in
        let kept := map t_id (st_tables St r) in
        let gone := filter (fun id => negb (existsb (Nat.eqb id) kept)) (map t_id (st_tables St (cur s))) in
        let* es := remove_dirs (disk_of (log s)) gone in
        Ok (mkLsm (mem s) (usage s) (time s) r None (thr s) (joinable s) (iters s) (fresh s) (log s ++ es ++ [EMeta r]))
    end.
  (** *** try_compact: map.rs:90-101, leveled.rs:483-510, size_tiered.rs:407-434, spawn_compaction_thread *)
  Definition try_compact (s : lsm) : res lsm :=
    let* t := tb_build (fresh s) (length (mem s)) (mem s) in
    let m := st_push St (cur s) t in
    let s := mkLsm [] 0 (time s) m (nxt s) (thr s) (joinable s) (iters s) (S (fresh s)) (log s ++ [ETable (t_id t); EMeta m]) in
    if busy s || locked s then Ok s
    else let* s := try_replace s in
         Ok (if st_due St (cur s)
             then mkLsm (mem s) (usage s) (time s) (cur s) (nxt s) (TRun (cur s)) true (iters s) (fresh s) (log s)
             else s).

  (** *** The compaction thread: leveled.rs:294-309 and 428-435, size_tiered.rs:297-317.  What it writes gets new
      names; a table with such a name that it reads is one that it has written. *)
  Definition work (s : lsm) (m : meta) (after : thread meta) : res lsm :=
    match st_compact St (fun id => has s id || (fresh s <=? id)) (fresh s) m with
    | Ok (m', fr) =>
        Ok (mkLsm (mem s) (usage s) (time s) (cur s) (Some m') after (joinable s) (iters s) fr
                  (log s ++ map ETable (seq (fresh s) (fr - fresh s))))
    | Panic => Ok (mkLsm (mem s) (usage s) (time s) (cur s) (nxt s) TIdle (joinable s) (iters s) (fresh s) (log s))
    | Timeout => Timeout
    end.
  Definition set_thr (s : lsm) (t : thread meta) : lsm :=
    mkLsm (mem s) (usage s) (time s) (cur s) (nxt s) t (joinable s) (iters s) (fresh s) (log s).
  Definition unjoin (s : lsm) : lsm :=
    mkLsm (mem s) (usage s) (time s) (cur s) (nxt s) (thr s) false (iters s) (fresh s) (log s).
  (** [join]: wait for the thread *)
  Definition join (s : lsm) : res lsm :=
    if joinable s
    then let* s := match thr s with
                   | TRun m => work s m TIdle
                   | TPub => Ok (set_thr s TIdle)
                   | _ => Ok s
                   end in Ok (unjoin s)
    else Ok s.
  (** leveled.rs:512-526, size_tiered.rs:436-450; map.rs:476-481 *)
  Definition flush (s : lsm) : res lsm :=
    let* s := match mem s with [] => Ok s | _ => try_compact s end in
    if joinable s then let* s := join s in try_replace s else Ok s.

  (** map.rs:129-150 and 178-199 *)
  Definition write (s : lsm) (k : K) (d : option V) : res lsm :=
    let v := mkSval d (time s) in
    let size := (ksize k + vsize v)%N in
    let* u := match find_version (mem s) k with
              | Some old => let size := (ksize k + vsize old)%N in if (size <=? usage s)%N then Ok (usage s - size)%N else Panic
              | None => Ok (usage s)
              end in
    let s := mkLsm (bt_insert k v (mem s)) (u + size) (time s + 1) (cur s) (nxt s) (thr s) (joinable s) (iters s) (fresh s)
                   (log s ++ [ETime (time s + 1)]) in
    if (st_max_mem St <? usage s)%N then try_compact s else Ok s.

  (** map.rs:254-266, leveled.rs:528-564, size_tiered.rs:452-472 *)
  Definition get (s : lsm) (k : K) : res (lsm * option V) :=
    match find_version (mem s) k with
    | Some v => Ok (s, sv_data v)
    | None => let* s := try_replace s in
              let* o := st_get St (has s) (cur s) k in
              Ok (s, match o with Some v => sv_data v | None => None end)
    end.

  (** leveled.rs:566-591, size_tiered.rs:474-488; map.rs:293-295 *)
  Fixpoint sum_hints (ts : list (table K V)) : res nat :=
    match ts with
    | [] => Ok 0
    | t :: r => let* a := checked_sub (t_count t) (t_tombs t) in let* b := sum_hints r in Ok (a + b)
    end.
  Definition len_hint (s : lsm) : res (lsm * nat) :=
    let* s := try_replace s in
    let* n := sum_hints (st_tables St (cur s)) in
    Ok (s, length (mem s) + n).

  (** leveled.rs:642-681, size_tiered.rs:538-563 *)
  Definition disk_iter (s : lsm) : res (lsm * miter K V) :=
    let* s := try_replace s in
    let* it := mi_new (has s) (map (map Closed) (st_runs St (cur s))) in
    Ok (s, it).
  (** map.rs:511-514, run to the end *)
  Definition all (s : lsm) : res (lsm * list (K * V)) :=
    let* s := flush s in
    let* (s, it) := disk_iter s in
    let* l := live_collect (has s) it in
    Ok (s, l).

  (** map.rs:376-379, leveled.rs:601-626, size_tiered.rs:498-522 *)
  Definition clear (s : lsm) : res lsm :=
    let* s := join s in
    let d := disk_of (log s) in
    let* es := remove_dirs d (nodup Nat.eq_dec (d_dirs d)) in
    Ok (mkLsm [] (usage s) (time s) (st_new St) None (thr s) (joinable s) (iters s) (fresh s) (log s ++ es ++ [EMeta (st_new St)])).

  (** map.rs:403-418 and 442-451, leveled.rs:628-640, size_tiered.rs:524-536 *)
  Definition live_key (e : entry) : option K := match sv_data (snd e) with Some _ => Some (fst e) | None => None end.
  Fixpoint first_live (l : list entry) : option K :=
    match l with
    | [] => None
    | e :: r => match live_key e with Some k => Some k | None => first_live r end
    end.
  Definition min (s : lsm) : res (lsm * option K) :=
    let a := first_live (mem s) in
    let* (s, it) := disk_iter s in
    let* (b, _) := live_next (has s) it in
    let b := option_map fst b in
    Ok (s, match a, b with Some x, Some y => Some (kmin x y) | None, _ => b | _, None => a end).
  Definition max (s : lsm) : res (lsm * option K) :=
    let a := first_live (rev (mem s)) in
    let* (s, it) := disk_iter s in
    let* l := live_collect (has s) it in
    let b := option_map fst (last_error l) in
    Ok (s, match a, b with Some x, Some y => Some (kmax x y) | None, _ => b | _, None => a end).

  Definition set_iters (s : lsm) (l : list (option (miter K V))) : lsm :=
    mkLsm (mem s) (usage s) (time s) (cur s) (nxt s) (thr s) (joinable s) l (fresh s) (log s).

  Definition lsm_step (s : lsm) (o : lsm_op K V) : res (lsm * lsm_out K V) :=
    match o with
    | LInsert k v => let* s := write s k (Some v) in Ok (s, OUnit)
    | LRemove k => let* s := write s k None in Ok (s, OUnit)
    | LGet k => let* (s, v) := get s k in Ok (s, OVal v)
    | LContains k => let* (s, v) := get s k in Ok (s, OBool (match v with Some _ => true | None => false end))
    | LLen => let* (s, l) := all s in Ok (s, OLen (length l))
    | LIsEmpty => let* (s, l) := all s in Ok (s, OBool (length l =? 0))
    | LLenHint => let* (s, n) := len_hint s in Ok (s, OHint n)
    | LClear => let* s := clear s in Ok (s, OUnit)
    | LMin => let* (s, k) := min s in Ok (s, OKey k)
    | LMax => let* (s, k) := max s in Ok (s, OKey k)
    | LFlush => let* s := flush s in Ok (s, OUnit)
    | LIter => let* (s, l) := all s in Ok (s, OList l)
    | LIterOpen =>
        let* s := flush s in
        let* (s, it) := disk_iter s in
        Ok (set_iters s (iters s ++ [Some it]), OUnit)
    | LIterNext i =>
        match nth_error (iters s) i with
        | Some (Some it) =>
            let* (e, it) := live_next (has s) it in
            Ok (set_iters s (list_set (iters s) i (Some it)), ONext e)
        | _ => Ok (s, ONext None)       (* no such iterator: no call *)
        end
    | LIterDrop i => Ok (set_iters s (list_set (iters s) i None), OUnit)
    | LReopen => let* s := lsm_open (log s) (fresh s) in Ok (s, OUnit)
    | BgPublish => match thr s with TRun m => let* s := work s m TPub in Ok (s, OUnit) | _ => Ok (s, OUnit) end
    | BgDone => match thr s with TPub => Ok (set_thr s TIdle, OUnit) | _ => Ok (s, OUnit) end
    | BgFail => match thr s with TRun _ => Ok (set_thr s TIdle, OUnit) | _ => Ok (s, OUnit) end
    | BgDie => match thr s with TRun _ => Ok (set_thr s TDead, OUnit) | _ => Ok (s, OUnit) end
    end.
End Map.
Arguments lsm_new {K V}.
