(** Model of [LsmMap] when an operation on files fails and the caller goes on with the map after the [Err]:
    [/repo/src/lsm_tree/map.rs], [/repo/src/lsm_tree/compaction/leveled.rs], [size_tiered.rs].

    The functions are those of LsmMapModel.v; they also say in which state the map is when a [?] returns early.  In a call
    one operation may fail: [n] says how many succeed before it ([None]: none fails), [took] whether the operation had its
    effect on the disk all the same.  One operation each: writing logical_time.dat; making the directory and the files of a
    new table (sstable.rs:101-113); writing them and reading them back; writing metadata.dat; listing the directory;
    removing a table; the reads of one lookup; those of one [min] after the first entry of each run; the reads of the first
    entries when an iterator is made.
    Simplifications: a scan that has begun reads without failures here (LsmScanModel.v has them fail); so do the iterators kept; opening does not fail;
    the files of the thread fail as in LsmMapModel.v ([BgFail]). *)
From Verif Require Export LsmMapModel.

(** How many operations of the call succeed, and whether the one that fails has its effect *)
Definition fault : Type := option (nat * bool).

Section Io.
  Context {K V : Type} `{Cmp K} {Z : Sizes K V} (St : strategy K V) (took : bool).
  Notation meta := (st_meta St).
  Notation lsm := (lsm K V meta).
  Notation effect := (effect meta).
  Notation out := (lsm_out K V).

  (** The call goes on, or it returns [Err] and leaves the map as given. *)
  Inductive io (A : Type) : Type := Went (n : option nat) (a : A) | Failed (s : lsm).
  Arguments Went {A}. Arguments Failed {A}.
  Definition attempt {A} (n : option nat) (failed : lsm) (go : option nat -> res (io A)) : res (io A) :=
    match n with
    | None => go None
    | Some 0 => Ok (Failed failed)
    | Some (S n) => go (Some n)
    end.
  Definition and_then {A B} (x : res (io A)) (f : option nat -> A -> res (io B)) : res (io B) :=
    let* y := x in match y with Went n a => f n a | Failed s => Ok (Failed s) end.
  Definition maybe (e : effect) : list effect := if took then [e] else [].

  (** The loop over the directories to be removed: leveled.rs:282-286, size_tiered.rs:373-377; what was removed, and how many
      operations are left, or [None] if one failed *)
  Fixpoint remove_io (n : option nat) (d : disk meta) (ids : list nat) : res (list effect * option (option nat)) :=
    match ids with
    | [] => Ok ([], Some n)
    | id :: r =>
        if has_dir d id
        then match n with
             | Some 0 => Ok (maybe (ERemove id), None)
             | _ => let* (es, x) := remove_io (option_map pred n) (apply d (ERemove id)) r in Ok (ERemove id :: es, x)
             end
        else Panic
    end.

  (** try_replace_metadata and the writing of the metadata behind it: leveled.rs:243-292, size_tiered.rs:350-382.  The
      metadata in memory is replaced first. *)
  Definition replace_io (n : option nat) (s : lsm) : res (io lsm) :=
    match nxt s with
    | None => Ok (Went n s)
    | Some m =>
        let r := st_replace St (cur s) m in
        let kept := map t_id (st_tables St r) in
        let gone := filter (fun id => negb (existsb (Nat.eqb id) kept)) (map t_id (st_tables St (cur s))) in
        let after es := mkLsm (mem s) (usage s) (time s) r None (thr s) (joinable s) (iters s) (fresh s) (log s ++ es) in
        let* (es, x) := remove_io n (disk_of (log s)) gone in
        match x with
        | None => Ok (Failed (after es))
        | Some n => attempt n (after (es ++ maybe (EMeta r))) (fun n => Ok (Went n (after (es ++ [EMeta r]))))
        end
    end.

  (** try_compact: map.rs:90-101.  [in_memory_usage] is 0 before the first operation, the tree is given up before the second;
      leveled.rs:483-510, size_tiered.rs:407-434: the table is in the metadata before that is written. *)
  Definition compact_io (n : option nat) (s : lsm) : res (io lsm) :=
    attempt n (mkLsm (mem s) 0 (time s) (cur s) (nxt s) (thr s) (joinable s) (iters s) (S (fresh s)) (log s ++ maybe (ETable (fresh s)))) (fun n =>
    attempt n (mkLsm [] 0 (time s) (cur s) (nxt s) (thr s) (joinable s) (iters s) (S (fresh s)) (log s ++ [ETable (fresh s)])) (fun n =>
    let* t := tb_build (fresh s) (length (mem s)) (mem s) in
    let m := st_push St (cur s) t in
    let after es := mkLsm [] 0 (time s) m (nxt s) (thr s) (joinable s) (iters s) (S (fresh s)) (log s ++ ETable (t_id t) :: es) in
    attempt n (after (maybe (EMeta m))) (fun n =>
    let s := after [EMeta m] in
    if busy St s || locked St s then Ok (Went n s)
    else and_then (replace_io n s) (fun n s =>
         Ok (Went n (if st_due St (cur s)
                     then mkLsm (mem s) (usage s) (time s) (cur s) (nxt s) (TRun (cur s)) true (iters s) (fresh s) (log s)
                     else s)))))).

  (** leveled.rs:512-526, size_tiered.rs:436-450; map.rs:476-481 *)
  Definition flush_io (n : option nat) (s : lsm) : res (io lsm) :=
    and_then (match mem s with [] => Ok (Went n s) | _ => compact_io n s end) (fun n s =>
    if joinable s then let* s := join St s in replace_io n s else Ok (Went n s)).

  (** map.rs:129-150 and 178-199; the logical time is raised before it is written, leveled.rs:474-481, size_tiered.rs:398-405 *)
  Definition write_io (n : option nat) (s : lsm) (k : K) (d : option V) : res (io lsm) :=
    let t := (time s + 1)%N in
    attempt n (mkLsm (mem s) (usage s) t (cur s) (nxt s) (thr s) (joinable s) (iters s) (fresh s) (log s ++ maybe (ETime t))) (fun n =>
    let v := mkSval d (time s) in
    let size := (ksize k + vsize v)%N in
    let* u := match find_version (mem s) k with
              | Some old => let size := (ksize k + vsize old)%N in if (size <=? usage s)%N then Ok (usage s - size)%N else Panic
              | None => Ok (usage s)
              end in
    let s := mkLsm (bt_insert k v (mem s)) (u + size) t (cur s) (nxt s) (thr s) (joinable s) (iters s) (fresh s) (log s ++ [ETime t]) in
    if (st_max_mem St <? usage s)%N then compact_io n s else Ok (Went n s)).

  (** map.rs:254-266, leveled.rs:528-564, size_tiered.rs:452-472 *)
  Definition get_io (n : option nat) (s : lsm) (k : K) : res (io (lsm * option V)) :=
    match find_version (mem s) k with
    | Some v => Ok (Went n (s, sv_data v))
    | None => and_then (replace_io n s) (fun n s => attempt n s (fun n =>
              let* o := st_get St (has St s) (cur s) k in
              Ok (Went n (s, match o with Some v => sv_data v | None => None end))))
    end.
  (** leveled.rs:566-591, size_tiered.rs:474-488; map.rs:293-295 *)
  Definition hint_io (n : option nat) (s : lsm) : res (io (lsm * nat)) :=
    and_then (replace_io n s) (fun n s => let* c := sum_hints (st_tables St (cur s)) in Ok (Went n (s, length (mem s) + c))).

  (** leveled.rs:642-681 and 721-761, size_tiered.rs:538-563 and 580-603.  The count of iterators is raised before the first
      read and lowered by the destructor of an iterator: if a read fails, there is none.  It counts as an iterator that is kept. *)
  Definition iter_io (n : option nat) (s : lsm) : res (io (lsm * miter K V)) :=
    and_then (replace_io n s) (fun n s =>
    attempt n (set_iters St s (iters s ++ [Some (mkIter [] [] None)])) (fun n =>
    let* it := mi_new (has St s) (map (map Closed) (st_runs St (cur s))) in
    Ok (Went n (s, it)))).
  (** map.rs:511-514 *)
  Definition all_io (n : option nat) (s : lsm) : res (io (lsm * list (K * V))) :=
    and_then (flush_io n s) (fun n s => and_then (iter_io n s) (fun n x =>
    let (s, it) := x in let* l := live_collect (has St s) it in Ok (Went n (s, l)))).

  (** map.rs:376-379, leveled.rs:601-626, size_tiered.rs:498-522: the map is empty in memory before the first operation *)
  Definition clear_io (n : option nat) (s : lsm) : res (io lsm) :=
    let* s := join St s in
    let d := disk_of (log s) in
    let after es := mkLsm [] (usage s) (time s) (st_new St) None (thr s) (joinable s) (iters s) (fresh s) (log s ++ es) in
    attempt n (after []) (fun n =>
    let* (es, x) := remove_io n d (nodup Nat.eq_dec (d_dirs d)) in
    match x with
    | None => Ok (Failed (after es))
    | Some n => attempt n (after (es ++ maybe (EMeta (st_new St)))) (fun n => Ok (Went n (after (es ++ [EMeta (st_new St)]))))
    end).

  (** map.rs:403-418 and 442-451, leveled.rs:628-640, size_tiered.rs:524-536 *)
  Definition min_io (n : option nat) (s : lsm) : res (io (lsm * option K)) :=
    let a := first_live (mem s) in
    and_then (iter_io n s) (fun n x =>
    let (s, it) := x in
    attempt n s (fun n =>
    let* (b, _) := live_next (has St s) it in
    let b := option_map fst b in
    Ok (Went n (s, match a, b with Some x, Some y => Some (kmin x y) | None, _ => b | _, None => a end)))).
  Definition max_io (n : option nat) (s : lsm) : res (io (lsm * option K)) :=
    let a := first_live (rev (mem s)) in
    and_then (iter_io n s) (fun n x =>
    let (s, it) := x in
    let* l := live_collect (has St s) it in
    let b := option_map fst (last_error l) in
    Ok (Went n (s, match a, b with Some x, Some y => Some (kmax x y) | None, _ => b | _, None => a end))).

  (** The state after the call, and its result; [None]: it returned [Err]. *)
  Definition finish {A} (x : res (io A)) (f : A -> lsm * out) : res (lsm * option out) :=
    let* y := x in match y with Went _ a => let (s, r) := f a in Ok (s, Some r) | Failed s => Ok (s, None) end.
  Definition call_io (n : option nat) (s : lsm) (o : lsm_op K V) : res (lsm * option out) :=
    match o with
    | LInsert k v => finish (write_io n s k (Some v)) (fun s => (s, OUnit))
    | LRemove k => finish (write_io n s k None) (fun s => (s, OUnit))
    | LGet k => finish (get_io n s k) (fun '(s, v) => (s, OVal v))
    | LContains k => finish (get_io n s k) (fun '(s, v) => (s, OBool (match v with Some _ => true | None => false end)))
    | LLen => finish (all_io n s) (fun '(s, l) => (s, OLen (length l)))
    | LIsEmpty => finish (all_io n s) (fun '(s, l) => (s, OBool (length l =? 0)))
    | LLenHint => finish (hint_io n s) (fun '(s, c) => (s, OHint c))
    | LClear => finish (clear_io n s) (fun s => (s, OUnit))
    | LMin => finish (min_io n s) (fun '(s, k) => (s, OKey k))
    | LMax => finish (max_io n s) (fun '(s, k) => (s, OKey k))
    | LFlush => finish (flush_io n s) (fun s => (s, OUnit))
    | LIter => finish (all_io n s) (fun '(s, l) => (s, OList l))
    | LIterOpen => finish (and_then (flush_io n s) iter_io) (fun '(s, it) => (set_iters St s (iters s ++ [Some it]), OUnit))
    | _ => let* (s, r) := lsm_step St s o in Ok (s, Some r)
    end.
End Io.
Arguments Went {K V St A}. Arguments Failed {K V St A}.

(** A call and what fails in it *)
Definition io_step {K V : Type} `{Cmp K} {Z : Sizes K V} (St : strategy K V) (s : lsm K V (st_meta St)) (c : lsm_op K V * fault) :
    res (lsm K V (st_meta St) * option (lsm_out K V)) :=
  let (o, f) := c in
  match f with
  | None => call_io St false None s o
  | Some (n, took) => call_io St took (Some n) s o
  end.
