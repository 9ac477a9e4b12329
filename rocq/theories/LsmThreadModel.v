(** Model of the calls of [LsmMap] as programs that the compaction thread is interleaved with:
    [/repo/src/lsm_tree/map.rs], [/repo/src/lsm_tree/compaction/leveled.rs], [size_tiered.rs].

    A call is a sequence of actions; between any two of them the thread may get on.  The mutex [curr_metadata] is locked
    by calls only, the thread works on a copy.  So an action is what a call does up to and including one access to what
    it shares with the thread: the flag [is_compacting], the mutex [next_metadata] (held to the end of
    [try_replace_metadata]), the start of the thread, the join; reading and writing tables that the thread does not
    write goes with either neighbour.  The thread stores its result, then clears the flag, then ends.
    Simplification: the files of one table, and all that the thread does before it stores its result, are one action
    (new names; and the tables it reads are not removed meanwhile: LsmThreadProofs.v). *)
From Verif Require Export LsmMapModel.

(** What gets on: the caller, or the thread *)
Inductive turn : Type := Main | Publish | Finish | Fail | Die.

Section Thread.
  Context {K V : Type} `{Cmp K} {Z : Sizes K V} (St : strategy K V).
  Notation meta := (st_meta St).
  Notation lsm := (lsm K V meta).
  Notation op := (lsm_op K V).
  Notation out := (lsm_out K V).

  (** Return, do an action and go on as it says, or wait until the thread is ready. *)
  Inductive prog : Type :=
  | Ret (r : out)
  | Do (f : lsm -> res (lsm * prog))
  | Wait (ready : lsm -> bool) (p : prog).

  (** leveled.rs:243-292 with the writing of the metadata behind it *)
  Definition replace (p : prog) : prog := Do (fun s => let* s := try_replace St s in Ok (s, p)).

  (** try_compact: map.rs:90-101, leveled.rs:483-510, size_tiered.rs:407-434 *)
  Definition push (s : lsm) : res lsm :=
    let* t := tb_build (fresh s) (length (mem s)) (mem s) in
    let m := st_push St (cur s) t in
    Ok (mkLsm [] 0 (time s) m (nxt s) (thr s) (joinable s) (iters s) (S (fresh s)) (log s ++ [ETable (t_id t); EMeta m])).
  Definition spawn (s : lsm) : lsm :=
    if st_due St (cur s)
    then mkLsm (mem s) (usage s) (time s) (cur s) (nxt s) (TRun (cur s)) true (iters s) (fresh s) (log s)
    else s.
  Definition compact_prog (p : prog) : prog :=
    Do (fun s => let* s := push s in Ok (s,
    Do (fun s => Ok (s, if busy St s || locked St s then p else
    replace (
    Do (fun s => Ok (spawn s, p))))))).

  (** leveled.rs:512-526, size_tiered.rs:436-450; map.rs:476-481 *)
  Definition finished (s : lsm) : bool := match thr s with TRun _ | TPub => false | TIdle | TDead => true end.
  Definition join_prog (yes no : prog) : prog :=
    Do (fun s => Ok (s, if joinable s then Wait finished (Do (fun s => Ok (unjoin St s, yes))) else no)).
  Definition flush_prog (p : prog) : prog :=
    Do (fun s => Ok (s, let q := join_prog (replace p) p in match mem s with [] => q | _ => compact_prog q end)).

  (** map.rs:129-150 and 178-199 *)
  Definition write_prog (k : K) (d : option V) : prog :=
    Do (fun s =>
      let v := mkSval d (time s) in
      let size := (ksize k + vsize v)%N in
      let* u := match find_version (mem s) k with
                | Some old => let size := (ksize k + vsize old)%N in if (size <=? usage s)%N then Ok (usage s - size)%N else Panic
                | None => Ok (usage s)
                end in
      let s := mkLsm (bt_insert k v (mem s)) (u + size) (time s + 1) (cur s) (nxt s) (thr s) (joinable s) (iters s) (fresh s)
                     (log s ++ [ETime (time s + 1)]) in
      Ok (s, if (st_max_mem St <? usage s)%N then compact_prog (Ret OUnit) else Ret OUnit)).

  (** map.rs:254-266, leveled.rs:528-564, size_tiered.rs:452-472 *)
  Definition get_prog (k : K) (f : option V -> out) : prog :=
    Do (fun s => match find_version (mem s) k with
                 | Some v => Ok (s, Ret (f (sv_data v)))
                 | None => Ok (s, replace (
                     Do (fun s => let* o := st_get St (has St s) (cur s) k in
                                  Ok (s, Ret (f (match o with Some v => sv_data v | None => None end))))))
                 end).
  (** leveled.rs:566-591, size_tiered.rs:474-488; map.rs:293-295 *)
  Definition hint_prog : prog :=
    replace (Do (fun s => let* n := sum_hints (st_tables St (cur s)) in Ok (s, Ret (OHint (length (mem s) + n))))).
  (** leveled.rs:642-681, size_tiered.rs:538-563 *)
  Definition iter_prog (f : miter K V -> prog) : prog :=
    replace (Do (fun s => let* it := mi_new (has St s) (map (map Closed) (st_runs St (cur s))) in Ok (s, f it))).
  Definition collect (f : lsm -> list (K * V) -> out) (it : miter K V) : prog :=
    Do (fun s => let* l := live_collect (has St s) it in Ok (s, Ret (f s l))).
  Definition all_prog (f : list (K * V) -> out) : prog := flush_prog (iter_prog (collect (fun _ => f))).
  (** map.rs:403-418 and 442-451, leveled.rs:628-640, size_tiered.rs:524-536 *)
  Definition min_prog : prog :=
    iter_prog (fun it => Do (fun s =>
      let* (o, _) := live_next (has St s) it in
      let a := first_live (mem s) in
      let b := option_map fst o in
      Ok (s, Ret (OKey (match a, b with Some x, Some y => Some (kmin x y) | None, _ => b | _, None => a end))))).
  Definition max_prog : prog :=
    iter_prog (collect (fun s l =>
      let a := first_live (rev (mem s)) in
      let b := option_map fst (last_error l) in
      OKey (match a, b with Some x, Some y => Some (kmax x y) | None, _ => b | _, None => a end))).
  (** map.rs:376-379, leveled.rs:601-626, size_tiered.rs:498-522 *)
  Definition wipe (s : lsm) : res lsm :=
    let d := disk_of (log s) in
    let* es := remove_dirs d (nodup Nat.eq_dec (d_dirs d)) in
    Ok (mkLsm [] (usage s) (time s) (st_new St) None (thr s) (joinable s) (iters s) (fresh s) (log s ++ es ++ [EMeta (st_new St)])).
  Definition clear_prog : prog :=
    let q := Do (fun s => let* s := wipe s in Ok (s, Ret OUnit)) in join_prog q q.

  Definition prog_of (o : op) : prog :=
    match o with
    | LInsert k v => write_prog k (Some v)
    | LRemove k => write_prog k None
    | LGet k => get_prog k OVal
    | LContains k => get_prog k (fun v => OBool (match v with Some _ => true | None => false end))
    | LLen => all_prog (fun l => OLen (length l))
    | LIsEmpty => all_prog (fun l => OBool (length l =? 0))
    | LLenHint => hint_prog
    | LClear => clear_prog
    | LMin => min_prog
    | LMax => max_prog
    | LFlush => flush_prog (Ret OUnit)
    | LIter => all_prog OList
    | LIterOpen => flush_prog (iter_prog (fun it => Do (fun s => Ok (set_iters St s (iters s ++ [Some it]), Ret OUnit))))
    | LIterNext _ | LIterDrop _ | LReopen => Do (fun s => let* (s, r) := lsm_step St s o in Ok (s, Ret r))   (* nothing shared *)
    | BgPublish | BgDone | BgFail | BgDie => Ret OUnit   (* not a call *)
    end.

  (** The map, the call that is under way, the calls to come *)
  Record world : Type := mkWorld { w_map : lsm; w_call : option prog; w_todo : list op }.
  Definition thread_turn (t : turn) : op := match t with Publish => BgPublish | Fail => BgFail | Die => BgDie | _ => BgDone end.
  Definition take_turn (w : world) (t : turn) : res (world * list out) :=
    match t with
    | Main =>
        match w_call w with
        | None => Ok (match w_todo w with [] => w | o :: r => mkWorld (w_map w) (Some (prog_of o)) r end, [])
        | Some (Ret r) => Ok (mkWorld (w_map w) None (w_todo w), [r])
        | Some (Do f) => let* (s, p) := f (w_map w) in Ok (mkWorld s (Some p) (w_todo w), [])
        | Some (Wait ready p) => Ok (if ready (w_map w) then mkWorld (w_map w) (Some p) (w_todo w) else w, [])
        end
    | _ => let* (s, _) := lsm_step St (w_map w) (thread_turn t) in Ok (mkWorld s (w_call w) (w_todo w), [])
    end.
  (** The results of the calls that have returned, in order *)
  Fixpoint take_turns (w : world) (ts : list turn) : res (world * list out) :=
    match ts with
    | [] => Ok (w, [])
    | t :: r => let* (w, a) := take_turn w t in let* (w, b) := take_turns w r in Ok (w, a ++ b)
    end.
  Definition start (ops : list op) : world := mkWorld (lsm_new St) None ops.
End Thread.
Arguments prog : clear implicits. Arguments world : clear implicits.
