(** Model of tables and merging iterators of the log-structured merge tree at the level of entries:
    [/repo/src/lsm_tree/sstable.rs], and the iterators of
    [/repo/src/lsm_tree/compaction/leveled.rs:684-810], [size_tiered.rs:566-645].

    The bytes of a table are the subject of SsModel.v; the files of a table never change once it is flushed,
    so a handle carries the entries, and the directory on disk only decides whether they can be read.
    Simplifications: an [Err] of the operating system is [Panic]; the Bloom filter is left out (SsProofs.v);
    32 random characters as directory name are a fresh number. *)
From Verif Require Export LsmBase.

(** [serialized_size] of a key and of a value *)
Class Sizes (K V : Type) := { ksize : K -> N; vsize : sval V -> N }.

Section Table.
  Context {K V : Type} `{Cmp K} {Z : Sizes K V}.
  Notation sval := (sval V).
  Notation entry := (K * sval)%type.

  (** *** Tables: sstable.rs:65-73 and 235-240 *)
  Record table : Type := mkTab {
    t_id : nat; t_es : list entry; t_count : nat; t_tombs : nat; t_size : N; t_range : K * K; t_times : N * N }.

  (** *** The builder: sstable.rs:75-232, without the files *)
  Record tbuilder : Type := mkTb {
    tb_id : nat; tb_es : list entry; tb_count : nat; tb_tombs : nat; tb_size : N;
    tb_range : option (K * K); tb_times : option (N * N);
    tb_index : nat; tb_bsize : nat; tb_bytes : N (* serialized size of the current index block *) }.
  Definition tb_new (id hint : nat) : tbuilder := mkTb id [] 0 0 0 None None 0 (Nat.sqrt_up hint) 8.
  (** sstable.rs:137-186 *)
  Definition tb_append (b : tbuilder) (e : entry) : tbuilder :=
    let (k, v) := e in
    let count := tb_count b + 1 in
    let tombs := match sv_data v with None => tb_tombs b + 1 | Some _ => tb_tombs b end in
    let size := (tb_size b + 8 + ksize k + vsize v)%N in
    let range := Some (match tb_range b with Some (s, _) => (s, k) | None => (k, k) end) in
    let times := Some (match tb_times b with
                       | Some (lo, hi) => (N.min lo (sv_time v), N.max hi (sv_time v))
                       | None => (sv_time v, sv_time v)
                       end) in
    let bytes := (tb_bytes b + ksize k + 8)%N in
    if tb_index b + 1 =? tb_bsize b
    then mkTb (tb_id b) (tb_es b ++ [e]) count tombs (size + 8 + bytes) range times 0 (tb_bsize b) 8
    else mkTb (tb_id b) (tb_es b ++ [e]) count tombs size range times (tb_index b + 1) (tb_bsize b) bytes.
  (** sstable.rs:188-232 and 243-260 *)
  Definition tb_flush (b : tbuilder) : res table :=
    let* range := expect (tb_range b) in
    let* times := expect (tb_times b) in
    Ok (mkTab (tb_id b) (tb_es b) (tb_count b) (tb_tombs b) (tb_size b) range times).
  Definition tb_build (id hint : nat) (es : list entry) : res table := tb_flush (fold_left tb_append es (tb_new id hint)).

  (** Which directories are on disk *)
  Variable has : nat -> bool.
  (** Opening the data file of a table *)
  Definition read (t : table) : res (list entry) := if has (t_id t) then Ok (t_es t) else Panic.
  Fixpoint find_version (es : list entry) (k : K) : option sval :=
    match es with
    | [] => None
    | (k', v) :: r => if is_eq (cmp k' k) then Some v else find_version r k
    end.
  (** sstable.rs:285-326 *)
  Definition tab_get (t : table) (k : K) : res (option sval) :=
    if is_lt (cmp k (fst (t_range t))) || is_gt (cmp k (snd (t_range t))) then Ok None
    else let* es := read t in Ok (find_version es k).

  (** *** Data iterators: sstable.rs:337-376.  The file is opened at the first call of [next]; an open file
      can be read even after its directory was removed. *)
  Inductive diter : Type := Closed (t : table) | Opened (rest : list entry).
  Definition d_next (d : diter) : res (option (entry * diter)) :=
    let* rest := match d with Closed t => read t | Opened rest => Ok rest end in
    Ok (match rest with [] => None | e :: r => Some (e, Opened r) end).

  (** A queue of data iterators: leveled.rs:705-719.  One data iterator that is not taken out when it ends
      (leveled.rs:775-780, size_tiered.rs:614-617) is a queue of one. *)
  Fixpoint r_next (r : list diter) : res (option (entry * list diter)) :=
    match r with
    | [] => Ok None
    | d :: r' =>
        let* x := d_next d in
        match x with
        | Some (e, d') => Ok (Some (e, d' :: r'))
        | None => r_next r'
        end
    end.

  (** *** Merging iterators: leveled.rs:684-801 and size_tiered.rs:566-636.  The index of a run is its
      position; the derived order of [LeveledIterEntryIndex] puts tables before levels.
      [BinaryHeap] is a bag with a least element (under [Reverse]). *)
  Definition hentry : Type := (entry * nat)%type.
  Definition h_cmp (a b : hentry) : comparison :=
    match cmp (fst (fst a)) (fst (fst b)) with
    | Eq => match sv_cmp (snd (fst a)) (snd (fst b)) with
            | Eq => Nat.compare (snd a) (snd b)
            | c => c
            end
    | c => c
    end.
  Fixpoint h_pop (h : list hentry) : option (hentry * list hentry) :=
    match h with
    | [] => None
    | x :: r =>
        match h_pop r with
        | None => Some (x, [])
        | Some (m, r') => if is_lt (h_cmp m x) then Some (m, x :: r') else Some (x, r)
        end
    end.

  Record miter : Type := mkIter { mi_runs : list (list diter); mi_heap : list hentry; mi_last : option K }.

  (** leveled.rs:721-761, size_tiered.rs:580-603 *)
  Fixpoint mi_fill (i : nat) (runs : list (list diter)) : res (list (list diter) * list hentry) :=
    match runs with
    | [] => Ok ([], [])
    | r :: rs =>
        let* x := r_next r in
        let* (rs', h) := mi_fill (S i) rs in
        Ok (match x with
            | Some (e, r') => (r' :: rs', (e, i) :: h)
            | None => ([] :: rs', h)
            end)
    end.
  Definition mi_new (runs : list (list diter)) : res miter :=
    let* (rs, h) := mi_fill 0 runs in Ok (mkIter rs h None).

  (** leveled.rs:771-801, size_tiered.rs:613-636 *)
  Fixpoint mi_loop (fuel : nat) (it : miter) : res (option entry * miter) :=
    match fuel with
    | 0 => Timeout
    | S fuel =>
        match h_pop (mi_heap it) with
        | None => Ok (None, it)
        | Some ((e, i), h) =>
            let* r := expect (nth_error (mi_runs it) i) in
            let* x := r_next r in
            let (runs, h) := match x with
                             | Some (e', r') => (list_set (mi_runs it) i r', (e', i) :: h)
                             | None => (list_set (mi_runs it) i [], h)
                             end in
            let fresh := match mi_last it with Some l => negb (is_eq (cmp l (fst e))) | None => true end in
            let it := mkIter runs h (Some (fst e)) in
            if fresh then Ok (Some e, it) else mi_loop fuel it
        end
    end.
  (** Number of entries still to come *)
  Definition d_left (d : diter) : nat := match d with Closed t => length (t_es t) | Opened l => length l end.
  Definition mi_left (it : miter) : nat :=
    length (mi_heap it) + list_sum (map (fun r => list_sum (map d_left r)) (mi_runs it)).
  Definition mi_next (it : miter) : res (option entry * miter) := mi_loop (S (mi_left it)) it.

  (** Run an iterator to the end. *)
  Fixpoint mi_all (fuel : nat) (it : miter) : res (list entry) :=
    match fuel with
    | 0 => Timeout
    | S fuel =>
        let* (o, it) := mi_next it in
        match o with
        | None => Ok []
        | Some e => let* l := mi_all fuel it in Ok (e :: l)
        end
    end.
  Definition mi_collect (it : miter) : res (list entry) := mi_all (S (mi_left it)) it.
  (** Merge the tables of the given runs. *)
  Definition merge_tables (runs : list (list table)) : res (list entry) :=
    let* it := mi_new (map (map Closed) runs) in mi_collect it.

  (** The iterators given to the user skip tombstones: leveled.rs:672-678, size_tiered.rs:554-560. *)
  Fixpoint live_loop (fuel : nat) (it : miter) : res (option (K * V) * miter) :=
    match fuel with
    | 0 => Timeout
    | S fuel =>
        let* (o, it) := mi_next it in
        match o with
        | None => Ok (None, it)
        | Some (k, v) => match sv_data v with
                         | Some d => Ok (Some (k, d), it)
                         | None => live_loop fuel it
                         end
        end
    end.
  Definition live_next (it : miter) : res (option (K * V) * miter) := live_loop (S (mi_left it)) it.
  Fixpoint live_all (fuel : nat) (it : miter) : res (list (K * V)) :=
    match fuel with
    | 0 => Timeout
    | S fuel =>
        let* (o, it) := live_next it in
        match o with
        | None => Ok []
        | Some e => let* l := live_all fuel it in Ok (e :: l)
        end
    end.
  Definition live_collect (it : miter) : res (list (K * V)) := live_all (S (mi_left it)) it.
End Table.
Arguments table : clear implicits. Arguments tbuilder : clear implicits. Arguments diter : clear implicits.
Arguments miter : clear implicits. Arguments hentry : clear implicits.
