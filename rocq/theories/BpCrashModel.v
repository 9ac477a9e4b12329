(** The states of the file of a [BpMap] during a call: [/repo/src/bp_tree/pager.rs], where every [set_len] of the
    file and every [write_all] changes the file once.  The programs are those of BpMapModel.v.

    Simplifications: a single [write_all] is atomic, changes reach the disk in program order. *)
From Verif Require Export BpMapModel.

Section BpCrash.
  Context {K V : Type} `{Cmp K}.
  Notation node := (node K V).
  Notation store := (store K V).

  (** pager.rs:215-258: the file after each of its changes. *)
  Definition alloc_states (s : store) (n : node) : list store :=
    let mt := st_mem s in
    match alloc_node s n with
    | Ok (s', _) =>
        match md_free mt with
        | None =>
            let old := resize_pages (st_pages s) (md_pages mt) in
            [mkStore (old ++ [zero_page]) (st_disk s) mt;        (* 223 *)
             mkStore (old ++ [n]) (st_disk s) mt;                (* 226 *)
             s']                                                 (* 230 *)
        | Some f => [mkStore (list_set (st_pages s) f n) (st_disk s) mt; s']   (* 243, 251 *)
        end
    | _ => []
    end.
  (** pager.rs:260-277 *)
  Definition free_states (s : store) (p : nat) : list store :=
    match free_node s p with
    | Ok s' => [mkStore (st_pages s') (st_disk s) (st_mem s); s']
    | _ => []
    end.
  (** pager.rs:292-316 *)
  Definition clear_states (m : nat) (s : store) : list store :=
    let page := firstn 1 (st_pages s) in
    let mt := mkMeta 1 0 0 None in
    [mkStore page (st_disk s) mt; mkStore page mt mt; clear_store m s].

  (** The file after each change made by a program. *)
  Fixpoint file_states {A} (s : store) (c : io K V A) : list store :=
    match c with
    | Ret _ | Fail | Spin => []
    | GetPage p k => match get_page s p with Ok n => file_states s (k n) | _ => [] end
    | WriteNode p n k => match write_node s p n with Ok s => s :: file_states s k | _ => [] end
    | AllocNode n k => match alloc_node s n with Ok (s', p) => alloc_states s n ++ file_states s' (k p) | _ => [] end
    | FreeNode p k => match free_node s p with Ok s' => free_states s p ++ file_states s' k | _ => [] end
    | GetRoot k => file_states s (k (md_root (st_mem s)))
    | SetRoot p k => set_root s p :: file_states (set_root s p) k
    | GetLen k => file_states s (k (md_len (st_mem s)))
    | SetLen n k => set_len s n :: file_states (set_len s n) k
    | PageCount k => file_states s (k (md_pages (st_mem s)))
    end.

  Variables (ksize : K -> N) (vsize : V -> N).
  (** The states of the file during one call, after each change.  A process that dies during the call leaves one
      of them, or the one before the call. *)
  Definition call_states (c : config) (s : store) (o : bp_op K V) : list store :=
    let m := leaf_degree c in let d := internal_degree c in
    match o with
    | BInsert k v => if valid ksize vsize c k v then file_states s (insert_prog d (k, v)) else []
    | BRemove k => file_states s (remove_prog m d k)
    | BGet k | BContains k => file_states s (get_prog k)
    | BClear => clear_states m s
    | BMin => file_states s min_prog
    | BMax => file_states s max_prog
    | BIter => file_states s iter_prog
    | BLen | BIsEmpty | BReopen => []
    end.
End BpCrash.
