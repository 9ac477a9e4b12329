(** The accesses of a [BpMap] to its file: [/repo/src/bp_tree/pager.rs], one for each [read_exact], [write_all] and
    [set_len] of the file.  Each moves at most one page or the metadata.  The programs are those of BpMapModel.v. *)
From Verif Require Export BpMapModel.

Section BpCost.
  Context {K V : Type} `{Cmp K}.
  Notation store := (store K V).

  (** The accesses of a program that runs on a file.
      get_page 203-213: 1; allocate_node 215-258: [set_len], node, metadata, or free page, node, metadata;
      deallocate_node 260-277: node, metadata; write_node 279-290: 1; set_len 181-188, set_root_page 194-201: metadata;
      get_len and get_root_page read the metadata in memory. *)
  Fixpoint accesses {A} (s : store) (c : io K V A) : nat :=
    match c with
    | Ret _ | Fail | Spin => 0
    | GetPage p k => 1 + match get_page s p with Ok n => accesses s (k n) | _ => 0 end
    | WriteNode p n k => 1 + match write_node s p n with Ok s => accesses s k | _ => 0 end
    | AllocNode n k => 3 + match alloc_node s n with Ok (s, p) => accesses s (k p) | _ => 0 end
    | FreeNode p k => 2 + match free_node s p with Ok s => accesses s k | _ => 0 end
    | GetRoot k => accesses s (k (md_root (st_mem s)))
    | SetRoot p k => 1 + accesses (set_root s p) k
    | GetLen k => accesses s (k (md_len (st_mem s)))
    | SetLen n k => 1 + accesses (set_len s n) k
    | PageCount k => accesses s (k (md_pages (st_mem s)))
    end.

  Variables (ksize : K -> N) (vsize : V -> N).
  (** One API call; clear: pager.rs:292-316, open: pager.rs:126-146 *)
  Definition call_accesses (c : config) (s : store) (o : bp_op K V) : nat :=
    let m := leaf_degree c in let d := internal_degree c in
    match o with
    | BInsert k v => if valid ksize vsize c k v then accesses s (insert_prog d (k, v)) else 0
    | BRemove k => accesses s (remove_prog m d k)
    | BGet k | BContains k => accesses s (get_prog k)
    | BClear => 3
    | BMin => accesses s min_prog
    | BMax => accesses s max_prog
    | BIter => accesses s iter_prog
    | BLen | BIsEmpty => 0
    | BReopen => 1
    end.
End BpCost.
