(** Model of the on-disk B+ tree map: [/repo/src/bp_tree/map.rs] over [/repo/src/bp_tree/pager.rs].

    The map operations are written as programs over the methods of [Pager] (type [io]), so that the
    same program can be run on a file of pages (here) and on a file of bytes (BpByteModel.v).
    Simplifications: errors of the operating system do not occur; a page index outside the file is
    [Panic] (the code returns [Err] from [read_exact], pager.rs:211); the search stack holds internal
    nodes only (the "Expected an internal node." panics of map.rs:243, 305, 385 and 399 for stack
    entries are unreachable by construction of map.rs:160-166); [iter_mut] is run to the end. *)
From Verif Require Export BpNodeModel BpSpec.

Section BpIo.
  Context {K V : Type} `{Cmp K}.
  Notation entry := (K * V)%type.
  Notation leaf := (leaf K V).
  Notation internal := (internal K).
  Notation node := (node K V).

  (** Programs over the methods of [Pager].  [Fail] is a panic, [Spin] exhausted fuel.
      [PageCount] only serves to bound loops. *)
  Inductive io (A : Type) : Type :=
  | Ret (a : A)
  | Fail
  | Spin
  | GetPage (p : nat) (c : node -> io A)
  | WriteNode (p : nat) (n : node) (c : io A)
  | AllocNode (n : node) (c : nat -> io A)
  | FreeNode (p : nat) (c : io A)
  | GetRoot (c : nat -> io A)
  | SetRoot (p : nat) (c : io A)
  | GetLen (c : nat -> io A)
  | SetLen (n : nat) (c : io A)
  | PageCount (c : nat -> io A).
  Arguments Ret {A}. Arguments Fail {A}. Arguments Spin {A}. Arguments GetPage {A}.
  Arguments WriteNode {A}. Arguments AllocNode {A}. Arguments FreeNode {A}. Arguments GetRoot {A}.
  Arguments SetRoot {A}. Arguments GetLen {A}. Arguments SetLen {A}. Arguments PageCount {A}.

  Fixpoint iobind {A B} (m : io A) (f : A -> io B) : io B :=
    match m with
    | Ret a => f a
    | Fail => Fail
    | Spin => Spin
    | GetPage p c => GetPage p (fun n => iobind (c n) f)
    | WriteNode p n c => WriteNode p n (iobind c f)
    | AllocNode n c => AllocNode n (fun p => iobind (c p) f)
    | FreeNode p c => FreeNode p (iobind c f)
    | GetRoot c => GetRoot (fun p => iobind (c p) f)
    | SetRoot p c => SetRoot p (iobind c f)
    | GetLen c => GetLen (fun p => iobind (c p) f)
    | SetLen n c => SetLen n (iobind c f)
    | PageCount c => PageCount (fun p => iobind (c p) f)
    end.
  (** A pure computation as a program. *)
  Definition pure {A} (r : res A) : io A :=
    match r with Ok a => Ret a | Panic => Fail | Timeout => Spin end.
End BpIo.
Arguments io : clear implicits.
Arguments Ret {K V A}. Arguments Fail {K V A}. Arguments Spin {K V A}. Arguments GetPage {K V A}.
Arguments WriteNode {K V A}. Arguments AllocNode {K V A}. Arguments FreeNode {K V A}.
Arguments GetRoot {K V A}. Arguments SetRoot {K V A}. Arguments GetLen {K V A}.
Arguments SetLen {K V A}. Arguments PageCount {K V A}.

Notation "'let!' x ':=' e1 'in' e2" := (iobind e1 (fun x => e2))
  (at level 200, x pattern, e1 at level 100, e2 at level 200, right associativity).
Notation "'let?' x ':=' e1 'in' e2" := (iobind (pure e1) (fun x => e2))
  (at level 200, x pattern, e1 at level 100, e2 at level 200, right associativity).

Section BpPrograms.
  Context {K V : Type} `{Cmp K}.
  Notation entry := (K * V)%type.
  Notation leaf := (leaf K V).
  Notation internal := (internal K).
  Notation node := (node K V).
  Notation io := (io K V).
  (** Degrees of the leaves and of the internal nodes. *)
  Variables m d : nat.

  (** An element of the search history (map.rs:10-11). *)
  Definition frame : Type := (nat * internal * nat)%type.

  (** The loop of map.rs:160-166; the top of the stack comes first. *)
  Fixpoint search_loop (fuel : nat) (key : K) (page : nat) (nd : node) (stack : list frame)
    : io (nat * node * list frame) :=
    match fuel with
    | 0 => Spin
    | S f =>
        match nd with
        | Internal i =>
            let? next := internal_search i key in
            let? p := cell (in_ptrs i) next in
            GetPage p (fun nd' => search_loop f key p nd' ((page, i, next) :: stack))
        | _ => Ret (page, nd, stack)
        end
    end.
  (** map.rs:149-168 *)
  Definition search_node (key : K) : io (nat * node * list frame) :=
    PageCount (fun n => GetRoot (fun r => GetPage r (fun nd => search_loop (S n) key r nd []))).

  (** map.rs:230-260: hand a split up the stack. *)
  Fixpoint grow (stack : list frame) (page : nat) (sk : K) (sp : nat) : io unit :=
    match stack with
    | (parent_page, parent, _) :: stack' =>
        let? (parent, o) := internal_insert parent sk sp true in
        match o with
        | Some (sk', snode) =>
            AllocNode (Internal snode) (fun q =>
            WriteNode parent_page (Internal parent) (grow stack' parent_page sk' q))
        | None => WriteNode parent_page (Internal parent) (Ret tt)
        end
    | [] =>
        let root := internal_new d in
        let? keys := set_cell (in_keys root) 0 (Some sk) in
        let? ptrs := set_cell (in_ptrs root) 0 page in
        let? ptrs := set_cell ptrs 1 sp in
        AllocNode (Internal (mkInternal 1 keys ptrs)) (fun q => SetRoot q (Ret tt))
    end.

  (** map.rs:206-264, after the search *)
  Definition insert_at (page : nat) (nd : node) (stack : list frame) (e : entry) : io (option entry) :=
    match nd with
    | Leaf l =>
        let? (l, o) := leaf_insert l e in
        let finish := GetLen (fun n => SetLen (n + 1) (Ret None)) in
        match o with
        | Some (ISplit sk snode) =>
            AllocNode (Leaf snode) (fun q =>
            WriteNode page (Leaf (mkLeaf (lf_len l) (lf_entries l) (Some q)))
              (let! _ := grow stack page sk q in finish))
        | Some (IEntry old) => WriteNode page (Leaf l) (Ret (Some old))
        | None => WriteNode page (Leaf l) finish
        end
    | _ => Fail
    end.
  (** map.rs:203-264 *)
  Definition insert_prog (e : entry) : io (option entry) :=
    let! (page, nd, stack) := search_node (fst e) in
    insert_at page nd stack e.

  Definition expect_leaf (nd : node) : io leaf := match nd with Leaf l => Ret l | _ => Fail end.
  Definition expect_internal (nd : node) : io internal := match nd with Internal i => Ret i | _ => Fail end.

  (** map.rs:308-314 *)
  Definition sibling_of (i : nat) : nat := if i =? 0 then i + 1 else i - 1.

  (** map.rs:301-362: a leaf with too few entries is merged with a sibling (the result is the entry
      to delete from the parent) or takes one entry from it. *)
  Definition fix_leaf (page : nat) (l : leaf) (parent_page : nat) (parent : internal) (i : nat)
    : io (option (nat * nat * internal)) :=
    let si := sibling_of i in
    let? sibling_page := cell (in_ptrs parent) si in
    GetPage sibling_page (fun nd =>
    let! sib := expect_leaf nd in
    if lf_len sib =? (m + 1) / 2 then
      if si =? i + 1 then
        let? l := leaf_merge l sib in
        FreeNode sibling_page (WriteNode page (Leaf l) (Ret (Some (i, parent_page, parent))))
      else
        let? sib := leaf_merge sib l in
        FreeNode page (WriteNode sibling_page (Leaf sib) (Ret (Some (si, parent_page, parent))))
    else
      let! (l, sib, parent) :=
        if si =? i + 1 then
          let? (sib, e) := leaf_remove_at sib 0 in
          let? c := cell (lf_entries sib) 0 in
          let? first := expect c in
          let? keys := set_cell (in_keys parent) i (Some (fst first)) in
          let? (l, _) := leaf_insert l e in
          Ret (l, sib, mkInternal (in_len parent) keys (in_ptrs parent))
        else
          let? r := checked_pred (lf_len sib) in
          let? (sib, e) := leaf_remove_at sib r in
          let? keys := set_cell (in_keys parent) si (Some (fst e)) in
          let? (l, _) := leaf_insert l e in
          Ret (l, sib, mkInternal (in_len parent) keys (in_ptrs parent)) in
      WriteNode parent_page (Internal parent)
        (WriteNode sibling_page (Leaf sib) (WriteNode page (Leaf l) (Ret None)))).

  (** map.rs:296-373 *)
  Definition remove_leaf (page : nat) (nd : node) (stack : list frame) (key : K)
    : io (option entry * option (nat * nat * internal) * list frame) :=
    let! l := expect_leaf nd in
    let? (l, ret) := leaf_remove l key in
    let shorten (c : io (option entry * option (nat * nat * internal) * list frame)) :=
      GetLen (fun n => let? n := checked_pred n in SetLen n c) in
    match (lf_len l <? (m + 1) / 2), stack with
    | true, (parent_page, parent, i) :: stack' =>
        let! del := fix_leaf page l parent_page parent i in
        shorten (Ret (ret, del, stack'))
    | _, _ =>
        match ret with
        | Some _ => shorten (WriteNode page (Leaf l) (Ret (ret, None, stack)))
        | None => Ret (ret, None, stack)
        end
    end.

  (** map.rs:381-449: the same for an internal node. *)
  Definition fix_internal (page : nat) (nd : internal) (parent_page : nat) (parent : internal) (i : nat)
    : io (option (nat * nat * internal)) :=
    let si := sibling_of i in
    let? sibling_page := cell (in_ptrs parent) si in
    GetPage sibling_page (fun s =>
    let! sib := expect_internal s in
    if in_len sib + 1 =? (d + 1) / 2 then
      if si =? i + 1 then
        let? c := cell (in_keys parent) i in
        let? pk := expect c in
        let? nd := internal_merge nd pk sib in
        FreeNode sibling_page (WriteNode page (Internal nd) (Ret (Some (i, parent_page, parent))))
      else
        let? c := cell (in_keys parent) si in
        let? pk := expect c in
        let? sib := internal_merge sib pk nd in
        FreeNode page (WriteNode sibling_page (Internal sib) (Ret (Some (si, parent_page, parent))))
    else
      let! (nd, sib, parent) :=
        if si =? i + 1 then
          let? (sib, (k, q)) := internal_remove_at sib 0 false in
          let? c := cell (in_keys parent) i in
          let? pk := expect c in
          let? (nd, _) := internal_insert nd pk q true in
          Ret (nd, sib, mkInternal (in_len parent) (list_set (in_keys parent) i (Some k)) (in_ptrs parent))
        else
          let? r := checked_pred (in_len sib) in
          let? (sib, (k, q)) := internal_remove_at sib r true in
          let? c := cell (in_keys parent) si in
          let? pk := expect c in
          let? (nd, _) := internal_insert nd pk q false in
          Ret (nd, sib, mkInternal (in_len parent) (list_set (in_keys parent) si (Some k)) (in_ptrs parent)) in
      WriteNode parent_page (Internal parent)
        (WriteNode sibling_page (Internal sib) (WriteNode page (Internal nd) (Ret None)))).

  (** map.rs:375-461: delete the entry [i] of the internal node [nd] on page [page]. *)
  Fixpoint shrink (stack : list frame) (i page : nat) (nd : internal) : io unit :=
    let? (nd, _) := internal_remove_at nd i true in
    if in_len nd + 1 <? (d + 1) / 2 then
      match stack with
      | (parent_page, parent, pi) :: stack' =>
          let! del := fix_internal page nd parent_page parent pi in
          match del with
          | Some (i', page', nd') => shrink stack' i' page' nd'
          | None => Ret tt
          end
      | [] =>
          if in_len nd =? 0 then
            let? r := cell (in_ptrs nd) 0 in
            SetRoot r (FreeNode page (Ret tt))
          else WriteNode page (Internal nd) (Ret tt)
      end
    else WriteNode page (Internal nd) (Ret tt).

  (** map.rs:286-463, after the search *)
  Definition remove_at (page : nat) (nd : node) (stack : list frame) (key : K) : io (option entry) :=
    let! (ret, del, stack) := remove_leaf page nd stack key in
    match del with
    | Some (i, page, nd) => let! _ := shrink stack i page nd in Ret ret
    | None => Ret ret
    end.
  (** map.rs:286-463 *)
  Definition remove_prog (key : K) : io (option entry) :=
    let! (page, nd, stack) := search_node key in
    remove_at page nd stack key.

  (** map.rs:513-526 *)
  Definition get_prog (key : K) : io (option V) :=
    let! (_, nd, _) := search_node key in
    let! l := expect_leaf nd in
    let? o := leaf_search l key in
    match o with
    | Some i => let? c := cell (lf_entries l) i in Ret (option_map snd c)
    | None => Ret None
    end.

  (** The loops of map.rs:626-629, 666-669 and 717-720. *)
  Fixpoint descend_loop (pick : internal -> nat) (fuel : nat) (nd : node) : io node :=
    match fuel with
    | 0 => Spin
    | S f =>
        match nd with
        | Internal i =>
            let? p := cell (in_ptrs i) (pick i) in
            GetPage p (fun nd' => descend_loop pick f nd')
        | _ => Ret nd
        end
    end.
  Definition edge_leaf (pick : internal -> nat) : io leaf :=
    PageCount (fun n => GetRoot (fun r => GetPage r (fun nd =>
    let! nd := descend_loop pick (S n) nd in expect_leaf nd))).

  (** map.rs:618-637 *)
  Definition min_prog : io (option K) :=
    let! l := edge_leaf (fun _ => 0) in
    let? c := cell (lf_entries l) 0 in
    Ret (option_map fst c).
  (** map.rs:658-683 *)
  Definition max_prog : io (option K) :=
    let! l := edge_leaf (fun i => in_len i) in
    if lf_len l =? 0 then Ret None
    else let? c := cell (lf_entries l) (lf_len l - 1) in Ret (option_map fst c).

  (** map.rs:762-785, called until it returns [None]; [i] is [curr_index]. *)
  Fixpoint iter_loop (fuel : nat) (l : leaf) (i : nat) : io (list entry) :=
    match fuel with
    | 0 => Spin
    | S f =>
        let step (l : leaf) (i : nat) :=
          let? c := cell (lf_entries l) i in
          match c with
          | None => Ret []
          | Some e =>
              let! r := iter_loop f (mkLeaf (lf_len l) (list_set (lf_entries l) i None) (lf_next l)) (i + 1) in
              Ret (e :: r)
          end in
        if lf_len l <=? i then
          match lf_next l with
          | Some p => GetPage p (fun nd => let! l' := expect_leaf nd in step l' 0)
          | None => Ret []
          end
        else step l i
    end.
  (** map.rs:709-730 and the iteration *)
  Definition iter_prog : io (list entry) :=
    let! l := edge_leaf (fun _ => 0) in
    PageCount (fun n => iter_loop (S (n * S (length (lf_entries l)))) l 0).
End BpPrograms.

(** *** The pager as a file of pages *)
Section BpPages.
  Context {K V : Type} `{Cmp K}.
  Notation leaf := (leaf K V).
  Notation node := (node K V).

  (** pager.rs:58-68; the four fields that change.  The sizes and degrees are in [config]. *)
  Record meta : Type := mkMeta { md_pages : nat; md_len : nat; md_root : nat; md_free : option nat }.
  Record config : Type := mkConfig { key_size : N; value_size : N; leaf_degree : nat; internal_degree : nat }.

  (** An open map: the pages of the file, the metadata at its start and the metadata in memory. *)
  Record store : Type := mkStore { st_pages : list node; st_disk : meta; st_mem : meta }.

  (** pager.rs:203-213 *)
  Definition get_page (s : store) (p : nat) : res node := cell (st_pages s) p.
  (** pager.rs:279-290 *)
  Definition write_node (s : store) (p : nat) (n : node) : res store :=
    let* pages := set_cell (st_pages s) p n in
    Ok (mkStore pages (st_disk s) (st_mem s)).
  (** Update the metadata in memory and on disk. *)
  Definition set_meta (s : store) (mt : meta) : store := mkStore (st_pages s) mt mt.
  (** pager.rs:181-188 and 194-201 *)
  Definition set_len (s : store) (n : nat) : store :=
    let mt := st_mem s in set_meta s (mkMeta (md_pages mt) n (md_root mt) (md_free mt)).
  Definition set_root (s : store) (p : nat) : store :=
    let mt := st_mem s in set_meta s (mkMeta (md_pages mt) (md_len mt) p (md_free mt)).
  (** What a page of zero bytes decodes to (C53_zero_page): [set_len] fills the file with zeros. *)
  Definition zero_page : node := Internal (mkInternal 0 [] []).
  (** [set_len] of the file to [n] pages cuts off what lies behind them or appends zeros. *)
  Definition resize_pages (pages : list node) (n : nat) : list node :=
    firstn n pages ++ repeat zero_page (n - length pages).
  (** pager.rs:215-258 *)
  Definition alloc_node (s : store) (n : node) : res (store * nat) :=
    let mt := st_mem s in
    match md_free mt with
    | None =>
        let pages := resize_pages (st_pages s) (md_pages mt) ++ [n] in
        Ok (set_meta (mkStore pages (st_disk s) mt) (mkMeta (md_pages mt + 1) (md_len mt) (md_root mt) None),
            md_pages mt)
    | Some f =>
        let* old := get_page s f in
        let* s := write_node s f n in
        match old with
        | Free next => Ok (set_meta s (mkMeta (md_pages mt) (md_len mt) (md_root mt) next), f)
        | _ => Panic
        end
    end.
  (** pager.rs:260-277 *)
  Definition free_node (s : store) (p : nat) : res store :=
    let mt := st_mem s in
    let* s := write_node s p (Free (md_free mt)) in
    Ok (set_meta s (mkMeta (md_pages mt) (md_len mt) (md_root mt) (Some p))).
  (** pager.rs:292-316 *)
  Definition clear_store (m : nat) (s : store) : store :=
    set_meta (mkStore [Leaf (leaf_new m)] (st_disk s) (st_mem s)) (mkMeta 1 0 0 None).
  (** pager.rs:77-124 *)
  Definition new_store (m : nat) : store :=
    mkStore [Leaf (leaf_new m)] (mkMeta 1 0 0 None) (mkMeta 1 0 0 None).
  (** pager.rs:126-146 *)
  Definition reopen (s : store) : store := mkStore (st_pages s) (st_disk s) (st_disk s).

  Fixpoint run_io {A} (s : store) (c : io K V A) : res (store * A) :=
    match c with
    | Ret a => Ok (s, a)
    | Fail => Panic
    | Spin => Timeout
    | GetPage p k => let* n := get_page s p in run_io s (k n)
    | WriteNode p n k => let* s := write_node s p n in run_io s k
    | AllocNode n k => let* (s, p) := alloc_node s n in run_io s (k p)
    | FreeNode p k => let* s := free_node s p in run_io s k
    | GetRoot k => run_io s (k (md_root (st_mem s)))
    | SetRoot p k => run_io (set_root s p) k
    | GetLen k => run_io s (k (md_len (st_mem s)))
    | SetLen n k => run_io (set_len s n) k
    | PageCount k => run_io s (k (md_pages (st_mem s)))
    end.

  (** Serialized sizes of keys and values. *)
  Variables (ksize : K -> N) (vsize : V -> N).

  (** pager.rs:318-334 *)
  Definition valid (c : config) (k : K) (v : V) : bool :=
    ((ksize k <=? key_size c) && (vsize v <=? value_size c))%N%bool.

  (** One API call of [BpMap]. *)
  Definition bp_step (c : config) (s : store) (o : bp_op K V) : res (store * bp_out K V) :=
    let m := leaf_degree c in let d := internal_degree c in
    match o with
    | BInsert k v =>
        if valid c k v then let* (s, r) := run_io s (insert_prog d (k, v)) in Ok (s, OPair r)
        else Ok (s, ORejected)
    | BRemove k => let* (s, r) := run_io s (remove_prog m d k) in Ok (s, OPair r)
    | BGet k => let* (s, r) := run_io s (get_prog k) in Ok (s, OVal r)
    | BContains k =>
        let* (s, r) := run_io s (get_prog k) in Ok (s, OBool (match r with Some _ => true | None => false end))
    | BLen => Ok (s, ONat (md_len (st_mem s)))
    | BIsEmpty => Ok (s, OBool (md_len (st_mem s) =? 0))
    | BClear => Ok (clear_store m s, OUnit)
    | BMin => let* (s, r) := run_io s min_prog in Ok (s, OKey r)
    | BMax => let* (s, r) := run_io s max_prog in Ok (s, OKey r)
    | BIter => let* (s, r) := run_io s iter_prog in Ok (s, OList r)
    | BReopen => Ok (reopen s, OUnit)
    end.
End BpPages.
Arguments store : clear implicits.
