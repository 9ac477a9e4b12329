(** A [BpMap] whose file operations can fail: [/repo/src/bp_tree/pager.rs], where every [?] returns from the method
    and then from the call in [/repo/src/bp_tree/map.rs].  What the methods changed in memory before the failing
    operation stays changed.  The programs are those of BpMapModel.v.

    Simplifications: an operation that fails has no effect on the file; a [seek] that fails is counted as the
    operation after it, since nothing changes between the two; serializing does not fail. *)
From Verif Require Export BpMapModel.

(** The operations on the file that can fail. *)
Inductive point : Set :=
| PGet          (* get_page, pager.rs:209-211 *)
| PWrite        (* write_node, 285-289 *)
| PGrow         (* allocate_node at the end of the file: set_len, 225 *)
| PGrowNode     (* its node, 226-228 *)
| PGrowMeta     (* its metadata, 230-232 *)
| PReuse        (* allocate_node on a free page: reading it, 240-241 *)
| PReuseNode    (* its node, 243-245 *)
| PReuseMeta    (* its metadata, 251-253 *)
| PFree         (* deallocate_node: the page, 267-269 *)
| PFreeMeta     (* its metadata, 272-276 *)
| PRoot         (* set_root_page, 196-200 *)
| PLen          (* set_len, 183-187 *)
| PCut          (* clear: set_len of the file, 303 *)
| PCutMeta      (* its metadata, 305-307 *)
| PCutLeaf.     (* its leaf, 309-315 *)

(** The result of a call: that of the call without failures, or an error; then the operations done before, the last
    one first, and the one that failed are recorded. *)
Inductive outcome (A : Type) : Type :=
| Done (a : A)
| Failed (before : list point) (at_ : point).
Arguments Done {A}. Arguments Failed {A}.

Section BpIoFaults.
  Context {K V : Type} `{Cmp K}.
  Notation node := (node K V).
  Notation store := (store K V).

  (** The metadata in memory is changed, that in the file is not. *)
  Definition set_mem (s : store) (mt : meta) : store := mkStore (st_pages s) (st_disk s) mt.

  (** pager.rs:215-258 with the operation after [n] others failing; both branches have three. *)
  Definition alloc_fail (n : nat) (s : store) (nd : node) : res (store * point) :=
    let mt := st_mem s in
    match md_free mt with
    | None =>
        let mt' := mkMeta (md_pages mt + 1) (md_len mt) (md_root mt) None in
        let old := resize_pages (st_pages s) (md_pages mt) in
        match n with
        | 0 => Ok (set_mem s mt', PGrow)
        | 1 => Ok (mkStore (old ++ [zero_page]) (st_disk s) mt', PGrowNode)
        | _ => Ok (mkStore (old ++ [nd]) (st_disk s) mt', PGrowMeta)
        end
    | Some f =>
        match n with
        | 0 => Ok (s, PReuse)
        | 1 => let* _ := get_page s f in Ok (s, PReuseNode)
        | _ =>
            let* old := get_page s f in
            let* s := write_node s f nd in
            match old with
            | Free next => Ok (set_mem s (mkMeta (md_pages mt) (md_len mt) (md_root mt) next), PReuseMeta)
            | _ => Panic
            end
        end
    end.
  Definition alloc_points (s : store) : list point :=
    match md_free (st_mem s) with
    | None => [PGrowMeta; PGrowNode; PGrow]
    | Some _ => [PReuseMeta; PReuseNode; PReuse]
    end.
  (** pager.rs:260-277 *)
  Definition free_fail (n : nat) (s : store) (p : nat) : res (store * point) :=
    let mt := st_mem s in
    match n with
    | 0 => Ok (s, PFree)
    | _ =>
        let* s := write_node s p (Free (md_free mt)) in
        Ok (set_mem s (mkMeta (md_pages mt) (md_len mt) (md_root mt) (Some p)), PFreeMeta)
    end.
  (** pager.rs:181-188 and 194-201 *)
  Definition len_fail (s : store) (n : nat) : store :=
    let mt := st_mem s in set_mem s (mkMeta (md_pages mt) n (md_root mt) (md_free mt)).
  Definition root_fail (s : store) (p : nat) : store :=
    let mt := st_mem s in set_mem s (mkMeta (md_pages mt) (md_len mt) p (md_free mt)).
  (** pager.rs:292-316 *)
  Definition clear_fail (n : nat) (s : store) : store * outcome unit :=
    let mt := mkMeta 1 0 0 None in
    match n with
    | 0 => (set_mem s mt, Failed [] PCut)
    | 1 => (mkStore (resize_pages (st_pages s) 1) (st_disk s) mt, Failed [PCut] PCutMeta)
    | _ => (mkStore (resize_pages (st_pages s) 1) mt mt, Failed [PCutMeta; PCut] PCutLeaf)
    end.

  (** A program of which the operation after [n] others fails; [done] are those before it. *)
  Fixpoint run_fault {A} (n : nat) (done : list point) (s : store) (c : io K V A) {struct c}
    : res (store * outcome A) :=
    match c with
    | Ret a => Ok (s, Done a)
    | Fail => Panic
    | Spin => Timeout
    | GetPage p k =>
        match n with
        | 0 => Ok (s, Failed done PGet)
        | S n => let* nd := get_page s p in run_fault n (PGet :: done) s (k nd)
        end
    | WriteNode p nd k =>
        match n with
        | 0 => Ok (s, Failed done PWrite)
        | S n => let* s := write_node s p nd in run_fault n (PWrite :: done) s k
        end
    | AllocNode nd k =>
        if n <? 3 then
          let* (s', at_) := alloc_fail n s nd in
          Ok (s', Failed (skipn (3 - n) (alloc_points s) ++ done) at_)
        else
          let* (s', p) := alloc_node s nd in
          run_fault (n - 3) (alloc_points s ++ done) s' (k p)
    | FreeNode p k =>
        if n <? 2 then
          let* (s', at_) := free_fail n s p in
          Ok (s', Failed (skipn (2 - n) [PFreeMeta; PFree] ++ done) at_)
        else
          let* s' := free_node s p in
          run_fault (n - 2) (PFreeMeta :: PFree :: done) s' k
    | GetRoot k => run_fault n done s (k (md_root (st_mem s)))
    | SetRoot p k =>
        match n with
        | 0 => Ok (root_fail s p, Failed done PRoot)
        | S n => run_fault n (PRoot :: done) (set_root s p) k
        end
    | GetLen k => run_fault n done s (k (md_len (st_mem s)))
    | SetLen l k =>
        match n with
        | 0 => Ok (len_fail s l, Failed done PLen)
        | S n => run_fault n (PLen :: done) (set_len s l) k
        end
    | PageCount k => run_fault n done s (k (md_pages (st_mem s)))
    end.

  Definition omap {A B} (f : A -> B) (o : outcome A) : outcome B :=
    match o with Done a => Done (f a) | Failed b p => Failed b p end.
  Definition fault_call {A B} (n : nat) (s : store) (c : io K V A) (f : A -> B) : res (store * outcome B) :=
    let* (s, r) := run_fault n [] s c in Ok (s, omap f r).

  Variables (ksize : K -> N) (vsize : V -> N).
  (** One API call; [Some n] means that the file operation after [n] others fails.  [len] and [is_empty] do not use
      the file.  Opening a file again is not made to fail: then there is no map. *)
  Definition fault_step (c : config) (s : store) (e : bp_op K V * option nat) : res (store * outcome (bp_out K V)) :=
    let m := leaf_degree c in let d := internal_degree c in
    let (o, fault) := e in
    let plain := let* (s, r) := bp_step ksize vsize c s o in Ok (s, Done r) in
    match fault with
    | None => plain
    | Some n =>
        match o with
        | BInsert k v => if valid ksize vsize c k v then fault_call n s (insert_prog d (k, v)) OPair else plain
        | BRemove k => fault_call n s (remove_prog m d k) OPair
        | BGet k => fault_call n s (get_prog k) OVal
        | BContains k => fault_call n s (get_prog k) (fun r => OBool (match r with Some _ => true | None => false end))
        | BMin => fault_call n s min_prog OKey
        | BMax => fault_call n s max_prog OKey
        | BIter => fault_call n s iter_prog OList
        | BClear => if n <? 3 then let (s, r) := clear_fail n s in Ok (s, omap (fun _ => OUnit) r) else plain
        | BLen | BIsEmpty | BReopen => plain
        end
    end.
End BpIoFaults.
