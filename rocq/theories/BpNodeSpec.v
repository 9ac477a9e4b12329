(** What the properties of the on-disk B+ tree talk about: nodes filled from the left, the pages of the
    tree and the list of free pages, and a client of the pager.  Only the data types of the model occur
    in the definitions. *)
From Verif Require Export BpMapModel.

Section BpNodeSpec.
  Context {K V : Type}.
  Notation store := (store K V).

  (** The leaf of degree [m] with the entries [es]. *)
  Definition packed_leaf (m : nat) (es : list (K * V)) (nx : option nat) : leaf K V :=
    mkLeaf (length es) (map Some es ++ repeat None (m - length es)) nx.
  (** The internal node of degree [d] with the keys [ks] and the children [ps]. *)
  Definition packed_internal (d : nat) (ks : list K) (ps : list nat) : internal K :=
    mkInternal (length ks) (map Some ks ++ repeat None (d - length ks)) (ps ++ repeat 0 (d + 1 - length ps)).

  (** [s] is the list of pages from the root down. *)
  Inductive in_tree (s : store) : nat -> Prop :=
  | Root : in_tree s (md_root (st_mem s))
  | Child p i j q : in_tree s p -> nth_error (st_pages s) p = Some (Internal i) ->
      j <= in_len i -> nth_error (in_ptrs i) j = Some q -> in_tree s q.
  (** [fl] is the list of free pages. *)
  Fixpoint free_pages (s : store) (head : option nat) (fl : list nat) : Prop :=
    match fl with
    | [] => head = None
    | p :: fl => head = Some p /\ exists next, nth_error (st_pages s) p = Some (Free next) /\ free_pages s next fl
    end.

  (** A client of the pager that writes and frees only pages it was given, which it names by their
      position among the pages it holds. *)
  Inductive client_op : Type :=
  | CAlloc (n : node K V)
  | CWrite (i : nat) (n : node K V)
  | CFree (i : nat)
  | CRead (i : nat)
  | CReopen.
  Definition holdings : Type := list (nat * node K V).
  Definition client_step (sh : store * holdings) (o : client_op) : res (store * holdings * option (node K V)) :=
    let (s, h) := sh in
    match o with
    | CAlloc n => let* (s, p) := alloc_node s n in Ok (s, (p, n) :: h, None)
    | CWrite i n =>
        match nth_error h i with
        | Some (p, _) => let* s := write_node s p n in Ok (s, list_set h i (p, n), None)
        | None => Ok (s, h, None)
        end
    | CFree i =>
        match nth_error h i with
        | Some (p, _) => let* s := free_node s p in Ok (s, firstn i h ++ skipn (S i) h, None)
        | None => Ok (s, h, None)
        end
    | CRead i =>
        match nth_error h i with
        | Some (p, _) => let* n := get_page s p in Ok (s, h, Some n)
        | None => Ok (s, h, None)
        end
    | CReopen => Ok (reopen s, h, None)
    end.
  (** What the client expects: it reads what it wrote. *)
  Definition client_spec (h : list (node K V)) (o : client_op) : list (node K V) * option (node K V) :=
    match o with
    | CAlloc n => (n :: h, None)
    | CWrite i n => (list_set h i n, None)
    | CFree i => (firstn i h ++ skipn (S i) h, None)
    | CRead i => (h, nth_error h i)
    | CReopen => (h, None)
    end.
End BpNodeSpec.

Section Harm.
  Context {K V : Type} `{Cmp K}.
  (** Inserting [k] would do harm: a full leaf of the tree has [k] behind more than [m / 2 + 1] entries. *)
  Definition harmful (m : nat) (s : store K V) (k : K) : Prop :=
    exists p l i e, in_tree s p /\ nth_error (st_pages s) p = Some (Leaf l) /\ lf_len l = m /\
      nth_error (lf_entries l) i = Some (Some e) /\ cmp k (fst e) = Eq /\ m / 2 + 1 < i.

  Variables (ksize : K -> N) (vsize : V -> N) (cfg : config).
  (** No call of the history inserts a key where that does harm. *)
  Definition never_harmful (ops : list (bp_op K V)) : Prop :=
    forall ops1 k v ops2 s outs, ops = ops1 ++ BInsert k v :: ops2 ->
      run (bp_step ksize vsize cfg) (new_store (leaf_degree cfg)) ops1 = Ok (s, outs) ->
      valid ksize vsize cfg k v = true -> ~ harmful (leaf_degree cfg) s k.
End Harm.
Arguments client_op : clear implicits.
Arguments holdings : clear implicits.
