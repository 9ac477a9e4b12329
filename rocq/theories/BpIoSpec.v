(** What is asked of a [BpMap] some calls of which return an error.  Of the model only the names of the file operations
    and the shape of results occur, and the run in [unharmed]. *)
From Verif Require Export BpIoModel BpNodeSpec.

(** Operations that leave the entries of the map alone: reading, and allocating a page nothing points to. *)
Definition prepares (p : point) : bool :=
  match p with PGet | PGrow | PGrowNode | PGrowMeta | PReuse | PReuseNode | PReuseMeta => true | _ => false end.
(** A failure that keeps the map in one piece: before any operation that touches the entries, where the failing
    operation itself touches them only if it succeeds; or at the very end of an insertion. *)
Definition harmless {K V : Type} (o : bp_op K V) (before : list point) (at_ : point) : bool :=
  (forallb prepares before && match at_ with PWrite | PFree => true | p => prepares p end) ||
  match o, at_ with BInsert _ _, PLen => true | _, _ => false end.
(** The failing call has changed the map all the same. *)
Definition took_effect (at_ : point) : bool := match at_ with PLen => true | _ => false end.

(** The metadata in memory differs from that in the file in more than the number of pages. *)
Definition unsaves (at_ : point) : bool := match at_ with PLen | PReuseMeta => true | _ => false end.
(** The call has written the metadata. *)
Definition saves {K V : Type} (o : bp_op K V) (r : bp_out K V) : bool :=
  match o, r with BInsert _ _, OPair None | BRemove _, OPair (Some _) | BClear, _ => true | _, _ => false end.
(** Whether the metadata in the file is up to date after these calls with these results. *)
Fixpoint saved {K V : Type} (b : bool) (es : list (bp_op K V * option nat)) (outs : list (outcome (bp_out K V))) : bool :=
  match es, outs with
  | e :: es, Done r :: outs => saved (b || saves (fst e) r) es outs
  | e :: es, Failed _ p :: outs => saved (b && negb (unsaves p)) es outs
  | _, _ => b
  end.

(** The failures are harmless and the file is opened again only when its metadata is up to date. *)
Fixpoint mild {K V : Type} (b : bool) (es : list (bp_op K V * option nat)) (outs : list (outcome (bp_out K V))) : bool :=
  match es, outs with
  | [], [] => true
  | e :: es, Done r :: outs => match fst e with BReopen => b | _ => true end && mild (b || saves (fst e) r) es outs
  | e :: es, Failed before p :: outs => harmless (fst e) before p && mild (b && negb (unsaves p)) es outs
  | _, _ => false
  end.

Section BpIoSpec.
  Context {K V : Type} `{Cmp K}.
  Variable fits : K -> V -> bool.

  (** The results are those of an ordered map: a call that returns normally is carried out, a call that fails is
      carried out or is not. *)
  Fixpoint agrees (l : list (K * V)) (es : list (bp_op K V * option nat)) (outs : list (outcome (bp_out K V))) : Prop :=
    match es, outs with
    | [], [] => True
    | e :: es, Done r :: outs =>
        r = snd (bp_spec_step fits l (fst e)) /\ agrees (fst (bp_spec_step fits l (fst e))) es outs
    | e :: es, Failed _ p :: outs => agrees (if took_effect p then fst (bp_spec_step fits l (fst e)) else l) es outs
    | _, _ => False
    end.
  (** The entries of that map after the calls. *)
  Fixpoint io_state (l : list (K * V)) (es : list (bp_op K V * option nat)) (outs : list (outcome (bp_out K V))) : list (K * V) :=
    match es, outs with
    | e :: es, Done _ :: outs => io_state (fst (bp_spec_step fits l (fst e))) es outs
    | e :: es, Failed _ p :: outs => io_state (if took_effect p then fst (bp_spec_step fits l (fst e)) else l) es outs
    | _, _ => l
    end.
End BpIoSpec.

Section Unharmed.
  Context {K V : Type} `{Cmp K}.
  Variables (ksize : K -> N) (vsize : V -> N) (cfg : config).
  (** No call inserts a key where that does harm without any failure ([harmful], C25). *)
  Definition unharmed (es : list (bp_op K V * option nat)) : Prop :=
    forall es1 k v f es2 s outs, es = es1 ++ (BInsert k v, f) :: es2 ->
      run (fault_step ksize vsize cfg) (new_store (leaf_degree cfg)) es1 = Ok (s, outs) ->
      valid ksize vsize cfg k v = true -> ~ harmful (leaf_degree cfg) s k.
End Unharmed.
