(** Specification of an ordered map: a list of pairs in strictly ascending key order.
    Nothing here refers to any model. *)
From Verif Require Export Base.
From Coq Require Export Sorting.Sorted.

Section MapSpec.
  Context {K V : Type} `{Cmp K}.

  (** Pairs with key below / equal to / above [k]. *)
  Definition below (k : K) (l : list (K * V)) := filter (fun p => is_lt (cmp (fst p) k)) l.
  Definition at_key (k : K) (l : list (K * V)) := filter (fun p => is_eq (cmp (fst p) k)) l.
  Definition above (k : K) (l : list (K * V)) := filter (fun p => is_gt (cmp (fst p) k)) l.

  (** Overwrite the values of the first [length vs] pairs. *)
  Fixpoint write_vals (l : list (K * V)) (vs : list V) : list (K * V) :=
    match l, vs with
    | (k, _) :: l', v :: vs' => (k, v) :: write_vals l' vs'
    | _, _ => l
    end.
End MapSpec.

(** API calls of an ordered map. *)
Inductive map_op (K V : Type) : Type :=
| MInsert (k : K) (v : V)
| MRemove (k : K)
| MGet (k : K)
| MGetMut (k : K) (v : V)          (* if let Some(x) = get_mut(k) { old = *x; *x = v } *)
| MIndex (k : K)                   (* map[&k] *)
| MContains (k : K)
| MFloor (k : K)
| MCeil (k : K)
| MMin
| MMax
| MLen
| MIsEmpty
| MClear
| MIter                            (* iter(), run to the end *)
| MIterMut (vs : list V)           (* iter_mut(): call next() length vs times, write vs[i] to the i-th *)
| MIntoIter.                       (* consume the map with into_iter(), go on with a new map *)
Arguments MInsert {K V}. Arguments MRemove {K V}. Arguments MGet {K V}. Arguments MGetMut {K V}.
Arguments MIndex {K V}. Arguments MContains {K V}. Arguments MFloor {K V}. Arguments MCeil {K V}.
Arguments MMin {K V}. Arguments MMax {K V}. Arguments MLen {K V}. Arguments MIsEmpty {K V}.
Arguments MClear {K V}. Arguments MIter {K V}. Arguments MIterMut {K V}. Arguments MIntoIter {K V}.

Inductive map_out (K V : Type) : Type :=
| RPair (p : option (K * V))
| RVal (v : option V)
| RIndex (v : res V)
| RKey (k : option K)
| RBool (b : bool)
| RNat (n : nat)
| RUnit
| RList (l : list (K * V)).
Arguments RPair {K V}. Arguments RVal {K V}. Arguments RIndex {K V}. Arguments RKey {K V}.
Arguments RBool {K V}. Arguments RNat {K V}. Arguments RUnit {K V}. Arguments RList {K V}.

Section MapSpecStep.
  Context {K V : Type} `{Cmp K}.

  Definition map_spec_step (l : list (K * V)) (o : map_op K V) : list (K * V) * map_out K V :=
    match o with
    | MInsert k v => (below k l ++ (k, v) :: above k l, RPair (hd_error (at_key k l)))
    | MRemove k => (below k l ++ above k l, RPair (hd_error (at_key k l)))
    | MGet k => (l, RVal (option_map snd (hd_error (at_key k l))))
    | MGetMut k v =>
        (below k l ++ map (fun p => (fst p, v)) (at_key k l) ++ above k l,
         RVal (option_map snd (hd_error (at_key k l))))
    | MIndex k => (l, RIndex (expect (option_map snd (hd_error (at_key k l)))))
    | MContains k => (l, RBool (match at_key k l with [] => false | _ => true end))
    | MFloor k => (l, RKey (option_map fst (last_error (below k l ++ at_key k l))))
    | MCeil k => (l, RKey (option_map fst (hd_error (at_key k l ++ above k l))))
    | MMin => (l, RKey (option_map fst (hd_error l)))
    | MMax => (l, RKey (option_map fst (last_error l)))
    | MLen => (l, RNat (length l))
    | MIsEmpty => (l, RBool (Nat.eqb (length l) 0))
    | MClear => ([], RUnit)
    | MIter => (l, RList l)
    | MIterMut vs => (write_vals l vs, RList (firstn (length vs) l))
    | MIntoIter => ([], RList l)
    end.

  (** What an ordered map returns on a sequence of calls starting from [new()]. *)
  Definition map_spec_outputs (ops : list (map_op K V)) : list (map_out K V) :=
    spec_outputs map_spec_step [] ops.
End MapSpecStep.

(** What a user expects of the iterators of an ordered map, in terms of calls only: [obs ops] is what
    the calls [ops] return on a new map.  After any history: iter() yields strictly ascending keys,
    exactly the pairs that get() finds; iter_mut() visits the same pairs in the same order and its
    writes land on exactly the visited pairs; into_iter() yields the same pairs. *)
Section IterSpec.
  Context {K V : Type} `{Cmp K}.

  Definition strictly_ascending (l : list (K * V)) : Prop :=
    StronglySorted (fun p q => cmp (fst p) (fst q) = Lt) l.

  Definition iterators_correct (obs : list (map_op K V) -> res (list (map_out K V))) : Prop :=
    forall (ops : list (map_op K V)) (k : K) (vs : list V), exists outs g l,
      obs (ops ++ [MGet k; MIter; MIterMut vs; MIter; MIntoIter; MIter]) =
        Ok (outs ++ [RVal g; RList l; RList (firstn (length vs) l); RList (write_vals l vs);
                     RList (write_vals l vs); RList []]) /\
      strictly_ascending l /\
      (forall v, g = Some v <-> exists k', cmp k' k = Eq /\ In (k', v) l).
End IterSpec.
