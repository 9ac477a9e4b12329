(** Specification of the on-disk ordered map.  Nothing here refers to any model. *)
From Verif Require Export MapSpec.
From Coq Require Export NArith.

(** API calls of [BpMap]. *)
Inductive bp_op (K V : Type) : Type :=
| BInsert (k : K) (v : V)
| BRemove (k : K)
| BGet (k : K)
| BContains (k : K)
| BLen
| BIsEmpty
| BClear
| BMin
| BMax
| BIter                 (* iter_mut(), run to the end *)
| BReopen.              (* drop the map and open its file *)
Arguments BInsert {K V}. Arguments BRemove {K V}. Arguments BGet {K V}. Arguments BContains {K V}.
Arguments BLen {K V}. Arguments BIsEmpty {K V}. Arguments BClear {K V}. Arguments BMin {K V}.
Arguments BMax {K V}. Arguments BIter {K V}. Arguments BReopen {K V}.

Inductive bp_out (K V : Type) : Type :=
| OPair (p : option (K * V))
| OVal (v : option V)
| OKey (k : option K)
| OBool (b : bool)
| ONat (n : nat)
| OUnit
| OList (l : list (K * V))
| ORejected.            (* insert panics because the key or the value is too large *)
Arguments OPair {K V}. Arguments OVal {K V}. Arguments OKey {K V}. Arguments OBool {K V}.
Arguments ONat {K V}. Arguments OUnit {K V}. Arguments OList {K V}. Arguments ORejected {K V}.

(** The calls that insert the entries [es], in order. *)
Definition inserts {K V : Type} (es : list (K * V)) : list (bp_op K V) :=
  map (fun e => BInsert (fst e) (snd e)) es.

(** Calls whose results depend on the entries only, not on their number. *)
Definition reads_entries {K V : Type} (o : bp_op K V) : bool :=
  match o with BGet _ | BContains _ | BMin | BMax | BIter | BReopen => true | _ => false end.

Section BpSpec.
  Context {K V : Type} `{Cmp K}.
  (** Which keys and values are small enough. *)
  Variable fits : K -> V -> bool.

  Definition bp_spec_step (l : list (K * V)) (o : bp_op K V) : list (K * V) * bp_out K V :=
    match o with
    | BInsert k v =>
        if fits k v then (below k l ++ (k, v) :: above k l, OPair (hd_error (at_key k l)))
        else (l, ORejected)
    | BRemove k => (below k l ++ above k l, OPair (hd_error (at_key k l)))
    | BGet k => (l, OVal (option_map snd (hd_error (at_key k l))))
    | BContains k => (l, OBool (match at_key k l with [] => false | _ => true end))
    | BLen => (l, ONat (length l))
    | BIsEmpty => (l, OBool (Nat.eqb (length l) 0))
    | BClear => ([], OUnit)
    | BMin => (l, OKey (option_map fst (hd_error l)))
    | BMax => (l, OKey (option_map fst (last_error l)))
    | BIter => (l, OList l)
    | BReopen => (l, OUnit)
    end.

  (** What an on-disk ordered map returns on a sequence of calls starting from [new()]. *)
  Definition bp_spec_outputs (ops : list (bp_op K V)) : list (bp_out K V) :=
    spec_outputs bp_spec_step [] ops.
  Definition bp_spec_state (ops : list (bp_op K V)) : list (K * V) :=
    fst (spec_run bp_spec_step [] ops).

  (** No call inserts a key that is present at that moment. *)
  Definition never_overwrites (ops : list (bp_op K V)) : Prop :=
    forall ops1 k v ops2, ops = ops1 ++ BInsert k v :: ops2 -> at_key k (bp_spec_state ops1) = [].
End BpSpec.
