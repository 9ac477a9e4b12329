(** Specification of an ordered set: a list of keys in strictly ascending order.
    Nothing here refers to any model. *)
From Verif Require Export Base SetAlgSpec.

(** API calls of an ordered set. *)
Inductive kset_op (K : Type) : Type :=
| KInsert (k : K) | KRemove (k : K) | KContains (k : K) | KFloor (k : K) | KCeil (k : K)
| KMin | KMax | KLen | KIsEmpty | KClear | KIter | KIntoIter.
Arguments KInsert {K}. Arguments KRemove {K}. Arguments KContains {K}. Arguments KFloor {K}.
Arguments KCeil {K}. Arguments KMin {K}. Arguments KMax {K}. Arguments KLen {K}. Arguments KIsEmpty {K}.
Arguments KClear {K}. Arguments KIter {K}. Arguments KIntoIter {K}.

Inductive kset_out (K : Type) : Type :=
| KKey (k : option K) | KBool (b : bool) | KNat (n : nat) | KUnit | KList (l : list K).
Arguments KKey {K}. Arguments KBool {K}. Arguments KNat {K}. Arguments KUnit {K}. Arguments KList {K}.

(** Programs over set variables, all initially [new()]. *)
Inductive kprog_op (K : Type) : Type :=
| KPOp (i : nat) (o : kset_op K)                  (* x_i.o() *)
| KPSet (s : set_op) (d i j : nat)                (* x_d = op(x_i, x_j); x_i and x_j are consumed *)
| KPSplit (d i : nat) (k : K) (inclusive : bool). (* x_d = x_i.split_off(&k, inclusive) *)
Arguments KPOp {K}. Arguments KPSet {K}. Arguments KPSplit {K}.

Section KeySetSpec.
  Context {K : Type} `{Cmp K}.

  Definition keys_lt (k : K) (l : list K) := filter (fun x => is_lt (cmp x k)) l.
  Definition keys_eq (k : K) (l : list K) := filter (fun x => is_eq (cmp x k)) l.
  Definition keys_gt (k : K) (l : list K) := filter (fun x => is_gt (cmp x k)) l.
  Definition mem (k : K) (l : list K) : bool := existsb (fun x => is_eq (cmp x k)) l.

  Definition kset_spec_step (l : list K) (o : kset_op K) : list K * kset_out K :=
    match o with
    | KInsert k => (keys_lt k l ++ k :: keys_gt k l, KKey (hd_error (keys_eq k l)))
    | KRemove k => (keys_lt k l ++ keys_gt k l, KKey (hd_error (keys_eq k l)))
    | KContains k => (l, KBool (mem k l))
    | KFloor k => (l, KKey (last_error (keys_lt k l ++ keys_eq k l)))
    | KCeil k => (l, KKey (hd_error (keys_eq k l ++ keys_gt k l)))
    | KMin => (l, KKey (hd_error l))
    | KMax => (l, KKey (last_error l))
    | KLen => (l, KNat (length l))
    | KIsEmpty => (l, KBool (Nat.eqb (length l) 0))
    | KClear => ([], KUnit)
    | KIter => (l, KList l)
    | KIntoIter => ([], KList l)
    end.

  Definition kset_spec_outputs (ops : list (kset_op K)) : list (kset_out K) :=
    spec_outputs kset_spec_step [] ops.

  (** For a key in both sets the left set's element is kept. *)
  Definition kspec_union (a b : list K) : list K :=
    fold_right (fun k l => keys_lt k l ++ k :: keys_gt k l) b a.
  Definition kspec_inter (a b : list K) : list K := filter (fun k => mem k b) a.
  Definition kspec_diff (a b : list K) : list K := filter (fun k => negb (mem k b)) a.
  Definition kspec_set (s : set_op) (a b : list K) : list K :=
    match s with
    | SUnion => kspec_union a b
    | SInter => kspec_inter a b
    | SDiff => kspec_diff a b
    | SSymDiff => kspec_union (kspec_diff a b) (kspec_diff b a)
    end.

  Definition kprog_spec_step (rs : nat -> list K) (o : kprog_op K) : (nat -> list K) * kset_out K :=
    match o with
    | KPOp i o => let (l, out) := kset_spec_step (rs i) o in (update rs i l, out)
    | KPSet s d i j =>
        let a := rs i in let rs1 := update rs i [] in
        let b := rs1 j in let rs2 := update rs1 j [] in
        (update rs2 d (kspec_set s a b), KUnit)
    | KPSplit d i k inc =>
        let l := rs i in
        let (stay, give) := if inc then (keys_lt k l ++ keys_eq k l, keys_gt k l)
                            else (keys_lt k l, keys_eq k l ++ keys_gt k l) in
        (update (update rs i stay) d give, KUnit)
    end.

  Definition kprog_spec_outputs (ops : list (kprog_op K)) : list (kset_out K) :=
    spec_outputs kprog_spec_step (fun _ => []) ops.
End KeySetSpec.
