(** Specification of programs over several ordered maps: set algebra and split_off.
    Maps are strictly ascending lists of pairs.  Nothing here refers to any model. *)
From Verif Require Export MapSpec.

Inductive set_op := SUnion | SInter | SDiff | SSymDiff.

Section SetAlg.
  Context {K V : Type} `{Cmp K}.
  Notation amap := (list (K * V)).

  Definition insert_pair (p : K * V) (l : amap) : amap := below (fst p) l ++ p :: above (fst p) l.
  Definition has_key (k : K) (l : amap) : bool := match at_key k l with [] => false | _ => true end.

  (** Every pair of [a] overwrites [b]. *)
  Definition spec_union (a b : amap) : amap := fold_right insert_pair b a.
  Definition spec_inter (a b : amap) : amap := filter (fun p => has_key (fst p) b) a.
  Definition spec_diff (a b : amap) : amap := filter (fun p => negb (has_key (fst p) b)) a.
  Definition spec_symdiff (a b : amap) : amap := spec_union (spec_diff a b) (spec_diff b a).

  Definition spec_set (o : set_op) : amap -> amap -> amap :=
    match o with
    | SUnion => spec_union
    | SInter => spec_inter
    | SDiff => spec_diff
    | SSymDiff => spec_symdiff
    end.

  (** split_off(k, inclusive): (what stays, what is returned). *)
  Definition spec_split (k : K) (inclusive : bool) (l : amap) : amap * amap :=
    if inclusive then (below k l ++ at_key k l, above k l)
    else (below k l, at_key k l ++ above k l).
End SetAlg.

(** Programs over map variables [0, 1, 2, ...], all initially [new()]. *)
Inductive prog_op (K V : Type) : Type :=
| POp (i : nat) (o : map_op K V)              (* x_i.o() *)
| PSet (s : set_op) (d i j : nat)             (* x_d = op(x_i, x_j); x_i and x_j are consumed *)
| PSplit (d i : nat) (k : K) (inclusive : bool).  (* x_d = x_i.split_off(&k, inclusive) *)
Arguments POp {K V}. Arguments PSet {K V}. Arguments PSplit {K V}.

Definition update {A} (f : nat -> A) (i : nat) (x : A) : nat -> A :=
  fun n => if Nat.eqb n i then x else f n.

Section Prog.
  Context {K V : Type} `{Cmp K}.

  Definition prog_spec_step (rs : nat -> list (K * V)) (o : prog_op K V)
    : (nat -> list (K * V)) * map_out K V :=
    match o with
    | POp i o => let (l, out) := map_spec_step (rs i) o in (update rs i l, out)
    | PSet s d i j =>
        let a := rs i in let rs1 := update rs i [] in
        let b := rs1 j in let rs2 := update rs1 j [] in
        (update rs2 d (spec_set s a b), RUnit)
    | PSplit d i k inc =>
        let (stay, give) := spec_split k inc (rs i) in
        (update (update rs i stay) d give, RUnit)
    end.

  Definition prog_spec_outputs (ops : list (prog_op K V)) : list (map_out K V) :=
    spec_outputs prog_spec_step (fun _ => []) ops.
End Prog.
