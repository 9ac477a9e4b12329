(** Values and ranges shared by the models of the log-structured merge tree,
    [/repo/src/lsm_tree/sstable.rs:20-63]. *)
From Verif Require Export Base.
From Coq Require Export NArith.

(** sstable.rs:39-43; [data = None] is a tombstone *)
Record sval (V : Type) : Type := mkSval { sv_data : option V; sv_time : N }.
Arguments mkSval {V}. Arguments sv_data {V}. Arguments sv_time {V}.

(** sstable.rs:51-55: the newer value is the smaller one *)
Definition sv_cmp {V} (a b : sval V) : comparison := N.compare (sv_time b) (sv_time a).

Section Ranges.
  Context {K : Type} `{Cmp K}.
  (** [cmp::min] and [cmp::max]: on equal keys [min] gives the first, [max] the second argument *)
  Definition kmin (a b : K) : K := if is_gt (cmp a b) then b else a.
  Definition kmax (a b : K) : K := if is_gt (cmp a b) then a else b.
  (** sstable.rs:20-28 *)
  Definition merge_ranges (r s : K * K) : K * K := (kmin (fst r) (fst s), kmax (snd r) (snd s)).
  (** sstable.rs:30-37 *)
  Definition is_intersecting (r s : K * K) : bool :=
    negb (is_gt (cmp (kmax (fst r) (fst s)) (kmin (snd r) (snd s)))).
End Ranges.
