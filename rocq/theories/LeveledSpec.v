(** Vocabulary for statements about [LeveledStrategy]. *)
From Verif Require Export LsmSpec LeveledModel.

(** How many tables level [i] may keep, computed modulo 2^64 *)
Definition limit (cfg : lconfig) (i : nat) : N := ((lc_initial cfg * lc_growth cfg ^ N.of_nat i) mod 2 ^ 64)%N.
(** The limits are positive as far down as [n] entries can reach: of every level whose predecessors can all be
    exceeded by fewer than [n] entries, some table may stay. *)
Definition limits_positive (cfg : lconfig) (n : N) : Prop :=
  forall i, (forall j, j < i -> (limit cfg j < n)%N) -> (0 < limit cfg i)%N.

Section LeveledSpec.
  Context {K V : Type} `{Cmp K}.
  (** No key is in the ranges of both tables. *)
  Definition apart (t t' : table K V) : Prop :=
    cmp (snd (t_range t)) (fst (t_range t')) = Lt \/ cmp (snd (t_range t')) (fst (t_range t)) = Lt.
  Definition levels_disjoint (m : lmeta K V) : Prop :=
    forall l a b x y, In l (lm_levels m) -> a <> b -> nth_error l a = Some x -> nth_error l b = Some y -> apart (snd x) (snd y).
End LeveledSpec.

(** After the calls a compaction is running that never ends, however many rounds it is given. *)
Definition never_ends {K V : Type} `{Cmp K} {Z : Sizes K V} (cfg : lconfig) (ops : list (lsm_op K V)) : Prop := exists s outs m,
  run (lsm_step (leveled cfg)) (lsm_new (leveled cfg)) ops = Ok (s, outs) /\ thr s = TRun m /\
  forall fuel, lv_compact_fuel cfg fuel (fun i => has (leveled cfg) s i || (fresh s <=? i)) (fresh s) m = Timeout.
