(** Vocabulary for what SkipMap's intersection does: the draws behind the keys.  Nothing here refers to any
    model. *)
From Coq Require Export NArith.
From Verif Require Export SkipSpec.

Section SkipInterSpec.
  Context {K V : Type} `{Cmp K}.

  (** The same call on a map that keeps, for each key, the number drawn by its last insertion. *)
  Definition draw_op (o : map_op K V * N) : map_op K N :=
    match fst o with
    | MInsert k _ => MInsert k (snd o)
    | MRemove k => MRemove k
    | MClear | MIntoIter => MClear
    | _ => MLen
    end.
  Definition last_draws (ops : list (map_op K V * N)) : list (K * N) :=
    fst (spec_run map_spec_step [] (map draw_op ops)).

  (** The numbers behind the keys that are also keys of [r], in the order of the keys, as 32-bit numbers. *)
  Definition common_draws (ops : list (map_op K V * N)) (r : list (K * V)) : list N :=
    map (fun p => (snd p mod 2 ^ 32)%N) (filter (fun p => has_key (fst p) r) (last_draws ops)).
End SkipInterSpec.

(** Each number has more binary digits than the one before it, or the one before it is 0. *)
Fixpoint growing (l : list N) : bool :=
  match l with
  | a :: r =>
      match r with
      | [] => true
      | b :: _ => ((N.size a <? N.size b)%N || (a =? 0)%N) && growing r
      end
  | [] => true
  end.
