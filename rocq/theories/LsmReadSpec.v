(** Vocabulary for which tables a lookup opens. *)
From Verif Require Export LsmReadModel LeveledSpec.

(** The elements up to the first that satisfies [p], which is included *)
Fixpoint until_first {A} (p : A -> bool) (l : list A) : list A :=
  match l with
  | [] => []
  | x :: r => x :: if p x then [] else until_first p r
  end.

Section LsmReadSpec.
  Context {K V : Type} `{Cmp K}.
  Notation table := (table K V).
  (** The key is between the first and the last key of the table. *)
  Definition covers (k : K) (t : table) : bool := negb (is_gt (cmp (fst (t_range t)) k)) && negb (is_gt (cmp k (snd (t_range t)))).
  (** The table has a version of the key. *)
  Definition holds (k : K) (t : table) : bool := existsb (fun e => is_eq (cmp (fst e) k)) (t_es t).
  (** The Bloom filters of the tables have no false negatives for the key. *)
  Definition sound (sieve : nat -> K -> bool) (k : K) (ts : list table) : Prop := forall t, In t ts -> holds k t = true -> sieve (t_id t) k = true.

  Definition candidates (sieve : nat -> K -> bool) (k : K) (ts : list table) : list table := filter (fun t => covers k t && sieve (t_id t) k) ts.
  (** All candidates outside of the levels; if none holds the key, the candidates of the levels from the top to the first that does. *)
  Definition leveled_opens (sieve : nat -> K -> bool) (k : K) (m : lmeta K V) : list table :=
    let loose := candidates sieve k (lm_tabs m) in
    if existsb (holds k) loose then loose
    else loose ++ until_first (holds k) (flat_map (fun l => candidates sieve k (map snd l)) (lm_levels m)).
  Definition in_memory {M} (s : lsm K V M) (k : K) : bool := existsb (fun e => is_eq (cmp (fst e) k)) (mem s).
End LsmReadSpec.
