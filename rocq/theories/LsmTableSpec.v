(** Vocabulary for the properties of merging iterators. *)
From Verif Require Export LsmTableModel MapSpec.

Section LsmTableSpec.
  Context {K V : Type} `{Cmp K}.
  Notation entry := (K * sval V)%type.
  (** [e] is one of the entries and no entry with an equal key is newer. *)
  Definition latest (es : list entry) (e : entry) : Prop :=
    In e es /\ forall e', In e' es -> cmp (fst e') (fst e) = Eq -> (sv_time (snd e') <= sv_time (snd e))%N.
  (** [out] holds each key of [es] once, in ascending order, with its newest version. *)
  Definition merge_of (es out : list entry) : Prop :=
    strictly_ascending out /\ (forall e, In e out -> latest es e) /\
    (forall e, In e es -> exists e', In e' out /\ cmp (fst e') (fst e) = Eq).
  (** What is left when deleted keys are taken out *)
  Definition live (es : list entry) : list (K * V) :=
    flat_map (fun e => match sv_data (snd e) with Some d => [(fst e, d)] | None => [] end) es.
  (** The entries of a run of tables *)
  Definition run_entries (ts : list (table K V)) : list entry := flat_map t_es ts.
End LsmTableSpec.
