(** Vocabulary for PropertiesLeveledShape.v *)
From Verif Require Export LeveledModel LsmSpec.

Section Spec.
  Context {K V M : Type}.
  (** No compaction is under way and no iterator is kept. *)
  Definition calm (s : lsm K V M) : Prop := thr s = TIdle /\ forall o, In o (iters s) -> o = None.
  (** The newest entry in memory is not a removal. *)
  Definition ends_in_insertion (s : lsm K V M) : Prop :=
    exists e, In e (mem s) /\ sv_data (snd e) <> None /\ forall e', In e' (mem s) -> (sv_time (snd e') <= sv_time (snd e))%N.
End Spec.
