(** Vocabulary for iterators that yield errors. *)
From Verif Require Export LsmTableSpec LsmScanModel.

Section ScanSpec.
  Context {A : Type}.
  (** The items are those of [l], or they begin like [l] up to an [Err]. *)
  Definition cut (l : list A) (items : list (option A)) : Prop :=
    items = map Some l \/ exists p r q, l = p ++ r /\ items = map Some p ++ None :: q.
  Definition oks (items : list (option A)) : list A := flat_map (fun x => match x with Some e => [e] | None => [] end) items.
  Definition errors (items : list (option A)) : nat := length (filter (fun x => match x with Some _ => false | None => true end) items).
End ScanSpec.
