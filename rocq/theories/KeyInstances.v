(** Concrete key types used in the examples. *)
From Verif Require Export Base.
From Coq Require Export NArith.

#[export] Instance nat_cmp : Cmp nat := Nat.compare.

#[export] Instance nat_laws : CmpLaws nat.
Proof.
  constructor; unfold cmp, nat_cmp.
  - intros x y. apply Nat.compare_antisym.
  - intros x y z. rewrite !Nat.compare_lt_iff. lia.
  - intros x y z E. apply Nat.compare_eq in E. now subst.
Qed.

(** Keys that are compared by their first component only, so [Equal] is not identity. *)
Definition tagged : Type := nat * nat.
#[export] Instance tagged_cmp : Cmp tagged := fun x y => Nat.compare (fst x) (fst y).

#[export] Instance tagged_laws : CmpLaws tagged.
Proof.
  constructor; unfold cmp, tagged_cmp.
  - intros x y. apply Nat.compare_antisym.
  - intros x y z. rewrite !Nat.compare_lt_iff. lia.
  - intros x y z E. apply Nat.compare_eq in E. now rewrite E.
Qed.
