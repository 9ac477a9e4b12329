(** A tactic for permutations of lists built from the same pieces. *)
From Coq Require Export List Permutation.
Export ListNotations.

Section PermLemmas.
  Context {A : Type}.
  Implicit Types (a b r : list A) (x y : A).
  Lemma pf_eq a : Permutation a (a ++ []).
  Proof. now rewrite app_nil_r. Qed.
  Lemma pf_left a b b' r : Permutation b (a ++ b') -> Permutation (b ++ r) (a ++ (b' ++ r)).
  Proof. intros P. rewrite app_assoc. now apply Permutation_app_tail. Qed.
  Lemma pf_right a b r r' : Permutation r (a ++ r') -> Permutation (b ++ r) (a ++ (b ++ r')).
  Proof.
    intros P. rewrite P. rewrite !app_assoc. apply Permutation_app_tail. apply Permutation_app_comm.
  Qed.
  Lemma pf_skip a y r r' : Permutation r (a ++ r') -> Permutation (y :: r) (a ++ (y :: r')).
  Proof. intros P. rewrite P. apply Permutation_middle. Qed.
  Lemma pc_left x b b' r : Permutation b (x :: b') -> Permutation (b ++ r) (x :: (b' ++ r)).
  Proof. intros P. now rewrite P. Qed.
  Lemma pc_right x b r r' : Permutation r (x :: r') -> Permutation (b ++ r) (x :: (b ++ r')).
  Proof. intros P. rewrite P. symmetry. apply Permutation_middle. Qed.
  Lemma pc_skip x y r r' : Permutation r (x :: r') -> Permutation (y :: r) (x :: (y :: r')).
  Proof. intros P. rewrite P. apply perm_swap. Qed.
  Lemma perm_via_app a X Y Y' : Permutation Y (a ++ Y') -> Permutation X Y' -> Permutation (a ++ X) Y.
  Proof. intros P Q. rewrite P. now apply Permutation_app_head. Qed.
  Lemma perm_via_cons x X Y Y' : Permutation Y (x :: Y') -> Permutation X Y' -> Permutation (x :: X) Y.
  Proof. intros P Q. rewrite P. now apply perm_skip. Qed.
  Lemma perm_via_one a Y : Permutation Y (a ++ []) -> Permutation a Y.
  Proof. intros P. rewrite P. now rewrite app_nil_r. Qed.
End PermLemmas.

(** Goal [Permutation Y (a ++ ?Y')] with [Y'] to be found. *)
Ltac perm_find_app :=
  lazymatch goal with
  | |- Permutation ?Y (?a ++ _) =>
      first
      [ lazymatch Y with
        | ?b ++ ?r => constr_eq a b; apply Permutation_refl
        | ?b => constr_eq a b; apply pf_eq
        end
      | lazymatch Y with
        | ?y :: ?r => eapply pf_skip; perm_find_app
        | ?b ++ ?r => first [eapply pf_left; perm_find_app | eapply pf_right; perm_find_app]
        end ]
  end.
(** Goal [Permutation Y (x :: ?Y')]. *)
Ltac perm_find_cons :=
  lazymatch goal with
  | |- Permutation ?Y (?x :: _) =>
      first
      [ lazymatch Y with ?y :: ?r => constr_eq x y; apply Permutation_refl end
      | lazymatch Y with
        | ?y :: ?r => eapply pc_skip; perm_find_cons
        | ?b ++ ?r => first [eapply pc_left; perm_find_cons | eapply pc_right; perm_find_cons]
        end ]
  end.
Ltac perm :=
  lazymatch goal with
  | |- Permutation ?X ?X => apply Permutation_refl
  | |- Permutation ([] ++ ?X) _ => change ([] ++ X) with X; perm
  | |- Permutation ((?a ++ ?b) ++ ?c) _ => rewrite <- (app_assoc a b c); perm
  | |- Permutation ((?x :: ?b) ++ ?c) _ => change ((x :: b) ++ c) with (x :: b ++ c); perm
  | |- Permutation (?x :: ?X) _ => eapply perm_via_cons; [perm_find_cons|]; perm
  | |- Permutation (?a ++ ?X) _ => eapply perm_via_app; [perm_find_app|]; perm
  | |- Permutation [] _ => cbn [app]; rewrite ?app_nil_r; cbn [app]; rewrite ?app_nil_r; apply perm_nil
  | |- Permutation ?a _ => eapply perm_trans; [apply pf_eq|]; eapply perm_via_app; [perm_find_app|]; perm
  end.

Goal forall (x y : nat) (a b c : list nat), Permutation (x :: (a ++ y :: b) ++ c) (c ++ (y :: a) ++ b ++ [x]).
Proof. intros. perm. Qed.
