(** Facts about lists used by several proofs. *)
From Verif Require Export Base.

Lemma list_set_nth {A} (l : list A) : forall i x j,
  nth_error (list_set l i x) j = if i =? j then (if i <? length l then Some x else None) else nth_error l j.
Proof.
  induction l as [|y l IH]; intros i x j; simpl.
  - destruct i, j; simpl; auto. now destruct (_ =? _).
  - destruct i, j; simpl; auto. rewrite IH. reflexivity.
Qed.
Lemma list_set_length {A} (l : list A) : forall i x, length (list_set l i x) = length l.
Proof. induction l; intros [|i] x; simpl; auto. Qed.
Lemma nth_error_ext' {A} : forall l l' : list A, (forall i, nth_error l i = nth_error l' i) -> l = l'.
Proof.
  induction l as [|x l IH]; intros [|y l'] E; auto; try (specialize (E 0); discriminate).
  pose proof (E 0) as E0. injection E0 as ->. f_equal. apply IH. intros i. apply (E (S i)).
Qed.
Lemma NoDup_mid {A} (l m r : list A) : NoDup (l ++ m ++ r) -> NoDup (l ++ r).
Proof.
  induction m as [|x m IH]; auto. intros P. apply IH. now apply NoDup_remove_1 in P.
Qed.
Lemma NoDup_left {A} (l r : list A) : NoDup (l ++ r) -> NoDup l.
Proof. intros P. rewrite <- (app_nil_r l). apply (NoDup_mid l r []). now rewrite app_nil_r. Qed.
Lemma NoDup_right {A} (l r : list A) : NoDup (l ++ r) -> NoDup r.
Proof. intros P. now apply (NoDup_mid [] l r). Qed.
Lemma skipn_add {A} (a b : nat) (l : list A) : skipn a (skipn b l) = skipn (b + a) l.
Proof. revert l. induction b as [|b IH]; intros l; [reflexivity|]. destruct l; [now rewrite !skipn_nil|]. apply IH. Qed.
