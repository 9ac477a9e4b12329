(** Facts about SeqSpec.v. *)
From Verif Require Export SeqSpec OrdLemmas ListLemmas.

Section SeqLemmas.
  Context {T : Type}.
  Implicit Types (l r : list T) (v : T).

  Lemma firstn_app_l n l r : n <= length l -> firstn n (l ++ r) = firstn n l.
  Proof. intros L. rewrite firstn_app. replace (n - length l) with 0 by lia. now rewrite app_nil_r. Qed.
  Lemma skipn_app_l n l r : n <= length l -> skipn n (l ++ r) = skipn n l ++ r.
  Proof. intros L. rewrite skipn_app. now replace (n - length l) with 0 by lia. Qed.
  Lemma firstn_app_r n l r : firstn (length l + n) (l ++ r) = l ++ firstn n r.
  Proof. rewrite firstn_app, firstn_all2 by lia. now replace (length l + n - length l) with n by lia. Qed.
  Lemma skipn_app_r n l r : skipn (length l + n) (l ++ r) = skipn n r.
  Proof. rewrite skipn_app, skipn_all2 by lia. now replace (length l + n - length l) with n by lia. Qed.

  Lemma insert_nth_length l v : insert_nth (length l) v l = l ++ [v].
  Proof. unfold insert_nth. now rewrite firstn_all, skipn_all. Qed.

  Lemma remove_nth_last l : l <> [] -> remove_nth (length l - 1) l = removelast l /\
    nth_error l (length l - 1) = last_error l.
  Proof.
    intros N. destruct (exists_last N) as (l' & x & ->). rewrite app_length. simpl.
    replace (length l' + 1 - 1) with (length l' + 0) by lia. split.
    - unfold remove_nth. rewrite firstn_app_r. replace (S (length l' + 0)) with (length l' + 1) by lia.
      rewrite skipn_app_r. simpl. rewrite removelast_last, !app_nil_r. reflexivity.
    - rewrite last_error_app, nth_error_app2 by lia. now replace (length l' + 0 - length l') with 0 by lia.
  Qed.

  Lemma nth_error_none_iff l i : nth_error l i = None <-> length l <= i.
  Proof. apply nth_error_None. Qed.
End SeqLemmas.
