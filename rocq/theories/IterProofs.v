(** Any machine that returns what the ordered map specification returns has correct iterators. *)
From Verif Require Export OrdLemmas BstProofs.

Section IterProofs.
  Context {K V : Type} `{CmpLaws K}.

  Lemma map_spec_sorted (ops : list (map_op K V)) : forall l, sorted l -> sorted (fst (spec_run map_spec_step l ops)).
  Proof.
    induction ops as [|o ops IH]; intros l S; [exact S|]. cbn [spec_run].
    assert (S1 : sorted (fst (map_spec_step l o))).
    { destruct o; simpl; auto using sorted_insert, sorted_delete, sorted_update, sorted_nil, sorted_write_vals. }
    destruct (map_spec_step l o) as [l1 r]. simpl in S1. specialize (IH l1 S1).
    destruct (spec_run map_spec_step l1 ops). exact IH.
  Qed.

  Lemma spec_run_app {S O R} (step : S -> O -> S * R) ops1 ops2 s :
    spec_run step s (ops1 ++ ops2) =
      (fst (spec_run step (fst (spec_run step s ops1)) ops2),
       snd (spec_run step s ops1) ++ snd (spec_run step (fst (spec_run step s ops1)) ops2)).
  Proof.
    revert s. induction ops1 as [|o ops1 IH]; intros s; simpl.
    - now destruct (spec_run step s ops2).
    - destruct (step s o) as [s1 r]. rewrite IH. destruct (spec_run step s1 ops1) as [s2 rs]. reflexivity.
  Qed.

  Lemma refines_iterators (obs : list (map_op K V) -> res (list (map_out K V))) :
    (forall ops, obs ops = Ok (map_spec_outputs ops)) -> iterators_correct obs.
  Proof.
    intros HR ops k vs. pose proof (map_spec_sorted ops [] sorted_nil) as S.
    set (l := fst (spec_run map_spec_step [] ops)) in *.
    exists (map_spec_outputs ops), (option_map snd (hd_error (at_key k l))), l. split; [|split].
    - rewrite HR. unfold map_spec_outputs at 1, spec_outputs. rewrite spec_run_app. fold l. reflexivity.
    - exact S.
    - intros v. destruct (at_key_cases l k S) as [E|(e & E & Ce)]; rewrite E; simpl.
      + split; [discriminate|]. intros (k' & Ck & I).
        assert (I' : In (k', v) (at_key k l)) by (apply in_at; auto). rewrite E in I'. destruct I'.
      + split.
        * intros Ev; injection Ev as <-. exists (fst e). split; [now apply cmp_eq_sym|].
          assert (I' : In e (at_key k l)) by (rewrite E; left; reflexivity). apply in_at in I'. now destruct e.
        * intros (k' & Ck & I). assert (I' : In (k', v) (at_key k l)) by (apply in_at; auto).
          rewrite E in I'. destruct I' as [->|[]]. reflexivity.
  Qed.
End IterProofs.
