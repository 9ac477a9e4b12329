(** How many tables outside of the levels a flush of a map with [LeveledStrategy] leaves *)
From Verif Require Import ListLemmas OrdLemmas.
From Verif Require Export LeveledShapeProofs LeveledShapeSpec.

Section Loose.
  Context {K V : Type} `{CmpLaws K} {Z : Sizes K V} (cfg : lconfig).
  Notation St := (leveled cfg).
  Notation state := (lsm K V (lmeta K V)).
  Notation entry := (K * sval V)%type.
  Notation inv := (inv St (vinv cfg) lcomp (fun _ => True)).
  Notation L := (leveled_laws cfg).
  Notation cont := (cont St).
  Notation tm e := (sv_time (snd e)).

  Lemma replace_shrinks a s s' : inv a s -> try_replace St s = Ok s' -> shrink (cont (cur s)) (cont (cur s')).
  Proof.
    intros I E. unfold try_replace in E. destruct (nxt s) as [m'|] eqn:En; [|injection E as <-; now apply shrink_same].
    destruct (iv_nxt _ _ _ _ _ _ I _ En) as (m & ts & G & Cm & Im' & Sm & Hm' & Fm' & Dj & Old).
    destruct (lw_replace _ _ _ _ _ _ _ _ L _ _ _ _ _ G (iv_inv _ _ _ _ _ _ I) Cm Im' Sm Dj Old) as (_ & Sh & _).
    destruct (remove_dirs _ _) as [es| |]; try discriminate. cbn [bind] in E. injection E as <-. exact Sh.
  Qed.
  Lemma kept_latest E E' (e : entry) : shrink E E' -> latest E e -> has_data e = true -> latest E' e.
  Proof.
    intros [S1 S2] La D. apply (latest_sub E); auto. destruct (S2 _ La) as [J|[D' _]]; [exact J|congruence].
  Qed.
  Lemma flush_loose a s s' : inv a s -> jn St s -> llim cfg (time s) -> calm s -> ends_in_insertion s -> flush St s = Ok s' -> length (lm_tabs (cur s')) <= lc_max_count cfg.
  Proof.
    intros I J Li [Ct Ci] (e & Je & De' & Me) E.
    assert (De : has_data e = true) by (unfold has_data; destruct (sv_data (snd e)); congruence).
    assert (Cb : busy St s = false) by (unfold busy; now rewrite Ct).
    assert (Cl : locked St s = false).
    { unfold locked. destruct (existsb _ (iters s)) eqn:X; [|reflexivity]. apply existsb_exists in X. destruct X as (o & Jo & Q). now rewrite (Ci _ Jo) in Q. }
    unfold flush in E.
    assert (Ne : mem s <> []) by (intros X; now rewrite X in Je).
    replace (match mem s with [] => Ok s | _ => try_compact St s end) with (try_compact St s) in E by (destruct (mem s); [congruence|reflexivity]).
    unfold try_compact in E. destruct (tb_build_ok (fresh s) (length (mem s)) (mem s) Ne (iv_mem _ _ _ _ _ _ I)) as (t & Et & Ot & Es & It). rewrite Et in E. cbn [bind] in E.
    destruct (push_ok _ _ _ _ _ _ _ _ L a s t I Ne Ot Es It) as [I1 _]. set (s1 := mkLsm _ _ _ _ _ _ _ _ _ _) in *.
    change (busy St s1) with (busy St s) in E. change (locked St s1) with (locked St s) in E. rewrite Cb, Cl in E. cbn [orb] in E.
    destruct (try_replace_ok _ _ _ _ _ _ _ _ L a s1 I1) as [[[] _]|(s2 & E2 & a2 & <- & I2 & N2 & _ & Em & _ & Et2 & Eh & Ej & Ei & Ef & _)]. rewrite E2 in E. cbn [bind] in E.
    assert (La : latest (cont (cur s1)) e).
    { split; [apply (cont_push _ _ _ _ _ _ _ _ L); left; now rewrite Es|]. intros e' J' _. apply (cont_push _ _ _ _ _ _ _ _ L) in J'. destruct J' as [J'|J'].
      - rewrite Es in J'. now apply Me.
      - pose proof (iv_newer _ _ _ _ _ _ I e e' Je J'). lia. }
    assert (Bound : forall x, In x (cont (cur s1)) -> (tm x <= tm e)%N).
    { intros e' J'. apply (cont_push _ _ _ _ _ _ _ _ L) in J'. destruct J' as [J'|J'].
      - rewrite Es in J'. now apply Me.
      - pose proof (iv_newer _ _ _ _ _ _ I e e' Je J'). lia. }
    pose proof (replace_shrinks a s1 s2 I1 E2) as Sh2. pose proof (kept_latest _ _ _ Sh2 La De) as La2.
    assert (Th : thr s2 = TIdle). { rewrite Eh. change (thr s1) with (thr s). unfold busy in Cb. destruct (thr s); auto; discriminate. }
    assert (Lk2 : locked St s2 = false) by (unfold locked in *; rewrite Ei; exact Cl).
    destruct (st_due St (cur s2)) eqn:D.
    - pose proof (set_join_inv _ _ _ _ a _ true (set_thr_inv _ _ _ _ a s2 (TRun (cur s2)) I2 (or_intror (or_intror (or_intror (conj eq_refl (conj N2 (conj D (unlocked_idle _ _ _ _ _ _ I2 Lk2))))))))) as I3.
      cbn [mem usage time cur nxt thr joinable iters fresh log set_thr] in I3. set (s3 := mkLsm (mem s2) _ _ _ _ _ _ _ _ _) in *.
      change (joinable s3) with true in E. cbn iota in E. unfold join in E. change (joinable s3) with true in E. change (thr s3) with (TRun (cur s2)) in E. cbn iota in E.
      assert (Lt3 : llim cfg (time s3)). { change (time s3) with (time s2). rewrite Et2. exact Li. }
      destruct (thread_ok _ _ _ _ _ _ _ _ L a s3 (cur s2) I3 eq_refl Lt3) as [[[] _]|([m' fr] & Ec & _ & Cm & Im & Sh & _)].
      unfold work in E. rewrite Ec in E. cbn [bind] in E. unfold try_replace, unjoin in E. cbn [mem usage time cur nxt thr joinable iters fresh log] in E.
      destruct (remove_dirs _ _) as [es| |]; try discriminate. cbn [bind] in E. injection E as <-. cbn [cur].
      change (cur s3) with (cur s2). cbn [st_replace leveled]. unfold lv_replace. cbn [lm_tabs]. red in Cm. rewrite Cm. cbn [app].
      change (filter _ (lm_tabs (cur s2))) with (filter (stays m') (lm_tabs (cur s2))).
      pose proof (kept_latest _ _ _ Sh La2 De) as [Jm _]. unfold LsmMapProofs.cont in Jm. cbn [st_tables leveled] in Jm. unfold lv_tables in Jm. rewrite Cm in Jm. cbn [app] in Jm.
      assert (X : filter (stays m') (lm_tabs (cur s2)) = []); [|rewrite X; cbn; lia].
      pose proof (vi_tabs _ _ _ (iv_inv _ _ _ _ _ _ I2)) as Tk. rewrite Forall_forall in Tk.
      destruct (filter (stays m') (lm_tabs (cur s2))) as [|u us] eqn:F; [reflexivity|exfalso].
      assert (Ju : In u (filter (stays m') (lm_tabs (cur s2)))) by (rewrite F; now left). apply filter_In in Ju. destruct Ju as [Ju Su].
      destruct (ta_first _ (Tk _ Ju)) as (x & Jx & Qx).
      assert (Om : Forall tab_ok (level_tables (lm_levels m'))).
      { destruct (lw_basic _ _ _ _ _ _ _ _ L _ _ Im) as (Ot' & _). cbn [st_tables leveled] in Ot'. unfold lv_tables in Ot'. rewrite Cm in Ot'. exact Ot'. }
      pose proof (stays_newer m' u Om (Tk _ Ju) Su x e Jx Jm). assert (Jc : In x (cont (cur s2))). { apply in_run. exists u. split; [apply in_app_iff; now left|exact Jx]. }
      pose proof (Bound x (proj1 Sh2 x Jc)). lia.
    - cbn [st_due leveled] in D. apply Nat.ltb_ge in D. assert (X : cur s' = cur s2); [|now rewrite X].
      destruct (joinable s2) eqn:Jb; [|now injection E as <-]. unfold join in E. rewrite Jb, Th in E. cbn [bind] in E. unfold try_replace, unjoin in E. cbn [nxt] in E.
      rewrite N2 in E. now injection E as <-.
  Qed.
  Context (Ksize : forall k k' : K, cmp k k' = Eq -> ksize k = ksize k').
  Theorem loose_few (ops : list (lsm_op K V)) s outs s' out :
    limits_positive cfg (N.of_nat (length ops)) -> well_used sp_new ops -> run (lsm_step St) (lsm_new St) ops = Ok (s, outs) ->
    calm s -> ends_in_insertion s -> lsm_step St s LFlush = Ok (s', out) -> length (lm_tabs (cur s')) <= lc_max_count cfg.
  Proof.
    intros Li W E Cm Ew E'.
    destruct (total_run St (vinv cfg) lcomp (fun _ => True) (llim cfg) shrink L Ksize ops (limits_lim _ _ Li) W (covered_all ops)) as (s0 & outs0 & E0 & _ & I & J & Ti).
    rewrite E in E0. injection E0 as <- <-. cbn [lsm_step] in E'. destruct (flush St s) as [s1| |] eqn:F; try discriminate. cbn [bind] in E'. injection E' as <- _.
    eapply (flush_loose _ s); eauto. apply (lw_lim _ _ _ _ _ _ _ _ L _ _ (limits_lim _ _ Li)). exact Ti.
  Qed.
End Loose.

Section Barren.
  Context {K V : Type} `{CmpLaws K} {Z : Sizes K V} (cfg : lconfig).
  Notation St := (leveled cfg).
  Notation entry := (K * sval V)%type.
  (** A compaction of nothing but removals *)
  Lemma compact_barren has id (m m' : lmeta K V) id' : Forall tab_ok (lm_tabs m) -> Forall (t_ok has) (lm_tabs m) -> level_tables (lm_levels m) = [] -> length (lm_levels m) <= 1 ->
    (forall e, In e (run_entries (lm_tabs m)) -> has_data e = false) -> lv_compact cfg has id m = Ok (m', id') -> level_tables (lm_levels m') = [] /\ length (lm_levels m') <= 1 /\ lm_tabs m' = [].
  Proof.
    intros Tk Th Lt Ll Nd E. unfold lv_compact, lv_compact_fuel in E.
    replace (match lm_levels m with [] => [[]] | ls => ls end) with [@nil (K * table K V)] in E.
    2:{ destruct (lm_levels m) as [|l [|? ?]]; [reflexivity| |cbn in Ll; lia]. cbn in Lt. rewrite app_nil_r in Lt. now apply map_eq_nil in Lt as ->. }
    cbn [nth_error expect bind fold_left length Nat.eqb] in E. set (hint := list_sum _) in E. change (map snd []) with (@nil (table K V)) in E.
    destruct (merge_into_ok cfg has true hint id (map (fun t => [t]) (lm_tabs m) ++ [[]]) []) as (l' & i1 & ts & out & Em & Mo & Er & Ok' & Pe & _).
    - apply Forall_app. split; [|repeat constructor]. apply Forall_map. eapply Forall_impl; [|exact Th]. repeat constructor; auto.
    - apply Forall_app. split; [|repeat constructor]. apply Forall_map. eapply Forall_impl; [|exact Tk]. intros t O. cbn. rewrite app_nil_r. apply (ta_sorted _ O).
    - split; constructor.
    - intros a [].
    - rewrite Em in E. cbn [bind list_set] in E.
      assert (Ko : kept true out = []).
      { unfold kept. destruct (filter _ out) as [|e r] eqn:F; [reflexivity|exfalso]. assert (J : In e (filter (fun e => negb true || has_data e) out)) by (rewrite F; now left).
        apply filter_In in J. destruct J as [J D]. cbn in D. destruct Mo as (_ & Ml & _). apply Ml in J. destruct J as [J _]. apply in_flat_map in J. destruct J as (r' & Jr & Je).
        apply in_app_iff in Jr. destruct Jr as [Jr|[<-|[]]]; [|destruct Je]. apply in_map_iff in Jr. destruct Jr as (t & <- & Jt). rewrite Nd in D; [discriminate|].
        apply in_run. exists t. split; [exact Jt|]. cbn in Je. now rewrite app_nil_r in Je. }
      rewrite Ko in Er. cbn [map] in Pe. rewrite app_nil_r in Pe.
      assert (ts = []).
      { destruct ts as [|t ts]; [reflexivity|exfalso]. assert (J : In t (map snd l')) by (rewrite Pe; now left). apply in_map_iff in J. destruct J as (a & Q & J).
        assert (O : tab_ok (snd a)) by (apply (proj1 (Forall_forall _ _) (proj1 Ok') _ J)). rewrite Q in O. apply (ta_ne _ O). cbn in Er. now apply app_eq_nil in Er. }
      subst ts. apply Permutation_sym, Permutation_nil, map_eq_nil in Pe. subst l'.
      replace (outer cfg (rounds m) has hint i1 0 [[]]) with (Ok ([@nil (K * table K V)], i1)) in E.
      + cbn [bind] in E. injection E as <- _. cbn. auto.
      + unfold rounds. rewrite Nat.add_comm. cbn [outer Nat.add length Nat.eqb nth_error expect bind inner]. unfold should_merge. cbn [nth_error length].
        replace (max_len cfg 0 <? N.of_nat 0)%N with false by (symmetry; apply N.ltb_ge; lia). cbn [bind]. destruct (_ + _); reflexivity.
  Qed.
End Barren.
