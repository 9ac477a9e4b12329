(** The laws of LsmMapProofs.v for the size-tiered strategy. *)
From Verif Require Import ListLemmas OrdLemmas.
From Verif Require Export SizeTieredSpec LsmMapProofs LeveledLaws.

Section SizeTiered.
  Context {K V : Type} `{CmpLaws K} {Z : Sizes K V}.
  Notation sval := (sval V).
  Notation entry := (K * sval)%type.
  Notation table := (table K V).
  Notation tm e := (sv_time (snd e)).
  Context (cfg : sconfig).

  Record zinv (W : N) (ts : list table) : Prop := mkZinv {
    zi_tabs : Forall tab_ok ts;
    zi_nd : NoDup (map t_id ts);
    zi_uniq : uniq (run_entries ts);
    zi_time : forall e, In e (run_entries ts) -> (tm e < W)%N }.
  (** A compaction keeps something as new as everything. *)
  Definition zcomp (ts ts' : list table) : Prop := forall e, In e (run_entries ts) -> exists e', In e' (run_entries ts') /\ (tm e <= tm e')%N.

  Lemma zinv_push W ts t : zinv W ts -> tab_ok t -> uniq (t_es t) -> (forall e, In e (t_es t) -> (tm e < W)%N) ->
    (forall e e', In e (t_es t) -> In e' (run_entries ts) -> (tm e' < tm e)%N) -> ~ In (t_id t) (map t_id ts) -> zinv W (ts ++ [t]).
  Proof.
    intros [Z1 Z2 Z3 Z4] O U Tm Nw Ni. assert (Q : forall e, In e (run_entries (ts ++ [t])) <-> In e (run_entries ts) \/ In e (t_es t)).
    { intros e. rewrite run_app, in_app_iff. cbn. now rewrite app_nil_r. }
    constructor.
    - apply Forall_app. auto.
    - rewrite map_app. cbn. apply (Permutation_NoDup (Permutation_cons_append _ _)). now constructor.
    - intros e e' J J' E. apply Q in J. apply Q in J'. destruct J as [J|J], J' as [J'|J'].
      + now apply Z3.
      + pose proof (Nw _ _ J' J). lia.
      + pose proof (Nw _ _ J J'). lia.
      + now apply U.
    - intros e J. apply Q in J. destruct J; auto.
  Qed.

  (** *** Sorting *)
  Lemma size_insert_perm (t : table) l : Permutation (size_insert t l) (t :: l).
  Proof.
    induction l as [|x l IH]; cbn [size_insert]; [reflexivity|]. destruct (t_size t <=? t_size x)%N; [reflexivity|].
    rewrite IH. apply perm_swap.
  Qed.
  Lemma by_size_perm (l : list table) : Permutation (by_size l) l.
  Proof. induction l as [|t l IH]; [reflexivity|]. cbn [by_size fold_right]. rewrite size_insert_perm. now constructor. Qed.
  Lemma find_range_le (ts : list table) : forall start curr first sum a b, start <= curr -> find_range cfg start curr first sum ts = Some (a, b) ->
    a <= b /\ b <= curr + length ts.
  Proof.
    induction ts as [|t ts IH]; intros start curr first sum a b Le E; cbn [find_range length] in *.
    - destruct (sc_max_count cfg <? curr - start); [|discriminate]. injection E as <- <-. lia.
    - destruct (_ || _).
      + apply IH in E; lia.
      + destruct (sc_max_count cfg <? S curr - start); [injection E as <- <-; lia|]. apply IH in E; lia.
  Qed.

  Lemma newest_spec (ts : list table) : Forall tab_ok ts -> forall e, In e (run_entries ts) -> exists x, newest ts = Some x /\ (tm e <= x)%N.
  Proof.
    intros F e J. apply in_run in J. destruct J as (t & Jt & Je). destruct (newest_ge ts t Jt) as (x & E & L). exists x. split; [exact E|].
    pose proof (ta_times _ (proj1 (Forall_forall _ _) F t Jt) e Je). lia.
  Qed.

  Lemma sz_compact_ok W ts (has : nat -> bool) id : zinv W ts -> (if compaction_range cfg ts then true else false) = true -> Forall (t_ok has) ts ->
    Forall (fun t => t_id t < id) ts ->
    exists ts' id', sz_compact cfg has id ts = Ok (ts', id') /\ id <= id' /\ (risky cfg ts = false -> zcomp ts ts') /\ zinv W ts' /\ shrink (run_entries ts) (run_entries ts') /\
      (forall t, In t ts' -> In t ts \/ id <= t_id t < id').
  Proof.
    intros I Du Hs Id. unfold sz_compact. assert (Rk := eq_refl (risky cfg ts)). unfold risky in Rk at 2. destruct (compaction_range cfg ts) as [[a b]|] eqn:Rg; [|discriminate]. clear Du.
    pose proof (find_range_le _ 0 0 None 0 a b (le_n 0) Rg) as [Lab Lb]. cbn in Lb. pose proof (by_size_perm ts) as P. set (l := by_size ts) in *.
    unfold merge_range. cbn [fst snd]. set (old := firstn (b - a) (skipn a l)). set (rest := firstn a l ++ skipn b l).
    assert (Pl : Permutation ts (rest ++ old)).
    { rewrite <- P. unfold rest, old. rewrite <- (firstn_skipn a l) at 1. rewrite <- (firstn_skipn (b - a) (skipn a l)) at 1.
      replace (skipn (b - a) (skipn a l)) with (skipn b l) by (rewrite skipn_add; f_equal; lia). perm. }
    assert (Sub : forall t, In t ts <-> In t rest \/ In t old) by (intros t; rewrite <- in_app_iff; split; apply Permutation_in; [exact Pl|now symmetry]).
    assert (Re : forall e, In e (run_entries ts) <-> In e (run_entries rest ++ run_entries old)).
    { intros e. rewrite <- run_app. split; apply Permutation_in; [|symmetry]; now apply run_entries_perm. }
    assert (Ot : Forall tab_ok rest /\ Forall tab_ok old).
    { rewrite <- Forall_app. eapply Permutation_Forall; [exact Pl|apply I]. }
    assert (Oh : Forall (t_ok has) rest /\ Forall (t_ok has) old).
    { rewrite <- Forall_app. eapply Permutation_Forall; [exact Pl|exact Hs]. }
    destruct Ot as [Or Oo], Oh as [Hr Ho].
    assert (U : uniq (run_entries rest ++ run_entries old)) by (eapply uniq_sub; [|apply (zi_uniq _ _ I)]; intros e; apply Re).
    destruct (merge_tables_ok has (map (fun t => [t]) old)) as (es & -> & M).
    { apply Forall_map. eapply Forall_impl; [|exact Ho]. intros t X. repeat constructor. exact X. }
    { apply Forall_map. eapply Forall_impl; [|exact Oo]. intros t X. cbn. rewrite app_nil_r. apply X. }
    rewrite runs_single in M. cbn [bind]. set (purge := purgeable old rest).
    assert (Pu : purge = true -> forall e e', In e (run_entries old) -> In e' (run_entries rest) -> (tm e < tm e')%N).
    { intros Q e e' J J'. unfold purge, purgeable in Q. rewrite forallb_forall in Q. apply in_run in J'. destruct J' as (t & Jt & Je). specialize (Q t Jt).
      apply andb_true_iff in Q. destruct Q as [Q _]. destruct (newest_spec old Oo e J) as (x & E & L). rewrite E in Q. apply N.ltb_lt in Q.
      pose proof (ta_times _ (proj1 (Forall_forall _ _) Or t Jt) e' Je). lia. }
    pose proof (merge_shrink _ _ es purge U M (fun Q e e' J J' _ => Pu Q e e' J J')) as Sh.
    set (keep := filter (fun e => negb purge || has_data e) es) in *.
    assert (Sk : sorted keep) by (apply sorted_filter; apply M).
    (* something as new as everything is kept *)
    assert (Nw : risky cfg ts = false -> forall e, In e (run_entries ts) -> exists e', In e' (run_entries rest ++ keep) /\ (tm e <= tm e')%N).
    { intros Rf e J. apply Re in J. apply in_app_iff in J. destruct J as [J|J]; [exists e; split; [apply in_app_iff; auto|lia]|].
      destruct (newest_spec old Oo e J) as (x & Ex & Lx). destruct (newest_attained old Oo x Ex) as (g & Jg & <-).
      assert (Mx : forall e', In e' (run_entries old) -> (tm e' <= tm g)%N).
      { intros e' J'. destruct (newest_spec old Oo e' J') as (x & Ex' & Lx'). rewrite Ex in Ex'. injection Ex' as <-. exact Lx'. }
      assert (Jo : In g es).
      { apply (merge_latest (run_entries old)); auto. 
        - eapply uniq_sub; [|exact U]. intros; apply in_app_iff; auto.
        - split; [exact Jg|]. intros e' J' _. now apply Mx. }
      destruct (negb purge || has_data g) eqn:Kp; [exists g; split; [apply in_app_iff; right; apply filter_In; auto|exact Lx]|].
      apply orb_false_iff in Kp. destruct Kp as [Kp Dd]. apply negb_false_iff in Kp.
      assert (Er : rest = rest) by reflexivity. destruct rest as [|t rest'] in Er at 2 |- *.
      - exfalso. assert (La : a = 0).
        { unfold rest in Er. apply (f_equal (@length _)) in Er. rewrite app_length, firstn_length in Er. cbn in Er. lia. }
        subst a. assert (Ll : length ts <= b).
        { unfold rest in Er. apply (f_equal (@length _)) in Er. rewrite app_length, skipn_length in Er. cbn in Er. rewrite <- (Permutation_length P). lia. }
        apply Nat.leb_le in Ll. rewrite Ll, Rf in Rk. cbn [andb] in Rk.
        enough (X : newest_dead (run_entries ts) = true) by congruence.
        apply existsb_exists. exists g. split; [apply Re, in_app_iff; auto|]. unfold has_data in Dd. destruct (sv_data (snd g)); [discriminate|].
        apply forallb_forall. intros e' J'. apply N.leb_le. apply Mx. apply Re in J'. now rewrite Er in J'.
      - assert (Jt : In t rest) by (rewrite Er; now left). destruct (ta_first t (proj1 (Forall_forall _ _) Or t Jt)) as (e' & Je & _).
        assert (Jr : In e' (run_entries rest)) by (apply in_run; eauto). exists e'. split; [rewrite <- Er; apply in_app_iff; auto|]. pose proof (Pu Kp g e' Jg Jr). lia. }
    destruct (rep_appends keep (tb_new id (list_sum (map t_count old))) [] (rep_new _ _)) as [Rp Ri]. cbn [app] in Rp.
    set (bd := fold_left tb_append keep _) in *.
    assert (Sts : shrink (run_entries ts) (run_entries rest ++ keep)).
    { eapply shrink_trans; [|exact Sh]. apply shrink_same. exact Re. }
    assert (Nd : NoDup (map t_id rest)).
    { pose proof (Permutation_map t_id Pl) as Pm. rewrite map_app in Pm. eapply NoDup_left, Permutation_NoDup; [exact Pm|apply I]. }
    assert (Iz : forall ts', (forall e, In e (run_entries ts') <-> In e (run_entries rest ++ keep)) -> Forall tab_ok ts' -> NoDup (map t_id ts') ->
      (risky cfg ts = false -> zcomp ts ts') /\ zinv W ts' /\ shrink (run_entries ts) (run_entries ts')).
    { intros ts' Et Ot Nt. split; [|split].
      - intros Rf e J. destruct (Nw Rf e J) as (e' & J' & Le). exists e'. split; [now apply Et|exact Le].
      - constructor; auto.
        + eapply uniq_sub; [|apply (zi_uniq _ _ I)]. intros e J. apply Sts. now apply Et.
        + intros e J. apply (zi_time _ _ I). apply Sts. now apply Et.
      - eapply shrink_trans; [exact Sts|]. apply shrink_same. intros e. symmetry. apply Et. }
    destruct (tb_range bd) as [rg|] eqn:Eb.
    - assert (Ne : keep <> []). { intros Q. rewrite (proj2 (rep_range_none _ _ Rp) Q) in Eb. discriminate. }
      destruct (rep_flush _ _ Rp Ne Sk) as (t & -> & Ot & Et & Ei). cbn [bind]. exists (rest ++ [t]), (S id). cbn [tb_new tb_id] in Ri. rewrite Ri in Ei.
      split; [reflexivity|]. split; [lia|]. destruct (Iz (rest ++ [t])) as (I1 & I2 & I3).
      + intros e. rewrite run_app, !in_app_iff. cbn. rewrite app_nil_r, Et. reflexivity.
      + apply Forall_app. auto.
      + rewrite map_app. cbn. apply (Permutation_NoDup (Permutation_cons_append _ _)). constructor; [|exact Nd].
        rewrite Ei. intros J. apply in_map_iff in J. destruct J as (t' & Q & J). rewrite Forall_forall in Id. pose proof (Id t' (proj2 (Sub t') (or_introl J))). lia.
      + repeat split; auto; try apply I2; try apply I3. intros t' J. apply in_app_iff in J. destruct J as [J|[<-|[]]]; [left; apply Sub; auto|right; lia].
    - exists rest, (S id). split; [reflexivity|]. split; [lia|]. assert (Q : keep = []) by now apply (rep_range_none _ _ Rp).
      destruct (Iz rest) as (I1 & I2 & I3); auto.
      + intros e. rewrite Q, app_nil_r. reflexivity.
      + repeat split; auto; try apply I2; try apply I3. intros t' J. left. apply Sub. auto.
  Qed.

  (** *** Replacing the metadata *)
  Lemma pushes_app (ts : list table) : forall m, fold_left (fun ts t => ts ++ [t]) ts m = m ++ ts.
  Proof. induction ts as [|t ts IH]; intros m; cbn [fold_left]; [now rewrite app_nil_r|]. rewrite IH, <- app_assoc. reflexivity. Qed.
  Lemma filter_none {A} (f : A -> bool) l : (forall x, In x l -> f x = false) -> filter f l = [].
  Proof. induction l as [|x l IH]; intros F; [reflexivity|]. cbn. rewrite (F x (or_introl eq_refl)). apply IH. intros y J. apply F. now right. Qed.
  Lemma filter_all {A} (f : A -> bool) l : (forall x, In x l -> f x = true) -> filter f l = l.
  Proof. induction l as [|x l IH]; intros F; [reflexivity|]. cbn. rewrite (F x (or_introl eq_refl)). f_equal. apply IH. intros y J. apply F. now right. Qed.
  Lemma sz_replace_eq W m ts m' : zinv W m -> zinv W (m ++ ts) -> zinv W m' -> zcomp m m' -> (forall e, In e (run_entries m') -> In e (run_entries m)) ->
    (forall e e', In e (run_entries ts) -> In e' (run_entries m) -> (tm e' < tm e)%N) -> sz_replace (m ++ ts) m' = m' ++ ts.
  Proof.
    intros I Ic I' Cm Sb Nw. unfold sz_replace. f_equal. rewrite filter_app. rewrite filter_none, filter_all; [reflexivity| |].
    - intros t J. assert (Ot : tab_ok t). { apply (proj1 (Forall_forall _ _) (zi_tabs _ _ Ic)). apply in_app_iff. auto. }
      destruct (newest m') as [x|] eqn:E; [|reflexivity]. apply N.ltb_lt. destruct (newest_attained _ (zi_tabs _ _ I') x E) as (e' & J' & <-).
      destruct (ta_last _ Ot) as (e & Je & <-). apply Nw; [apply in_run; eauto|auto].
    - intros t J. pose proof (proj1 (Forall_forall _ _) (zi_tabs _ _ I) t J) as Ot. destruct (ta_last _ Ot) as (e & Je & Te).
      destruct (Cm e) as (e' & J' & Le); [apply in_run; eauto|]. destruct (newest_spec _ (zi_tabs _ _ I') e' J') as (x & -> & Lx). apply N.ltb_ge. lia.
  Qed.
  Lemma sz_replace_ok W m ts m' : zinv W m -> zinv W (m ++ ts) -> zinv W m' -> zcomp m m' -> shrink (run_entries m) (run_entries m') ->
    (forall e e', In e (run_entries ts) -> In e' (run_entries m) -> (tm e' < tm e)%N) ->
    (forall t t', In t ts -> In t' m' -> t_id t <> t_id t') ->
    zinv W (sz_replace (m ++ ts) m') /\ shrink (run_entries (m ++ ts)) (run_entries (sz_replace (m ++ ts) m')) /\
    (forall t, In t (sz_replace (m ++ ts) m') -> In t (m ++ ts) \/ In t m').
  Proof.
    intros I Ic I' Cm Sh Nw Dj. rewrite (sz_replace_eq W) by (auto; apply Sh).
    assert (Ss : shrink (run_entries (m ++ ts)) (run_entries (m' ++ ts))).
    { rewrite !run_app. pose proof (shrink_newer (run_entries ts) _ _ Nw Sh) as X.
      eapply shrink_trans; [|eapply shrink_trans; [exact X|]]; apply shrink_same; intros e; rewrite !in_app_iff; tauto. }
    split; [|split; [exact Ss|]].
    - constructor.
      + apply Forall_app. split; [apply I'|]. pose proof (zi_tabs _ _ Ic) as X. apply Forall_app in X. apply X.
      + rewrite map_app. pose proof (zi_nd _ _ I') as N1. pose proof (zi_nd _ _ Ic) as N2. rewrite map_app in N2. apply NoDup_right in N2.
        clear - N1 N2 Dj. induction m' as [|a l IH]; [exact N2|]. cbn [map app] in *. apply NoDup_cons_iff in N1. destruct N1 as [N N1]. constructor.
        * intros J. apply in_app_iff in J. destruct J as [J|J]; [now apply N|]. apply in_map_iff in J. destruct J as (t' & Q & J). apply (Dj t' a); [exact J|now left|exact Q].
        * apply IH; [|exact N1]. intros t t' J J'. apply Dj; [exact J|now right].
      + eapply uniq_sub; [apply Ss|apply Ic].
      + intros e J. apply (zi_time _ _ Ic). now apply Ss.
    - intros t J. apply in_app_iff in J. rewrite in_app_iff. tauto.
  Qed.

  (** *** The laws *)
  Lemma no_risk ts : Forall (fun e : entry => has_data e = true) (run_entries ts) -> risky cfg ts = false.
  Proof.
    intros F. unfold risky. destruct (compaction_range cfg ts) as [[[|a] n]|]; auto. apply andb_false_iff. right.
    unfold newest_dead. apply not_true_is_false. intros X. apply existsb_exists in X. destruct X as (e & J & X). rewrite Forall_forall in F. specialize (F e J).
    unfold has_data in F. destruct (sv_data (snd e)); discriminate.
  Qed.
  Lemma zbasic W m : zinv W m -> Forall tab_ok m /\ NoDup (map t_id m) /\ uniq (run_entries m) /\ (forall e, In e (run_entries m) -> (tm e < W)%N).
  Proof. intros []. auto. Qed.
  Lemma zmono W W' m : zinv W m -> (W <= W')%N -> zinv W' m.
  Proof. intros [] Le. constructor; auto. intros e J. specialize (zi_time0 e J). lia. Qed.
  Lemma znew W : zinv W [].
  Proof. constructor; [constructor|constructor|intros e e' []|intros e []]. Qed.
  Lemma zget W m (has : nat -> bool) k : zinv W m -> Forall (t_ok has) m -> exists o, newest_version has m k None = Ok o /\ version (run_entries m) k o.
  Proof.
    intros I Hs. destruct (newest_version_ok has m k (zi_tabs _ _ I) Hs [] None) as (o & -> & X); [intros e []|]. exists o. auto.
  Qed.
  Lemma zruns W m : zinv W m -> Forall (fun r => sorted (run_entries r)) (map (fun t => [t]) m) /\ Permutation (concat (map (fun t => [t]) m)) m.
  Proof.
    intros I. split.
    - apply Forall_map. eapply Forall_impl; [|apply (zi_tabs _ _ I)]. intros t X. cbn. rewrite app_nil_r. apply X.
    - replace (concat _) with m; [reflexivity|]. clear. induction m; cbn; congruence.
  Qed.
  Lemma size_tiered_laws : laws (size_tiered cfg) zinv zcomp (fun e => has_data e = true) False (fun _ => True) shrink eq.
  Proof.
    constructor; cbn [size_tiered st_meta st_new st_tables st_push st_due st_compact st_replace st_get st_runs]; eauto using zmono, zbasic, znew.
    - intros m t. symmetry. apply Permutation_cons_append.
    - apply zinv_push.
    - intros W m has k. apply zget.
    - apply zruns.
    - intros W m has id _ I Du Hd Hs Id _. destruct (sz_compact_ok W m has id I Du Hs Id) as (m' & id' & -> & X1 & X2 & X). apply fine_ok. pose proof (no_risk m Hd). tauto.
    - intros W m ts cu m' (E & Im & Nw) Ic Cm Im' Sh Dj _. cbn in E. rewrite pushes_app in E. subst cu. now apply sz_replace_ok with (W := W).
    - intros E E' X. apply X.
    - apply eq_trans.
    - apply strict_same.
    - apply strict_slip.
  Qed.
  (** [qd] and [T]: what is known of the entries, and whether the strategy may stop *)
  Lemma watched_laws (qd : entry -> Prop) (T : Prop) : (forall ts, Forall qd (run_entries ts) -> risky cfg ts = true -> T) ->
    laws (watched cfg) zinv zcomp qd T (fun _ => True) shrink eq.
  Proof.
    intros Tq. constructor; cbn [watched st_meta st_new st_tables st_push st_due st_compact st_replace st_get st_runs]; eauto using zmono, zbasic, znew.
    - intros m t. symmetry. apply Permutation_cons_append.
    - apply zinv_push.
    - intros W m has k. apply zget.
    - apply zruns.
    - intros W m has id _ I Du Hd Hs Id _. destruct (risky cfg m) eqn:Rk; [left; split; [exact (Tq m Hd Rk)|reflexivity]|].
      destruct (sz_compact_ok W m has id I Du Hs Id) as (m' & id' & -> & X1 & X2 & X). apply fine_ok. tauto.
    - intros W m ts cu m' (E & Im & Nw) Ic Cm Im' Sh Dj _. cbn in E. rewrite pushes_app in E. subst cu. now apply sz_replace_ok with (W := W).
    - intros E E' X. apply X.
    - apply eq_trans.
    - apply strict_same.
    - apply strict_slip.
  Qed.

  (** *** What the watched strategy does, the strategy does *)
  Notation St := (size_tiered cfg).
  Notation Wa := (watched cfg).
  Lemma ok_bind {A B} (x y : res A) (f g : A -> res B) r : (forall a, x = Ok a -> y = Ok a) -> (forall a r, f a = Ok r -> g a = Ok r) -> bind x f = Ok r -> bind y g = Ok r.
  Proof. intros X F E. destruct x as [a| |]; try discriminate. rewrite (X a eq_refl). now apply F. Qed.
  Lemma work_same s m a r : work Wa s m a = Ok r -> work St s m a = Ok r.
  Proof. unfold work. cbn [watched size_tiered st_compact st_meta]. destruct (risky cfg m); [discriminate|]. intros E. exact E. Qed.
  Lemma join_same s r : join Wa s = Ok r -> join St s = Ok r.
  Proof.
    unfold join. destruct s as [me us ti cu nx th jo it fr lo]. cbn [joinable thr]. destruct jo; [|auto]. apply ok_bind; [|auto]. intros a. destruct th; auto using work_same.
  Qed.
  Lemma flush_same s r : flush Wa s = Ok r -> flush St s = Ok r.
  Proof.
    unfold flush. apply ok_bind; [auto|]. intros a x. destruct a as [me us ti cu nx th jo it fr lo]. cbn [joinable]. destruct jo; [|auto]. apply ok_bind; [intros b; apply join_same|auto].
  Qed.
  Lemma all_same s r : all Wa s = Ok r -> all St s = Ok r.
  Proof. unfold all. apply ok_bind; [intros a; apply flush_same|auto]. Qed.
  Lemma clear_same s r : clear Wa s = Ok r -> clear St s = Ok r.
  Proof. unfold clear. apply ok_bind; [intros a; apply join_same|auto]. Qed.
  Lemma step_same s o r : lsm_step Wa s o = Ok r -> lsm_step St s o = Ok r.
  Proof.
    destruct o; cbn [lsm_step]; try (intros E; exact E).
    - apply ok_bind; [intros a; apply all_same|auto].
    - apply ok_bind; [intros a; apply all_same|auto].
    - apply ok_bind; [intros a; apply clear_same|auto].
    - apply ok_bind; [intros a; apply flush_same|auto].
    - apply ok_bind; [intros a; apply all_same|auto].
    - apply ok_bind; [intros a; apply flush_same|auto].
    - destruct s as [me us ti cu nx th jo it fr lo]. cbn [thr]. destruct th; auto. apply ok_bind; [intros a; apply work_same|auto].
  Qed.
  Lemma run_same ops : forall s r, run (lsm_step Wa) s ops = Ok r -> run (lsm_step St) s ops = Ok r.
  Proof.
    induction ops as [|o ops IH]; intros s r E; cbn [run] in *; [exact E|]. revert E. apply ok_bind; [intros a; apply step_same|].
    intros [a x] y. apply ok_bind; [intros b; apply IH|auto].
  Qed.
End SizeTiered.
