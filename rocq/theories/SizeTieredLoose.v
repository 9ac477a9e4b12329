(** Whatever is removed: the size-tiered strategy loses no live pair, but removed pairs may come back. *)
From Verif Require Import ListLemmas OrdLemmas RunLemmas.
From Verif Require Export SizeTieredClaims.

Section Loose.
  Context {K V : Type} `{CmpLaws K} {Z : Sizes K V}.
  Notation sval := (sval V).
  Notation entry := (K * sval)%type.
  Notation table := (table K V).
  Notation tm e := (sv_time (snd e)).
  Notation pair := (K * V)%type.

  (** Every newest version that is live is kept. *)
  Definition loose (E E' : list entry) : Prop := (forall e, In e E' -> In e E) /\ (forall e, latest E e -> has_data e = true -> In e E').
  Lemma loose_newer (M E E' : list entry) : (forall e e', In e M -> In e' E -> (tm e' < tm e)%N) -> loose E E' -> loose (M ++ E) (M ++ E').
  Proof.
    intros Nw [S L]. split.
    - intros e. rewrite !in_app_iff. intros [J|J]; auto.
    - intros e [J B] D. apply in_app_iff in J. apply in_app_iff. destruct J as [J|J]; [now left|]. right. apply L; [|exact D]. split; [exact J|]. intros e' J'. apply B. apply in_app_iff. auto.
  Qed.

  Lemma version_key (E : list entry) k k' o : cmp k k' = Eq -> version E k o -> version E k' o.
  Proof.
    intros Q. destruct o as [v|]; cbn.
    - intros (e & L & Qe & Ev). exists e. split; [exact L|]. split; [korder|exact Ev].
    - intros N e J Q'. apply (N e J). korder.
  Qed.
  Lemma view_exists (E : list entry) : uniq E -> exists x : list pair, sorted x /\ view E x.
  Proof.
    intros U. assert (X : forall l : list entry, exists x, sorted x /\ forall k o, version E k o -> lookup k x = if existsb (fun e => is_eq (cmp (fst e) k)) l then seen o else None).
    { induction l as [|e l (x & Sx & Vx)]; [exists []; split; [constructor|reflexivity]|].
      destruct (version_exists E (fst e)) as (oe & Ve). destruct (seen oe) as [v|] eqn:Es.
      - exists (put (fst e) v x). split; [now apply sorted_put|]. intros k o Vo. rewrite lookup_put. cbn [existsb]. destruct (cmp (fst e) k) eqn:Q; cbn [is_eq orb]; auto.
        rewrite (version_fun E k o oe U Vo (version_key _ _ _ _ Q Ve)). congruence.
      - exists (drop (fst e) x). split; [now apply sorted_drop|]. intros k o Vo. rewrite lookup_drop. cbn [existsb]. destruct (cmp (fst e) k) eqn:Q; cbn [is_eq orb]; auto.
        rewrite (version_fun E k o oe U Vo (version_key _ _ _ _ Q Ve)). congruence. }
    destruct (X E) as (x & Sx & Vx). exists x. split; [exact Sx|]. intros k o Vo. rewrite (Vx k o Vo). destruct (existsb _ E) eqn:Ex; [reflexivity|].
    destruct o as [v|]; [|reflexivity]. exfalso. destruct Vo as (e & [J _] & Q & _). assert (Y : existsb (fun e => is_eq (cmp (fst e) k)) E = true); [|congruence].
    apply existsb_exists. exists e. split; [exact J|]. now rewrite Q.
  Qed.

  Context (P : K -> V -> Prop) (Pk : forall k k' v, cmp k k' = Eq -> P k v -> P k' v).
  Definition allows (e : entry) : Prop := forall v, sv_data (snd e) = Some v -> P (fst e) v.
  Lemma loose_revives (E E' : list entry) x y : loose E E' -> Forall allows E -> view E x -> sorted y -> view E' y -> revives P x y.
  Proof.
    intros [S L] Q Vx Sy Vy. split; [exact Sy|]. split; intros k v X.
    - destruct (version_exists E k) as (o & Vo). rewrite <- (Vx k o Vo) in X. destruct o as [sv|]; [|discriminate]. destruct Vo as (e & Le & Qe & Ee). cbn [seen] in X.
      assert (J : In e E'). { apply L; [exact Le|]. unfold has_data. now rewrite Ee, X. }
      rewrite <- (Vy k (Some sv)); [exact X|]. exists e. split; [|auto]. now apply (latest_sub E).
    - right. destruct (version_exists E' k) as (o & Vo). rewrite <- (Vy k o Vo) in X. destruct o as [sv|]; [|discriminate]. destruct Vo as (e & [J _] & Qe & Ee). cbn [seen] in X.
      apply (Pk (fst e)); [exact Qe|]. apply (proj1 (Forall_forall _ _) Q e (S e J)). now rewrite Ee.
  Qed.
  Lemma revives_trans x y z : revives P x y -> revives P y z -> revives P x z.
  Proof. intros (_ & A1 & A2) (S & B1 & B2). split; [exact S|]. split; intros k v X; [auto|]. destruct (B2 k v X) as [Y|Y]; [auto|now right]. Qed.
  Lemma revived_refl a : revived P a a.
  Proof. repeat split; auto. Qed.
  Lemma revived_trans a b c : revived P a b -> revived P b c -> revived P a c.
  Proof.
    intros (A1 & A2 & A3 & A4 & A5 & A6 & A7) (B1 & B2 & B3 & B4 & B5 & B6 & B7). repeat split; try congruence; auto.
    - destruct A5 as [A5|A5], B5 as [B5|B5]; rewrite ?B5, ?A5 in *; auto. right. eapply revives_trans; eauto.
    - intros m J. destruct (B7 m J) as [J'|(m1 & J' & R)]; [auto|]. destruct (A7 m1 J') as [J2|(m2 & J2 & R2)]; [eauto|]. right. exists m2. split; [exact J2|]. eapply revives_trans; eauto.
  Qed.
  Lemma revived_slip a (M E E' : list entry) : sorted (sp_map a) -> uniq (M ++ E) -> (forall e e', In e M -> In e' E -> (tm e' < tm e)%N) -> Forall allows (M ++ E) -> loose E E' ->
    view (M ++ E) (sp_map a) -> In (sp_map a) (sp_recover a) -> (exists m, In m (sp_recover a) /\ sorted m /\ view E m) ->
    exists a', revived P a a' /\ sorted (sp_map a') /\ view (M ++ E') (sp_map a') /\ In (sp_map a') (sp_recover a') /\ exists m, In m (sp_recover a') /\ sorted m /\ view E' m.
  Proof.
    intros S U Nw Q L W R (m & Jm & Sm & Wm). pose proof (loose_newer _ _ _ Nw L) as L2. destruct (view_exists (M ++ E')) as (y & Sy & Wy). { eapply uniq_sub; [apply L2|exact U]. }
    destruct (view_exists E') as (z & Sz & Wz). { eapply uniq_sub; [|exact U]. intros e J. apply in_app_iff. right. now apply L. }
    pose proof (loose_revives _ _ _ _ L2 Q W Sy Wy) as Ry. apply Forall_app in Q. destruct Q as [_ Q].
    pose proof (loose_revives _ _ _ _ L Q Wm Sz Wz) as Rz.
    exists (mkSp y (sp_iters a) (sp_clean a) (sp_written a) (sp_removed a) (sp_recover a ++ [y; z])). cbn [sp_map sp_recover]. split; [|split; [exact Sy|split; [exact Wy|split]]].
    - repeat split; cbn [sp_map sp_recover]; auto.
      + intros x J. apply in_app_iff. auto.
      + intros x J. apply in_app_iff in J. destruct J as [J|[<-|[<-|[]]]]; eauto.
    - apply in_app_iff. right. now left.
    - exists z. split; [apply in_app_iff; right; right; now left|]. auto.
  Qed.

  Lemma NoDup_map_inj {A B} (g : A -> B) l x y : NoDup (map g l) -> In x l -> In y l -> g x = g y -> x = y.
  Proof.
    induction l as [|z l IH]; intros N J J' E; [destruct J|]. cbn [map] in N. apply NoDup_cons_iff in N. destruct N as [N1 N2].
    destruct J as [<-|J], J' as [<-|J']; auto; destruct N1; [rewrite E|rewrite <- E]; now apply in_map.
  Qed.
  Context (cfg : sconfig).
  Notation St := (size_tiered cfg).
  Lemma sz_replace_loose W (m ts m' : list table) : zinv W m -> zinv W (m ++ ts) -> zinv W m' -> shrink (run_entries m) (run_entries m') ->
    (forall e e', In e (run_entries ts) -> In e' (run_entries m) -> (tm e' < tm e)%N) ->
    (forall t t', In t ts -> In t' m' -> t_id t <> t_id t') ->
    (forall t', In t' m' -> In t' m \/ ~ In (t_id t') (map t_id m)) ->
    zinv W (sz_replace (m ++ ts) m') /\ loose (run_entries (m ++ ts)) (run_entries (sz_replace (m ++ ts) m')) /\
    (forall t, In t (sz_replace (m ++ ts) m') -> In t (m ++ ts) \/ In t m').
  Proof.
    intros I Ic I' Sh Nw Dj Old. unfold sz_replace. set (f := fun t : table => _). rewrite filter_app.
    assert (Ft : filter f ts = ts).
    { apply filter_all. intros t J. assert (Ot : tab_ok t). { apply (proj1 (Forall_forall _ _) (zi_tabs _ _ Ic)). apply in_app_iff. auto. }
      unfold f. destruct (newest m') as [x|] eqn:E; [|reflexivity]. apply N.ltb_lt. destruct (newest_attained _ (zi_tabs _ _ I') x E) as (e' & J' & <-).
      destruct (ta_last _ Ot) as (e & Je & <-). apply Nw; [apply in_run; eauto|]. now apply Sh. }
    rewrite Ft. set (more := filter f m).
    assert (Sm : forall t, In t more -> In t m) by (intros t J; apply filter_In in J; apply J).
    assert (Se : forall e, In e (run_entries more) -> In e (run_entries m)) by (intros e J; apply in_run in J; destruct J as (t & J & Je); apply in_run; eauto).
    assert (Q : forall e, In e (run_entries (m' ++ more ++ ts)) <-> In e (run_entries m') \/ In e (run_entries more) \/ In e (run_entries ts)) by (intros e; rewrite !run_app, !in_app_iff; tauto).
    assert (Sub : forall e, In e (run_entries (m' ++ more ++ ts)) -> In e (run_entries (m ++ ts))).
    { intros e J. apply Q in J. rewrite run_app, in_app_iff. destruct J as [J|[J|J]]; auto. left. now apply Sh. }
    split; [|split; [split; [exact Sub|]|]].
    - constructor.
      + apply Forall_app. split; [apply I'|]. pose proof (zi_tabs _ _ Ic) as X. apply Forall_app in X. apply Forall_app. split; [|apply X]. apply Forall_forall. intros t J.
        apply (proj1 (Forall_forall _ _) (zi_tabs _ _ I)). auto.
      + rewrite map_app. pose proof (zi_nd _ _ I') as N1. pose proof (zi_nd _ _ Ic) as N2.
        assert (N3 : NoDup (map t_id (more ++ ts))).
        { unfold more. clear - N2. induction m as [|a l IH]; [exact N2|]. cbn [map app filter] in *. apply NoDup_cons_iff in N2. destruct N2 as [N N2]. destruct (f a); [|auto].
          cbn [map app]. constructor; [|auto]. intros J. apply N. rewrite map_app, in_app_iff in *. destruct J as [J|J]; [left|now right]. apply in_map_iff in J. destruct J as (t & E & J).
          apply filter_In in J. rewrite <- E. now apply in_map. }
        assert (Dj' : forall t t', In t (more ++ ts) -> In t' m' -> t_id t <> t_id t').
        { intros t t' J J' E. apply in_app_iff in J. destruct J as [J|J]; [|now apply (Dj t t')]. destruct (Old t' J') as [Jm|Nm]; [|apply Nm; rewrite <- E; apply in_map; auto].
          assert (t = t').
          { apply (NoDup_map_inj t_id m); auto. apply I. }
          subst t'. apply filter_In in J. destruct J as [_ J]. unfold f in J. destruct (newest_ge m' t J') as (x & Ex & Lx). rewrite Ex in J. apply N.ltb_lt in J. lia. }
        clearbody more. clear - N1 N3 Dj'. induction m' as [|a l IH]; [exact N3|]. cbn [map app] in *. apply NoDup_cons_iff in N1. destruct N1 as [N N1]. constructor.
        * intros J. apply in_app_iff in J. destruct J as [J|J]; [now apply N|]. apply in_map_iff in J. destruct J as (t' & E & J). apply (Dj' t' a); [exact J|now left|exact E].
        * apply IH; [exact N1|]. intros t t' J J'. apply Dj'; [exact J|now right].
      + eapply uniq_sub; [exact Sub|apply Ic].
      + intros e J. apply (zi_time _ _ Ic). now apply Sub.
    - intros e [J B] D. apply Q. rewrite run_app, in_app_iff in J. destruct J as [J|J]; [|auto]. destruct Sh as [_ Sh]. destruct (Sh e) as [J'|[D' _]]; [|now left|congruence].
      split; [exact J|]. intros e' J'. apply B. rewrite run_app, in_app_iff. auto.
    - intros t J. rewrite !in_app_iff in *. destruct J as [J|[J|J]]; auto.
  Qed.

  Lemma loose_laws : laws St zinv (fun _ _ => True) allows False (fun _ => True) loose (revived P).
  Proof.
    constructor; cbn [size_tiered st_meta st_new st_tables st_push st_due st_compact st_replace st_get st_runs]; eauto using zmono, zbasic, znew.
    - intros m t. symmetry. apply Permutation_cons_append.
    - apply zinv_push.
    - intros W m has k. apply zget.
    - apply zruns.
    - intros W m has id _ I Du _ Hs Id _. destruct (sz_compact_ok cfg W m has id I Du Hs Id) as (m' & id' & -> & X1 & X2 & X). apply fine_ok. tauto.
    - intros W m ts cu m' (E & Im & Nw) Ic _ Im' Sh Dj Old. cbn in E. rewrite pushes_app in E. subst cu. now apply sz_replace_loose with (W := W).
    - intros E E' X. apply X.
    - apply revived_refl.
    - apply revived_trans.
    - intros a a' (A1 & A2 & A3 & A4 & _ & A6 & _). auto.
    - apply revived_slip.
  Qed.
End Loose.

(** *** What this means for a sequence of calls *)
Section Calls.
  Context {K V : Type} `{CmpLaws K} {Z : Sizes K V} (cfg : sconfig).
  Notation St := (size_tiered cfg).
  Notation op := (lsm_op K V).
  Notation pair := (K * V)%type.
  Context (Ksize : forall k k' : K, cmp k k' = Eq -> ksize k = ksize k').

  Lemma allows_covered (P : K -> V -> Prop) (o : op) : (forall k k' v, cmp k k' = Eq -> P k v -> P k' v) -> inserts_only P o -> covered (allows P) o.
  Proof.
    intros Pk X. destruct o; cbn [covered inserts_only] in *; auto.
    - intros k' t Q v' E. cbn [snd sv_data] in E. injection E as <-. cbn [fst]. apply (Pk k); [now apply cmp_eq_sym|exact X].
    - intros k' t Q v' E. discriminate E.
  Qed.
  Lemma inserted_key (ops : list op) k k' v : cmp k k' = Eq -> inserted ops k v -> inserted ops k' v.
  Proof. intros Q (x & Qx & J). exists x. split; [korder|exact J]. Qed.
  Lemma inserted_all (ops : list op) : Forall (inserts_only (inserted ops)) ops.
  Proof. apply Forall_forall. intros o J. destruct o; cbn; auto. exists k. split; [apply cmp_refl|exact J]. Qed.
  Lemma tiered_loosely (ops : list op) : well_used sp_new ops ->
    exists outs a, outputs (lsm_step St) (lsm_new St) ops = Ok outs /\ loosely (revived (inserted ops)) sp_new ops outs a.
  Proof.
    intros W. apply (loose_outputs St zinv (fun _ _ => True) (allows (inserted ops)) (fun _ => True) loose (revived (inserted ops))); auto.
    - apply loose_laws. apply inserted_key.
    - eapply Forall_impl; [|apply inserted_all]. intros o. apply allows_covered. apply inserted_key.
  Qed.
  Lemma tiered_crashes (P : K -> V -> Prop) n : (forall k k' v, cmp k k' = Eq -> P k v -> P k' v) -> survives_loosely St (inserts_only P) intact (revived P) n sp_new (lsm_new St).
  Proof.
    intros Pk. pose proof (loose_laws P Pk cfg) as L. destruct (new_inv St zinv _ _ _ _ _ _ L) as [I0 J0].
    apply (loose_survives St zinv _ _ _ _ _ L Ksize); auto. intros o. now apply allows_covered.
  Qed.

  (** The pairs that are specified are there. *)
  Section Covers.
    Context (P : K -> V -> Prop) (Pk : forall k k' v, cmp k k' = Eq -> P k v -> P k' v).
    Definition covers (x y : list pair) : Prop := sorted x /\ sorted y /\ (forall k v, lookup k x = Some v -> lookup k y = Some v) /\ (forall k v, lookup k y = Some v -> lookup k x = Some v \/ P k v).
    Lemma covers_step a b o : covers (sp_map a) (sp_map b) -> covers (sp_map (fst (lsm_spec_step a o))) (sp_map (fst (lsm_spec_step b o))).
    Proof.
      intros C0. pose proof C0 as (Sx & Sy & C1 & C2). destruct o; cbn [lsm_spec_step fst sp_map written flushed set_sp_iters]; try exact C0.
      - split; [now apply sorted_put|]. split; [now apply sorted_put|]. split; intros k' v'; rewrite !lookup_put; destruct (is_eq (cmp k k')); auto.
      - split; [now apply sorted_drop|]. split; [now apply sorted_drop|]. split; intros k' v'; rewrite !lookup_drop; destruct (is_eq (cmp k k')); auto; discriminate.
      - split; [constructor|]. split; [constructor|]. split; intros k' v' X; discriminate.
      - assert (M : forall s : sp K V, sp_map (fst (match nth_error (sp_iters s) i with Some (IOpen l) => (set_sp_iters s (list_set (sp_iters s) i (IOpen (tl l))), ONext (hd_error l)) | _ => (s, ONext None) end)) = sp_map s).
        { intros s. destruct (nth_error (sp_iters s) i) as [[]|]; reflexivity. }
        rewrite !M. exact C0.
    Qed.
    Lemma covers_revived a b b' : revived P b b' -> covers (sp_map a) (sp_map b) -> covers (sp_map a) (sp_map b').
    Proof.
      intros (_ & _ & _ & _ & [->|(S & R1 & R2)] & _) C0; [exact C0|]. destruct C0 as (Sx & Sy & C1 & C2). split; [exact Sx|]. split; [exact S|]. split; intros k v X; [auto|].
      destruct (R2 k v X) as [Y|Y]; [auto|now right].
    Qed.
    Lemma covers_revives a b : covers a b -> revives P a b.
    Proof. intros (_ & S & X). now split. Qed.
    Lemma loosely_app (ops ops' : list op) : forall b os b', loosely (revived P) b (ops ++ ops') os b' ->
      forall a, covers (sp_map a) (sp_map b) -> exists o o' b1, os = o ++ o' /\ length o = length ops /\ covers (sp_map (fst (spec_run lsm_spec_step a ops))) (sp_map b1) /\
        loosely (revived P) b1 ops' o' b' /\ loosely (revived P) b ops o b1.
    Proof.
      induction ops as [|x ops IH]; intros b os b' X a C0.
      - exists [], os, b. split; [reflexivity|]. split; [reflexivity|]. split; [exact C0|]. split; [exact X|constructor].
      - cbn [app] in X. inversion X as [|? b1 b2 ? ? out ? outs S1 So S2 X']; subst. destruct (IH _ _ _ X' (fst (lsm_spec_step a x))) as (o & o' & b3 & -> & Lo & C1 & X1 & X2).
        + eapply covers_revived; [exact S2|]. apply covers_step. eapply covers_revived; [exact S1|exact C0].
        + exists (out :: o), o', b3. cbn [app length spec_run]. destruct (lsm_spec_step a x) as [a1 r]. cbn [fst] in *. destruct (spec_run lsm_spec_step a1 ops) as [a2 rs]. cbn [fst] in *.
          split; [reflexivity|]. split; [now rewrite Lo|]. split; [exact C1|]. split; [exact X1|econstructor; eauto].
    Qed.
    Lemma covers_new : covers (sp_map (@sp_new K V)) (sp_map (@sp_new K V)).
    Proof. split; [constructor|]. split; [constructor|]. auto. Qed.
    Lemma covers_length x y : covers x y -> length x <= length y.
    Proof.
      intros (Sx & Sy & C1 & _). apply keys_le; [exact Sx|]. intros p J. pose proof (lookup_in (fst p) p x Sx J (cmp_refl _)) as X. apply C1 in X. apply lookup_some in X.
      destruct X as (q & Jq & Q & _). eauto.
    Qed.
    Lemma loosely_last (ops : list op) o os b' : loosely (revived P) sp_new (ops ++ [o]) os b' -> exists outs out b, os = outs ++ [out] /\
      covers (sp_map (sp_after ops)) (sp_map b) /\ answers b o out.
    Proof.
      intros X. destruct (loosely_app ops [o] _ _ _ X sp_new covers_new) as (outs & o' & b1 & -> & _ & C0 & X1 & _).
      inversion X1 as [|? b2 b3 ? ? out ? os' S1 So S2 X']; subst. inversion X'; subst. exists outs, out, b2. split; [reflexivity|]. split; [|exact So]. eapply covers_revived; eauto.
    Qed.
  End Covers.

  Lemma inserted_snoc (ops : list op) o k v : (forall k v, o <> LInsert k v) -> inserted (ops ++ [o]) k v -> inserted ops k v.
  Proof. intros N (k' & Q & J). exists k'. split; [exact Q|]. apply in_app_iff in J. destruct J as [J|[J|[]]]; [exact J|]. now destruct (N k' v). Qed.
  Lemma covers_weaken (P Q : K -> V -> Prop) x y : (forall k v, P k v -> Q k v) -> covers P x y -> covers Q x y.
  Proof. intros X (S1 & S2 & C1 & C2). repeat (split; [assumption|]). intros k v Y. destruct (C2 k v Y); auto. Qed.
  Lemma tiered_last (ops : list op) o : (forall k v, o <> LInsert k v) -> well_used sp_new ops -> allowed (sp_after ops) o = true ->
    exists outs out b, outputs (lsm_step St) (lsm_new St) (ops ++ [o]) = Ok (outs ++ [out]) /\ covers (inserted ops) (sp_map (sp_after ops)) (sp_map b) /\
      answers b o out.
  Proof.
    intros N W A. destruct (tiered_loosely (ops ++ [o])) as (os & a & E & L); [now apply used_last|]. destruct (loosely_last _ ops o os a L) as (outs & out & b & -> & C0 & So).
    exists outs, out, b. split; [exact E|]. split; [|exact So]. eapply covers_weaken; [|exact C0]. intros k v. now apply inserted_snoc.
  Qed.
  (** Every pair of the specification was inserted. *)
  Lemma spec_inserted (ops : list op) : forall (a : sp K V) (P : K -> V -> Prop), (forall k k' v, cmp k k' = Eq -> P k v -> P k' v) -> (forall k v, lookup k (sp_map a) = Some v -> P k v) ->
    Forall (inserts_only P) ops -> forall k v, lookup k (sp_map (fst (spec_run lsm_spec_step a ops))) = Some v -> P k v.
  Proof.
    induction ops as [|o ops IH]; intros a P Pk A F k v X; [now apply A|]. apply Forall_cons_iff in F. destruct F as [Fo F]. cbn [spec_run] in X.
    specialize (IH (fst (lsm_spec_step a o)) P Pk). destruct (lsm_spec_step a o) as [a1 r] eqn:E. destruct (spec_run lsm_spec_step a1 ops) as [a2 rs] eqn:E2. cbn [fst] in *.
    apply IH; auto; [|now rewrite E2]. clear IH X k v. intros k v X.
    assert (Q : a1 = fst (lsm_spec_step a o)) by now rewrite E. clear E E2. subst a1. destruct o; cbn [lsm_spec_step fst sp_map written flushed set_sp_iters] in X; auto.
    - rewrite lookup_put in X. destruct (cmp k0 k) eqn:Q; cbn [is_eq] in X; auto. injection X as <-. now apply (Pk k0).
    - rewrite lookup_drop in X. destruct (is_eq (cmp k0 k)); [discriminate|auto].
    - discriminate.
    - destruct (nth_error (sp_iters a) i) as [[]|]; auto.
  Qed.
  Lemma covers_inserted (ops : list op) y k v : covers (inserted ops) (sp_map (sp_after ops)) y -> lookup k y = Some v -> inserted ops k v.
  Proof.
    intros (_ & _ & _ & C2) X. destruct (C2 k v X) as [Y|Y]; [|exact Y]. apply (spec_inserted ops sp_new (inserted ops) (inserted_key ops)) in Y; [exact Y| |apply inserted_all]. discriminate.
  Qed.

  Lemma tiered_get (ops : list op) k : well_used sp_new ops -> exists outs r, outputs (lsm_step St) (lsm_new St) (ops ++ [LGet k]) = Ok (outs ++ [OVal r]) /\
    (forall v, lookup k (sp_map (sp_after ops)) = Some v -> r = Some v) /\ (forall v, r = Some v -> inserted ops k v).
  Proof.
    intros W. destruct (tiered_last ops (LGet k)) as (outs & out & b & E & C0 & So); auto; [discriminate|]. apply (fun x => proj1 x eq_refl) in So. destruct out; try now destruct So. cbn in So. subst v.
    exists outs, (lookup k (sp_map b)). split; [exact E|]. split; [apply C0|]. intros v. now apply covers_inserted.
  Qed.
  Lemma same_asc (l l' : list pair) : Forall2 same_pair l l' -> sorted l' -> sorted l.
  Proof.
    intros F. induction F as [|p q l l' X F IH]; intros S; [constructor|]. inversion S as [|? ? S1 S2]; subst. constructor; [exact (IH S1)|]. clear IH S S1. destruct X as [X _].
    induction F as [|p' q' l l' Y F IH]; constructor; inversion S2 as [|? ? S3 S4]; subst; auto. destruct Y as [Y _]. unfold plt in *. korder.
  Qed.
  Lemma same_lookups (l l' : list pair) k : Forall2 same_pair l l' -> lookup k l = lookup k l'.
  Proof.
    intros F. induction F as [|p q l l' [X Y] F IH]; [reflexivity|]. rewrite !lookup_cons, IH, Y. replace (is_eq (cmp (fst q) k)) with (is_eq (cmp (fst p) k)); [reflexivity|].
    f_equal. destruct (cmp (fst p) k) eqn:Q, (cmp (fst q) k) eqn:Q'; auto; exfalso; korder.
  Qed.
  Lemma tiered_list (ops : list op) : well_used sp_new ops -> exists outs l, outputs (lsm_step St) (lsm_new St) (ops ++ [LIter]) = Ok (outs ++ [OList l]) /\
    strictly_ascending l /\ (forall k v, lookup k (sp_map (sp_after ops)) = Some v -> lookup k l = Some v) /\ (forall k v, lookup k l = Some v -> inserted ops k v).
  Proof.
    intros W. destruct (tiered_last ops LIter) as (outs & out & b & E & C0 & So); auto; [discriminate|]. apply (fun x => proj1 x eq_refl) in So. destruct out as [| | | | | |l|]; try now destruct So. cbn in So.
    exists outs, l. split; [exact E|]. split; [|split].
    - eapply same_asc; [exact So|apply C0].
    - intros k v X. rewrite (same_lookups _ _ _ So). now apply C0.
    - intros k v X. rewrite (same_lookups _ _ _ So) in X. revert X. now apply covers_inserted.
  Qed.
  Lemma tiered_hint_all (ops : list op) : well_used sp_new ops ->
    exists outs n, outputs (lsm_step St) (lsm_new St) (ops ++ [LLenHint]) = Ok (outs ++ [OHint n]) /\ length (sp_map (sp_after ops)) <= n.
  Proof.
    intros W. destruct (tiered_last ops LLenHint) as (outs & out & b & E & C0 & So); auto; [discriminate|]. apply (fun x => proj1 x eq_refl) in So. destruct out; try now destruct So. cbn in So.
    exists outs, n. split; [exact E|]. pose proof (covers_length _ _ _ C0). lia.
  Qed.

  Lemma inv_weaken (P Q : K -> V -> Prop) a s : (forall k v, P k v -> Q k v) -> inv St zinv (fun _ _ => True) (allows P) a s -> inv St zinv (fun _ _ => True) (allows Q) a s.
  Proof.
    intros X I. constructor; try apply I. eapply Forall_impl; [|apply (iv_q _ _ _ _ _ _ I)]. intros e Y v E. apply X. now apply Y.
  Qed.
  Lemma inserts_weaken (P Q : K -> V -> Prop) (ops : list op) : (forall k v, P k v -> Q k v) -> Forall (inserts_only P) ops -> Forall (inserts_only Q) ops.
  Proof. intros X F. eapply Forall_impl; [|exact F]. intros o. destruct o; cbn; auto. Qed.
  Lemma covered_list (P : K -> V -> Prop) (ops : list op) : (forall k k' v, cmp k k' = Eq -> P k v -> P k' v) -> Forall (inserts_only P) ops -> Forall (covered (allows P)) ops.
  Proof. intros Pk F. eapply Forall_impl; [|exact F]. intros o. now apply allows_covered. Qed.
  Lemma inserted_app_l (ops ops' : list op) k v : inserted ops k v -> inserted (ops ++ ops') k v.
  Proof. intros (x & Q & J). exists x. split; [exact Q|]. apply in_app_iff. auto. Qed.
  Lemma inserted_app_r (ops ops' : list op) k v : inserted ops' k v -> inserted (ops ++ ops') k v.
  Proof. intros (x & Q & J). exists x. split; [exact Q|]. apply in_app_iff. auto. Qed.
  Lemma revived_like P (a a' : sp K V) : revived P a a' -> like a a'.
  Proof. intros (A1 & A2 & A3 & _). split; [rewrite A1; apply alike_refl|auto]. Qed.
  Lemma alike_trans (l1 l2 l3 : list (sp_iter K V)) : Forall2 alike l1 l2 -> Forall2 alike l2 l3 -> Forall2 alike l1 l3.
  Proof.
    intros F. revert l3. induction F as [|x y l1 l2 X F IH]; intros l3 G; inversion G as [|? z ? ? Y G']; subst; constructor; auto. destruct x, y, z; cbn in *; tauto.
  Qed.
  Lemma like_trans (a b c : sp K V) : like a b -> like b c -> like a c.
  Proof. intros (A1 & A2 & A3) (B1 & B2 & B3). split; [eapply alike_trans; eauto|]. split; congruence. Qed.
  Lemma loosely_like P (ops : list op) : forall b os b', loosely (revived P) b ops os b' -> forall a, like a b -> like (fst (spec_run lsm_spec_step a ops)) b'.
  Proof.
    induction ops as [|o ops IH]; intros b os b' X a Y; inversion X as [|? b1 b2 ? ? out ? outs S1 So S2 X']; subst; [exact Y|].
    cbn [spec_run]. specialize (IH _ _ _ X' (fst (lsm_spec_step a o))). destruct (lsm_spec_step a o) as [a1 r] eqn:E. cbn [fst] in IH. destruct (spec_run lsm_spec_step a1 ops) as [a2 rs] eqn:E2. cbn [fst] in *.
    apply IH. eapply like_trans; [|apply (revived_like _ _ _ S2)]. replace a1 with (fst (lsm_spec_step a o)) by now rewrite E. apply like_step. eapply like_trans; [exact Y|apply (revived_like _ _ _ S1)].
  Qed.
  Lemma like_refl (a : sp K V) : like a a.
  Proof. split; [apply alike_refl|auto]. Qed.
  Lemma tiered_split (ops ops' : list op) : well_used sp_new (ops ++ ops') ->
    exists outs outs' a a', outputs (lsm_step St) (lsm_new St) (ops ++ ops') = Ok (outs ++ outs') /\ length outs = length ops /\
      loosely (revived (inserted ops)) sp_new ops outs a /\ loosely (revived (inserted (ops ++ ops'))) a ops' outs' a' /\
      covers (inserted ops) (sp_map (sp_after ops)) (sp_map a) /\ like (sp_after ops) a.
  Proof.
    intros W. apply well_used_app in W. destruct W as [W W'].
    pose proof (loose_laws (inserted ops) (inserted_key ops) cfg) as L1. pose proof (loose_laws (inserted (ops ++ ops')) (inserted_key _) cfg) as L2.
    destruct (loose_run St zinv _ _ _ _ _ L1 Ksize ops Logic.I W (covered_list _ _ (inserted_key _) (inserted_all ops))) as (s & outs & a & E & Lo & I & J & _).
    assert (Lk : like (sp_after ops) a) by (apply (loosely_like _ _ _ _ _ Lo), like_refl).
    pose proof (like_used ops' _ _ Lk W') as W2.
    assert (F2 : Forall (covered (allows (inserted (ops ++ ops')))) ops').
    { apply covered_list; [apply inserted_key|]. eapply inserts_weaken; [|apply inserted_all]. apply inserted_app_r. }
    destruct (run_ok St zinv _ _ False _ _ _ L2 Ksize ops' a s (inv_weaken _ _ _ _ (inserted_app_l ops ops') I) J Logic.I W2 F2) as [[[] _]|([s' outs'] & E' & a' & Lo' & _)].
    exists outs, outs', a, a'. split; [|split; [|split; [exact Lo|split; [exact Lo'|split; [|exact Lk]]]]].
    - unfold outputs. rewrite (run_app_ok _ _ _ _ _ _ _ _ E E'). reflexivity.
    - clear - Lo. induction Lo; cbn; congruence.
    - rewrite <- (app_nil_r ops) in Lo. destruct (loosely_app _ _ _ _ _ _ Lo sp_new (covers_new _)) as (o & o' & b1 & _ & _ & C0 & X & _). inversion X; subst. now rewrite app_nil_r in C0.
  Qed.
  Lemma loosely_from P (ops : list op) a b os c : revived P a b -> loosely (revived P) b ops os c -> exists c', loosely (revived P) a ops os c'.
  Proof.
    intros R X. inversion X as [|? b1 b2 ? ? out ? outs S1 So S2 X']; subst; [exists a; constructor|]. exists c. econstructor; [eapply revived_trans; eauto|exact So|exact S2|exact X'].
  Qed.

  (** *** Kept iterators *)
  Lemma nexts_loosely P i (ops : list op) : forall a outs a' l, loosely (revived P) a ops outs a' -> nth_error (sp_iters a) i = Some (IOpen l) -> Forall (keeps i) ops ->
    forall j e, nth_error (nexts i ops outs) j = Some e -> same_opt same_pair e (nth_error l j).
  Proof.
    induction ops as [|x ops IH]; intros a os a' l A E F j e J; inversion A as [|? b1 b2 ? ? r ? outs S1 R S2 A']; subst; cbn [nexts] in J; [destruct j; discriminate|].
    apply Forall_cons_iff in F. destruct F as [Kx F]. destruct S1 as (I1 & _). destruct S2 as (I2 & _). rewrite <- I1 in E. clear I1.
    assert (Go : forall l', nth_error (sp_iters (fst (lsm_spec_step b1 x))) i = Some (IOpen l') -> forall j e, nth_error (nexts i ops outs) j = Some e -> same_opt same_pair e (nth_error l' j)).
    { intros l' E' j' e' J'. rewrite <- I2 in E'. apply (IH _ outs _ l' A' E' F j' e' J'). }
    assert (Set_ne : forall (ls : list (sp_iter K V)) q y, i <> q -> nth_error (list_set ls q y) i = nth_error ls i).
    { clear. intros ls. revert i. induction ls as [|z ls IH]; intros i q y Ne; [reflexivity|]. destruct q, i; cbn [list_set nth_error]; auto; congruence. }
    assert (Set_eq : forall (ls : list (sp_iter K V)) y, nth_error ls i <> None -> nth_error (list_set ls i y) i = Some y).
    { clear. intros ls. revert i. induction ls as [|z ls IH]; intros [|i] y Ne; cbn in *; try congruence. now apply IH. }
    destruct x; cbn [lsm_spec_step fst snd promised keeps sp_iters written flushed set_sp_iters] in *; try (now apply (Go l E j e)); try (now destruct Kx).
    - apply (Go l); [|destruct r; exact J]. rewrite nth_error_app1; [exact E|]. apply nth_error_Some. congruence.
    - rename i0 into q. destruct (i =? q) eqn:Q.
      + apply Nat.eqb_eq in Q. subst q. apply (fun x => proj1 x eq_refl) in R. cbn [lsm_spec_step] in R. rewrite E in R, Go. cbn [fst snd set_sp_iters sp_iters] in *. rewrite Set_eq in Go by congruence.
        specialize (Go _ eq_refl). destruct r; cbn [same_out] in R; try destruct R. destruct j as [|j]; cbn [nth_error] in J.
        * injection J as <-. destruct l; exact R.
        * specialize (Go _ _ J). destruct l as [|p l]; [now destruct j|exact Go].
      + apply Nat.eqb_neq in Q. apply (Go l); [|destruct r; exact J].
        destruct (nth_error (sp_iters b1) q) as [[m| |]|]; cbn [fst set_sp_iters sp_iters]; rewrite ?Set_ne by exact Q; exact E.
    - apply (Go l); [|destruct r; exact J]. rewrite Set_ne by exact Kx. exact E.
  Qed.
  Lemma tiered_iter_all (ops ops' : list op) : well_used sp_new (ops ++ LIterOpen :: ops') -> Forall (keeps (length (sp_iters (sp_after ops)))) ops' ->
    exists outs outs' l, outputs (lsm_step St) (lsm_new St) (ops ++ LIterOpen :: ops') = Ok (outs ++ OUnit :: outs') /\ length outs = length ops /\
      revives (inserted ops) (sp_map (sp_after ops)) l /\
      forall j e, nth_error (nexts (length (sp_iters (sp_after ops))) ops' outs') j = Some e -> same_opt same_pair e (nth_error l j).
  Proof.
    intros W Ke. change (LIterOpen :: ops') with ([LIterOpen] ++ ops') in W |- *. rewrite app_assoc in W |- *.
    destruct (tiered_split _ _ W) as (os & outs' & a & a' & E & Lo & L1 & L2 & _ & _).
    destruct (loosely_app _ ops [LIterOpen] _ _ _ L1 sp_new (covers_new _)) as (outs & o2 & b & -> & Lb & Cb & Lc & Ld).
    pose proof (loosely_like _ _ _ _ _ Ld _ (like_refl _)) as Lk. inversion Lc as [|? b1 b2 ? ? r ? o3 S1 R S2 X]; subst. inversion X; subst. apply (fun x => proj1 x eq_refl) in R. destruct r; try now destruct R.
    exists outs, outs', (sp_map b1). split; [|split; [exact Lb|split]].
    - rewrite E. now rewrite <- app_assoc.
    - apply covers_revives. eapply covers_weaken; [|exact (covers_revived _ _ _ _ S1 Cb)]. intros k v. apply inserted_snoc. discriminate.
    - destruct S2 as (I2 & _). cbn [lsm_spec_step fst set_sp_iters sp_iters] in I2. destruct Lk as [Fk _]. destruct S1 as (I1 & _).
      assert (Ln : length (sp_iters (sp_after ops)) = length (sp_iters b1)).
      { rewrite I1. clear - Fk. unfold sp_after. induction Fk; cbn; congruence. }
      apply (nexts_loosely _ _ _ _ _ _ _ L2); [|exact Ke]. rewrite I2, Ln, nth_error_app2, Nat.sub_diag by lia. reflexivity.
  Qed.

  (** *** Reopening *)
  Lemma revives_weaken (P Q : K -> V -> Prop) (x y : list pair) : (forall k v, P k v -> Q k v) -> revives P x y -> revives Q x y.
  Proof. intros X (S & C1 & C2). split; [exact S|]. split; [exact C1|]. intros k v Y. destruct (C2 k v Y); auto. Qed.
  Lemma revived_weaken (P Q : K -> V -> Prop) (a b : sp K V) : (forall k v, P k v -> Q k v) -> revived P a b -> revived Q a b.
  Proof.
    intros X (A1 & A2 & A3 & A4 & A5 & A6 & A7). repeat (split; [assumption|]). split; [destruct A5; eauto using revives_weaken|]. split; [exact A6|].
    intros m J. destruct (A7 m J) as [Y|(x & Jx & Y)]; eauto using revives_weaken.
  Qed.
  Lemma loosely_weaken (P Q : K -> V -> Prop) (a b : sp K V) ops os : (forall k v, P k v -> Q k v) -> loosely (revived P) a ops os b -> loosely (revived Q) a ops os b.
  Proof. intros X L. induction L; econstructor; eauto using revived_weaken. Qed.
  Lemma revived_iters P (a b : sp K V) l : revived P a b -> revived P (set_sp_iters a l) (set_sp_iters b l).
  Proof. intros (A1 & A2 & A3 & A4 & A5 & A6 & A7). repeat (split; [assumption || reflexivity|]). assumption. Qed.
  Lemma inserted_drop (ops ops' : list op) k v : Forall (fun o => forall k v, o <> LInsert k v) ops' -> inserted (ops ++ ops') k v -> inserted ops k v.
  Proof.
    intros F (x & Q & J). exists x. split; [exact Q|]. apply in_app_iff in J. destruct J as [J|J]; [exact J|]. now destruct (proj1 (Forall_forall _ _) F _ J x v).
  Qed.
  Lemma tiered_reopen_all (ops ops' : list op) : well_used sp_new ops -> sp_written (sp_after ops) = true -> well_used (reopened (sp_map (sp_after ops))) ops' ->
    exists outs outs' m a, outputs (lsm_step St) (lsm_new St) (ops ++ LFlush :: LReopen :: ops') = Ok (outs ++ OUnit :: OUnit :: outs') /\ length outs = length ops /\
      revives (inserted ops) (sp_map (sp_after ops)) m /\ loosely (revived (inserted (ops ++ ops'))) (reopened m) ops' outs' a.
  Proof.
    intros W Wr W'. pose proof (reopen_used _ _ W Wr W') as Wu. change (LFlush :: LReopen :: ops') with ([LFlush; LReopen] ++ ops') in Wu |- *. rewrite app_assoc in Wu |- *.
    destruct (tiered_split _ _ Wu) as (os & outs' & a & a' & E & Lo & L1 & L2 & _ & _).
    destruct (loosely_app _ ops [LFlush; LReopen] _ _ _ L1 sp_new (covers_new _)) as (outs & o2 & b & -> & Lb & Cb & Lc & Ld).
    pose proof (loosely_like _ _ _ _ _ Ld _ (like_refl _)) as Lk. inversion Lc as [|? b1 b2 ? ? r ? o3 S1 R S2 X]; subst. inversion X as [|? b3 b4 ? ? r2 ? o4 S3 R2 S4 X2]; subst. inversion X2; subst.
    apply (fun x => proj1 x eq_refl) in R. destruct r; try now destruct R. specialize (proj1 R2 eq_refl). destruct r2; try now destruct R2.
    assert (Wk : forall k v, inserted (ops ++ [LFlush; LReopen]) k v -> inserted ops k v) by (intros k v; apply inserted_drop; repeat constructor; discriminate).
    assert (Wk2 : forall k v, inserted ((ops ++ [LFlush; LReopen]) ++ ops') k v -> inserted (ops ++ ops') k v).
    { intros k v (x & Q & J). exists x. split; [exact Q|]. rewrite !in_app_iff in *. cbn [In] in J. intuition discriminate. }
    assert (Wb : sp_written b1 = true). { destruct Lk as (_ & _ & Ew). destruct S1 as (_ & _ & E1 & _). rewrite E1, Ew. exact Wr. }
    assert (Er : reopened (sp_map b1) = set_sp_iters (flushed b1) []) by (unfold reopened, set_sp_iters, flushed; cbn; now rewrite Wb).
    assert (Rv : revived (inserted (ops ++ ops')) (reopened (sp_map b1)) a).
    { apply (revived_weaken (inserted (ops ++ [LFlush; LReopen]))); [intros k v Y; now apply inserted_app_l, Wk|]. rewrite Er. cbn [lsm_spec_step fst] in *.
      eapply revived_trans; [|exact S4]. apply revived_iters. eapply revived_trans; eauto. }
    assert (L3 : loosely (revived (inserted (ops ++ ops'))) a ops' outs' a').
    { exact (loosely_weaken _ _ _ _ _ _ Wk2 L2). }
    destruct (loosely_from _ _ _ _ _ _ Rv L3) as (c & L4). exists outs, outs', (sp_map b1), c. split; [|split; [exact Lb|split; [|exact L4]]].
    - rewrite E. now rewrite <- app_assoc.
    - apply covers_revives. eapply covers_weaken; [exact Wk|exact (covers_revived _ _ _ _ S1 Cb)].
  Qed.
End Calls.
