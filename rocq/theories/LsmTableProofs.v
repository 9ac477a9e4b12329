(** Tables, versions of keys, and what it means to throw entries away. *)
From Verif Require Export PermTac.
From Verif Require Import ListLemmas OrdLemmas.
From Verif Require Export LsmTableSpec LsmIterProofs LeveledModel.

Section Tables.
  Context {K V : Type} `{CmpLaws K} {Z : Sizes K V}.
  Notation sval := (sval V).
  Notation entry := (K * sval)%type.
  Notation table := (table K V).
  Notation tbuilder := (tbuilder K V).
  Notation tm e := (sv_time (snd e)).
  Implicit Types (E : list entry) (e : entry) (t : table) (k : K).

  (** *** Well-formed tables *)
  Definition dead (e : entry) : bool := negb (has_data e).
  Record tab_ok (t : table) : Prop := mkTabOk {
    ta_ne : t_es t <> [];
    ta_sorted : sorted (t_es t);
    ta_count : t_count t = length (t_es t);
    ta_tombs : t_tombs t = length (filter dead (t_es t));
    ta_lo : option_map fst (hd_error (t_es t)) = Some (fst (t_range t));
    ta_hi : option_map fst (last_error (t_es t)) = Some (snd (t_range t));
    ta_times : forall e, In e (t_es t) -> (fst (t_times t) <= tm e <= snd (t_times t))%N;
    ta_first : exists e, In e (t_es t) /\ tm e = fst (t_times t);
    ta_last : exists e, In e (t_es t) /\ tm e = snd (t_times t) }.
  Definition lo (t : table) : K := fst (t_range t).

  Lemma sorted_hd_le E k e : sorted E -> option_map fst (hd_error E) = Some k -> In e E -> cmp k (fst e) <> Gt.
  Proof.
    destruct E as [|x E]; cbn; [discriminate|]. intros S Q J. injection Q as <-. apply sorted_cons in S. destruct S as [G _].
    destruct J as [<-|J]; [now rewrite cmp_refl|]. rewrite (proj1 (Forall_forall _ _) G _ J). discriminate.
  Qed.
  Lemma last_error_split {A} (l : list A) x : last_error l = Some x -> exists l', l = l' ++ [x].
  Proof.
    induction l as [|y l IH]; [discriminate|]. destruct l as [|z l].
    - intros Q. injection Q as ->. now exists [].
    - intros Q. destruct (IH Q) as [l' ->]. now exists (y :: l').
  Qed.
  Lemma sorted_last_ge E k e : sorted E -> option_map fst (last_error E) = Some k -> In e E -> cmp (fst e) k <> Gt.
  Proof.
    destruct (last_error E) as [x|] eqn:L; [|discriminate]. apply last_error_split in L. destruct L as [l' ->]. cbn. intros S Q J.
    injection Q as <-. apply sorted_app in S. destruct S as (_ & _ & X). apply in_app_iff in J. destruct J as [J|[<-|[]]]; [|now rewrite cmp_refl].
    rewrite (X e x J (or_introl eq_refl)). discriminate.
  Qed.
  Lemma lo_le t e : tab_ok t -> In e (t_es t) -> cmp (lo t) (fst e) <> Gt.
  Proof. intros O. apply sorted_hd_le; apply O. Qed.
  Lemma hi_ge t e : tab_ok t -> In e (t_es t) -> cmp (fst e) (hi t) <> Gt.
  Proof. intros O. apply sorted_last_ge; apply O. Qed.
  Lemma lo_in t : tab_ok t -> exists e, In e (t_es t) /\ fst e = lo t.
  Proof. intros O. pose proof (ta_lo t O) as L. destruct (t_es t) as [|e r]; [discriminate|]. exists e. split; [now left|]. cbn in L. now injection L. Qed.
  Lemma hi_in t : tab_ok t -> exists e, In e (t_es t) /\ fst e = hi t.
  Proof.
    intros O. pose proof (ta_hi t O) as L. destruct (last_error (t_es t)) as [e|] eqn:Q; [|discriminate]. apply last_error_split in Q. destruct Q as [l ->].
    exists e. split; [apply in_app_iff; right; now left|]. cbn in L. now injection L.
  Qed.
  Lemma lo_hi t : tab_ok t -> cmp (lo t) (hi t) <> Gt.
  Proof. intros O. destruct (hi_in t O) as (e & J & <-). now apply lo_le. Qed.

  (** *** The builder *)
  Definition time_bounds (es : list entry) (r : option (N * N)) : Prop :=
    match r with
    | None => es = []
    | Some (a, b) => (forall e, In e es -> (a <= tm e <= b)%N) /\ (exists e, In e es /\ tm e = a) /\ (exists e, In e es /\ tm e = b)
    end.
  Record rep (b : tbuilder) (es : list entry) : Prop := mkRep {
    rp_es : tb_es b = es;
    rp_count : tb_count b = length es;
    rp_tombs : tb_tombs b = length (filter dead es);
    rp_range : tb_range b = match hd_error es, last_error es with Some a, Some b => Some (fst a, fst b) | _, _ => None end;
    rp_times : time_bounds es (tb_times b);
    rp_size : es = [] -> tb_size b = 0%N }.
  Lemma rep_new id hint : rep (tb_new id hint) [].
  Proof. constructor; reflexivity. Qed.
  Lemma rep_append b es e : rep b es -> rep (tb_append b e) (es ++ [e]) /\ tb_id (tb_append b e) = tb_id b.
  Proof.
    intros [E1 E2 E3 E4 E5 E6]. destruct e as [k v]. unfold tb_append.
    set (b1 := if tb_index b + 1 =? tb_bsize b then _ else _).
    assert (G : tb_id b1 = tb_id b /\ tb_es b1 = tb_es b ++ [(k, v)] /\ tb_count b1 = tb_count b + 1 /\
                tb_tombs b1 = match sv_data v with None => tb_tombs b + 1 | Some _ => tb_tombs b end /\
                tb_range b1 = Some (match tb_range b with Some (s, _) => (s, k) | None => (k, k) end) /\
                tb_times b1 = Some (match tb_times b with
                       | Some (lo, hi) => (N.min lo (sv_time v), N.max hi (sv_time v))
                       | None => (sv_time v, sv_time v)
                       end)).
    { unfold b1. destruct (tb_index b + 1 =? tb_bsize b); cbn; auto 10. }
    destruct G as (G1 & G2 & G3 & G4 & G5 & G6). split; [|exact G1]. constructor.
    - now rewrite G2, E1.
    - rewrite G3, E2, app_length. reflexivity.
    - rewrite G4, E3, filter_app, app_length. cbn [filter]. change (dead (k, v)) with (negb (match sv_data v with Some _ => true | None => false end)). destruct (sv_data v); cbn [negb length]; lia.
    - rewrite G5, E4, last_error_app. destruct es as [|x r]; [reflexivity|]. cbn [hd_error app]. destruct (last_error (x :: r)) as [y|] eqn:Q; [reflexivity|].
      apply last_error_none in Q. discriminate.
    - rewrite G6. unfold time_bounds. destruct (tb_times b) as [[a c]|] eqn:T; cbn [time_bounds] in *.
      + destruct E5 as (B & (x & Jx & Tx) & (y & Jy & Ty)). split; [|split].
        * intros e J. apply in_app_iff in J. destruct J as [J|[<-|[]]]; [specialize (B _ J); lia|cbn; lia].
        * destruct (N.min_spec a (sv_time v)) as [[_ ->]|[_ ->]]; [exists x|exists (k, v)]; (split; [apply in_app_iff; auto; right; now left|auto]).
        * destruct (N.max_spec c (sv_time v)) as [[_ ->]|[_ ->]]; [exists (k, v)|exists y]; (split; [apply in_app_iff; auto; right; now left|auto]).
      + rewrite E5. cbn [app]. split; [intros e [<-|[]]; cbn; lia|]. split; exists (k, v); (split; [now left|reflexivity]).
    - intros Q. now destruct es.
  Qed.
  Lemma rep_appends l : forall b es, rep b es -> rep (fold_left tb_append l b) (es ++ l) /\ tb_id (fold_left tb_append l b) = tb_id b.
  Proof.
    induction l as [|e l IH]; intros b es R; cbn [fold_left]; [now rewrite app_nil_r|].
    destruct (rep_append b es e R) as [R1 I1]. destruct (IH _ _ R1) as [R2 I2]. rewrite <- app_assoc in R2. split; [exact R2|congruence].
  Qed.
  Lemma rep_flush b es : rep b es -> es <> [] -> sorted es -> exists t, tb_flush b = Ok t /\ tab_ok t /\ t_es t = es /\ t_id t = tb_id b.
  Proof.
    intros [E1 E2 E3 E4 E5 E6] Ne S. unfold tb_flush. rewrite E4.
    destruct (hd_error es) as [a|] eqn:Ha; [|now destruct es]. destruct (last_error es) as [z|] eqn:Hz; [|now apply last_error_none in Hz].
    cbn [expect bind]. destruct (tb_times b) as [[p q]|]; [|contradiction]. cbn [expect bind time_bounds] in *. eexists. split; [reflexivity|].
    cbn [t_es t_id]. split; [|auto]. subst es. destruct E5 as (B & X & Y). constructor; cbn [t_es t_count t_tombs t_range t_times fst snd]; auto.
    - rewrite Ha. reflexivity.
    - rewrite Hz. reflexivity.
  Qed.
  Lemma rep_range_none b es : rep b es -> (tb_range b = None <-> es = []).
  Proof.
    intros R. rewrite (rp_range _ _ R). destruct es as [|x r]; [easy|]. cbn [hd_error]. destruct (last_error (x :: r)) eqn:Q; [easy|].
    apply last_error_none in Q. discriminate.
  Qed.
  Lemma tb_build_ok id hint es : es <> [] -> sorted es ->
    exists t, tb_build id hint es = Ok t /\ tab_ok t /\ t_es t = es /\ t_id t = id.
  Proof.
    intros Ne S. unfold tb_build. destruct (rep_appends es (tb_new id hint) [] (rep_new _ _)) as [R I]. cbn [app] in R. cbn [tb_new tb_id] in I.
    destruct (rep_flush _ es R Ne S) as (t & E & O & Et & It). exists t. rewrite It, I. auto.
  Qed.

  (** *** Lookup in one table *)
  Lemma find_version_some E k v : find_version E k = Some v -> exists k', In (k', v) E /\ cmp k' k = Eq.
  Proof.
    induction E as [|[k' w] E IH]; cbn; [discriminate|]. destruct (cmp k' k) eqn:Q; cbn.
    - intros X. injection X as ->. exists k'. auto.
    - intros X. destruct (IH X) as (k2 & J & Q2). exists k2. auto.
    - intros X. destruct (IH X) as (k2 & J & Q2). exists k2. auto.
  Qed.
  Lemma find_version_none E k : find_version E k = None <-> forall e, In e E -> cmp (fst e) k <> Eq.
  Proof.
    induction E as [|[k' w] E IH]; cbn; [split; [intros _ e []|reflexivity]|]. split.
    - intros X e [<-|J]; cbn; destruct (cmp k' k) eqn:Q; cbn in X; try discriminate; try (apply IH; assumption).
    - intros X. destruct (cmp k' k) eqn:Q; cbn; [exfalso; apply (X (k', w)); auto| |]; apply IH; intros e J; apply X; auto.
  Qed.
  Lemma find_version_in E e k : sorted E -> In e E -> cmp (fst e) k = Eq -> find_version E k = Some (snd e).
  Proof.
    intros S J Q. destruct (find_version E k) as [v|] eqn:F.
    - destruct (find_version_some _ _ _ F) as (k' & J' & Q'). assert (X : (k', v) = e); [|now rewrite <- X].
      eapply sorted_key_inj; eauto. cbn. eapply cmp_eq_trans; [exact Q'|]. now apply cmp_eq_sym.
    - rewrite find_version_none in F. now destruct (F e J).
  Qed.
  Lemma tab_get_ok (has : nat -> bool) t k : tab_ok t -> has (t_id t) = true -> tab_get has t k = Ok (find_version (t_es t) k).
  Proof.
    intros O Hd. unfold tab_get, read. rewrite Hd. cbn [bind]. fold (lo t) (hi t).
    destruct (is_lt (cmp k (lo t)) || is_gt (cmp k (hi t))) eqn:B; [|reflexivity]. f_equal. symmetry. apply find_version_none. intros e J Q.
    pose proof (lo_le t e O J). pose proof (hi_ge t e O J). apply orb_true_iff in B. destruct B as [B|B].
    - apply H0. apply cmp_lt_gt. eapply cmp_eq_lt_trans; [exact Q|]. now destruct (cmp k (lo t)).
    - apply H1. rewrite (cmp_eq_l _ _ (hi t) Q). now destruct (cmp k (hi t)).
  Qed.

  (** *** Versions *)
  Definition uniq (E : list entry) : Prop := forall e e', In e E -> In e' E -> tm e = tm e' -> e = e'.
  (** The newest version of a key *)
  Definition version (E : list entry) (k : K) (o : option sval) : Prop :=
    match o with
    | None => forall e, In e E -> cmp (fst e) k <> Eq
    | Some v => exists e, latest E e /\ cmp (fst e) k = Eq /\ snd e = v
    end.
  Lemma version_exists E k : exists o, version E k o.
  Proof.
    induction E as [|e E [o IH]]; [exists None; intros e []|].
    destruct (cmp (fst e) k) eqn:Q.
    2,3: exists o; destruct o as [v|]; cbn in *; [destruct IH as (x & [J B] & Qx & Ex); exists x; split; [split; [now right|]|auto];
      intros e' [<-|J'] Q'; [rewrite (cmp_eq_trans _ _ _ Q' Qx) in Q; discriminate|auto]|intros x [<-|J]; [congruence|auto]].
    destruct o as [v|]; cbn in IH.
    - destruct IH as (x & [J B] & Qx & Ex). destruct (N.leb_spec (tm e) (tm x)) as [L|L].
      + exists (Some v). exists x. split; [split; [now right|]|auto]. intros e' [<-|J'] Q'; auto.
      + exists (Some (snd e)). exists e. split; [split; [now left|]|auto]. intros e' [<-|J'] Q'; [lia|].
        assert (tm e' <= tm x)%N; [|lia]. apply B; auto. eapply cmp_eq_trans; [exact Q'|]. eapply cmp_eq_trans; [exact Q|]. now apply cmp_eq_sym.
    - exists (Some (snd e)). exists e. split; [split; [now left|]|auto]. intros e' [<-|J'] Q'; [lia|]. exfalso. apply (IH _ J'). eapply cmp_eq_trans; eauto.
  Qed.
  Lemma latest_above E e : In e E -> exists e', latest E e' /\ cmp (fst e') (fst e) = Eq /\ (tm e <= tm e')%N.
  Proof.
    intros J. destruct (version_exists E (fst e)) as [[v|] X]; cbn in X.
    - destruct X as (x & L & Q & _). exists x. split; [exact L|]. split; [exact Q|]. destruct L as [_ B]. apply B; auto. now apply cmp_eq_sym.
    - exfalso. apply (X _ J). apply cmp_refl.
  Qed.
  Lemma latest_uniq E e e' : uniq E -> latest E e -> latest E e' -> cmp (fst e) (fst e') = Eq -> e = e'.
  Proof.
    intros U [J B] [J' B'] Q. apply U; auto. pose proof (B' _ J Q). pose proof (B _ J' (cmp_eq_sym _ _ Q)). lia.
  Qed.
  Lemma version_fun E k o o' : uniq E -> version E k o -> version E k o' -> o = o'.
  Proof.
    intros U. destruct o as [v|], o' as [w|]; cbn.
    - intros (e & L & Q & <-) (e' & L' & Q' & <-). f_equal. f_equal. apply (latest_uniq E); auto. eapply cmp_eq_trans; [exact Q|]. now apply cmp_eq_sym.
    - intros (e & [J _] & Q & _) N. now destruct (N _ J).
    - intros N (e & [J _] & Q & _). now destruct (N _ J).
    - reflexivity.
  Qed.
  Lemma version_ext E E' k o : (forall e, In e E <-> In e E') -> version E k o -> version E' k o.
  Proof.
    intros X. destruct o as [v|]; cbn.
    - intros (e & [J B] & Q). exists e. split; [|exact Q]. split; [now apply X|]. intros e' J'. apply B. now apply X.
    - intros N e J. apply N. now apply X.
  Qed.
  Lemma version_sorted E k : sorted E -> version E k (find_version E k).
  Proof.
    intros S. destruct (find_version E k) as [v|] eqn:F; cbn.
    - destruct (find_version_some _ _ _ F) as (k' & J & Q). exists (k', v). split; [|auto]. split; [exact J|]. intros e' J' Q'.
      rewrite (sorted_key_inj _ _ _ S J' J Q'). lia.
    - now apply find_version_none.
  Qed.
  (** Newer entries come first. *)
  Lemma version_app E1 E2 k o1 o2 : (forall e e', In e E1 -> In e' E2 -> cmp (fst e) (fst e') = Eq -> (tm e' <= tm e)%N) ->
    version E1 k o1 -> version E2 k o2 -> version (E1 ++ E2) k (match o1 with Some v => Some v | None => o2 end).
  Proof.
    intros N. destruct o1 as [v|]; cbn.
    - intros (e & [J B] & Q & Ev) _. exists e. split; [|auto]. split; [apply in_app_iff; auto|]. intros e' J' Q'. apply in_app_iff in J'.
      destruct J' as [J'|J']; [auto|]. apply N; auto. now apply cmp_eq_sym.
    - intros N1. destruct o2 as [v|]; cbn.
      + intros (e & [J B] & Q & Ev). exists e. split; [|auto]. split; [apply in_app_iff; auto|]. intros e' J' Q'. apply in_app_iff in J'.
        destruct J' as [J'|J']; [|auto]. exfalso. apply (N1 _ J'). eapply cmp_eq_trans; eauto.
      + intros N2 e J. apply in_app_iff in J. destruct J; auto.
  Qed.

  (** *** Lookup in several tables *)
  Lemma newest_version_ok (has : nat -> bool) ts k : Forall tab_ok ts -> Forall (fun t => has (t_id t) = true) ts ->
    forall E ret, version E k ret -> exists o, newest_version has ts k ret = Ok o /\ version (E ++ run_entries ts) k o.
  Proof.
    induction ts as [|t ts IH]; intros F Hs E ret X; cbn [newest_version].
    { exists ret. split; [reflexivity|]. cbn. now rewrite app_nil_r. }
    apply Forall_cons_iff in F, Hs. destruct F as [O F], Hs as [Ht Hs]. rewrite tab_get_ok by assumption. cbn [bind].
    pose proof (version_sorted (t_es t) k (ta_sorted t O)) as Y.
    set (r := match find_version (t_es t) k, ret with Some v, None => _ | _, _ => _ end).
    assert (W : version (E ++ t_es t) k r).
    { unfold r. destruct (find_version (t_es t) k) as [v|], ret as [w|]; cbn [version] in *.
      - destruct X as (x & [Jx Bx] & Qx & Ex), Y as (y & [Jy By] & Qy & Ey). unfold sv_cmp. subst v w.
        assert (Qxy : cmp (fst x) (fst y) = Eq) by (eapply cmp_eq_trans; [exact Qx|]; now apply cmp_eq_sym).
        destruct (N.compare_spec (tm x) (tm y)) as [Q|Q|Q]; cbn.
        + exists x. split; [|auto]. split; [apply in_app_iff; auto|]. intros e J Qe. apply in_app_iff in J. destruct J as [J|J]; [auto|].
          rewrite Q. apply By; auto. eapply cmp_eq_trans; eauto.
        + exists y. split; [|auto]. split; [apply in_app_iff; auto|]. intros e J Qe. apply in_app_iff in J. destruct J as [J|J]; [|auto].
          assert (tm e <= tm x)%N; [|lia]. apply Bx; auto. eapply cmp_eq_trans; [exact Qe|]. now apply cmp_eq_sym.
        + exists x. split; [|auto]. split; [apply in_app_iff; auto|]. intros e J Qe. apply in_app_iff in J. destruct J as [J|J]; [auto|].
          assert (tm e <= tm y)%N; [|lia]. apply By; auto. eapply cmp_eq_trans; eauto.
      - destruct Y as (y & [Jy By] & Qy & Ey). exists y. split; [|auto]. split; [apply in_app_iff; auto|]. intros e J Qe. apply in_app_iff in J.
        destruct J as [J|J]; [|auto]. exfalso. apply (X _ J). eapply cmp_eq_trans; eauto.
      - destruct X as (x & [Jx Bx] & Qx & Ex). exists x. split; [|auto]. split; [apply in_app_iff; auto|]. intros e J Qe. apply in_app_iff in J.
        destruct J as [J|J]; [auto|]. exfalso. apply (Y _ J). eapply cmp_eq_trans; eauto.
      - intros e J. apply in_app_iff in J. destruct J; auto. }
    destruct (IH F Hs _ _ W) as (o & Eo & Vo). exists o. split; [exact Eo|]. cbn [run_entries flat_map]. now rewrite app_assoc.
  Qed.

  (** *** Throwing entries away *)
  (** Entries of [E] were dropped: old versions, and tombstones of keys that have no other version left. *)
  Definition shrink (E E' : list entry) : Prop :=
    (forall e, In e E' -> In e E) /\
    (forall e, latest E e -> In e E' \/ has_data e = false /\ forall e', In e' E' -> cmp (fst e') (fst e) <> Eq).
  Lemma shrink_same E E' : (forall e, In e E <-> In e E') -> shrink E E'.
  Proof. intros X. split; [apply X|]. intros e [J _]. left. now apply X. Qed.
  Lemma latest_sub E E' e : (forall e, In e E' -> In e E) -> latest E e -> In e E' -> latest E' e.
  Proof. intros S [_ B] J. split; auto. Qed.
  Lemma shrink_trans E1 E2 E3 : shrink E1 E2 -> shrink E2 E3 -> shrink E1 E3.
  Proof.
    intros [S1 D1] [S2 D2]. split; [auto|]. intros e L. destruct (D1 e L) as [J|[Dd N]].
    - apply D2. now apply (latest_sub E1).
    - right. auto.
  Qed.
  Lemma shrink_newer T E E' : (forall e e', In e T -> In e' E -> (tm e' < tm e)%N) -> shrink E E' -> shrink (T ++ E) (T ++ E').
  Proof.
    intros N [S D]. split.
    - intros e J. rewrite in_app_iff in *. destruct J; auto.
    - intros e [J B]. rewrite in_app_iff in *. destruct J as [J|J]; [now left; left|].
      assert (L : latest E e). { split; [exact J|]. intros e' J' Q. apply B; [apply in_app_iff; auto|exact Q]. }
      destruct (D e L) as [J'|[Dd N']]; [now left; right|]. right. split; [exact Dd|]. intros e' J' Q. apply in_app_iff in J'.
      destruct J' as [J'|J']; [|now apply (N' e')]. specialize (N e' e J' J). specialize (B e' (proj2 (in_app_iff _ _ _) (or_introl J')) Q). lia.
  Qed.
  Lemma uniq_sub E E' : (forall e, In e E' -> In e E) -> uniq E -> uniq E'.
  Proof. intros S U e e' J J'. apply U; auto. Qed.
  (** What a reader sees *)
  Definition seen (o : option sval) : option V := match o with Some v => sv_data v | None => None end.
  Lemma shrink_seen E E' k o o' : uniq E -> shrink E E' -> version E k o -> version E' k o' -> seen o = seen o'.
  Proof.
    intros U [S D] X X'. destruct o as [v|]; cbn in X.
    - destruct X as (e & L & Q & <-). destruct (D e L) as [J|[Dd N]].
      + assert (Y : version E' k (Some (snd e))). { exists e. split; [|auto]. now apply (latest_sub E). }
        now rewrite (version_fun E' k _ _ (uniq_sub _ _ S U) Y X').
      + destruct o' as [w|]; cbn in X'; [destruct X' as (e' & [J' _] & Q' & _); exfalso; apply (N _ J'); eapply cmp_eq_trans; [exact Q'|now apply cmp_eq_sym]|].
        cbn. unfold has_data in Dd. now destruct (sv_data (snd e)).
    - destruct o' as [w|]; cbn in X'; [|reflexivity]. destruct X' as (e' & [J' _] & Q' & _). now destruct (X e' (S _ J')).
  Qed.

  (** *** Merging *)
  Lemma merge_latest E out e : uniq E -> merge_of E out -> latest E e -> In e out.
  Proof.
    intros U (_ & M1 & M2) L. destruct (M2 e (proj1 L)) as (e' & J & Q). specialize (M1 _ J). now rewrite (latest_uniq E e e' U L M1 (cmp_eq_sym _ _ Q)).
  Qed.
  (** Merging [E] and leaving out tombstones if [purge], beside other entries [R] *)
  Lemma merge_shrink E R out (purge : bool) : uniq (R ++ E) -> merge_of E out ->
    (purge = true -> forall e e', In e E -> In e' R -> cmp (fst e') (fst e) = Eq -> (tm e < tm e')%N) ->
    shrink (R ++ E) (R ++ filter (fun e => negb purge || has_data e) out).
  Proof.
    intros U M P. pose proof M as (So & M1 & M2). split.
    - intros e J. rewrite in_app_iff in *. destruct J as [J|J]; [auto|]. apply filter_In in J. right. now apply M1.
    - intros e [J B]. rewrite in_app_iff in J. destruct J as [J|J]; [left; apply in_app_iff; auto|].
      assert (L : latest E e). { split; [exact J|]. intros e' J' Q. apply B; [apply in_app_iff; auto|exact Q]. }
      assert (Jo : In e out). { apply (merge_latest E); auto. eapply uniq_sub; [|exact U]. intros. apply in_app_iff. auto. }
      destruct (negb purge || has_data e) eqn:Kp.
      + left. apply in_app_iff. right. apply filter_In. auto.
      + right. apply orb_false_iff in Kp. destruct Kp as [Kp Dd]. split; [exact Dd|]. intros e' J' Q. apply in_app_iff in J'. destruct J' as [J'|J'].
        * apply negb_false_iff in Kp. specialize (P Kp e e' J J' Q). specialize (B e' (proj2 (in_app_iff _ _ _) (or_introl J')) Q). lia.
        * apply filter_In in J'. destruct J' as [J' Kp']. rewrite (sorted_key_inj _ _ _ So J' Jo Q) in Kp'. rewrite Kp, Dd in Kp'. discriminate.
  Qed.

  (** *** Writing tables *)
  Lemma pack_ok cfg keep hint es : forall b es0, rep b es0 -> sorted (es0 ++ filter keep es) ->
    exists ts id, pack cfg keep hint b es = Ok (ts, id) /\ run_entries ts = es0 ++ filter keep es /\ Forall tab_ok ts /\
      tb_id b < id /\ NoDup (map t_id ts) /\ (forall t, In t ts -> tb_id b <= t_id t < id).
  Proof.
    induction es as [|e es IH]; intros b es0 R S; cbn [pack filter].
    - rewrite app_nil_r in *. destruct (tb_range b) eqn:Rg.
      + assert (Ne : es0 <> []). { intros Q. apply (rep_range_none b es0 R) in Q. congruence. }
        destruct (rep_flush b es0 R Ne S) as (t & -> & O & Et & It). cbn [bind]. exists [t], (1 + tb_id b). split; [reflexivity|].
        split; [cbn; now rewrite app_nil_r|]. split; [now constructor|]. split; [lia|]. split; [cbn; repeat constructor; intros []|]. intros t' [<-|[]]. lia.
      + apply (rep_range_none b es0 R) in Rg. subst es0. exists [], (1 + tb_id b). repeat split; auto; try constructor; destruct H0.
    - set (b1 := if keep e then tb_append b e else b). set (es1 := if keep e then es0 ++ [e] else es0).
      assert (R1 : rep b1 es1 /\ tb_id b1 = tb_id b). { unfold b1, es1. destruct (keep e); [now apply rep_append|auto]. }
      destruct R1 as [R1 I1]. cbn [filter] in S.
      assert (Q1 : es0 ++ (if keep e then e :: filter keep es else filter keep es) = es1 ++ filter keep es).
      { unfold es1. destruct (keep e); [now rewrite <- app_assoc|reflexivity]. }
      rewrite Q1 in *. destruct (lc_max_size cfg <? tb_size b1)%N eqn:Sz.
      + assert (Ne : es1 <> []). { intros Q. apply (rp_size _ _ R1) in Q. rewrite Q in Sz. now destruct (lc_max_size cfg). }
        apply sorted_app in S. destruct S as (S1 & S2 & _). destruct (rep_flush b1 es1 R1 Ne S1) as (t & -> & O & Et & It). cbn [bind].
        destruct (IH (tb_new (Datatypes.S (tb_id b1)) hint) [] (rep_new _ _) S2) as (ts & id & -> & Er & F & L & ND & B). cbn [bind tb_new tb_id] in *.
        exists (t :: ts), id. split; [reflexivity|]. split; [cbn; rewrite Et; f_equal; exact Er|]. split; [now constructor|]. split; [lia|]. split.
        * cbn [map]. constructor; [|exact ND]. intros J. apply in_map_iff in J. destruct J as (t' & Q & J). specialize (B _ J). lia.
        * intros t' [<-|J]; [lia|]. specialize (B _ J). lia.
      + destruct (IH b1 es1 R1 S) as (ts & id & E & Er & F & L & ND & B). exists ts, id. rewrite <- I1. auto 10.
  Qed.

  (** *** Runs *)
  Lemma in_run (ts : list table) e : In e (run_entries ts) <-> exists t, In t ts /\ In e (t_es t).
  Proof. unfold run_entries. apply in_flat_map. Qed.
  Lemma run_app (a b : list table) : run_entries (a ++ b) = run_entries a ++ run_entries b.
  Proof. unfold run_entries. apply flat_map_app. Qed.
  Lemma run_entries_perm (a b : list table) : Permutation a b -> Permutation (run_entries a) (run_entries b).
  Proof. unfold run_entries. apply Permutation_flat_map. Qed.
End Tables.
