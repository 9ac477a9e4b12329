(** [LeveledStrategy] obeys [laws], for configurations with positive limits and histories that are short enough for the
    sizes of the levels not to wrap. *)
From Verif Require Import ListLemmas OrdLemmas PermTac.
From Verif Require Export LsmMapProofs LeveledProofs.

Section LeveledLaws.
  Context {K V : Type} `{CmpLaws K} {Z : Sizes K V}.
  Notation sval := (sval V).
  Notation entry := (K * sval)%type.
  Notation table := (table K V).
  Notation level := (level K V).
  Notation lmeta := (lmeta K V).
  Notation tm e := (sv_time (snd e)).
  Context (cfg : lconfig).

  (** Level [i] can come into being among [W] entries: every level before it can overflow. *)
  Definition lv_has_level (W : N) (i : nat) : Prop := forall j, j < i -> (max_len cfg j < W)%N.
  Definition earlier (t t' : table) : Prop := forall e e', In e (t_es t) -> In e' (t_es t') -> (tm e < tm e')%N.
  Record vinv (W : N) (m : lmeta) : Prop := mkVinv {
    vi_tabs : Forall tab_ok (lm_tabs m);
    vi_order : StronglySorted earlier (lm_tabs m);
    vi_above : forall e e', In e (run_entries (lm_tabs m)) -> In e' (ents (lm_levels m)) -> (tm e' < tm e)%N;
    vi_ok : Forall level_ok (lm_levels m);
    vi_ord : StronglySorted over (lm_levels m);
    vi_nd : NoDup (map t_id (lv_tables m));
    vi_lvl : forall i, i < length (lm_levels m) -> lv_has_level W i;
    vi_uniq : uniq (tents m);
    vi_time : forall e, In e (tents m) -> (tm e < W)%N }.
  Definition lcomp (m m' : lmeta) : Prop := lm_tabs m' = [].
  Definition llim (W : N) : Prop := forall i, lv_has_level W i -> (0 < max_len cfg i)%N.

  Lemma level_tabs ls : Forall (@level_ok K V _) ls -> Forall tab_ok (level_tables ls).
  Proof.
    intros F. apply Forall_forall. intros t J. apply in_tables in J. destruct J as (l & kt & Jl & Jk & <-).
    apply (level_good l kt); [apply (proj1 (Forall_forall _ _) F _ Jl)|exact Jk].
  Qed.
  Lemma vinv_mono W W' m : vinv W m -> (W <= W')%N -> vinv W' m.
  Proof.
    intros [T1 T2 T3 T4 T5 T6 T7 T8 T9] Le. constructor; auto.
    - intros i Hi j Hj. specialize (T7 i Hi j Hj). lia.
    - intros e J. specialize (T9 e J). lia.
  Qed.
  Lemma vinv_basic W m : vinv W m -> Forall tab_ok (lv_tables m) /\ NoDup (map t_id (lv_tables m)) /\ uniq (tents m) /\ (forall e, In e (tents m) -> (tm e < W)%N).
  Proof.
    intros I. split; [|split; [apply I|split; apply I]]. unfold lv_tables. apply Forall_app. split; [apply I|]. apply level_tabs. apply I.
  Qed.
  Lemma vinv_new W : vinv W (mkLm [] []).
  Proof.
    constructor; cbn [lm_tabs lm_levels].
    - constructor.
    - constructor.
    - intros e e' [].
    - constructor.
    - constructor.
    - constructor.
    - cbn. intros i X. lia.
    - intros e e' [].
    - intros e [].
  Qed.
  Lemma tabs_snoc (m : lmeta) t : Permutation (lv_tables (mkLm (lm_tabs m ++ [t]) (lm_levels m))) (t :: lv_tables m).
  Proof. unfold lv_tables. cbn [lm_tabs lm_levels]. perm. Qed.
  Lemma in_tents (m : lmeta) e : In e (tents m) <-> In e (run_entries (lm_tabs m)) \/ In e (ents (lm_levels m)).
  Proof. rewrite tents_eq. apply in_app_iff. Qed.
  Lemma tab_tents (m : lmeta) t e : In t (lm_tabs m) -> In e (t_es t) -> In e (tents m).
  Proof. intros J Je. apply in_tents. left. apply in_run. eauto. Qed.

  Lemma vinv_push W m t : vinv W m -> tab_ok t -> uniq (t_es t) -> (forall e, In e (t_es t) -> (tm e < W)%N) ->
    (forall e e', In e (t_es t) -> In e' (tents m) -> (tm e' < tm e)%N) -> ~ In (t_id t) (map t_id (lv_tables m)) ->
    vinv W (mkLm (lm_tabs m ++ [t]) (lm_levels m)).
  Proof.
    intros I O U Tm Nw Nid. assert (Q : forall e, In e (tents (mkLm (lm_tabs m ++ [t]) (lm_levels m))) <-> In e (t_es t) \/ In e (tents m)).
    { intros e. rewrite !in_tents. cbn [lm_tabs lm_levels]. rewrite run_app, in_app_iff. cbn. rewrite app_nil_r. tauto. }
    constructor; cbn [lm_tabs lm_levels]; try apply I.
    - apply Forall_app. split; [apply I|]. constructor; [exact O|constructor].
    - apply ss_app. split; [apply I|]. split; [repeat constructor|]. intros a b Ja [<-|[]] e e' Je Je'. apply Nw; [exact Je'|]. now apply (tab_tents m a).
    - intros e e' J J'. rewrite run_app in J. apply in_app_iff in J. destruct J as [J|J]; [now apply (vi_above _ _ I)|]. cbn in J. rewrite app_nil_r in J.
      apply Nw; [exact J|]. apply in_tents. now right.
    - rewrite tabs_snoc. cbn [map]. constructor; [exact Nid|apply I].
    - intros e e' J J' E. apply Q in J. apply Q in J'. destruct J as [J|J], J' as [J'|J'].
      + now apply U.
      + pose proof (Nw _ _ J J'). lia.
      + pose proof (Nw _ _ J' J). lia.
      + now apply (vi_uniq _ _ I).
    - intros e J. apply Q in J. destruct J as [J|J]; [now apply Tm|now apply (vi_time _ _ I)].
  Qed.

  (** *** get *)
  Lemma level_find (l : level) k : level_ok l -> match find (fun kt => negb (is_lt (cmp (fst kt) k))) l with
    | Some kt => In kt l /\ version (lents l) k (find_version (t_es (snd kt)) k)
    | None => version (lents l) k None
    end.
  Proof.
    induction l as [|kt l IH]; intros L; [intros e []|]. change (kt :: l) with ([kt] ++ l) in L. apply level_ok_app in L. destruct L as (Lk & Ll & Bf).
    pose proof (level_good [kt] kt Lk (or_introl eq_refl)) as [Ek O]. cbn [find].
    assert (El : lents (kt :: l) = t_es (snd kt) ++ lents l) by reflexivity. rewrite El. destruct (cmp (fst kt) k) eqn:Q; cbn [is_lt negb].
    - split; [now left|]. replace (find_version (t_es (snd kt)) k) with (match find_version (t_es (snd kt)) k with Some v => Some v | None => None end) by now destruct (find_version _ _).
      apply version_app; [|apply version_sorted; apply O|].
      + intros e e' J J' Qe. exfalso. apply in_lents in J'. destruct J' as (x & Jx & Je). pose proof (level_good l x Ll Jx) as [_ Ox].
        pose proof (before_lt (snd kt) (snd x) e e' O Ox (Bf _ _ (or_introl eq_refl) Jx) J Je). congruence.
      + intros e J Qe. apply in_lents in J. destruct J as (x & Jx & Je). pose proof (level_good l x Ll Jx) as [_ Ox]. specialize (Bf kt x (or_introl eq_refl) Jx).
        unfold before in Bf. rewrite <- Ek in Bf. pose proof (lo_le _ _ Ox Je). destruct (cmp (lo (snd x)) (fst e)) eqn:?; [| |congruence]; korder.
    - specialize (IH Ll). assert (X : forall o, version (lents l) k o -> version (t_es (snd kt) ++ lents l) k o).
      { intros o Vo. assert (Nk : version (t_es (snd kt)) k None).
        { intros e J Qe. rewrite Ek in Q. pose proof (hi_ge _ e O J). destruct (cmp (fst e) (hi (snd kt))) eqn:?; [| |congruence]; korder. }
        refine (version_app _ _ k None o _ Nk Vo). intros e e' J J' Qe. exfalso. apply in_lents in J'. destruct J' as (x & Jx & Je). pose proof (level_good l x Ll Jx) as [_ Ox].
        pose proof (before_lt (snd kt) (snd x) e e' O Ox (Bf _ _ (or_introl eq_refl) Jx) J Je). congruence. }
      destruct (find _ l) as [x|]; [|now apply X]. destruct IH as [J Vx]. split; [now right|now apply X].
    - split; [now left|]. replace (find_version (t_es (snd kt)) k) with (match find_version (t_es (snd kt)) k with Some v => Some v | None => None end) by now destruct (find_version _ _).
      apply version_app; [|apply version_sorted; apply O|].
      + intros e e' J J' Qe. exfalso. apply in_lents in J'. destruct J' as (x & Jx & Je). pose proof (level_good l x Ll Jx) as [_ Ox].
        pose proof (before_lt (snd kt) (snd x) e e' O Ox (Bf _ _ (or_introl eq_refl) Jx) J Je). congruence.
      + intros e J Qe. apply in_lents in J. destruct J as (x & Jx & Je). pose proof (level_good l x Ll Jx) as [_ Ox]. specialize (Bf kt x (or_introl eq_refl) Jx).
        unfold before in Bf. rewrite <- Ek in Bf. pose proof (lo_le _ _ Ox Je). destruct (cmp (lo (snd x)) (fst e)) eqn:?; [| |congruence]; korder.
  Qed.
  Lemma levels_get_ok (has : nat -> bool) k : forall (ls : list level), Forall level_ok ls -> StronglySorted over ls -> Forall (t_ok has) (level_tables ls) ->
    exists o, levels_get has ls k = Ok o /\ version (ents ls) k o.
  Proof.
    induction ls as [|l ls IH]; intros Ok Ord Hs; [exists None; split; [reflexivity|intros e []]|].
    apply Forall_cons_iff in Ok. destruct Ok as [L Ok]. apply StronglySorted_inv in Ord. destruct Ord as [Ord Fo]. rewrite tables_cons in Hs. apply Forall_app in Hs. destruct Hs as [Hl Hs].
    destruct (IH Ok Ord Hs) as (o & Eo & Vo). cbn [levels_get]. rewrite ents_cons. pose proof (level_find l k L) as X.
    assert (Nw : forall e e', In e (lents l) -> In e' (ents ls) -> cmp (fst e) (fst e') = Eq -> (tm e' <= tm e)%N).
    { intros e e' J J' Q. apply in_ents in J'. destruct J' as (l' & Jl & Je). pose proof (proj1 (Forall_forall _ _) Fo _ Jl e e' J Je Q). lia. }
    destruct (find _ l) as [[k' t]|].
    - destruct X as [J Vx]. rewrite tab_get_ok; [|apply (level_good l (k', t) L J)|apply (proj1 (Forall_forall _ _) Hl); now apply (in_map snd) in J].
      cbn [bind snd] in *. destruct (find_version (t_es t) k) as [v|].
      + exists (Some v). split; [reflexivity|]. exact (version_app _ _ k (Some v) o Nw Vx Vo).
      + exists o. split; [exact Eo|]. exact (version_app _ _ k None o Nw Vx Vo).
    - exists o. split; [exact Eo|]. exact (version_app _ _ k None o Nw X Vo).
  Qed.
  Lemma lv_get_ok W m (has : nat -> bool) k : vinv W m -> Forall (t_ok has) (lv_tables m) -> exists o, lv_get has m k = Ok o /\ version (tents m) k o.
  Proof.
    intros I Hs. unfold lv_get. unfold lv_tables in Hs. apply Forall_app in Hs. destruct Hs as [Ht Hl].
    destruct (newest_version_ok has (lm_tabs m) k (vi_tabs _ _ I) Ht [] None) as (o & -> & Vo); [intros e []|]. cbn [bind app] in *.
    destruct (levels_get_ok has k (lm_levels m) (vi_ok _ _ I) (vi_ord _ _ I) Hl) as (o' & E' & Vo').
    assert (X : version (tents m) k (match o with Some v => Some v | None => o' end)).
    { rewrite tents_eq. apply version_app; auto. intros e e' J J' _. pose proof (vi_above _ _ I e e' J J'). lia. }
    destruct o as [v|]; eauto.
  Qed.
  Lemma lv_runs_ok W m : vinv W m -> let runs := map (fun t => [t]) (lm_tabs m) ++ map (map snd) (lm_levels m) in
    Forall (fun r => sorted (run_entries r)) runs /\ Permutation (concat runs) (lv_tables m).
  Proof.
    intros I runs. split.
    - apply Forall_app. split; apply Forall_map; (eapply Forall_impl; [|apply I]); cbn beta.
      + intros t O. cbn. rewrite app_nil_r. apply O.
      + intros l. apply level_sorted.
    - unfold runs, lv_tables. rewrite concat_app. apply Permutation_app.
      + induction (lm_tabs m) as [|t ts IH]; [reflexivity|]. cbn. now rewrite IH.
      + unfold level_tables. now rewrite flat_map_concat_map.
  Qed.

  (** *** Compaction *)
  Lemma count_times (E : list entry) W : NoDup E -> uniq E -> (forall e, In e E -> (tm e < W)%N) -> (N.of_nat (length E) <= W)%N.
  Proof.
    intros ND U Tm. assert (ND' : NoDup (map (fun e => N.to_nat (tm e)) E)).
    { clear Tm. induction E as [|e E IH]; [constructor|]. apply NoDup_cons_iff in ND. destruct ND as [N ND]. cbn [map]. constructor.
      - intros J. apply in_map_iff in J. destruct J as (e' & Q & J). apply N. rewrite (U e e' (or_introl eq_refl) (or_intror J)); [exact J|]. lia.
      - apply IH; [exact ND|]. intros a b Ja Jb. apply U; now right. }
    pose proof (NoDup_incl_length ND' (l' := seq 0 (N.to_nat W))) as X. rewrite map_length, seq_length in X. enough (length E <= N.to_nat W) by lia. apply X.
    intros n J. apply in_map_iff in J. destruct J as (e & <- & J). apply in_seq. specialize (Tm e J). lia.
  Qed.
  Lemma lv_grow W : llim W -> forall i (l : level), lv_has_level W i -> level_ok l -> Forall (fun e => (tm e < W)%N) (lents l) -> uniq (lents l) ->
    (max_len cfg i < N.of_nat (length l))%N -> (1 <= max_len cfg i)%N /\ lv_has_level W (S i).
  Proof.
    intros Li i l I L P U M. assert (Le : (N.of_nat (length l) <= W)%N).
    { pose proof (lents_pos l L). pose proof (count_times (lents l) W (sorted_nodup _ (level_sorted l L)) U (proj1 (Forall_forall _ _) P)). lia. }
    specialize (Li i I). split; [lia|]. intros j Hj. destruct (Nat.eq_dec j i) as [->|Ne]; [lia|apply I; lia].
  Qed.
  Lemma lv_compact_ok W m (has : nat -> bool) id : llim W -> vinv W m -> Forall (t_ok has) (lv_tables m) ->
    Forall (fun t => t_id t < id) (lv_tables m) -> (forall i, id <= i -> has i = true) ->
    exists m' id', lv_compact cfg has id m = Ok (m', id') /\ id <= id' /\ lcomp m m' /\ vinv W m' /\ shrink (tents m) (tents m') /\
      (forall t, In t (lv_tables m') -> In t (lv_tables m) \/ id <= t_id t < id').
  Proof.
    intros Li I Hs Id Hn. set (P (e : entry) := (tm e < W)%N).
    assert (Ci : cinv has id (lv_has_level W) P id m).
    { constructor; try apply I; auto.
      - intros e e' J J' _. now apply (vi_above _ _ I).
      - intros i Hi. destruct i as [|i]; [intros j Hj; lia|]. apply (vi_lvl _ _ I). lia.
      - apply Forall_forall. apply I. }
    destruct (compact_ok cfg has id Hn (lv_has_level W) P (lv_grow W Li) id m Ci (rounds m)) as (ls & id' & E & Lv & Sh & Le & Tb); [lia|].
    exists (mkLm [] ls), id'. split; [exact E|]. split; [exact Le|]. split; [reflexivity|].
    assert (Et : tents (mkLm [] ls) = ents ls) by reflexivity.
    split; [|split; [exact Sh|]].
    - constructor; cbn [lm_tabs lm_levels].
      + constructor.
      + constructor.
      + intros e e' [].
      + apply Lv.
      + apply Lv.
      + apply (li_nd _ _ _ _ _ _ Lv).
      + apply (li_lvl _ _ _ _ _ _ Lv).
      + apply (li_uniq _ _ _ _ _ _ Lv).
      + apply Forall_forall. apply (li_P _ _ _ _ _ _ Lv).
    - intros t J. cbn in J. destruct (Tb t J) as [J'|G].
      + left. apply in_app_iff. now right.
      + right. split; [exact G|]. apply (proj1 (Forall_forall _ _) (li_id _ _ _ _ _ _ Lv) t J).
  Qed.

  (** *** Replacing the metadata *)
  Lemma newest_from (ts : list table) : forall o t, (In t ts -> exists x, fold_left (fun o t => opt_max o (Some (snd (t_times t)))) ts o = Some x /\ (snd (t_times t) <= x)%N) /\
    (forall y, o = Some y -> exists x, fold_left (fun o t => opt_max o (Some (snd (t_times t)))) ts o = Some x /\ (y <= x)%N).
  Proof.
    induction ts as [|a ts IH]; intros o t; cbn [fold_left]; [split; [intros []|intros y ->; exists y; split; [reflexivity|lia]]|].
    destruct (IH (opt_max o (Some (snd (t_times a)))) t) as [I1 I2]. split.
    - intros [<-|J]; [|now apply I1]. destruct o as [z|]; cbn in I2.
      + destruct (I2 _ eq_refl) as (x & E & L). exists x. split; [exact E|lia].
      + destruct (I2 _ eq_refl) as (x & E & L). exists x. split; [exact E|lia].
    - intros y ->. cbn in I2. destruct (I2 _ eq_refl) as (x & E & L). exists x. split; [exact E|lia].
  Qed.
  Lemma newest_ge (ts : list table) t : In t ts -> exists x, newest ts = Some x /\ (snd (t_times t) <= x)%N.
  Proof. apply (newest_from ts None t). Qed.
  Definition stays (m' : lmeta) (t : table) : bool :=
    match newest (level_tables (lm_levels m')) with Some x => (x <? fst (t_times t))%N | None => true end.
  (** A table that stays has only entries newer than all levels. *)
  Lemma stays_newer m' t : Forall tab_ok (level_tables (lm_levels m')) -> tab_ok t -> stays m' t = true -> forall e e', In e (t_es t) -> In e' (ents (lm_levels m')) -> (tm e' < tm e)%N.
  Proof.
    intros Om O S e e' J J'. unfold ents in J'. apply in_run in J'. destruct J' as (t' & Jt & Je). destruct (newest_ge _ _ Jt) as (x & E & L). unfold stays in S. rewrite E in S.
    apply N.ltb_lt in S. pose proof (ta_times _ O e J). pose proof (ta_times _ (proj1 (Forall_forall _ _) Om _ Jt) e' Je). lia.
  Qed.
  Lemma newest_attained (ts : list table) : Forall tab_ok ts -> forall x, newest ts = Some x -> exists e, In e (run_entries ts) /\ tm e = x.
  Proof.
    intros F. assert (X : forall (ts : list table) o x, fold_left (fun o t => opt_max o (Some (snd (t_times t)))) ts o = Some x -> o = Some x \/ exists t, In t ts /\ snd (t_times t) = x).
    { clear. induction ts as [|a ts IH]; intros o x E; cbn [fold_left] in E; [now left|]. destruct (IH _ _ E) as [Q|(t & J & Q)]; [|right; exists t; cbn; auto].
      destruct o as [y|]; cbn in Q; injection Q as Q.
      - destruct (N.max_spec y (snd (t_times a))) as [[_ M]|[_ M]]; rewrite M in Q; [right; exists a; cbn; auto|left; congruence].
      - right. exists a. cbn. auto. }
    intros x E. destruct (X ts None x E) as [Q|(t & J & Q)]; [discriminate|]. destruct (ta_last _ (proj1 (Forall_forall _ _) F _ J)) as (e & Je & Qe).
    exists e. split; [apply in_run; eauto|congruence].
  Qed.
  (** A table all of whose entries are newer than all levels stays. *)
  Lemma newer_stays m' t : Forall tab_ok (level_tables (lm_levels m')) -> tab_ok t -> (forall e e', In e (t_es t) -> In e' (ents (lm_levels m')) -> (tm e' < tm e)%N) -> stays m' t = true.
  Proof.
    intros Om O N. unfold stays. destruct (newest _) as [x|] eqn:E; [|reflexivity]. apply N.ltb_lt. destruct (newest_attained _ Om x E) as (e' & J' & <-).
    destruct (ta_first _ O) as (e & J & <-). now apply N.
  Qed.

  Definition lpush (m : lmeta) (t : table) : lmeta := mkLm (lm_tabs m ++ [t]) (lm_levels m).
  Lemma pushes ts : forall m, fold_left lpush ts m = mkLm (lm_tabs m ++ ts) (lm_levels m).
  Proof.
    induction ts as [|t ts IH]; intros [tabs ls]; cbn [fold_left]; [unfold lpush; cbn; now rewrite app_nil_r|]. rewrite IH. unfold lpush. cbn [lm_tabs lm_levels].
    now rewrite <- app_assoc.
  Qed.
  Lemma ids_inj (ts : list table) t t' : NoDup (map t_id ts) -> In t ts -> In t' ts -> t_id t = t_id t' -> t = t'.
  Proof.
    induction ts as [|a ts IH]; intros ND J J' Q; [destruct J|]. cbn [map] in ND. apply NoDup_cons_iff in ND. destruct ND as [N ND].
    destruct J as [<-|J], J' as [<-|J']; auto; exfalso; apply N; [rewrite Q|rewrite <- Q]; now apply in_map.
  Qed.
  Lemma ss_cases {A} (R : A -> A -> Prop) l a b : StronglySorted R l -> In a l -> In b l -> a = b \/ R a b \/ R b a.
  Proof.
    intros S. induction S as [|x l S IH F]; intros Ja Jb; [destruct Ja|]. rewrite Forall_forall in F. destruct Ja as [<-|Ja], Jb as [<-|Jb]; auto.
  Qed.
  Lemma lv_replace_ok W m ts cu m' : cu = fold_left lpush ts m -> vinv W m -> (forall e e', In e (run_entries ts) -> In e' (tents m) -> (tm e' < tm e)%N) ->
    vinv W cu -> lcomp m m' -> vinv W m' -> shrink (tents m) (tents m') ->
    (forall t t', In t ts -> In t' (lv_tables m') -> t_id t <> t_id t') ->
    (forall t', In t' (lv_tables m') -> In t' (lv_tables m) \/ ~ In (t_id t') (map t_id (lv_tables m))) ->
    vinv W (lv_replace cu m') /\ shrink (tents cu) (tents (lv_replace cu m')) /\
    (forall t, In t (lv_tables (lv_replace cu m')) -> In t (lv_tables cu) \/ In t (lv_tables m')).
  Proof.
    intros Ec Im Nw Ic Cm Im' [Sb Sd] Dj Old. rewrite pushes in Ec. unfold lv_replace. rewrite Cm. cbn [app]. fold (stays m'). set (tabs := filter _ (lm_tabs cu)).
    change (filter (fun t => match newest (level_tables (lm_levels m')) with Some x => (x <? fst (t_times t))%N | None => true end) (lm_tabs cu)) with (filter (stays m') (lm_tabs cu)) in tabs.
    assert (Et : lm_tabs cu = lm_tabs m ++ ts) by now rewrite Ec.
    assert (El : lm_levels cu = lm_levels m) by now rewrite Ec.
    assert (Em' : tents m' = ents (lm_levels m')) by (rewrite tents_eq, Cm; reflexivity).
    assert (Tm' : lv_tables m' = level_tables (lm_levels m')) by (unfold lv_tables; rewrite Cm; reflexivity).
    assert (Om : Forall tab_ok (level_tables (lm_levels m'))) by (apply level_tabs, Im').
    assert (Oc : forall t, In t (lm_tabs cu) -> tab_ok t) by (apply Forall_forall, Ic).
    assert (Jt : forall t, In t tabs <-> In t (lm_tabs cu) /\ stays m' t = true) by (intros t; apply filter_In).
    assert (Mc : forall e, In e (tents m) -> In e (tents cu)).
    { intros e J. apply in_tents in J. apply in_tents. rewrite Et, El, run_app, in_app_iff. tauto. }
    assert (Sr : forall e, In e (tents (mkLm tabs (lm_levels m'))) -> In e (tents cu)).
    { intros e J. apply in_tents in J. cbn [lm_tabs lm_levels] in J. destruct J as [J|J].
      - apply in_run in J. destruct J as (t & J & Je). apply Jt in J. apply (tab_tents cu t); [apply J|exact Je].
      - apply Mc, Sb. now rewrite Em'. }
    split; [|split].
    - constructor; cbn [lm_tabs lm_levels]; try apply Im'.
      + apply Forall_forall. intros t J. apply Jt in J. now apply Oc.
      + apply ss_filter. apply Ic.
      + intros e e' J J'. apply in_run in J. destruct J as (t & J & Je). apply Jt in J. destruct J as [J S]. now apply (stays_newer m' t Om (Oc t J) S).
      + unfold lv_tables. cbn [lm_tabs lm_levels]. rewrite map_app. pose proof (vi_nd _ _ Ic) as ND. unfold lv_tables in ND. rewrite map_app in ND. apply NoDup_left in ND.
        pose proof (vi_nd _ _ Im') as ND'. rewrite Tm' in ND'.
        assert (NDt : NoDup (map t_id tabs)).
        { unfold tabs. clear - ND. induction (lm_tabs cu) as [|a l IH]; [constructor|]. cbn [map] in ND. apply NoDup_cons_iff in ND. destruct ND as [N ND]. cbn [filter].
          destruct (stays m' a); [|now apply IH]. cbn [map]. constructor; [|now apply IH]. intros J. apply N. apply in_map_iff in J. destruct J as (x & <- & J).
          apply filter_In in J. now apply in_map. }
        assert (Ds : forall t t', In t tabs -> In t' (level_tables (lm_levels m')) -> t_id t <> t_id t').
        { intros t t' J J' Q. apply Jt in J. destruct J as [J S]. pose proof J as Jc. rewrite Et in J. apply in_app_iff in J. destruct J as [J|J].
          - destruct (Old t') as [J2|J2]; [now rewrite Tm'| |].
            + assert (t = t'). { apply (ids_inj (lv_tables m)); auto; [apply Im|]. apply in_app_iff. now left. }
              subst t'. destruct (ta_first _ (Oc t Jc)) as (e & Je & _). assert (Jl : In e (ents (lm_levels m'))) by (apply in_run; eauto).
              pose proof (stays_newer m' t Om (Oc t Jc) S e e Je Jl). lia.
            + apply J2. rewrite <- Q. apply in_map. apply in_app_iff. now left.
          - apply (Dj t t' J); [now rewrite Tm'|exact Q]. }
        clear - NDt ND' Ds. induction tabs as [|a l IH]; [exact ND'|]. cbn [map app] in *. apply NoDup_cons_iff in NDt. destruct NDt as [N NDt]. constructor.
        * intros J. apply in_app_iff in J. destruct J as [J|J]; [now apply N|]. apply in_map_iff in J. destruct J as (t' & Q & J). apply (Ds a t'); [now left|exact J|congruence].
        * apply IH; [exact NDt|]. intros t t' J. apply Ds. now right.
      + intros e e' J J'. apply (vi_uniq _ _ Ic); auto.
      + intros e J. apply (vi_time _ _ Ic). auto.
    - split; [exact Sr|]. intros e [J Bst].
      assert (Jr : forall t, In t (lm_tabs cu) -> stays m' t = true -> In e (t_es t) -> In e (tents (mkLm tabs (lm_levels m')))).
      { intros t Jc S Je. apply (tab_tents _ t); [|exact Je]. now apply Jt. }
      assert (Case : In e (tents m) \/ exists t, In t ts /\ In e (t_es t)).
      { apply in_tents in J. rewrite Et, El, run_app, in_app_iff in J. destruct J as [[J|J]|J]; [left; apply in_tents; auto|right; now apply in_run|left; apply in_tents; auto]. }
      destruct Case as [Jm|(t & Jts & Je)].
      + assert (Lm : latest (tents m) e) by (split; [exact Jm|]; intros e' J' Q; apply Bst; auto). destruct (Sd e Lm) as [J'|[Dd N]].
        { left. apply in_tents. right. change (In e (ents (lm_levels m'))). now rewrite <- Em'. }
        apply in_tents in Jm. destruct Jm as [Jm|Jm].
        * apply in_run in Jm. destruct Jm as (te & Jte & Je). assert (Jtc : In te (lm_tabs cu)) by (rewrite Et; apply in_app_iff; auto).
          destruct (stays m' te) eqn:Se; [left; now apply (Jr te)|]. right. split; [exact Dd|]. intros e' J' Q. apply in_tents in J'. cbn [lm_tabs lm_levels] in J'.
          destruct J' as [J'|J']; [|apply (N e'); [now rewrite Em'|exact Q]]. apply in_run in J'. destruct J' as (t' & Jt' & Je'). apply Jt in Jt'. destruct Jt' as [Jc' S'].
          destruct (ss_cases earlier (lm_tabs cu) te t' (vi_order _ _ Ic) Jtc Jc') as [->|[Er|Er]].
          -- congruence.
          -- pose proof (Er e e' Je Je'). assert (In e' (tents cu)) by (apply (tab_tents cu t'); auto). pose proof (Bst e' ltac:(assumption) Q). lia.
          -- rewrite (newer_stays m' te Om (Oc te Jtc)) in Se; [discriminate|]. intros x y Jx Jy. destruct (ta_first _ (Oc t' Jc')) as (z & Jz & _).
             pose proof (Er z x Jz Jx). pose proof (stays_newer m' t' Om (Oc t' Jc') S' z y Jz Jy). lia.
        * right. split; [exact Dd|]. intros e' J' Q. apply in_tents in J'. cbn [lm_tabs lm_levels] in J'.
          destruct J' as [J'|J']; [|apply (N e'); [now rewrite Em'|exact Q]]. apply in_run in J'. destruct J' as (t' & Jt' & Je'). apply Jt in Jt'. destruct Jt' as [Jc' S'].
          assert (Y : (tm e < tm e')%N). { apply (vi_above _ _ Ic); [apply in_run; eauto|now rewrite El]. }
          pose proof (Bst e' (tab_tents cu t' e' Jc' Je') Q). lia.
      + left. assert (Jtc : In t (lm_tabs cu)) by (rewrite Et; apply in_app_iff; auto). apply (Jr t); auto. apply newer_stays; auto.
        intros x y Jx Jy. apply Nw; [apply in_run; eauto|]. apply Sb. now rewrite Em'.
    - intros t J. unfold lv_tables in J. cbn [lm_tabs lm_levels] in J. apply in_app_iff in J. destruct J as [J|J].
      + left. apply Jt in J. apply in_app_iff. left. apply J.
      + right. now rewrite Tm'.
  Qed.

  Lemma leveled_laws : laws (leveled cfg) vinv lcomp (fun _ => True) False llim shrink eq.
  Proof.
    constructor; cbn [leveled st_meta st_new st_tables st_push st_due st_compact st_replace st_get st_runs].
    - intros W W' X Le i Hi. apply X. intros j Hj. specialize (Hi j Hj). lia.
    - apply vinv_mono.
    - apply vinv_basic.
    - apply vinv_new.
    - reflexivity.
    - apply tabs_snoc.
    - apply vinv_push.
    - intros W m has k. apply lv_get_ok.
    - apply lv_runs_ok.
    - intros W m has id Li I _ _ Hs Id Hn. destruct (lv_compact_ok W m has id Li I Hs Id Hn) as (m' & id' & -> & X). apply fine_ok. exact X.
    - intros W m ts cu m' (E & Im & Nw) Ic. apply lv_replace_ok; auto.
    - intros E E' X. apply X.
    - reflexivity.
    - apply eq_trans.
    - apply strict_same.
    - apply strict_slip.
  Qed.
End LeveledLaws.
