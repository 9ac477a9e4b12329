(** Levels of tables and their compaction. *)
From Verif Require Import ListLemmas OrdLemmas PermTac.
From Verif Require Export LsmTableProofs.

Lemma partition_filter {A} (f : A -> bool) (l : list A) : partition f l = (filter f l, filter (fun x => negb (f x)) l).
Proof. induction l as [|x l IH]; [reflexivity|]. cbn. rewrite IH. now destruct (f x). Qed.
Lemma filter_perm {A} (f : A -> bool) (l : list A) : Permutation l (filter f l ++ filter (fun x => negb (f x)) l).
Proof.
  induction l as [|x l IH]; [reflexivity|]. cbn. destruct (f x); cbn [negb app]; [now constructor|].
  apply Permutation_cons_app. exact IH.
Qed.
Section StrongSort.
  Context {A : Type} (R : A -> A -> Prop).
  Lemma ss_app (l r : list A) : StronglySorted R (l ++ r) <->
    StronglySorted R l /\ StronglySorted R r /\ forall a b, In a l -> In b r -> R a b.
  Proof.
    induction l as [|x l IH]; cbn [app].
    - split; [intros S; repeat split; auto; [constructor|intros a b []]|tauto].
    - split.
      + intros S. apply StronglySorted_inv in S. destruct S as [S F]. apply IH in S. destruct S as (S1 & S2 & X). apply Forall_app in F. destruct F as [F1 F2].
        split; [now constructor|]. split; [exact S2|]. intros a b [<-|J] Jb; [|auto]. now apply (proj1 (Forall_forall _ _) F2).
      + intros (S1 & S2 & X). apply StronglySorted_inv in S1. destruct S1 as [S1 F]. constructor.
        * apply IH. split; [exact S1|]. split; [exact S2|]. intros a b J Jb. apply X; auto. now right.
        * apply Forall_app. split; [exact F|]. apply Forall_forall. intros b Jb. apply X; auto. now left.
  Qed.
  Lemma ss_filter (f : A -> bool) (l : list A) : StronglySorted R l -> StronglySorted R (filter f l).
  Proof.
    induction 1 as [|x l S IH F]; cbn; [constructor|]. destruct (f x); [|exact IH]. constructor; [exact IH|].
    apply Forall_forall. intros y J. apply filter_In in J. now apply (proj1 (Forall_forall _ _) F).
  Qed.
  Lemma ss_drop (l : list A) x r : StronglySorted R (l ++ x :: r) -> StronglySorted R (l ++ r).
  Proof.
    intros S. apply ss_app in S. destruct S as (S1 & S2 & X). apply StronglySorted_inv in S2. apply ss_app. split; [exact S1|]. split; [apply S2|].
    intros a b J Jb. apply X; auto. now right.
  Qed.
End StrongSort.

Section Levels.
  Context {K V : Type} `{CmpLaws K} {Z : Sizes K V}.
  Notation sval := (sval V).
  Notation entry := (K * sval)%type.
  Notation table := (table K V).
  Notation level := (level K V).
  Notation tm e := (sv_time (snd e)).
  Implicit Types (E : list entry) (e : entry) (t x y : table) (k : K) (l : level) (ls : list level).

  (** *** One level *)
  Definition before (x y : table) : Prop := cmp (hi x) (lo y) = Lt.
  Definition good (kt : K * table) : Prop := fst kt = hi (snd kt) /\ tab_ok (snd kt).
  Definition level_ok (l : level) : Prop := Forall good l /\ StronglySorted (fun a b => before (snd a) (snd b)) l.
  Definition lents (l : level) : list entry := run_entries (map snd l).

  Lemma in_lents l e : In e (lents l) <-> exists kt, In kt l /\ In e (t_es (snd kt)).
  Proof.
    unfold lents. rewrite in_run. split.
    - intros (t & J & Je). apply in_map_iff in J. destruct J as (kt & <- & J). eauto.
    - intros (kt & J & Je). exists (snd kt). split; [now apply in_map|exact Je].
  Qed.
  Lemma lents_app l1 l2 : lents (l1 ++ l2) = lents l1 ++ lents l2.
  Proof. unfold lents. now rewrite map_app, run_app. Qed.

  Lemma before_lt x y e e' : tab_ok x -> tab_ok y -> before x y -> In e (t_es x) -> In e' (t_es y) -> cmp (fst e) (fst e') = Lt.
  Proof.
    intros Ox Oy B J J'. pose proof (hi_ge x e Ox J) as P. pose proof (lo_le y e' Oy J') as Q. unfold before in B.
    assert (P' : cmp (fst e) (lo y) = Lt).
    { destruct (cmp (fst e) (hi x)) eqn:X; [eapply cmp_eq_lt_trans; eauto|eapply cmp_lt_trans; eauto|congruence]. }
    destruct (cmp (lo y) (fst e')) eqn:X; [eapply cmp_lt_eq_trans; eauto|eapply cmp_lt_trans; eauto|congruence].
  Qed.
  Lemma before_of_lt x y : tab_ok x -> tab_ok y -> (forall e e', In e (t_es x) -> In e' (t_es y) -> cmp (fst e) (fst e') = Lt) -> before x y.
  Proof.
    intros Ox Oy X. destruct (hi_in x Ox) as (e & J & Q), (lo_in y Oy) as (e' & J' & Q'). unfold before. rewrite <- Q, <- Q'. now apply X.
  Qed.
  Lemma level_sorted l : level_ok l -> sorted (lents l).
  Proof.
    intros [G S]. unfold lents. induction l as [|[k t] l IH]; [apply sorted_nil|]. apply Forall_cons_iff in G. destruct G as [[Qk O] G].
    apply StronglySorted_inv in S. destruct S as [S F]. cbn [map run_entries flat_map]. apply sorted_app. split; [apply O|]. split; [now apply IH|].
    intros p q Jp Jq. apply in_lents in Jq. destruct Jq as (kt & Jt & Jq). pose proof (proj1 (Forall_forall _ _) F _ Jt) as B.
    pose proof (proj1 (Forall_forall _ _) G _ Jt) as [_ O']. unfold plt. now apply (before_lt t (snd kt)).
  Qed.
  Lemma level_good l kt : level_ok l -> In kt l -> good kt.
  Proof. intros [G _] J. now apply (proj1 (Forall_forall _ _) G). Qed.
  Lemma level_ok_app l1 l2 : level_ok (l1 ++ l2) <-> level_ok l1 /\ level_ok l2 /\ forall a b, In a l1 -> In b l2 -> before (snd a) (snd b).
  Proof. unfold level_ok. rewrite Forall_app, ss_app. tauto. Qed.
  Lemma level_ok_filter (f : K * table -> bool) l : level_ok l -> level_ok (filter f l).
  Proof.
    intros [G S]. split; [|now apply ss_filter]. apply Forall_forall. intros kt J. apply filter_In in J. now apply (proj1 (Forall_forall _ _) G).
  Qed.
  Lemma level_apart l a b : level_ok l -> In a l -> In b l -> a = b \/ before (snd a) (snd b) \/ before (snd b) (snd a).
  Proof.
    intros [_ S] Ja Jb. induction S as [|x l S IH F]; [destruct Ja|]. destruct Ja as [<-|Ja], Jb as [<-|Jb]; auto.
    - right. left. now apply (proj1 (Forall_forall _ _) F).
    - right. right. now apply (proj1 (Forall_forall _ _) F).
  Qed.

  (** *** Inserting *)
  Lemma level_insert_ok l t : level_ok l -> tab_ok t -> (forall a, In a l -> before (snd a) t \/ before t (snd a)) ->
    exists l1 l2, l = l1 ++ l2 /\ level_insert l t = l1 ++ (hi t, t) :: l2 /\ level_ok (level_insert l t).
  Proof.
    intros L O Ap.
    assert (G : exists l1 l2, l = l1 ++ l2 /\ level_insert l t = l1 ++ (hi t, t) :: l2 /\
                (forall a, In a l1 -> before (snd a) t) /\ (forall a, In a l2 -> before t (snd a))).
    { induction l as [|[k x] l IH]; [exists [], []; repeat split; intros a []|].
      destruct (level_good _ (k, x) L (or_introl eq_refl)) as [Qk Ox]. cbn [fst snd] in Qk, Ox. subst k.
      change ((hi x, x) :: l) with ([(hi x, x)] ++ l) in L. apply level_ok_app in L. destruct L as (_ & L & Fx).
      pose proof (lo_hi t O) as Lt'. pose proof (lo_hi x Ox) as Lx. pose proof (Ap (hi x, x) (or_introl eq_refl)) as Ax. cbn [snd] in Ax.
      cbn [level_insert bt_insert]. unfold level_insert. cbn [bt_insert]. destruct (cmp (hi t) (hi x)) eqn:Q.
      - exfalso. unfold before in Ax. destruct Ax as [Ax|Ax].
        + destruct (cmp (lo t) (hi t)) eqn:Y; [| |congruence]; korder.
        + destruct (cmp (lo x) (hi x)) eqn:Y; [| |congruence]; korder.
      - assert (B : before t x).
        { destruct Ax as [Ax|Ax]; [|exact Ax]. unfold before in Ax. exfalso. destruct (cmp (lo t) (hi t)) eqn:Y; [| |congruence]; korder. }
        exists [], ((hi x, x) :: l). split; [reflexivity|]. split; [reflexivity|]. split; [intros a []|]. intros a [<-|J]; [exact B|].
        specialize (Fx (hi x, x) a (or_introl eq_refl) J). unfold before in *. cbn [snd] in Fx.
        destruct (cmp (lo x) (hi x)) eqn:Y; [| |congruence]; korder.
      - destruct (IH L) as (l1 & l2 & -> & E & B1 & B2); [intros a J; apply Ap; now right|].
        exists ((hi x, x) :: l1), l2. split; [reflexivity|]. unfold level_insert in E. rewrite E. split; [reflexivity|]. split; [|exact B2].
        intros a [<-|J]; [|auto]. cbn [snd]. destruct Ax as [Ax|Ax]; [exact Ax|]. unfold before in Ax. exfalso.
        destruct (cmp (lo x) (hi x)) eqn:Y; [| |congruence]; korder. }
    destruct G as (l1 & l2 & -> & E & B1 & B2). exists l1, l2. split; [reflexivity|]. split; [exact E|]. rewrite E.
    apply level_ok_app in L. destruct L as (L1 & L2 & B12). apply level_ok_app. split; [exact L1|]. split.
    - destruct L2 as [G2 S2]. split; [constructor; [now split|exact G2]|]. constructor; [exact S2|]. apply Forall_forall. exact B2.
    - intros a b Ja [<-|Jb]; auto.
  Qed.
  Lemma level_inserts_ok ts : forall l, level_ok l -> Forall tab_ok ts -> sorted (run_entries ts) ->
    (forall a t, In a l -> In t ts -> before (snd a) t \/ before t (snd a)) ->
    level_ok (fold_left level_insert ts l) /\ Permutation (map snd (fold_left level_insert ts l)) (ts ++ map snd l).
  Proof.
    induction ts as [|t ts IH]; intros l L F S Ap; cbn [fold_left]; [split; [exact L|reflexivity]|].
    apply Forall_cons_iff in F. destruct F as [O F]. cbn [run_entries flat_map] in S. apply sorted_app in S. destruct S as (_ & S & X).
    destruct (level_insert_ok l t L O) as (l1 & l2 & El & Ei & Li); [intros a J; apply Ap; auto; now left|].
    destruct (IH (level_insert l t) Li F S) as [L' P'].
    - intros a t' J Jt. rewrite Ei in J. apply in_app_iff in J. pose proof (proj1 (Forall_forall _ _) F _ Jt) as O'.
      assert (A : In a l -> before (snd a) t' \/ before t' (snd a)) by (intros J'; apply Ap; auto; now right).
      destruct J as [J|[<-|J]]; [apply A; rewrite El; apply in_app_iff; auto| |apply A; rewrite El; apply in_app_iff; auto].
      left. cbn [snd]. apply before_of_lt; auto. intros e e' Je Je'. apply X; auto. apply in_flat_map. eauto.
    - split; [exact L'|]. rewrite P', Ei, El, !map_app. cbn [map snd]. perm.
  Qed.

  (** *** Taking out *)
  Lemma level_remove_ok l kt : level_ok l -> In kt l -> exists l1 l2, l = l1 ++ kt :: l2 /\ level_remove (hi (snd kt)) l = Some (snd kt, l1 ++ l2).
  Proof.
    intros L J. induction l as [|[k x] l IH]; [destruct J|]. destruct (level_good _ (k, x) L (or_introl eq_refl)) as [Qk Ox]. cbn [fst snd] in Qk, Ox. subst k.
    pose proof L as L0. change ((hi x, x) :: l) with ([(hi x, x)] ++ l) in L. apply level_ok_app in L. destruct L as (_ & L & Fx).
    cbn [level_remove]. destruct J as [<-|J]; cbn [snd].
    - rewrite cmp_refl. cbn [is_eq]. exists [], l. split; reflexivity.
    - assert (Nq : is_eq (cmp (hi x) (hi (snd kt))) = false).
      { specialize (Fx _ _ (or_introl eq_refl) J). destruct (level_good _ kt L J) as [_ O]. pose proof (lo_hi _ O). unfold before in Fx. cbn [snd] in Fx.
        destruct (cmp (hi x) (hi (snd kt))) eqn:Q; try reflexivity. exfalso. destruct (cmp (lo (snd kt)) (hi (snd kt))) eqn:Y; [| |congruence]; korder. }
      rewrite Nq. destruct (IH L J) as (l1 & l2 & -> & ->). exists ((hi x, x) :: l1), l2. split; reflexivity.
  Qed.
  Lemma pick_in l : l <> [] -> exists kt, In kt l /\ pick l = Some (snd kt).
  Proof.
    intros Ne. unfold pick. destruct l as [|a l]; [congruence|]. cbn [fold_left]. clear Ne.
    assert (G : forall l b, exists kt, (kt = b \/ In kt l) /\
      fold_left (fun best kt => match best with None => Some (snd kt) | Some b => Some (if more_dead b (snd kt) then b else snd kt) end) l (Some (snd b)) = Some (snd kt)).
    { clear. induction l as [|c l IH]; intros b; [exists b; auto|]. cbn [fold_left]. destruct (more_dead (snd b) (snd c)).
      - destruct (IH b) as (kt & [->|J] & E); [exists b|exists kt]; (split; [|exact E]); cbn; auto.
      - destruct (IH c) as (kt & [->|J] & E); [exists c|exists kt]; (split; [|exact E]); cbn; auto. }
    destruct (G l a) as (kt & [->|J] & E); [exists a|exists kt]; (split; [|exact E]); [now left|now right].
  Qed.

  (** *** Intersection *)
  Lemma not_intersecting t x : tab_ok t -> tab_ok x -> is_intersecting (t_range t) (t_range x) = false -> before t x \/ before x t.
  Proof.
    intros O Ox. unfold is_intersecting, kmax, kmin. fold (lo t) (hi t) (lo x) (hi x). intros Q. apply negb_false_iff in Q.
    pose proof (lo_hi t O). pose proof (lo_hi x Ox). unfold before.
    destruct (cmp (lo t) (lo x)) eqn:Q1, (cmp (hi t) (hi x)) eqn:Q2; cbn in Q;
      repeat match goal with X : is_gt (cmp ?a ?b) = true |- _ => destruct (cmp a b) eqn:?; try discriminate X; clear X end;
      repeat match goal with X : cmp ?a ?b <> Gt |- _ => destruct (cmp a b) eqn:?; [clear X|clear X|congruence] end;
      first [congruence|left; korder; fail|right; korder; fail].
  Qed.
  Lemma intersecting t x : tab_ok t -> tab_ok x -> is_intersecting (t_range t) (t_range x) = true -> ~ before t x /\ ~ before x t.
  Proof.
    intros O Ox. unfold is_intersecting, kmax, kmin. fold (lo t) (hi t) (lo x) (hi x). intros Q. apply negb_true_iff in Q.
    pose proof (lo_hi t O). pose proof (lo_hi x Ox). unfold before.
    destruct (cmp (lo t) (lo x)) eqn:Q1, (cmp (hi t) (hi x)) eqn:Q2; cbn in Q;
      repeat match goal with X : is_gt (cmp ?a ?b) = false |- _ => destruct (cmp a b) eqn:?; try discriminate X; clear X end;
      repeat match goal with X : cmp ?a ?b <> Gt |- _ => destruct (cmp a b) eqn:?; [clear X|clear X|congruence] end;
      first [congruence|split; intros Y; korder].
  Qed.

  (** *** Merging into a level *)
  Lemma sorted_nodup E : sorted E -> NoDup E.
  Proof.
    induction E as [|e E IH]; intros S; [constructor|]. apply sorted_cons in S. destruct S as [F S]. constructor; [|now apply IH].
    intros J. pose proof (proj1 (Forall_forall _ _) F _ J) as X. cbn beta in X. rewrite cmp_refl in X. discriminate.
  Qed.
  Lemma merge_length E out : merge_of E out -> length out <= length E.
  Proof.
    intros (S & M & _). apply NoDup_incl_length; [now apply sorted_nodup|]. intros e J. now apply M.
  Qed.
  Lemma filter_length_le {A} (f : A -> bool) (l : list A) : length (filter f l) <= length l.
  Proof. induction l as [|x l IH]; cbn; [lia|]. destruct (f x); cbn; lia. Qed.

  Definition kept (purge : bool) (out : list entry) : list entry := filter (fun e => negb purge || has_data e) out.
  Lemma merge_into_ok cfg (has : nat -> bool) purge hint id (runs : list (list table)) l :
    Forall (Forall (t_ok has)) runs -> Forall (fun r => sorted (run_entries r)) runs -> level_ok l ->
    (forall a, In a l -> tab_ok (snd a) /\
       ((forall e, In e (flat_map run_entries runs) -> cmp (hi (snd a)) (fst e) = Lt) \/ (forall e, In e (flat_map run_entries runs) -> cmp (fst e) (lo (snd a)) = Lt))) ->
    exists l' id' ts out, merge_into cfg has purge hint id runs l = Ok (l', id') /\ merge_of (flat_map run_entries runs) out /\
      run_entries ts = kept purge out /\ level_ok l' /\ Permutation (map snd l') (ts ++ map snd l) /\
      id < id' /\ NoDup (map t_id ts) /\ (forall t, In t ts -> id <= t_id t < id').
  Proof.
    intros Ro So L Ap. unfold merge_into. destruct (merge_tables_ok has runs Ro So) as (out & -> & M). cbn [bind].
    pose proof M as (Sd & ML & _). change (sorted out) in Sd.
    destruct (pack_ok cfg (fun e => negb purge || has_data e) hint out (tb_new id hint) [] (rep_new _ _)) as (ts & id' & -> & Er & F & Li & ND & B).
    { now apply sorted_filter. }
    cbn [bind app tb_new tb_id] in *. fold (kept purge out) in Er.
    destruct (level_inserts_ok ts l L F) as [L' P'].
    - rewrite Er. now apply sorted_filter.
    - intros a t J Jt. pose proof (proj1 (Forall_forall _ _) F _ Jt) as O. destruct (Ap a J) as [Oa X].
      assert (Sub : forall e, In e (t_es t) -> In e (flat_map run_entries runs)).
      { intros e Je. assert (Jr : In e (run_entries ts)) by (apply in_run; eauto). rewrite Er in Jr. apply filter_In in Jr. now apply ML. }
      destruct X as [X|X]; [left|right].
      + destruct (lo_in t O) as (e & Je & Q). unfold before. rewrite <- Q. auto.
      + destruct (hi_in t O) as (e & Je & Q). unfold before. rewrite <- Q. auto.
    - eexists _, _, ts, out. split; [reflexivity|]. auto 10.
  Qed.

  (** *** Several levels *)
  Definition newer (X Y : list entry) : Prop := forall e e', In e X -> In e' Y -> cmp (fst e) (fst e') = Eq -> (tm e' < tm e)%N.
  Lemma newer_incl X Y X' Y' : incl X' X -> incl Y' Y -> newer X Y -> newer X' Y'.
  Proof. intros I1 I2 N e e' J J'. apply N; auto. Qed.
  Lemma newer_app_r X Y Y' : newer X Y -> newer X Y' -> newer X (Y ++ Y').
  Proof. intros N1 N2 e e' J J'. apply in_app_iff in J'. destruct J'; auto. Qed.
  Lemma newer_app_l X X' Y : newer X Y -> newer X' Y -> newer (X ++ X') Y.
  Proof. intros N1 N2 e e' J J'. apply in_app_iff in J. destruct J; auto. Qed.
  Definition over (a b : level) : Prop := newer (lents a) (lents b).
  Definition ents (ls : list level) : list entry := run_entries (level_tables ls).
  Lemma tables_app ls ls' : level_tables (ls ++ ls') = level_tables ls ++ level_tables ls'.
  Proof. unfold level_tables. apply flat_map_app. Qed.
  Lemma tables_cons l ls : level_tables (l :: ls) = map snd l ++ level_tables ls.
  Proof. reflexivity. Qed.
  Lemma ents_app ls ls' : ents (ls ++ ls') = ents ls ++ ents ls'.
  Proof. unfold ents. now rewrite tables_app, run_app. Qed.
  Lemma ents_cons l ls : ents (l :: ls) = lents l ++ ents ls.
  Proof. unfold ents, lents. now rewrite tables_cons, run_app. Qed.
  Lemma in_ents ls e : In e (ents ls) <-> exists l, In l ls /\ In e (lents l).
  Proof.
    induction ls as [|l ls IH]; [split; [intros []|intros (? & [] & _)]|]. rewrite ents_cons, in_app_iff, IH. split.
    - intros [J|(x & J & Je)]; [exists l; cbn; auto|exists x; cbn; auto].
    - intros (x & [<-|J] & Je); eauto.
  Qed.
  Lemma in_tables ls t : In t (level_tables ls) <-> exists l kt, In l ls /\ In kt l /\ snd kt = t.
  Proof.
    unfold level_tables. rewrite in_flat_map. split.
    - intros (l & J & Jt). apply in_map_iff in Jt. destruct Jt as (kt & Q & Jk). eauto.
    - intros (l & kt & J & Jk & <-). exists l. split; [exact J|now apply in_map].
  Qed.
  Lemma over_all ls ls' : (forall a b, In a ls -> In b ls' -> over a b) -> newer (ents ls) (ents ls').
  Proof. intros X e e' J J'. apply in_ents in J. apply in_ents in J'. destruct J as (a & Ja & Je), J' as (b & Jb & Je'). now apply (X a b). Qed.

  (** Two different tables of a level have no key in common. *)
  Lemma level_keys l a b e e' : level_ok l -> In a l -> In b l -> a <> b -> In e (t_es (snd a)) -> In e' (t_es (snd b)) -> cmp (fst e) (fst e') <> Eq.
  Proof.
    intros L Ja Jb Nab Je Je' Q. destruct (level_good l a L Ja) as [_ Oa], (level_good l b L Jb) as [_ Ob].
    destruct (level_apart l a b L Ja Jb) as [X|[X|X]]; [congruence| |].
    - pose proof (before_lt _ _ _ _ Oa Ob X Je Je'). congruence.
    - pose proof (before_lt _ _ _ _ Ob Oa X Je' Je) as Y. apply cmp_eq_sym in Q. congruence.
  Qed.
  Lemma level_split_keys l1 kt l2 e e' : level_ok (l1 ++ kt :: l2) -> In e (t_es (snd kt)) -> In e' (lents (l1 ++ l2)) -> cmp (fst e') (fst e) <> Eq.
  Proof.
    intros L Je Je' Q. apply in_lents in Je'. destruct Je' as (a & Ja & Je'). apply level_ok_app in L. destruct L as (L1 & L2 & X).
    change (kt :: l2) with ([kt] ++ l2) in L2. apply level_ok_app in L2. destruct L2 as (L0 & L2 & X2).
    pose proof (level_good _ kt L0 (or_introl eq_refl)) as [_ O]. apply in_app_iff in Ja. destruct Ja as [Ja|Ja].
    - destruct (level_good _ a L1 Ja) as [_ Oa]. pose proof (before_lt _ _ _ _ Oa O (X a kt Ja (or_introl eq_refl)) Je' Je). congruence.
    - destruct (level_good _ a L2 Ja) as [_ Oa]. pose proof (before_lt _ _ _ _ O Oa (X2 kt a (or_introl eq_refl) Ja) Je Je'). apply cmp_eq_sym in Q. congruence.
  Qed.
  Lemma level_ok_drop l1 kt l2 : level_ok (l1 ++ kt :: l2) -> level_ok (l1 ++ l2) /\ tab_ok (snd kt).
  Proof.
    intros L. split; [|apply (level_good _ kt L); apply in_app_iff; right; now left].
    destruct L as [G S]. split; [|now apply ss_drop in S]. apply Forall_app in G. destruct G as [G1 G2]. apply Forall_cons_iff in G2. apply Forall_app. tauto.
  Qed.
  Lemma lents_split l1 kt l2 : Permutation (lents (l1 ++ kt :: l2)) (t_es (snd kt) ++ lents (l1 ++ l2)).
  Proof. rewrite !lents_app. change (kt :: l2) with ([kt] ++ l2). rewrite lents_app. unfold lents at 2. cbn. rewrite app_nil_r. perm. Qed.

  (** *** The invariant of a compaction; [I i] says that level [i] may be there, [P] holds of all entries. *)
  Section Compaction.
    Context (cfg : lconfig) (has : nat -> bool) (f0 : nat) (has_new : forall i, f0 <= i -> has i = true).
    Context (I : nat -> Prop) (P : entry -> Prop).
    Record linv (id : nat) (ls : list level) : Prop := mkLinv {
      li_ok : Forall level_ok ls;
      li_ord : StronglySorted over ls;
      li_nd : NoDup (map t_id (level_tables ls));
      li_id : Forall (fun t => t_id t < id) (level_tables ls);
      li_has : Forall (t_ok has) (level_tables ls);
      li_lvl : forall i, i < length ls -> I i;
      li_P : Forall P (ents ls);
      li_uniq : uniq (ents ls);
      li_f0 : f0 <= id }.
    Definition lstep (id : nat) (ls : list level) (id' : nat) (ls' : list level) : Prop :=
      shrink (ents ls) (ents ls') /\ id <= id' /\ (forall t, In t (level_tables ls') -> In t (level_tables ls) \/ id <= t_id t).
    Lemma lstep_refl id ls : lstep id ls id ls.
    Proof. repeat split; auto; intros e L; destruct L; auto. Qed.
    Lemma lstep_trans id1 ls1 id2 ls2 id3 ls3 : lstep id1 ls1 id2 ls2 -> lstep id2 ls2 id3 ls3 -> lstep id1 ls1 id3 ls3.
    Proof.
      intros (S1 & L1 & T1) (S2 & L2 & T2). split; [now apply (shrink_trans _ _ _ S1 S2)|]. split; [lia|].
      intros t J. destruct (T2 t J) as [J'|G]; [auto|right; lia].
    Qed.

    Lemma uniq_perm (X Y : list entry) : (forall e, In e X <-> In e Y) -> uniq X -> uniq Y.
    Proof. intros Q. apply uniq_sub. intros e. apply Q. Qed.
    Lemma shrink_perm (X X' Y Y' : list entry) : (forall e, In e X <-> In e X') -> (forall e, In e Y <-> In e Y') -> shrink X Y -> shrink X' Y'.
    Proof.
      intros QX QY S. eapply shrink_trans; [apply shrink_same; intros e; symmetry; apply QX|]. eapply shrink_trans; [exact S|]. now apply shrink_same.
    Qed.
    Lemma set_mid {A} (a : list A) (x : A) (b : list A) (y : A) : list_set (a ++ x :: b) (length a) y = a ++ y :: b.
    Proof. induction a as [|z a IH]; cbn; [reflexivity|]. now rewrite IH. Qed.
    Lemma nth_mid {A} (a : list A) (x : A) (b : list A) : nth_error (a ++ x :: b) (length a) = Some x.
    Proof. rewrite nth_error_app2 by lia. now rewrite Nat.sub_diag. Qed.
    Lemma set_mid2 {A} (a : list A) (x y : A) (b : list A) (z : A) : list_set (a ++ x :: y :: b) (length a + 1) z = a ++ x :: z :: b.
    Proof. replace (length a + 1) with (length (a ++ [x])) by (rewrite app_length; reflexivity). change (x :: y :: b) with ([x] ++ y :: b). rewrite app_assoc, set_mid, <- app_assoc. reflexivity. Qed.
    Lemma nth_mid2 {A} (a : list A) (x y : A) (b : list A) : nth_error (a ++ x :: y :: b) (length a + 1) = Some y.
    Proof. rewrite nth_error_app2 by lia. replace (length a + 1 - length a) with 1 by lia. reflexivity. Qed.
    Lemma over_replace (A : list level) (x y : level) (B : list level) (x' y' : level) : StronglySorted over (A ++ x :: y :: B) -> incl (lents x') (lents x) ->
      incl (lents y') (lents x ++ lents y) -> over x' y' -> StronglySorted over (A ++ x' :: y' :: B).
    Proof.
      intros S Ix Iy N. apply ss_app in S. destruct S as (SA & S & X). apply StronglySorted_inv in S. destruct S as [S Fx].
      apply StronglySorted_inv in S. destruct S as [S Fy]. apply Forall_cons_iff in Fx. destruct Fx as [Nxy Fx].
      assert (Ny : forall b, In b B -> over y' b).
      { intros b J. eapply newer_incl; [exact Iy|apply incl_refl|]. apply newer_app_l; [apply (proj1 (Forall_forall _ _) Fx _ J)|apply (proj1 (Forall_forall _ _) Fy _ J)]. }
      apply ss_app. split; [exact SA|]. split.
      - constructor; [constructor; [exact S|now apply Forall_forall]|]. constructor; [exact N|]. apply Forall_forall. intros b J.
        eapply newer_incl; [exact Ix|apply incl_refl|apply (proj1 (Forall_forall _ _) Fx _ J)].
      - intros a b Ja [<-|[<-|Jb]].
        + eapply newer_incl; [apply incl_refl|exact Ix|]. apply X; cbn; auto.
        + eapply newer_incl; [apply incl_refl|exact Iy|]. apply newer_app_r; apply X; cbn; auto.
        + apply X; cbn; auto.
    Qed.

    (** The positions of the tables that the one to be merged meets *)
    Lemma outside t below old new (a : K * table) : tab_ok t -> level_ok below ->
      partition (fun kt => is_intersecting (t_range t) (t_range (snd kt))) below = (old, new) -> In a new ->
      (forall e, In e (t_es t ++ run_entries (map snd old)) -> cmp (hi (snd a)) (fst e) = Lt) \/
      (forall e, In e (t_es t ++ run_entries (map snd old)) -> cmp (fst e) (lo (snd a)) = Lt).
    Proof.
      intros O L Q J. rewrite partition_filter in Q. injection Q as Qo Qn. subst old new. apply filter_In in J. destruct J as [J Na].
      apply negb_true_iff in Na. destruct (level_good _ a L J) as [_ Oa]. destruct (not_intersecting t (snd a) O Oa Na) as [B|B].
      - right. intros e Je. apply in_app_iff in Je. destruct Je as [Je|Je].
        + destruct (lo_in _ Oa) as (e' & Je' & <-). now apply (before_lt t (snd a)).
        + apply in_lents in Je. destruct Je as (b & Jb & Je). apply filter_In in Jb. destruct Jb as [Jb Ib]. destruct (level_good _ b L Jb) as [_ Ob].
          destruct (intersecting t (snd b) O Ob Ib) as [N1 N2]. destruct (lo_in _ Oa) as (e' & Je' & <-).
          destruct (level_apart _ a b L J Jb) as [X|[X|X]]; [congruence| |now apply (before_lt (snd b) (snd a))].
          exfalso. apply N1. pose proof (lo_hi _ Oa). unfold before in *. destruct (cmp (lo (snd a)) (hi (snd a))) eqn:?; [| |congruence]; korder.
      - left. intros e Je. apply in_app_iff in Je. destruct Je as [Je|Je].
        + destruct (hi_in _ Oa) as (e' & Je' & <-). now apply (before_lt (snd a) t).
        + apply in_lents in Je. destruct Je as (b & Jb & Je). apply filter_In in Jb. destruct Jb as [Jb Ib]. destruct (level_good _ b L Jb) as [_ Ob].
          destruct (intersecting t (snd b) O Ob Ib) as [N1 N2]. destruct (hi_in _ Oa) as (e' & Je' & <-).
          destruct (level_apart _ a b L J Jb) as [X|[X|X]]; [congruence|now apply (before_lt (snd a) (snd b))|].
          exfalso. apply N2. pose proof (lo_hi _ Oa). unfold before in *. destruct (cmp (lo (snd a)) (hi (snd a))) eqn:?; [| |congruence]; korder.
    Qed.

    Lemma merge_down_ok hint id (A : list level) l (R : list level) : linv id (A ++ l :: R) -> l <> [] -> (R = [] -> I (S (length A))) ->
      exists l' R' id', merge_down cfg has hint id (length A) (A ++ l :: R) = Ok (A ++ l' :: R', id') /\
        linv id' (A ++ l' :: R') /\ lstep id (A ++ l :: R) id' (A ++ l' :: R') /\
        length l = S (length l') /\ length R' = Nat.max 1 (length R) /\ length (lents l') + length (ents R') <= length (lents l) + length (ents R).
    Proof.
      intros Li Ne HI. pose proof Li as [Ok Ord ND Id Hs Lv HP U F0]. unfold merge_down. rewrite nth_mid. cbn [bind expect].
      apply Forall_app in Ok. destruct Ok as [OkA Ok]. apply Forall_cons_iff in Ok. destruct Ok as [Okl OkR].
      destruct (pick_in l Ne) as (kt & Jk & ->). cbn [bind expect]. destruct (level_remove_ok l kt Okl Jk) as (l1 & l2 & El & ->). cbn [bind expect].
      set (t := snd kt) in *. rewrite set_mid. rewrite El in Okl. destruct (level_ok_drop _ _ _ Okl) as [Okl' Ot]. fold t in Ot.
      pose proof (lents_split l1 kt l2) as Pl. fold t in Pl. rewrite <- El in Pl.
      assert (Ptl : Permutation (map snd l) (t :: map snd (l1 ++ l2))) by (rewrite El, !map_app; cbn [map]; fold t; perm).
      assert (Len : length l = S (length (l1 ++ l2))) by (rewrite El, !app_length; cbn; lia).
      assert (Keys : forall e e', In e (t_es t) -> In e' (lents (l1 ++ l2)) -> cmp (fst e') (fst e) <> Eq) by (intros e e'; now apply level_split_keys).
      assert (Il : incl (lents (l1 ++ l2)) (lents l)) by (intros e J; rewrite Pl; apply in_app_iff; auto).
      assert (It : incl (t_es t) (lents l)) by (intros e J; rewrite Pl; apply in_app_iff; auto).
      rewrite !app_length. cbn [length]. rewrite Len. destruct R as [|below R].
      - cbn [length]. rewrite Nat.eqb_refl.
        exists (l1 ++ l2), [[(hi t, t)]], (S id). rewrite <- app_assoc. split; [reflexivity|].
        assert (Pt : Permutation (level_tables (A ++ (l1 ++ l2) :: [[(hi t, t)]])) (level_tables (A ++ [l]))).
        { rewrite !tables_app, !tables_cons, Ptl. cbn. perm. }
        assert (Pe : Permutation (ents (A ++ (l1 ++ l2) :: [[(hi t, t)]])) (ents (A ++ [l]))) by now apply run_entries_perm.
        assert (Lt1 : lents [(hi t, t)] = t_es t) by (unfold lents; cbn; apply app_nil_r).
        split; [|split].
        + constructor.
          * apply Forall_app. split; [exact OkA|]. constructor; [exact Okl'|]. constructor; [|constructor]. split; [constructor; [now split|constructor]|]. constructor; constructor.
          * apply ss_app in Ord. destruct Ord as (SA & _ & X). apply ss_app. split; [exact SA|]. split.
            -- constructor; [constructor; [constructor|constructor]|]. constructor; [|constructor]. intros e e' J J' Q. exfalso. rewrite Lt1 in J'. now apply (Keys e' e).
            -- intros a b Ja Jb. specialize (X a l Ja (or_introl eq_refl)). cbn [In] in Jb. destruct Jb as [<-|[<-|[]]]; (eapply newer_incl; [apply incl_refl| |exact X]); [exact Il|]. now rewrite Lt1.
          * now rewrite Pt.
          * rewrite Pt. eapply Forall_impl; [|exact Id]. cbn beta. intros; lia.
          * now rewrite Pt.
          * intros i Hi. rewrite app_length in Hi. cbn [length] in Hi. destruct (Nat.eq_dec i (S (length A))) as [->|N]; [now apply HI|]. apply Lv. rewrite app_length. cbn. lia.
          * now rewrite Pe.
          * eapply uniq_perm; [|exact U]. intros e. now rewrite Pe.
          * lia.
        + split; [apply shrink_same; intros e; now rewrite Pe|]. split; [lia|]. intros x J. left. now rewrite <- Pt.
        + split; [reflexivity|]. split; [reflexivity|]. rewrite (Permutation_length Pl), app_length, ents_cons, Lt1. cbn. rewrite !app_length. cbn. lia.
      - cbn [length]. replace (length A + 1 =? length A + S (S (length R))) with false by (symmetry; apply Nat.eqb_neq; lia).
        rewrite nth_mid2. cbn [bind expect]. destruct (partition _ below) as [old new] eqn:Pp.
        pose proof (fun a => outside t below old new a Ot) as Out. apply Forall_cons_iff in OkR. destruct OkR as [Okb OkR]. specialize (fun a => Out a Okb Pp).
        rewrite partition_filter in Pp. injection Pp as Qo Qn.
        assert (Pb : Permutation below (old ++ new)) by (subst old new; apply filter_perm).
        assert (Ptb : Permutation (map snd below) (map snd old ++ map snd new)) by (rewrite Pb, map_app; reflexivity).
        assert (Peb : Permutation (lents below) (lents old ++ lents new)) by (unfold lents; rewrite <- run_app; now apply run_entries_perm).
        assert (Okn : level_ok new) by (subst new; now apply level_ok_filter).
        assert (Oko : level_ok old) by (subst old; now apply level_ok_filter).
        assert (OnKeys : forall e e', In e (lents old) -> In e' (lents new) -> cmp (fst e') (fst e) <> Eq).
        { intros e e' J J'. apply in_lents in J. apply in_lents in J'. destruct J as (a & Ja & Je), J' as (b & Jb & Je').
          subst old new. apply filter_In in Ja, Jb. destruct Ja as [Ja Fa], Jb as [Jb Fb]. apply (level_keys below b a); auto.
          intros ->. cbn beta in Fb. rewrite Fa in Fb. discriminate. }
        assert (TnKeys : forall e e', In e (t_es t) -> In e' (lents new) -> cmp (fst e') (fst e) <> Eq).
        { intros e e' J J' Q. apply in_lents in J'. destruct J' as (b & Jb & Je'). pose proof Jb as Jb0. subst new. apply filter_In in Jb. destruct Jb as [Jb Fb].
          apply negb_true_iff in Fb. destruct (level_good _ b Okb Jb) as [_ Ob]. destruct (not_intersecting t (snd b) Ot Ob Fb) as [X|X].
          - pose proof (before_lt _ _ _ _ Ot Ob X J Je'). apply cmp_eq_sym in Q. congruence.
          - pose proof (before_lt _ _ _ _ Ob Ot X Je' J). congruence. }
        rewrite tables_app, !tables_cons in ND, Id, Hs.
        assert (Pall : Permutation (level_tables A ++ map snd l ++ map snd below ++ level_tables R)
                         ((t :: map snd old) ++ level_tables A ++ map snd (l1 ++ l2) ++ map snd new ++ level_tables R)).
        { rewrite Ptl, Ptb. perm. }
        rewrite Pall in ND, Id, Hs. rewrite map_app in ND. apply Forall_app in Id, Hs. destruct Id as [IdE IdR], Hs as [HsE HsR].
        apply Forall_cons_iff in HsE. destruct HsE as [Ht Ho].
        set (purge := length A + 1 =? length A + S (S (length R)) - 1).
        destruct (merge_into_ok cfg has purge hint id [[t]; map snd old] new) as (b' & id' & ts & out & -> & M & Er & Okb' & Pb' & Lid & NDt & Bt).
        { repeat constructor; assumption. }
        { constructor; [cbn; rewrite app_nil_r; apply Ot|]. constructor; [now apply level_sorted|constructor]. }
        { exact Okn. }
        { intros a J. split; [apply (level_good _ a Okn J)|]. cbn [flat_map run_entries]. rewrite !app_nil_r. now apply Out. }
        cbn [bind]. rewrite set_mid2. cbn [flat_map run_entries] in M. rewrite !app_nil_r in M. fold (run_entries (map snd old)) in M. fold (lents old) in M.
        assert (Peb' : Permutation (lents b') (kept purge out ++ lents new)).
        { unfold lents at 1. rewrite (run_entries_perm _ _ Pb'), run_app, Er. reflexivity. }
        assert (Ik : incl (kept purge out) (t_es t ++ lents old)). { intros e J. apply filter_In in J. now apply (proj2 M). }
        assert (Ib' : incl (lents b') (lents l ++ lents below)).
        { intros e J. rewrite Peb' in J. rewrite Peb. rewrite !in_app_iff in *. destruct J as [J|J]; [|auto]. apply Ik in J. apply in_app_iff in J. destruct J as [J|J]; auto. }
        assert (Pt' : Permutation (level_tables (A ++ (l1 ++ l2) :: b' :: R)) (ts ++ level_tables A ++ map snd (l1 ++ l2) ++ map snd new ++ level_tables R)).
        { rewrite tables_app, !tables_cons, Pb'. perm. }
        assert (Olb : over l below). { apply ss_app in Ord. destruct Ord as (_ & S & _). apply StronglySorted_inv in S. destruct S as [_ F]. now apply Forall_cons_iff in F. }
        set (rest := ents A ++ lents (l1 ++ l2) ++ lents new ++ ents R).
        assert (Q1 : forall e, In e (rest ++ (t_es t ++ lents old)) <-> In e (ents (A ++ l :: below :: R))).
        { intros e. unfold rest. rewrite ents_app, !ents_cons, Pl, Peb. rewrite !in_app_iff. tauto. }
        assert (Q2 : forall e, In e (rest ++ kept purge out) <-> In e (ents (A ++ (l1 ++ l2) :: b' :: R))).
        { intros e. unfold rest. rewrite ents_app, !ents_cons, Peb'. rewrite !in_app_iff. tauto. }
        assert (Sh : shrink (ents (A ++ l :: below :: R)) (ents (A ++ (l1 ++ l2) :: b' :: R))).
        { apply (shrink_perm _ _ _ _ Q1 Q2). apply merge_shrink; [eapply uniq_perm; [|exact U]; intros e; symmetry; apply Q1|exact M|].
          intros Pu e e' Je Je' Q. unfold purge in Pu. apply Nat.eqb_eq in Pu. assert (R = []) by (destruct R; [reflexivity|cbn in Pu; lia]). subst R.
          unfold rest in Je'. rewrite !in_app_iff in Je. rewrite !in_app_iff in Je'.
          destruct Je' as [Je'|[Je'|[Je'|Je']]]; [| | |destruct Je'].
          - apply ss_app in Ord. destruct Ord as (_ & _ & X).
            assert (N : newer (ents A) (ents [l; below])) by (apply over_all; intros a b Ja Jb; apply X; auto).
            apply (N e' e Je'); [|exact Q]. rewrite !ents_cons, Pl, Peb, !in_app_iff. tauto.
          - destruct Je as [Je|Je]; [exfalso; now apply (Keys e e')|]. apply (Olb e' e); auto. rewrite Peb. apply in_app_iff. auto.
          - exfalso. destruct Je as [Je|Je]; [now apply (TnKeys e e')|now apply (OnKeys e e')]. }
        exists (l1 ++ l2), (b' :: R), id'. split; [reflexivity|]. split; [|split; [|split; [|split]]].
        + constructor.
          * apply Forall_app. split; [exact OkA|]. constructor; [exact Okl'|]. constructor; assumption.
          * apply (over_replace A l below R); auto. intros e e' J J' Q. rewrite Peb' in J'. apply in_app_iff in J'. destruct J' as [J'|J'].
            -- apply Ik in J'. apply in_app_iff in J'. destruct J' as [J'|J']; [exfalso; now apply (Keys e' e)|]. apply (Olb e e'); auto. rewrite Peb. apply in_app_iff. auto.
            -- apply (Olb e e'); auto. rewrite Peb. apply in_app_iff. auto.
          * rewrite Pt', map_app. apply NoDup_right in ND. apply (Permutation_NoDup (Permutation_app_comm _ _)).
            clear - ND NDt IdR Bt. induction (level_tables A ++ map snd (l1 ++ l2) ++ map snd new ++ level_tables R) as [|x xs IH]; [exact NDt|].
            cbn [map app] in *. apply NoDup_cons_iff in ND. destruct ND as [Nx ND]. apply Forall_cons_iff in IdR. destruct IdR as [Ix IdR].
            constructor; [|now apply IH]. intros J. apply in_app_iff in J. destruct J as [J|J]; [now apply Nx|]. apply in_map_iff in J. destruct J as (y & Qy & J). specialize (Bt y J). lia.
          * rewrite Pt'. apply Forall_app. split; [apply Forall_forall; intros y J; now apply Bt|]. eapply Forall_impl; [|exact IdR]. cbn beta. intros; lia.
          * rewrite Pt'. apply Forall_app. split; [|exact HsR]. apply Forall_forall. intros y J. apply has_new. specialize (Bt y J). lia.
          * intros i Hi. apply Lv. rewrite app_length in *. cbn [length] in *. lia.
          * apply Forall_forall. intros e J. apply (proj1 (Forall_forall _ _) HP). now apply Sh.
          * eapply uniq_sub; [|exact U]. apply Sh.
          * lia.
        + split; [exact Sh|]. split; [lia|]. intros x J. rewrite Pt' in J. apply in_app_iff in J. destruct J as [J|J]; [right; now apply Bt|].
          left. rewrite tables_app, !tables_cons, Pall. apply in_app_iff. now right.
        + reflexivity.
        + cbn. lia.
        + rewrite !ents_cons, !app_length, (Permutation_length Pl), (Permutation_length Peb), (Permutation_length Peb'), !app_length.
          pose proof (merge_length _ _ M) as ML. rewrite app_length in ML. pose proof (filter_length_le (fun e => negb purge || has_data e) out) as FL. fold (kept purge out) in FL. lia.
    Qed.

    Context (grow : forall i l, I i -> level_ok l -> Forall P (lents l) -> uniq (lents l) -> (max_len cfg i < N.of_nat (length l))%N ->
                    (1 <= max_len cfg i)%N /\ I (S i)).
    Lemma linv_level id (A : list level) l (R : list level) : linv id (A ++ l :: R) -> level_ok l /\ Forall P (lents l) /\ uniq (lents l) /\ I (length A).
    Proof.
      intros [Ok _ _ _ _ Lv HP U _]. apply Forall_app in Ok. destruct Ok as [_ Ok]. apply Forall_cons_iff in Ok. split; [apply Ok|].
      assert (J : forall e, In e (lents l) -> In e (ents (A ++ l :: R))) by (intros e J; rewrite ents_app, ents_cons, !in_app_iff; auto).
      split; [apply Forall_forall; intros e Je; apply (proj1 (Forall_forall _ _) HP); auto|]. split; [now apply (uniq_sub _ _ J)|].
      apply Lv. rewrite app_length. cbn. lia.
    Qed.
    Lemma inner_ok hint (A : list level) : forall fuel id l (R : list level), linv id (A ++ l :: R) -> length l <= fuel ->
      exists l' R' id', inner cfg fuel has hint id (length A) (A ++ l :: R) = Ok (A ++ l' :: R', id') /\
        linv id' (A ++ l' :: R') /\ lstep id (A ++ l :: R) id' (A ++ l' :: R') /\
        length (lents l') + length (ents R') <= length (lents l) + length (ents R) /\
        (l' = l /\ R' = R \/ length R' = Nat.max 1 (length R) /\ l' <> []).
    Proof.
      induction fuel as [|fuel IH]; intros id l R Li Le; cbn [inner]; unfold should_merge; rewrite nth_mid;
        destruct (max_len cfg (length A) <? N.of_nat (length l))%N eqn:Sm;
        try (exists l, R, id; split; [reflexivity|]; split; [exact Li|]; split; [apply lstep_refl|]; split; [lia|now left]).
      - apply N.ltb_lt in Sm. lia.
      - apply N.ltb_lt in Sm. destruct (linv_level _ _ _ _ Li) as (L & HP & U & HI). destruct (grow _ _ HI L HP U Sm) as [Pos HS].
        destruct (merge_down_ok hint id A l R Li) as (l1 & R1 & id1 & -> & Li1 & St1 & Ln & LR & W1); [intros ->; cbn in Sm; lia|auto|]. cbn [bind].
        destruct (IH id1 l1 R1 Li1) as (l' & R' & id' & E & Li' & St' & W' & D); [lia|]. exists l', R', id'. split; [exact E|]. split; [exact Li'|].
        split; [now apply (lstep_trans _ _ _ _ _ _ St1 St')|]. split; [lia|]. right. destruct D as [[-> ->]|[LR' Ne]].
        + split; [exact LR|]. intros ->. cbn in Ln. lia.
        + split; [lia|exact Ne].
    Qed.
    Lemma lents_pos l : level_ok l -> length l <= length (lents l).
    Proof.
      intros [G _]. unfold lents. induction G as [|kt l [_ O] G IH]; cbn [map run_entries flat_map length]; [lia|]. rewrite app_length. fold (run_entries (map snd l)).
      pose proof (ta_ne _ O) as Ne. destruct (t_es (snd kt)); [congruence|]. cbn. lia.
    Qed.
    Lemma outer_ok hint : forall fuel id (A R : list level), linv id (A ++ R) -> length R + length (ents R) <= fuel ->
      exists ls' id', outer cfg fuel has hint id (length A) (A ++ R) = Ok (ls', id') /\ linv id' ls' /\ lstep id (A ++ R) id' ls'.
    Proof.
      induction fuel as [|fuel IH]; intros id A R Li Le; cbn [outer]; rewrite app_length.
      - assert (R = []) by (destruct R; [reflexivity|cbn in Le; lia]). subst R. rewrite app_nil_r in *. cbn [length]. rewrite Nat.add_0_r, Nat.eqb_refl.
        exists A, id. split; [reflexivity|]. split; [exact Li|apply lstep_refl].
      - destruct R as [|l R].
        + rewrite app_nil_r in *. cbn [length]. rewrite Nat.add_0_r, Nat.eqb_refl. exists A, id. split; [reflexivity|]. split; [exact Li|apply lstep_refl].
        + cbn [length]. replace (length A =? length A + S (length R)) with false by (symmetry; apply Nat.eqb_neq; lia).
          rewrite nth_mid. cbn [bind expect]. destruct (inner_ok hint A (length l) id l R Li (le_n _)) as (l' & R' & id' & -> & Li' & St' & W & D). cbn [bind].
          replace (S (length A)) with (length (A ++ [l'])) by (rewrite app_length; cbn; lia). change (A ++ l' :: R') with (A ++ [l'] ++ R') in *. rewrite app_assoc in *.
          rewrite ents_cons, app_length in Le. cbn [length] in Le.
          destruct (IH id' (A ++ [l']) R' Li') as (ls & id2 & -> & Li2 & St2).
          * destruct D as [[-> ->]|[LR Ne]]; [lia|]. rewrite <- app_assoc in Li'. destruct (linv_level _ _ _ _ Li') as (Ol & _).
            pose proof (lents_pos _ Ol). destruct l' as [|x l']; [congruence|]. cbn [length] in *. lia.
          * exists ls, id2. split; [reflexivity|]. split; [exact Li2|]. now apply (lstep_trans _ _ _ _ _ _ St' St2).
    Qed.

    (** *** The whole compaction *)
    Definition tents (m : lmeta K V) : list entry := run_entries (lv_tables m).
    Lemma tents_eq m : tents m = run_entries (lm_tabs m) ++ ents (lm_levels m).
    Proof. unfold tents, lv_tables. now rewrite run_app. Qed.
    Lemma runs_single (ts : list table) : flat_map run_entries (map (fun t => [t]) ts) = run_entries ts.
    Proof. unfold run_entries. induction ts as [|t ts IH]; cbn; [reflexivity|]. now rewrite app_nil_r, IH. Qed.
    Lemma flat_length (ts : list table) : list_sum (map (fun t => length (t_es t)) ts) = length (run_entries ts).
    Proof. unfold run_entries. induction ts as [|t ts IH]; cbn; [reflexivity|]. rewrite app_length, <- IH. reflexivity. Qed.

    (** What a compaction starts from *)
    Record cinv (id : nat) (m : lmeta K V) : Prop := mkCinv {
      ci_tabs : Forall tab_ok (lm_tabs m);
      ci_ok : Forall level_ok (lm_levels m);
      ci_ord : StronglySorted over (lm_levels m);
      ci_new : newer (run_entries (lm_tabs m)) (ents (lm_levels m));
      ci_nd : NoDup (map t_id (lv_tables m));
      ci_id : Forall (fun t => t_id t < id) (lv_tables m);
      ci_has : Forall (t_ok has) (lv_tables m);
      ci_lvl : forall i, i < Nat.max 1 (length (lm_levels m)) -> I i;
      ci_P : Forall P (tents m);
      ci_uniq : uniq (tents m);
      ci_f0 : f0 <= id }.
    Lemma compact_ok id m : cinv id m -> forall fuel, rounds m <= fuel -> exists ls id',
      lv_compact_fuel cfg fuel has id m = Ok (mkLm [] ls, id') /\ linv id' ls /\ shrink (tents m) (ents ls) /\ id <= id' /\
      (forall t, In t (level_tables ls) -> In t (level_tables (lm_levels m)) \/ id <= t_id t).
    Proof.
      intros [Tb Ok Ord Nw ND Id Hs Lv HP U F0] fuel Fu. unfold lv_compact_fuel, rounds in *. rewrite flat_length in Fu. fold (tents m) in Fu.
      assert (Lvls : exists l0 R, match lm_levels m with [] => [[]] | ls => ls end = l0 :: R /\ level_tables (l0 :: R) = level_tables (lm_levels m) /\
                 Forall level_ok (l0 :: R) /\ StronglySorted over (l0 :: R) /\ length (l0 :: R) = Nat.max 1 (length (lm_levels m))).
      { destruct (lm_levels m) as [|l0 R]; [|exists l0, R; auto 10]. exists [], []. split; [reflexivity|]. split; [reflexivity|].
        split; [constructor; [|constructor]; split; constructor|]. split; [repeat constructor|reflexivity]. }
      destruct Lvls as (l0 & R & -> & Tls & Ok' & Ord' & Ln). cbn [nth_error bind expect].
      assert (Els : ents (l0 :: R) = ents (lm_levels m)) by (unfold ents; now rewrite Tls).
      rewrite tents_eq in *. unfold lv_tables in *. rewrite <- Els in *. rewrite <- Tls in *. rewrite tables_cons in ND, Id, Hs.
      set (hint := fold_left _ l0 _). apply Forall_cons_iff in Ok'. destruct Ok' as [Ok0 OkR].
      assert (Fm : flat_map run_entries (map (fun t => [t]) (lm_tabs m) ++ [map snd l0]) = run_entries (lm_tabs m) ++ lents l0).
      { rewrite flat_map_app, runs_single. cbn. now rewrite app_nil_r. }
      apply Forall_app in Hs. destruct Hs as [HsT Hs]. apply Forall_app in Hs. destruct Hs as [Hs0 HsR].
      lazymatch goal with |- context [merge_into ?c ?h ?p ?hi ?i ?r ?l] => destruct (merge_into_ok c h p hi i r l)
        as (l0' & id' & ts & out & -> & M & Er & Ok0' & Pt & Lid & NDt & Bt) end.
      { apply Forall_app. split; [apply Forall_map; eapply Forall_impl; [|exact HsT]; intros t X; now repeat constructor|now repeat constructor]. }
      { apply Forall_app. split; [apply Forall_map; eapply Forall_impl; [|exact Tb]; intros t X; cbn; rewrite app_nil_r; apply X|].
        constructor; [now apply level_sorted|constructor]. }
      { split; constructor. }
      { intros a []. }
      cbn [bind list_set]. rewrite Fm in M. cbn [map] in Pt. rewrite app_nil_r in Pt.
      assert (El0 : Permutation (lents l0') (kept (length (l0 :: R) =? 1) out)) by (unfold lents; rewrite (run_entries_perm _ _ Pt), Er; reflexivity).
      assert (I0 : incl (lents l0') (run_entries (lm_tabs m) ++ lents l0)).
      { intros e J. rewrite El0 in J. apply filter_In in J. now apply (proj2 M). }
      rewrite ents_cons in *.
      set (purge := length (l0 :: R) =? 1) in *.
      assert (Sh : shrink (run_entries (lm_tabs m) ++ lents l0 ++ ents R) (lents l0' ++ ents R)).
      { apply (shrink_perm (ents R ++ (run_entries (lm_tabs m) ++ lents l0)) _ (ents R ++ kept purge out)).
        - intros e. rewrite !in_app_iff. tauto.
        - intros e. rewrite El0, !in_app_iff. tauto.
        - apply merge_shrink; [|exact M|].
          + eapply uniq_perm; [|exact U]. intros e. rewrite !in_app_iff. tauto.
          + intros Pu e e' Je Je'. unfold purge in Pu. destruct R; [destruct Je'|]. discriminate Pu. }
      assert (Li : linv id' (l0' :: R)).
      { apply StronglySorted_inv in Ord'. destruct Ord' as [OrdR F0R].
        rewrite map_app in ND. apply NoDup_right in ND. rewrite map_app in ND. apply NoDup_right in ND.
        apply Forall_app in Id. destruct Id as [_ Id]. apply Forall_app in Id. destruct Id as [_ IdR].
        constructor.
        - now constructor.
        - constructor; [exact OrdR|]. apply Forall_forall. intros b J. eapply newer_incl; [exact I0|apply incl_refl|]. apply newer_app_l.
          + eapply newer_incl; [apply incl_refl| |exact Nw]. intros e Je. apply in_app_iff. right. apply in_ents. eauto.
          + now apply (proj1 (Forall_forall _ _) F0R).
        - rewrite tables_cons, Pt, map_app. apply (Permutation_NoDup (Permutation_app_comm _ _)).
          clear - ND NDt IdR Bt. induction (level_tables R) as [|x xs IH]; [exact NDt|].
          cbn [map app] in *. apply NoDup_cons_iff in ND. destruct ND as [Nx ND]. apply Forall_cons_iff in IdR. destruct IdR as [Ix IdR].
          constructor; [|now apply IH]. intros J. apply in_app_iff in J. destruct J as [J|J]; [now apply Nx|]. apply in_map_iff in J. destruct J as (y & Qy & J). specialize (Bt y J). lia.
        - rewrite tables_cons, Pt. apply Forall_app. split; [apply Forall_forall; intros y J; now apply Bt|]. eapply Forall_impl; [|exact IdR]. cbn beta. intros; lia.
        - rewrite tables_cons, Pt. apply Forall_app. split; [|exact HsR]. apply Forall_forall. intros y J. apply has_new. specialize (Bt y J). lia.
        - intros i Hi. apply Lv. rewrite <- Ln. exact Hi.
        - rewrite ents_cons. apply Forall_forall. intros e J. apply (proj1 (Forall_forall _ _) HP). now apply Sh.
        - rewrite ents_cons. eapply uniq_sub; [|exact U]. apply Sh.
        - lia. }
      destruct (outer_ok hint fuel id' [] (l0' :: R) Li) as (ls & id2 & Eo & Li2 & Sh2 & L2 & T2).
      { rewrite ents_cons. cbn [length] in *. rewrite !app_length in *. rewrite (Permutation_length El0).
        pose proof (merge_length _ _ M) as ML. rewrite app_length in ML. pose proof (filter_length_le (fun e => negb purge || has_data e) out) as FL. fold (kept purge out) in FL. lia. }
      lazymatch goal with |- context [outer ?a ?b ?c ?d ?e ?f ?g] => assert (Eo' : outer a b c d e f g = Base.Ok (ls, id2)) by exact Eo; rewrite Eo' end.
      cbn [bind]. exists ls, id2. split; [reflexivity|]. split; [exact Li2|]. split.
      - eapply shrink_trans; [exact Sh|]. cbn [app] in Sh2. rewrite ents_cons in Sh2. exact Sh2.
      - split; [lia|]. intros t J. destruct (T2 t J) as [J'|G]; [|right; lia]. cbn [app] in J'. rewrite tables_cons, Pt in J'. apply in_app_iff in J'.
        destruct J' as [J'|J']; [right; now apply Bt|]. left. rewrite tables_cons. apply in_app_iff. now right.
    Qed.
  End Compaction.
End Levels.
