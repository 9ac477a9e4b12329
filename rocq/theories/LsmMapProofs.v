(** The LSM map refines its specification, for every strategy that obeys [laws]. *)
From Verif Require Import ListLemmas OrdLemmas PermTac.
From Verif Require Export LsmMapLemmas.

(** [x] is [Ok] with [P], or a time limit was hit where [T] allows it. *)
Definition fine (T : Prop) {A} (x : res A) (P : A -> Prop) : Prop := (T /\ x = Timeout) \/ exists a, x = Ok a /\ P a.
Lemma fine_ok T {A} (a : A) (P : A -> Prop) : P a -> fine T (Ok a) P.
Proof. intros p. right. eauto. Qed.
Lemma fine_bind T {A B} (x : res A) (f : A -> res B) P Q : fine T x P -> (forall a, P a -> fine T (f a) Q) -> fine T (bind x f) Q.
Proof. intros [[t ->]|(a & -> & p)] F; [left; auto|apply (F a p)]. Qed.
Lemma fine_impl T {A} (x : res A) (P Q : A -> Prop) : fine T x P -> (forall a, P a -> Q a) -> fine T x Q.
Proof. intros [?|(a & E & p)] F; [left; auto|right; eauto]. Qed.

Section Generic.
  Context {K V : Type} `{CmpLaws K} {Z : Sizes K V}.
  Notation sval := (sval V).
  Notation entry := (K * sval)%type.
  Notation table := (table K V).
  Notation tm e := (sv_time (snd e)).
  Context (St : strategy K V).
  Notation meta := (st_meta St).
  Notation state := (lsm K V meta).
  Notation tables := (st_tables St).
  Definition cont (m : meta) : list entry := run_entries (tables m).
  Context (Inv : N -> meta -> Prop) (Comp : meta -> meta -> Prop) (qd : entry -> Prop) (T : Prop) (lim : N -> Prop).
  (** What happens to the entries when new metadata is installed, and what this does to the specification's state *)
  Context (less : list entry -> list entry -> Prop) (slip : sp K V -> sp K V -> Prop).

  (** [c] is [m] with the tables [ts] put on top. *)
  Definition grown (W : N) (m : meta) (ts : list table) (c : meta) : Prop :=
    c = fold_left (st_push St) ts m /\ Inv W m /\ (forall e e', In e (run_entries ts) -> In e' (cont m) -> (tm e' < tm e)%N).

  Record laws : Prop := mkLaws {
    lw_lim : forall W W', lim W -> (W' <= W)%N -> lim W';
    lw_mono : forall W W' m, Inv W m -> (W <= W')%N -> Inv W' m;
    lw_basic : forall W m, Inv W m -> Forall tab_ok (tables m) /\ NoDup (map t_id (tables m)) /\ uniq (cont m) /\ (forall e, In e (cont m) -> (tm e < W)%N);
    lw_new : forall W, Inv W (st_new St);
    lw_empty : tables (st_new St) = [];
    lw_tables : forall m t, Permutation (tables (st_push St m t)) (t :: tables m);
    lw_push : forall W m t, Inv W m -> tab_ok t -> uniq (t_es t) -> (forall e, In e (t_es t) -> (tm e < W)%N) ->
      (forall e e', In e (t_es t) -> In e' (cont m) -> (tm e' < tm e)%N) -> ~ In (t_id t) (map t_id (tables m)) -> Inv W (st_push St m t);
    lw_get : forall W m has k, Inv W m -> Forall (t_ok has) (tables m) -> exists o, st_get St has m k = Ok o /\ version (cont m) k o;
    lw_runs : forall W m, Inv W m -> Forall (fun r => sorted (run_entries r)) (st_runs St m) /\ Permutation (concat (st_runs St m)) (tables m);
    lw_compact : forall W m has id, lim W -> Inv W m -> st_due St m = true -> Forall qd (cont m) -> Forall (t_ok has) (tables m) ->
      Forall (fun t => t_id t < id) (tables m) -> (forall i, id <= i -> has i = true) ->
      fine T (st_compact St has id m) (fun r => let (m', id') := r in id <= id' /\ Comp m m' /\ Inv W m' /\ shrink (cont m) (cont m') /\
        (forall t, In t (tables m') -> In t (tables m) \/ id <= t_id t < id'));
    lw_replace : forall W m ts c m', grown W m ts c -> Inv W c -> Comp m m' -> Inv W m' -> shrink (cont m) (cont m') ->
      (forall t t', In t ts -> In t' (tables m') -> t_id t <> t_id t') ->
      (forall t', In t' (tables m') -> In t' (tables m) \/ ~ In (t_id t') (map t_id (tables m))) ->
      Inv W (st_replace St c m') /\ less (cont c) (cont (st_replace St c m')) /\
      (forall t, In t (tables (st_replace St c m')) -> In t (tables c) \/ In t (tables m'));
    lw_sh : forall E E', less E E' -> forall e, In e E' -> In e E;
    lw_refl : forall a, slip a a;
    lw_trans : forall a b c, slip a b -> slip b c -> slip a c;
    lw_same : forall a a', slip a a' -> sp_iters a' = sp_iters a /\ sp_clean a' = sp_clean a /\ sp_written a' = sp_written a /\ sp_removed a' = sp_removed a /\
      incl (sp_recover a) (sp_recover a');
    lw_slip : forall a M E E', sorted (sp_map a) -> uniq (M ++ E) -> (forall e e', In e M -> In e' E -> (tm e' < tm e)%N) -> Forall qd (M ++ E) -> less E E' ->
      view (M ++ E) (sp_map a) -> In (sp_map a) (sp_recover a) -> (exists m, In m (sp_recover a) /\ sorted m /\ view E m) ->
      exists a', slip a a' /\ sorted (sp_map a') /\ view (M ++ E') (sp_map a') /\ In (sp_map a') (sp_recover a') /\ exists m, In m (sp_recover a') /\ sorted m /\ view E' m }.
  Context (L : laws) (Ksize : forall k k', cmp k k' = Eq -> ksize k = ksize k').

  (** *** The invariant *)
  Definition bytes (l : list entry) : N := fold_right (fun e n => (ksize (fst e) + vsize (snd e) + n)%N) 0%N l.
  Definition quiet (s : state) : Prop := nxt s = None /\ (thr s = TIdle \/ thr s = TDead).
  Definition iter_ok (h : nat -> bool) (o : option (miter K V)) (l : sp_iter K V) : Prop :=
    match o, l with
    | Some it, IOpen l => exists out, streams h it out /\ Forall2 same_pair (live out) l
    | Some it, IStale => True
    | None, IGone => True
    | _, _ => False
    end.
  (** Some iterator is to yield something. *)
  Definition iterated (l : list (sp_iter K V)) : bool := existsb (fun i => match i with IOpen _ => true | _ => false end) l.
  Lemma iterated_live h (a : list (option (miter K V))) b : Forall2 (iter_ok h) a b -> iterated b = true -> existsb (fun o => match o with Some _ => true | None => false end) a = true.
  Proof. intros F. induction F as [|[it|] [l| |] a b X F IH]; cbn in *; auto; tauto. Qed.
  Record inv (a : sp K V) (s : state) : Prop := mkInv {
    iv_mem : sorted (mem s);
    iv_memt : forall e, In e (mem s) -> (tm e < time s)%N;
    iv_memu : uniq (mem s);
    iv_newer : forall e e', In e (mem s) -> In e' (cont (cur s)) -> (tm e' < tm e)%N;
    iv_inv : Inv (time s) (cur s);
    iv_q : Forall qd (mem s ++ cont (cur s));
    iv_use : (bytes (mem s) <= usage s)%N;
    iv_map : sorted (sp_map a);
    iv_view : view (mem s ++ cont (cur s)) (sp_map a);
    iv_ids : Forall (fun t => t_id t < fresh s) (tables (cur s));
    iv_has : Forall (t_ok (has St s)) (tables (cur s));
    iv_thr : forall m, thr s = TRun m -> nxt s = None /\ st_due St m = true /\ exists ts, grown (time s) m ts (cur s);
    iv_nxt : forall m', nxt s = Some m' -> exists m ts, grown (time s) m ts (cur s) /\ Comp m m' /\ Inv (time s) m' /\
      shrink (cont m) (cont m') /\ Forall (t_ok (has St s)) (tables m') /\ Forall (fun t => t_id t < fresh s) (tables m') /\
      (forall t t', In t ts -> In t' (tables m') -> t_id t <> t_id t') /\
      (forall t', In t' (tables m') -> In t' (tables m) \/ ~ In (t_id t') (map t_id (tables m)));
    iv_lock : iterated (sp_iters a) = true -> quiet s;
    iv_iters : Forall2 (iter_ok (has St s)) (iters s) (sp_iters a);
    iv_meta : d_meta (disk_of (log s)) = Some (cur s);
    iv_time : d_time (disk_of (log s)) = if sp_written a then Some (time s) else None;
    iv_clean : sp_clean a = true -> mem s = [];
    iv_removed : sp_removed a = false -> Forall (fun e => has_data e = true) (mem s);
    iv_rec : In (sp_map a) (sp_recover a);
    iv_disk : exists m, In m (sp_recover a) /\ sorted m /\ view (cont (cur s)) m }.
  (** A thread that may have something to hand over can be joined. *)
  Definition jn (s : state) : Prop := joinable s = false -> quiet s.

  (** The disk holds a map that is one of [R]. *)
  Definition disk_good (R : list (list (K * V))) (s : state) (l : list (effect meta)) : Prop :=
    exists m, d_meta (disk_of l) = Some m /\ Forall (t_ok (has_dir (disk_of l))) (tables m) /\ Forall (fun t => t_id t < fresh s) (tables m) /\
      Forall qd (cont m) /\ (forall t, d_time (disk_of l) = Some t -> Inv t m /\ (t <= time s)%N) /\ exists x, In x R /\ sorted x /\ view (cont m) x.
  Definition upto (s s' : state) : Prop := fresh s <= fresh s' /\ (time s <= time s')%N.
  Definition moves (R : list (list (K * V))) (s s' : state) : Prop :=
    upto s s' /\
    exists es, log s' = log s ++ es /\ forall p q, es = p ++ q -> settled p -> disk_good R s' (log s ++ p).
  Lemma disk_good_more R R' s s' l : incl R R' -> upto s s' -> disk_good R s l -> disk_good R' s' l.
  Proof.
    intros I [Le Lt] (m & A1 & A2 & A3 & A4 & A5 & x & J & X). exists m. split; [exact A1|]. split; [exact A2|].
    split; [eapply Forall_impl; [|exact A3]; cbn beta; intros; lia|]. split; [exact A4|]. split; [|exists x; auto]. intros t E. destruct (A5 t E). split; [assumption|lia].
  Qed.
  Lemma moves_more R R' s s' : incl R R' -> moves R s s' -> moves R' s s'.
  Proof. intros I (F & es & E & X). split; [exact F|]. exists es. split; [exact E|]. intros p q Q S. apply (disk_good_more R _ s'); [exact I|split; lia|now apply (X p q)]. Qed.
  Lemma moves_trans R s s1 s2 : moves R s s1 -> moves R s1 s2 -> moves R s s2.
  Proof.
    intros (F1 & e1 & E1 & X1) (F2 & e2 & E2 & X2). split; [destruct F1, F2; split; lia|]. exists (e1 ++ e2). split; [now rewrite E2, E1, app_assoc|].
    intros p q Q S. destruct (prefix_app _ _ _ _ Q) as [(r & ->)|(r & -> & ->)].
    - apply (disk_good_more R _ s1); [apply incl_refl|exact F2|]. now apply (X1 p r).
    - rewrite app_assoc, <- E1. apply (X2 r q); [reflexivity|]. now apply settled_right in S.
  Qed.
  Lemma inv_good a s : inv a s -> disk_good (sp_recover a) s (log s).
  Proof.
    intros I. exists (cur s). split; [apply I|]. split; [apply I|]. split; [apply I|]. split; [|split].
    - pose proof (iv_q _ _ I) as Q. apply Forall_app in Q. apply Q.
    - intros t. rewrite (iv_time _ _ I). destruct (sp_written a); intros E; [|discriminate E]. injection E as <-. split; [apply I|lia].
    - apply I.
  Qed.
  (** The same log *)
  Lemma moves_same a s s' : inv a s -> log s' = log s -> fresh s' = fresh s -> time s' = time s -> moves (sp_recover a) s s'.
  Proof.
    intros I E F Ft. split; [split; lia|]. exists []. split; [now rewrite app_nil_r|]. intros p q Q S. symmetry in Q. apply app_eq_nil in Q. destruct Q as [-> _].
    rewrite app_nil_r. apply (disk_good_more (sp_recover a) _ s); [apply incl_refl|split; lia|now apply inv_good].
  Qed.
  (** One more effect *)
  Lemma moves_one a s s' e R : inv a s -> log s' = log s ++ [e] -> upto s s' -> incl (sp_recover a) R -> disk_good R s' (log s') -> moves R s s'.
  Proof.
    intros I E F Ir G. split; [exact F|]. exists [e]. split; [exact E|]. intros p q Q S. destruct p as [|x p].
    - rewrite app_nil_r. apply (disk_good_more (sp_recover a) _ s); [exact Ir|exact F|now apply inv_good].
    - cbn in Q. injection Q as <- Q. symmetry in Q. apply app_eq_nil in Q. destruct Q as [-> _]. now rewrite <- E.
  Qed.

  Lemma inv_uniq a s : inv a s -> uniq (mem s ++ cont (cur s)).
  Proof.
    intros I e e' J J' Q. destruct (lw_basic L _ _ (iv_inv _ _ I)) as (_ & _ & U & _). apply in_app_iff in J, J'. destruct J as [J|J], J' as [J'|J'].
    - now apply (iv_memu _ _ I).
    - pose proof (iv_newer _ _ I _ _ J J'). lia.
    - pose proof (iv_newer _ _ I _ _ J' J). lia.
    - now apply U.
  Qed.
  Lemma cont_push m t e : In e (cont (st_push St m t)) <-> In e (t_es t) \/ In e (cont m).
  Proof.
    unfold cont. rewrite !in_run. split.
    - intros (x & J & Je). rewrite (lw_tables L) in J. destruct J as [<-|J]; eauto.
    - intros [J|(x & J & Je)]; [exists t|exists x]; rewrite (lw_tables L); cbn; auto.
  Qed.
  Lemma tables_grown ts : forall m, Permutation (tables (fold_left (st_push St) ts m)) (ts ++ tables m).
  Proof. induction ts as [|t ts IH]; intros m; cbn [fold_left app]; [reflexivity|]. rewrite IH, (lw_tables L). symmetry. apply Permutation_middle. Qed.
  Lemma grown_mono W W' m ts c : grown W m ts c -> (W <= W')%N -> grown W' m ts c.
  Proof. intros (E & I & N) Le. split; [exact E|]. split; [now apply (lw_mono L W)|exact N]. Qed.
  Lemma grown_push W m ts c t : grown W m ts c -> (forall e e', In e (t_es t) -> In e' (cont c) -> (tm e' < tm e)%N) -> grown W m (ts ++ [t]) (st_push St c t).
  Proof.
    intros (E & I & N) X. split; [rewrite fold_left_app; cbn; now rewrite E|]. split; [exact I|]. intros e e' J J'. rewrite run_app in J. apply in_app_iff in J.
    destruct J as [J|J]; [now apply N|]. cbn in J. rewrite app_nil_r in J. apply X; [exact J|]. unfold cont in *. apply in_run in J'. destruct J' as (x & Jx & Je).
    apply in_run. exists x. split; [|exact Je]. rewrite E, tables_grown. apply in_app_iff. auto.
  Qed.
  Lemma iters_frame h h' (a : list (option (miter K V))) b : (forall i, h i = true -> h' i = true) -> Forall2 (iter_ok h) a b -> Forall2 (iter_ok h') a b.
  Proof.
    intros Hm F. induction F as [|o l a b X F IH]; constructor; auto. destruct o as [it|], l as [l| |]; cbn in *; auto.
    destruct X as (out & S & R). exists out. split; [|exact R]. apply (streams_frame h); [exact S|]. intros t (r & Jr & Jt). apply Hm.
    destruct S as [M _]. pose proof (proj1 (Forall_forall _ _) (mv_ok _ _ M) _ Jr) as Y. apply (proj1 (Forall_forall _ _) Y (Closed t) Jt).
  Qed.
  Lemma iters_unlocked h h' (a : list (option (miter K V))) b : iterated b = false -> Forall2 (iter_ok h) a b -> Forall2 (iter_ok h') a b.
  Proof.
    intros N F. induction F as [|o l a b X F IH]; constructor; cbn [iterated existsb] in N; apply orb_false_iff in N; destruct N as [N1 N2]; auto.
    destruct o as [it|], l as [l| |]; cbn in *; auto. discriminate.
  Qed.
  Lemma unlocked_idle a s : inv a s -> locked St s = false -> iterated (sp_iters a) = false.
  Proof. intros I E. destruct (iterated (sp_iters a)) eqn:X; [|reflexivity]. apply (iterated_live _ _ _ (iv_iters _ _ I)) in X. unfold locked in E. congruence. Qed.
  Lemma iters_stale h h' (a : list (option (miter K V))) b : Forall2 (iter_ok h) a b -> Forall2 (iter_ok h') a (map stale b).
  Proof.
    intros F. induction F as [|o l a b X F IH]; cbn [map]; constructor; auto. destruct o as [it|], l as [l| |]; cbn in *; auto.
  Qed.

  (** *** try_replace *)
  Lemma slip_rec a a' : slip a a' -> incl (sp_recover a) (sp_recover a').
  Proof. intros X. apply (lw_same L _ _ X). Qed.
  Lemma slip_moves a a' s s' : slip a a' -> moves (sp_recover a) s s' -> moves (sp_recover a') s s'.
  Proof. intros X. apply moves_more, slip_rec, X. Qed.
  Lemma try_replace_ok a s : inv a s -> fine T (try_replace St s) (fun s' => exists a', slip a a' /\ inv a' s' /\ nxt s' = None /\ moves (sp_recover a') s s' /\
    mem s' = mem s /\ usage s' = usage s /\ time s' = time s /\ thr s' = thr s /\ joinable s' = joinable s /\ iters s' = iters s /\ fresh s' = fresh s /\ (nxt s = None -> a' = a)).
  Proof.
    intros I. unfold try_replace. destruct (nxt s) as [m'|] eqn:En.
    2:{ apply fine_ok. exists a. split; [apply (lw_refl L)|]. split; [exact I|]. split; [exact En|]. split; [now apply moves_same|]. auto 10. }
    destruct (iv_nxt _ _ I _ En) as (m & ts & G & Cm & Im' & Sm & Hm' & Fm' & Dj & Old).
    destruct (lw_replace L _ _ _ _ _ G (iv_inv _ _ I) Cm Im' Sm Dj Old) as (Ir & Shr & Tr). set (r := st_replace St (cur s) m') in *.
    destruct (lw_basic L _ _ (iv_inv _ _ I)) as (_ & NDc & Uc & _).
    set (kept := map t_id (tables r)). set (gone := filter _ (map t_id (tables (cur s)))).
    assert (NDg : NoDup gone) by now apply NoDup_filter.
    assert (Hg : Forall (fun id => has_dir (disk_of (log s)) id = true) gone).
    { apply Forall_forall. intros i J. apply filter_In in J. destruct J as [J _]. apply in_map_iff in J. destruct J as (t & <- & J).
      apply (proj1 (Forall_forall _ _) (iv_has _ _ I) _ J). }
    destruct (remove_dirs_ok gone _ NDg Hg) as (es & -> & ->). cbn [bind]. apply fine_ok.
    assert (Nl : iterated (sp_iters a) = false). { destruct (iterated (sp_iters a)) eqn:X; [|reflexivity]. destruct (iv_lock _ _ I X) as [Y _]. congruence. }
    assert (Dk : disk_of (log s ++ map ERemove gone ++ [EMeta r]) = apply (fold_left apply (map ERemove gone) (disk_of (log s))) (EMeta r)).
    { rewrite disk_app, fold_left_app. reflexivity. }
    destruct (removed_dirs gone (disk_of (log s))) as (Dm & Dt & Dd). cbn zeta in Dm, Dt, Dd.
    assert (Hr : Forall (t_ok (has_dir (disk_of (log s ++ map ERemove gone ++ [EMeta r])))) (tables r)).
    { apply Forall_forall. intros t J. unfold t_ok. rewrite Dk. change (has_dir (apply ?d (EMeta r)) ?i) with (has_dir d i). rewrite Dd. apply andb_true_iff. split.
      - destruct (Tr t J) as [J'|J']; [apply (proj1 (Forall_forall _ _) (iv_has _ _ I) _ J')|apply (proj1 (Forall_forall _ _) Hm' _ J')].
      - apply negb_true_iff. destruct (existsb (Nat.eqb (t_id t)) gone) eqn:X; [|reflexivity]. apply existsb_exists in X. destruct X as (i & Ji & Q).
        apply Nat.eqb_eq in Q. subst i. apply filter_In in Ji. destruct Ji as [_ Ji]. apply negb_true_iff in Ji.
        assert (Y : existsb (Nat.eqb (t_id t)) kept = true) by (apply existsb_exists; exists (t_id t); split; [now apply in_map|apply Nat.eqb_refl]). congruence. }
    assert (Fr : Forall (fun t => t_id t < fresh s) (tables r)).
    { apply Forall_forall. intros t J. destruct (Tr t J) as [J'|J']; [apply (proj1 (Forall_forall _ _) (iv_ids _ _ I) _ J')|apply (proj1 (Forall_forall _ _) Fm' _ J')]. }
    assert (Sub : forall e, In e (cont r) -> In e (cont (cur s))) by (apply (lw_sh L); exact Shr).
    destruct (lw_slip L a (mem s) (cont (cur s)) (cont r) (iv_map _ _ I) (inv_uniq _ _ I) (iv_newer _ _ I) (iv_q _ _ I) Shr (iv_view _ _ I) (iv_rec _ _ I) (iv_disk _ _ I))
      as (a' & Sl & Sa & Va & Ra & Da). destruct (lw_same L _ _ Sl) as (Ei & Ec & Ew & Er & Inc). exists a'. split; [exact Sl|].
    assert (I' : inv a' (mkLsm (mem s) (usage s) (time s) r None (thr s) (joinable s) (iters s) (fresh s) (log s ++ map ERemove gone ++ [EMeta r]))).
    { constructor; unfold has; cbn [mem usage time cur nxt thr joinable iters fresh log]; try apply I; auto.
      - intros e e' J J'. apply (iv_newer _ _ I); auto.
      - pose proof (iv_q _ _ I) as Q. apply Forall_app in Q. destruct Q as [Q1 Q2]. apply Forall_app. split; [exact Q1|]. apply Forall_forall. intros e J.
        apply (proj1 (Forall_forall _ _) Q2). auto.
      - intros m1 X. destruct (iv_thr _ _ I _ X) as [Y _]. congruence.
      - discriminate.
      - intros X. rewrite Ei in X. congruence.
      - rewrite Ei. apply (iters_unlocked (has St s)); [exact Nl|apply I].
      - rewrite Dk. reflexivity.
      - rewrite Dk, Ew. cbn [apply d_time]. rewrite Dt. apply I.
      - rewrite Ec. apply I.
      - rewrite Er. apply I. }
    split; [exact I'|]. split; [reflexivity|]. split; [|repeat (split; [reflexivity|]); discriminate]. split; [split; cbn; lia|]. exists (map ERemove gone ++ [EMeta r]). split; [reflexivity|].
    intros p q Q S. destruct (prefix_snoc _ _ _ _ Q) as [->|(q' & Q')].
    - exact (inv_good _ _ I').
    - destruct p as [|x p]; [rewrite app_nil_r; apply (disk_good_more (sp_recover a) _ s); [exact Inc|split; cbn; lia|exact (inv_good _ _ I)]|]. exfalso. clear Q. 
      assert (Sp : exists ids, x :: p = map (@ERemove meta) ids).
      { exists (firstn (length (x :: p)) gone). rewrite <- firstn_map, Q'. rewrite firstn_app, Nat.sub_diag, firstn_all, app_nil_r. reflexivity. }
      destruct Sp as (ids & Eg). rewrite Eg in S. apply settled_removes in S. subst ids. discriminate.
  Qed.

  (** *** try_compact *)
  Lemma same_time_lt a s e : inv a s -> In e (mem s ++ cont (cur s)) -> (tm e < time s)%N.
  Proof.
    intros I J. apply in_app_iff in J. destruct J as [J|J]; [now apply (iv_memt _ _ I)|]. destruct (lw_basic L _ _ (iv_inv _ _ I)) as (_ & _ & _ & X). now apply X.
  Qed.
  Lemma has_more (l es : list (effect meta)) i : existsb is_remove es = false -> has_dir (disk_of l) i = true -> has_dir (disk_of (l ++ es)) i = true.
  Proof.
    rewrite disk_app. generalize (disk_of l) as d. induction es as [|e es IH]; intros d N X; [exact X|]. cbn [existsb] in N. apply orb_false_iff in N. destruct N as [N1 N2].
    cbn [fold_left]. apply IH; [exact N2|]. apply has_dir_in. apply has_dir_in in X. destruct e; cbn in *; auto. discriminate.
  Qed.
  Lemma all_has_more l es (ts : list table) : existsb is_remove es = false -> Forall (t_ok (has_dir (disk_of l))) ts -> Forall (t_ok (has_dir (@disk_of meta (l ++ es)))) ts.
  Proof. intros N F. eapply Forall_impl; [|exact F]. intros t. now apply has_more. Qed.

  Lemma push_ok a s t : inv a s -> mem s <> [] -> tab_ok t -> t_es t = mem s -> t_id t = fresh s ->
    let m := st_push St (cur s) t in
    let s' := mkLsm [] 0 (time s) m (nxt s) (thr s) (joinable s) (iters s) (S (fresh s)) (log s ++ [ETable (t_id t); EMeta m]) in
    inv a s' /\ moves (sp_recover a) s s'.
  Proof.
    intros I Ne Ot Et It m s'.
    assert (Dk : disk_of (log s ++ [ETable (t_id t); EMeta m]) = mkDisk (d_time (disk_of (log s))) (Some m) (t_id t :: d_dirs (disk_of (log s)))).
    { rewrite disk_app. reflexivity. }
    assert (Nid : ~ In (t_id t) (map t_id (tables (cur s)))).
    { rewrite It. intros J. apply in_map_iff in J. destruct J as (x & Q & J). pose proof (proj1 (Forall_forall _ _) (iv_ids _ _ I) _ J) as Y. cbn in Y. lia. }
    assert (Im : Inv (time s) m).
    { apply (lw_push L); auto; rewrite ?Et; try apply I. }
    assert (Nr : existsb is_remove [ETable (t_id t); EMeta m] = false) by reflexivity.
    assert (Pt : Permutation (tables m) (t :: tables (cur s))) by apply (lw_tables L).
    assert (Hm : Forall (t_ok (has_dir (disk_of (log s ++ [ETable (t_id t); EMeta m])))) (tables m)).
    { apply (Permutation_Forall (Permutation_sym Pt)). constructor; [|apply (all_has_more (log s)); [exact Nr|apply I]].
      unfold t_ok. rewrite Dk. apply has_dir_in. now left. }
    assert (Idm : Forall (fun x => t_id x < S (fresh s)) (tables m)).
    { apply (Permutation_Forall (Permutation_sym Pt)). constructor; [lia|]. eapply Forall_impl; [|apply I]. cbn. intros; lia. }
    assert (Qe : forall e, In e (mem s ++ cont (cur s)) <-> In e (cont m)) by (intros e; unfold m; rewrite cont_push, Et, in_app_iff; tauto).
    assert (Nt : forall e e', In e (t_es t) -> In e' (cont (cur s)) -> (tm e' < tm e)%N) by (rewrite Et; apply I).
    assert (I' : inv a s').
    { constructor; unfold s', has; cbn [mem usage time cur nxt thr joinable iters fresh log]; try apply I; auto.
      - constructor.
      - intros e [].
      - intros e e' [].
      - intros e e' [].
      - cbn [app]. pose proof (iv_q _ _ I) as Q. rewrite Forall_forall in *. intros e J. apply Q. now apply Qe.
      - cbn. lia.
      - cbn [app]. apply (view_ext (mem s ++ cont (cur s))); [exact Qe|]. apply I.
      - intros m1 X. destruct (iv_thr _ _ I _ X) as (Y & D & ts & G). split; [exact Y|]. split; [exact D|]. exists (ts ++ [t]). now apply grown_push.
      - intros m1 X. destruct (iv_nxt _ _ I _ X) as (m0 & ts & G & Cm & Im' & Sh & Hm' & Fm' & Dj & Old). exists m0, (ts ++ [t]).
        split; [now apply grown_push|]. split; [exact Cm|]. split; [exact Im'|]. split; [exact Sh|]. split; [apply (all_has_more (log s)); [exact Nr|exact Hm']|].
        split; [eapply Forall_impl; [|exact Fm']; cbn; intros; lia|]. split; [|exact Old].
        intros x y J J' Q. apply in_app_iff in J. destruct J as [J|[<-|[]]]; [now apply (Dj x y)|]. pose proof (proj1 (Forall_forall _ _) Fm' _ J') as Y. cbn in Y. lia.
      - apply (iters_frame (has St s)); [|apply I]. intros i. now apply has_more.
      - rewrite Dk. reflexivity.
      - rewrite Dk. apply I.
      - exists (sp_map a). split; [apply I|]. split; [apply I|]. apply (view_ext (mem s ++ cont (cur s))); [exact Qe|]. apply I. }
    split; [exact I'|]. split; [split; cbn; lia|]. exists [ETable (t_id t); EMeta m]. split; [reflexivity|]. intros p q Q _. destruct p as [|x [|y p]].
    - rewrite app_nil_r. apply (disk_good_more (sp_recover a) _ s); [apply incl_refl|split; cbn; lia|now apply inv_good].
    - cbn in Q. injection Q as <- _. destruct (inv_good _ _ I) as (m1 & A1 & A2 & A3 & A4 & A5 & A6). exists m1.
      split; [rewrite disk_app; exact A1|]. split; [now apply all_has_more|]. split; [eapply Forall_impl; [|exact A3]; cbn; intros; lia|]. split; [exact A4|].
      split; [intros t0 Et0; rewrite disk_app in Et0; now apply A5|exact A6].
    - cbn in Q. injection Q as <- <- Q. symmetry in Q. apply app_eq_nil in Q. destruct Q as [-> _]. exact (inv_good _ _ I').
  Qed.
  Lemma set_thr_inv a s t : inv a s -> (t = TIdle \/ t = TDead \/ t = TPub /\ iterated (sp_iters a) = false \/ t = TRun (cur s) /\ nxt s = None /\ st_due St (cur s) = true /\ iterated (sp_iters a) = false) ->
    inv a (set_thr St s t).
  Proof.
    intros I X. constructor; unfold has, set_thr; cbn [mem usage time cur nxt thr joinable iters fresh log]; try apply I.
    - intros m E. destruct X as [->|[->|[[-> _]|(-> & N & D & _)]]]; try discriminate. injection E as <-. split; [exact N|]. split; [exact D|]. exists [].
      split; [reflexivity|]. split; [apply I|]. intros e e' [].
    - intros E. unfold quiet in *. cbn [nxt thr] in *. destruct (iv_lock _ _ I E) as [N _]. split; [exact N|].
      destruct X as [->|[->|[[_ Y]|(_ & _ & _ & Y)]]]; auto; congruence.
  Qed.
  Lemma set_join_inv a s j : inv a s -> inv a (mkLsm (mem s) (usage s) (time s) (cur s) (nxt s) (thr s) j (iters s) (fresh s) (log s)).
  Proof. intros I. constructor; unfold has; cbn [mem usage time cur nxt thr joinable iters fresh log]; apply I. Qed.

  Lemma try_compact_ok a s : inv a s -> jn s -> mem s <> [] -> fine T (try_compact St s) (fun s' => exists a', slip a a' /\ inv a' s' /\ jn s' /\ mem s' = [] /\
    time s' = time s /\ iters s' = iters s /\ moves (sp_recover a') s s').
  Proof.
    intros I J Ne. unfold try_compact. destruct (tb_build_ok (fresh s) (length (mem s)) (mem s) Ne (iv_mem _ _ I)) as (t & -> & Ot & Et & It). cbn [bind].
    destruct (push_ok a s t I Ne Ot Et It) as [I1 M1]. set (s1 := mkLsm _ _ _ _ _ _ _ _ _ _) in *.
    assert (J1 : jn s1) by exact J.
    destruct (busy St s1 || locked St s1) eqn:B; [apply fine_ok; exists a; split; [apply (lw_refl L)|]; auto 10|]. apply orb_false_iff in B. destruct B as [B Lk].
    eapply fine_bind; [apply (try_replace_ok a s1 I1)|]. intros s2 (a' & Sl & I2 & N2 & M2 & Em & Eu & Et2 & Eh & Ej & Ei & Ef & _). apply fine_ok. exists a'. split; [exact Sl|].
    apply (slip_moves a a') in M1; [|exact Sl].
    assert (Th : thr s2 = TIdle). { rewrite Eh. unfold busy in B. destruct (thr s1); auto; discriminate. }
    assert (Lk2 : iterated (sp_iters a') = false) by (apply (unlocked_idle _ s2 I2); unfold locked in *; rewrite Ei; exact Lk).
    destruct (st_due St (cur s2)) eqn:D.
    - pose proof (set_join_inv a' _ true (set_thr_inv a' s2 (TRun (cur s2)) I2 (or_intror (or_intror (or_intror (conj eq_refl (conj N2 (conj D Lk2)))))))) as I3.
      split; [exact I3|]. split; [discriminate|]. cbn [mem time iters]. split; [exact Em|]. split; [exact Et2|]. split; [exact Ei|].
      eapply moves_trans; [exact M1|]. eapply moves_trans; [exact M2|]. now apply moves_same.
    - split; [exact I2|]. split; [intros _; split; [exact N2|auto]|]. split; [exact Em|]. split; [exact Et2|]. split; [exact Ei|]. eapply moves_trans; eauto.
  Qed.

  (** *** The thread *)
  Lemma tables_log ids : forall (l : list (effect meta)), d_meta (disk_of (l ++ map ETable ids)) = d_meta (disk_of l) /\
    d_time (disk_of (l ++ map ETable ids)) = d_time (disk_of l) /\ forall i, has_dir (disk_of (l ++ map ETable ids)) i = existsb (Nat.eqb i) ids || has_dir (disk_of l) i.
  Proof.
    induction ids as [|x ids IH]; intros l; [rewrite app_nil_r; auto|]. cbn [map]. change (ETable x :: map ETable ids) with ([ETable x] ++ map (@ETable meta) ids).
    rewrite app_assoc. destruct (IH (l ++ [ETable x])) as (A1 & A2 & A3). split; [rewrite A1, disk_app; reflexivity|]. split; [rewrite A2, disk_app; reflexivity|].
    intros i. rewrite A3, disk_app. cbn [fold_left apply has_dir d_dirs existsb]. unfold has_dir. cbn [d_dirs existsb].
    destruct (i =? x), (existsb (Nat.eqb i) ids), (existsb (Nat.eqb i) (d_dirs (disk_of l))); reflexivity.
  Qed.
  Lemma thread_ok a s m : inv a s -> thr s = TRun m -> lim (time s) ->
    fine T (st_compact St (fun id => has St s id || (fresh s <=? id)) (fresh s) m)
      (fun r => let (m', id') := r in fresh s <= id' /\ Comp m m' /\ Inv (time s) m' /\ shrink (cont m) (cont m') /\
        (forall t, In t (tables m') -> In t (tables m) \/ fresh s <= t_id t < id')).
  Proof.
    intros I Th Li. destruct (iv_thr _ _ I _ Th) as (Nx & Du & ts & G). pose proof G as (Ec & Im & Nw).
    assert (Sub : forall t, In t (tables m) -> In t (tables (cur s))) by (intros t J; rewrite Ec, tables_grown; apply in_app_iff; auto).
    assert (Subc : forall e, In e (cont m) -> In e (cont (cur s))) by (intros e J; unfold cont in *; apply in_run in J; destruct J as (t & J & Je); apply in_run; eauto).
    pose proof (iv_q _ _ I) as Qd. apply Forall_app in Qd. destruct Qd as [_ Qd].
    apply (lw_compact L); auto.
    - apply Forall_forall. intros e J. apply (proj1 (Forall_forall _ _) Qd). auto.
    - apply Forall_forall. intros t J. unfold t_ok. apply orb_true_iff. left. apply (proj1 (Forall_forall _ _) (iv_has _ _ I)). auto.
    - apply Forall_forall. intros t J. apply (proj1 (Forall_forall _ _) (iv_ids _ _ I)). auto.
    - intros i Hi. apply orb_true_iff. right. now apply Nat.leb_le.
  Qed.
  Lemma work_ok a s m after : inv a s -> thr s = TRun m -> lim (time s) -> after = TIdle \/ after = TPub -> fine T (work St s m after) (fun s' =>
    inv a s' /\ moves (sp_recover a) s s' /\ mem s' = mem s /\ time s' = time s /\ thr s' = after /\ iters s' = iters s /\ joinable s' = joinable s).
  Proof.
    intros I Th Li Af. unfold work. destruct (iv_thr _ _ I _ Th) as (Nx & Du & ts & G). pose proof G as (Ec & Im & Nw).
    assert (Lk : iterated (sp_iters a) = false). { destruct (iterated (sp_iters a)) eqn:X; [|reflexivity]. destruct (iv_lock _ _ I X) as [_ [Y|Y]]; congruence. }
    assert (Sub : forall t, In t (tables m) -> In t (tables (cur s))) by (intros t J; rewrite Ec, tables_grown; apply in_app_iff; auto).
    assert (Subc : forall e, In e (cont m) -> In e (cont (cur s))) by (intros e J; unfold cont in *; apply in_run in J; destruct J as (t & J & Je); apply in_run; eauto).
    pose proof (iv_q _ _ I) as Qd. apply Forall_app in Qd. destruct Qd as [_ Qd].
    pose proof (thread_ok a s m I Th Li) as X.
    destruct X as [[HT ->]|([m' fr] & -> & Le & Cm & Im' & Sh & Tb)]; [left; auto|]. apply fine_ok.
    set (ids := seq (fresh s) (fr - fresh s)). destruct (tables_log ids (log s)) as (Dm & Dt & Dd).
    assert (Mono : forall i, has St s i = true -> has_dir (disk_of (log s ++ map ETable ids)) i = true) by (intros i Y; rewrite Dd; unfold has in Y; rewrite Y; apply orb_true_r).
    assert (I' : inv a (mkLsm (mem s) (usage s) (time s) (cur s) (Some m') after (joinable s) (iters s) fr (log s ++ map ETable ids))).
    { constructor; unfold has; cbn [mem usage time cur nxt thr joinable iters fresh log]; try apply I.
      - eapply Forall_impl; [|apply I]. cbn. intros; lia.
      - eapply Forall_impl; [|apply (iv_has _ _ I)]. intros t Y. now apply Mono.
      - intros m1 E. destruct Af; subst after; discriminate.
      - intros m1 E. injection E as <-. exists m, ts. split; [exact G|]. split; [exact Cm|]. split; [exact Im'|]. split; [exact Sh|]. split; [|split; [|split]].
        + apply Forall_forall. intros t J. unfold t_ok. destruct (Tb t J) as [J'|Hb]; [apply Mono, (proj1 (Forall_forall _ _) (iv_has _ _ I)); auto|].
          rewrite Dd. apply orb_true_iff. left. apply existsb_exists. exists (t_id t). split; [apply in_seq; lia|apply Nat.eqb_refl].
        + apply Forall_forall. intros t J. destruct (Tb t J) as [J'|Hb]; [|lia]. pose proof (proj1 (Forall_forall _ _) (iv_ids _ _ I) t (Sub t J')) as Y. cbn in Y. lia.
        + intros t t' J J' Q. assert (Jc : In t (tables (cur s))) by (rewrite Ec, tables_grown; apply in_app_iff; auto).
          pose proof (proj1 (Forall_forall _ _) (iv_ids _ _ I) t Jc) as Y. cbn in Y. destruct (Tb t' J') as [J2|Hb]; [|lia].
          destruct (lw_basic L _ _ (iv_inv _ _ I)) as (_ & ND & _). apply (Permutation_NoDup (Permutation_map t_id (Permutation_trans (eq_ind_r (fun c => Permutation (tables c) _) (Permutation_refl _) Ec) (tables_grown ts m)))) in ND.
          rewrite map_app in ND. clear - ND J J2 Q. induction ts as [|x ts IH]; [destruct J|]. cbn [map app] in ND. apply NoDup_cons_iff in ND. destruct ND as [N ND].
          destruct J as [<-|J]; [|now apply IH]. apply N. apply in_app_iff. right. rewrite Q. now apply in_map.
        + intros t' J. destruct (Tb t' J) as [J'|Hb]; [auto|]. right. intros Y. apply in_map_iff in Y. destruct Y as (x & Q & Jx).
          pose proof (proj1 (Forall_forall _ _) (iv_ids _ _ I) x (Sub x Jx)) as Y. cbn in Y. lia.
      - intros Y. unfold locked in *. cbn [iters] in Y. congruence.
      - apply (iters_unlocked (has St s)); [exact Lk|apply I].
      - rewrite Dm. apply I.
      - rewrite Dt. apply I. }
    split; [exact I'|]. split; [|auto 10]. split; [split; cbn; lia|]. exists (map ETable ids). split; [reflexivity|]. intros p q Q _.
    assert (Ep : p = map (@ETable meta) (firstn (length p) ids)). { rewrite <- firstn_map, Q. rewrite firstn_app, Nat.sub_diag, firstn_all, app_nil_r. reflexivity. }
    rewrite Ep. destruct (tables_log (firstn (length p) ids) (log s)) as (Dm' & Dt' & Dd'). destruct (inv_good _ _ I) as (m1 & A1 & A2 & A3 & A4 & A5 & A6). exists m1.
    split; [now rewrite Dm'|]. split; [eapply Forall_impl; [|exact A2]; intros t Y; unfold t_ok in *; rewrite Dd', Y; apply orb_true_r|].
    split; [eapply Forall_impl; [|exact A3]; cbn; intros; lia|]. split; [exact A4|]. split; [rewrite Dt'; exact A5|exact A6].
  Qed.
  Lemma join_ok a s : inv a s -> jn s -> lim (time s) -> fine T (join St s) (fun s' =>
    inv a s' /\ moves (sp_recover a) s s' /\ mem s' = mem s /\ time s' = time s /\ (thr s' = TIdle \/ thr s' = TDead) /\ iters s' = iters s /\ joinable s' = false).
  Proof.
    intros I J Li. unfold join. destruct (joinable s) eqn:Ej.
    2:{ apply fine_ok. split; [exact I|]. split; [now apply moves_same|]. destruct (J Ej) as [_ Q]. auto 10. }
    set (G s' := inv a s' /\ moves (sp_recover a) s s' /\ mem s' = mem s /\ time s' = time s /\ (thr s' = TIdle \/ thr s' = TDead) /\ iters s' = iters s).
    assert (X : fine T (match thr s with TRun m => work St s m TIdle | TPub => Ok (set_thr St s TIdle) | _ => Ok s end) G).
    { destruct (thr s) as [|m| |] eqn:Th.
      - apply fine_ok. split; [exact I|]. split; [now apply moves_same|]. auto 10.
      - eapply fine_impl; [apply (work_ok a s m TIdle I Th Li); auto|]. intros s' (I' & M & E1 & E2 & E3 & E4 & _). split; [exact I'|]. auto 10.
      - apply fine_ok. split; [apply set_thr_inv; auto|]. split; [now apply moves_same|]. cbn. auto 10.
      - apply fine_ok. split; [exact I|]. split; [now apply moves_same|]. auto 10. }
    eapply fine_bind; [exact X|]. intros s1 (I1 & M1 & E1 & E2 & E3 & E4). apply fine_ok. split; [now apply (set_join_inv a s1 false)|].
    split; [eapply moves_trans; [exact M1|]; now apply moves_same|]. auto 10.
  Qed.

  (** *** flush *)
  Lemma flushed_inv a s : inv a s -> mem s = [] -> inv (flushed a) s.
  Proof.
    intros I Em. constructor; cbn [flushed sp_map sp_iters sp_clean sp_written sp_removed sp_recover]; try apply I; auto.
    - intros _. rewrite Em. constructor.
    - now left.
    - exists (sp_map a). split; [now left|]. split; [apply I|]. pose proof (iv_view _ _ I) as W. now rewrite Em in W.
  Qed.
  Lemma flush_ok a s : inv a s -> jn s -> lim (time s) -> fine T (flush St s) (fun s' =>
    exists a', slip a a' /\ inv (flushed a') s' /\ jn s' /\ quiet s' /\ mem s' = [] /\ time s' = time s /\ iters s' = iters s /\ moves (sp_recover a') s s' /\ In (sp_map a') (sp_recover a')).
  Proof.
    intros I J Li. unfold flush.
    set (G s' := exists a', slip a a' /\ inv a' s' /\ jn s' /\ mem s' = [] /\ time s' = time s /\ iters s' = iters s /\ moves (sp_recover a') s s').
    assert (X : fine T (match mem s with [] => Ok s | _ :: _ => try_compact St s end) G).
    { destruct (mem s) as [|e l] eqn:Em.
      - apply fine_ok. exists a. split; [apply (lw_refl L)|]. split; [exact I|]. split; [exact J|]. split; [exact Em|]. split; [reflexivity|]. split; [reflexivity|]. now apply moves_same.
      - apply try_compact_ok; auto. congruence. }
    eapply fine_bind; [exact X|]. intros s1 (a1 & Sl1 & I1 & J1 & E1 & T1 & Ei1 & M1). destruct (joinable s1) eqn:Ej.
    - eapply fine_bind; [apply (join_ok a1 s1 I1 J1); now rewrite T1|]. intros s2 (I2 & M2 & E2 & T2 & Q2 & Ei2 & Jb).
      eapply fine_impl; [apply (try_replace_ok a1 s2 I2)|]. intros s3 (a3 & Sl3 & I3 & N3 & M3 & E3 & _ & T3 & Th3 & Jb3 & Ei3 & _).
      assert (Q : quiet s3) by (split; [exact N3|now rewrite Th3]). exists a3. split; [apply (lw_trans L _ _ _ Sl1 Sl3)|].
      apply (slip_moves a1 a3 _ _ Sl3) in M1. apply (slip_moves a1 a3 _ _ Sl3) in M2.
      split; [apply flushed_inv; [exact I3|congruence]|]. split; [intros _; exact Q|]. split; [exact Q|]. split; [congruence|]. split; [congruence|]. split; [congruence|].
      split; [|apply I3]. eapply moves_trans; [exact M1|]. eapply moves_trans; eauto.
    - apply fine_ok. exists a1. split; [exact Sl1|]. split; [now apply flushed_inv|]. split; [exact J1|]. split; [now apply J1|]. repeat (split; [assumption|]). apply I1.
  Qed.

  (** *** insert and remove *)
  Lemma bytes_app a b : bytes (a ++ b) = (bytes a + bytes b)%N.
  Proof. unfold bytes. induction a as [|e a IH]; cbn; [reflexivity|]. rewrite IH. lia. Qed.
  Lemma in_bt (k : K) (v : sval) l : sorted l -> forall e, In e (bt_insert k v l) -> snd e = v /\ cmp (fst e) k = Eq \/ In e l /\ cmp (fst e) k <> Eq.
  Proof.
    intros S e J. destruct (bt_insert_cases k v l S) as [(l1 & k' & v' & l2 & -> & Q & E)|(l1 & l2 & -> & E & N)]; rewrite E in J.
    - assert (X : In e (l1 ++ l2) -> cmp (fst e) k <> Eq).
      { intros Y Q'. apply sorted_mid in S. destruct S as (_ & _ & A & B). apply in_app_iff in Y. destruct Y as [Y|Y].
        - pose proof (proj1 (Forall_forall _ _) A _ Y) as Z0. cbn in Z0. korder.
        - pose proof (proj1 (Forall_forall _ _) B _ Y) as Z0. cbn in Z0. korder. }
      apply in_app_iff in J. destruct J as [J|[<-|J]]; [right|left|right].
      + split; [apply in_app_iff; auto|apply X, in_app_iff; auto].
      + split; [reflexivity|]. now apply cmp_eq_sym.
      + split; [apply in_app_iff; right; now right|apply X, in_app_iff; auto].
    - apply in_app_iff in J. destruct J as [J|[<-|J]].
      + right. assert (Y : In e (l1 ++ l2)) by (apply in_app_iff; auto). auto.
      + left. split; [reflexivity|apply cmp_refl].
      + right. assert (Y : In e (l1 ++ l2)) by (apply in_app_iff; auto). auto.
  Qed.
  Lemma bt_in (k : K) (v : sval) l : sorted l -> (forall e, In e l -> cmp (fst e) k <> Eq -> In e (bt_insert k v l)) /\ exists k', cmp k' k = Eq /\ In (k', v) (bt_insert k v l).
  Proof.
    intros S. destruct (bt_insert_cases k v l S) as [(l1 & k' & v' & l2 & -> & Q & ->)|(l1 & l2 & -> & -> & N)].
    - split; [|exists k'; split; [now apply cmp_eq_sym|apply in_app_iff; right; now left]]. intros e J Ne. apply in_app_iff in J. apply in_app_iff.
      destruct J as [J|[<-|J]]; [now left| |right; now right]. destruct Ne. now apply cmp_eq_sym.
    - split; [|exists k; split; [apply cmp_refl|apply in_app_iff; right; now left]]. intros e J Ne. apply in_app_iff in J. apply in_app_iff.
      destruct J as [J|J]; [now left|right; now right].
  Qed.

  Definition put_or_drop (k : K) (d : option V) (m : list (K * V)) : list (K * V) := match d with Some v => put k v m | None => drop k m end.
  Definition is_none {A} (d : option A) : bool := match d with Some _ => false | None => true end.
  Lemma wrote_inv a s k d u : inv a s -> (forall k' t, cmp k' k = Eq -> qd (k', mkSval d t)) -> (bytes (bt_insert k (mkSval d (time s)) (mem s)) <= u)%N ->
    inv (written a (put_or_drop k d (sp_map a)) (is_none d))
      (mkLsm (bt_insert k (mkSval d (time s)) (mem s)) u (time s + 1) (cur s) (nxt s) (thr s) (joinable s) (iters s) (fresh s) (log s ++ [ETime (time s + 1)])).
  Proof.
    intros I Q U. set (v := mkSval d (time s)) in *. pose proof (iv_mem _ _ I) as S. pose proof (in_bt k v (mem s) S) as B. destruct (bt_in k v (mem s) S) as [B1 B2].
    destruct (lw_basic L _ _ (iv_inv _ _ I)) as (_ & _ & Uc & Tc).
    assert (Dk : disk_of (log s ++ [ETime (time s + 1)]) = mkDisk (Some (time s + 1)%N) (d_meta (disk_of (log s))) (d_dirs (disk_of (log s)))) by (rewrite disk_app; reflexivity).
    assert (Hd : forall i, has_dir (disk_of (log s ++ [ETime (time s + 1)])) i = has St s i) by (intros i; rewrite Dk; reflexivity).
    assert (S' : sorted (bt_insert k v (mem s))) by now apply bt_insert_sorted.
    assert (Um : uniq (bt_insert k v (mem s))).
    { intros e e' J J' Et. destruct (B e J) as [[E1 K1]|[J1 _]], (B e' J') as [[E2 K2]|[J2 _]].
      - apply (sorted_key_inj (bt_insert k v (mem s))); auto. korder.
      - pose proof (iv_memt _ _ I e' J2). rewrite E1 in Et. cbn in Et. lia.
      - pose proof (iv_memt _ _ I e J1). rewrite E2 in Et. cbn in Et. lia.
      - now apply (iv_memu _ _ I). }
    assert (Nw : forall e e', In e (bt_insert k v (mem s)) -> In e' (cont (cur s)) -> (tm e' < tm e)%N).
    { intros e e' J J'. destruct (B e J) as [[E1 K1]|[J1 _]]; [|now apply (iv_newer _ _ I)]. rewrite E1. cbn. now apply Tc. }
    assert (Vw : view (bt_insert k v (mem s) ++ cont (cur s)) (put_or_drop k d (sp_map a))).
    { apply (view_write (mem s ++ cont (cur s)) _ (sp_map a) k d (time s) (iv_view _ _ I)).
      - intros e Ne. rewrite !in_app_iff. split; intros [J|J]; auto. destruct (B e J) as [[_ K1]|[J1 _]]; [congruence|auto].
      - destruct B2 as (k' & Q' & J). exists k'. split; [exact Q'|]. apply in_app_iff. auto.
      - intros e J. apply in_app_iff in J. destruct J as [J|J]; [|pose proof (Tc e J); lia]. destruct (B e J) as [[E1 _]|[J1 _]]; [rewrite E1; cbn; lia|].
        pose proof (iv_memt _ _ I e J1). lia.
      - intros e e' J J' Et. apply in_app_iff in J. apply in_app_iff in J'. destruct J as [J|J], J' as [J'|J'].
        + now apply Um.
        + pose proof (Nw _ _ J J'). lia.
        + pose proof (Nw _ _ J' J). lia.
        + now apply Uc. }
    constructor; unfold has; cbn [mem usage time cur nxt thr joinable iters fresh log written sp_map sp_iters sp_clean sp_written sp_removed sp_recover]; try apply I; auto.
    - intros e J. destruct (B e J) as [[E1 _]|[J1 _]]; [rewrite E1; cbn; lia|]. pose proof (iv_memt _ _ I e J1). lia.
    - apply (lw_mono L (time s)); [apply I|lia].
    - pose proof (iv_q _ _ I) as Qq. apply Forall_app in Qq. destruct Qq as [Q1 Q2]. apply Forall_app. split; [|exact Q2]. apply Forall_forall. intros e J.
      destruct (B e J) as [[E1 K1]|[J1 _]]; [destruct e; cbn in E1, K1; subst; now apply Q|]. apply (proj1 (Forall_forall _ _) Q1 _ J1).
    - destruct d; cbn [put_or_drop]; [apply sorted_put|apply sorted_drop]; apply I.
    - eapply Forall_impl; [|apply (iv_has _ _ I)]. intros t X. unfold t_ok in *. now rewrite Hd.
    - intros m E. destruct (iv_thr _ _ I _ E) as (X & D & ts & G). split; [exact X|]. split; [exact D|]. exists ts. apply (grown_mono (time s)); [exact G|lia].
    - intros m' E. destruct (iv_nxt _ _ I _ E) as (m & ts & G & Cm & Im' & Sh & Hm' & Fm' & X). exists m, ts. split; [apply (grown_mono (time s)); [exact G|lia]|].
      split; [exact Cm|]. split; [apply (lw_mono L (time s)); [exact Im'|lia]|]. split; [exact Sh|]. split; [|split; [exact Fm'|exact X]].
      eapply Forall_impl; [|exact Hm']. intros t Y. unfold t_ok in *. now rewrite Hd.
    - apply (iters_frame (has St s)); [|apply I]. intros i. now rewrite Hd.
    - rewrite Dk. cbn. apply I.
    - rewrite Dk. reflexivity.
    - discriminate.
    - intros R. apply orb_false_iff in R. destruct R as [R1 R2]. apply Forall_forall. intros e J. destruct (B e J) as [[E1 _]|[J1 _]].
      + unfold has_data. rewrite E1. cbn. now destruct d.
      + apply (proj1 (Forall_forall _ _) (iv_removed _ _ I R1) _ J1).
    - apply in_app_iff. right. now left.
    - destruct (iv_disk _ _ I) as (m & J & X). exists m. split; [apply in_app_iff; auto|exact X].
  Qed.
  Lemma write_ok a s k d : inv a s -> jn s -> (forall k' t, cmp k' k = Eq -> qd (k', mkSval d t)) ->
    let a' := written a (put_or_drop k d (sp_map a)) (is_none d) in
    fine T (write St s k d) (fun s' => exists a2, slip a' a2 /\ inv a2 s' /\ jn s' /\ (time s' = time s + 1)%N /\ moves (sp_recover a2) s s').
  Proof.
    intros I J Q a'. unfold write. pose proof (iv_mem _ _ I) as S. set (v := mkSval d (time s)).
    assert (X : exists u, match find_version (mem s) k with
              | Some old => let size := (ksize k + vsize old)%N in if (size <=? usage s)%N then Ok (usage s - size)%N else Panic
              | None => Ok (usage s)
              end = Ok u /\ (bytes (bt_insert k v (mem s)) <= u + (ksize k + vsize v))%N).
    { pose proof (iv_use _ _ I) as U. destruct (bt_insert_cases k v (mem s) S) as [(l1 & k' & v' & l2 & E & Qk & E')|(l1 & l2 & E & E' & N)]; rewrite E'.
      - rewrite (find_version_in (mem s) (k', v') k S); [|rewrite E; apply in_app_iff; right; now left|now apply cmp_eq_sym]. cbn zeta. cbn [snd].
        rewrite E, bytes_app in U. cbn [bytes fold_right fst snd] in U. fold (bytes l2) in U. rewrite (Ksize k k' Qk). destruct (N.leb_spec (ksize k' + vsize v') (usage s)); [|lia].
        eexists. split; [reflexivity|]. rewrite bytes_app. cbn [bytes fold_right fst snd]. fold (bytes l2). lia.
      - rewrite (proj2 (find_version_none (mem s) k) N). exists (usage s). split; [reflexivity|]. rewrite E, bytes_app in U. rewrite bytes_app. cbn [bytes fold_right fst snd]. fold (bytes l2). lia. }
    cbv zeta in X |- *. fold v. destruct X as (u & -> & U). cbn [bind]. pose proof (wrote_inv a s k d _ I Q U) as I1. fold a' v in I1. set (s1 := mkLsm _ _ _ _ _ _ _ _ _ _) in *.
    assert (M1 : moves (sp_recover a') s s1).
    { apply (moves_one a s s1 (ETime (time s + 1))); [exact I|reflexivity|split; cbn; lia|intros x Jx; apply in_app_iff; auto|]. exact (inv_good _ _ I1). }
    assert (J1 : jn s1) by exact J. destruct (st_max_mem St <? usage s1)%N.
    - eapply fine_impl; [apply (try_compact_ok a' s1 I1 J1)|].
      + destruct (bt_in k v (mem s) S) as (_ & k' & _ & Jk). intros E. unfold s1 in E. cbn [mem] in E. rewrite E in Jk. destruct Jk.
      + intros s' (a2 & Sl & I2 & J2 & _ & T2 & _ & M2). exists a2. split; [exact Sl|]. split; [exact I2|]. split; [exact J2|]. split; [exact T2|].
        eapply moves_trans; [apply (slip_moves a' a2 _ _ Sl), M1|exact M2].
    - apply fine_ok. exists a'. split; [apply (lw_refl L)|]. split; [exact I1|]. split; [exact J1|]. split; [reflexivity|exact M1].
  Qed.

  (** *** get *)
  Lemma replaced_jn s s' : jn s -> nxt s' = None -> thr s' = thr s -> joinable s' = joinable s -> jn s'.
  Proof. intros J N T' E X. split; [exact N|]. rewrite T'. apply J. congruence. Qed.
  Lemma get_ok a s k : inv a s -> jn s -> fine T (get St s k) (fun r => let (s', v) := r in
    exists a', slip a a' /\ inv a' s' /\ jn s' /\ v = lookup k (sp_map a') /\ time s' = time s /\ moves (sp_recover a') s s').
  Proof.
    intros I J. unfold get. destruct (version_exists (cont (cur s)) k) as (o0 & V0). destruct (find_version (mem s) k) as [v|] eqn:F.
    - apply fine_ok. exists a. split; [apply (lw_refl L)|]. split; [exact I|]. split; [exact J|]. split; [|split; [reflexivity|now apply moves_same]].
      pose proof (iv_view _ _ I k _ (version_mem _ _ k (iv_mem _ _ I) (iv_newer _ _ I) _ V0)) as X. rewrite F in X. exact X.
    - eapply fine_bind; [apply (try_replace_ok a s I)|]. intros s1 (a1 & Sl & I1 & N1 & M1 & Em & _ & Et & Th & Ej & _).
      destruct (lw_get L _ _ (has St s1) k (iv_inv _ _ I1) (iv_has _ _ I1)) as (o & -> & Vo). cbn [bind]. apply fine_ok. exists a1. split; [exact Sl|]. split; [exact I1|].
      split; [eapply replaced_jn; eauto|]. split; [|auto].
      pose proof (iv_view _ _ I1 k _ (version_mem _ _ k (iv_mem _ _ I1) (iv_newer _ _ I1) _ Vo)) as X. rewrite Em, F in X. exact X.
  Qed.

  (** *** len_hint *)
  Lemma hints_ok (ts : list table) : Forall tab_ok ts -> sum_hints ts = Ok (length (filter has_data (run_entries ts))).
  Proof.
    induction 1 as [|t ts O F IH]; [reflexivity|]. cbn [sum_hints]. unfold checked_sub. rewrite (ta_count _ O), (ta_tombs _ O).
    assert (X : forall es : list entry, length es = length (filter has_data es) + length (filter dead es)).
    { induction es as [|e es IHe]; [reflexivity|]. cbn [filter]. unfold dead at 1. destruct (has_data e); cbn [negb length]; lia. }
    specialize (X (t_es t)). destruct (Nat.leb_spec (length (filter dead (t_es t))) (length (t_es t))); [|lia]. cbn [bind]. rewrite IH. cbn [bind].
    f_equal. cbn [run_entries flat_map]. fold (run_entries ts). rewrite filter_app, app_length. lia.
  Qed.
  Lemma len_hint_ok a s : inv a s -> jn s -> fine T (len_hint St s) (fun r => let (s', n) := r in
    exists a', slip a a' /\ inv a' s' /\ jn s' /\ length (sp_map a') <= n /\ time s' = time s /\ moves (sp_recover a') s s').
  Proof.
    intros I J. unfold len_hint. eapply fine_bind; [apply (try_replace_ok a s I)|]. intros s1 (a1 & Sl & I1 & N1 & M1 & Em & _ & Et & Th & Ej & _).
    destruct (lw_basic L _ _ (iv_inv _ _ I1)) as (O & _). rewrite (hints_ok _ O). cbn [bind]. apply fine_ok. exists a1. split; [exact Sl|]. split; [exact I1|]. split; [eapply replaced_jn; eauto|].
    split; [|auto]. fold (cont (cur s1)). rewrite <- app_length. apply keys_le; [apply I1|]. intros p Jp.
    destruct (version_exists (mem s1 ++ cont (cur s1)) (fst p)) as (o & Vo). pose proof (iv_view _ _ I1 _ _ Vo) as X.
    rewrite (lookup_in (fst p) p (sp_map a1) (iv_map _ _ I1) Jp (cmp_refl _)) in X. destruct o as [v|]; [|discriminate]. destruct Vo as (e & [Je _] & Q & <-).
    exists e. split; [|exact Q]. apply in_app_iff in Je. apply in_app_iff. destruct Je as [Je|Je]; [now left|]. right. apply filter_In. split; [exact Je|].
    unfold has_data. cbn [seen] in X. now rewrite X.
  Qed.

  (** *** Iterators *)
  Lemma runs_cont W m e : Inv W m -> In e (flat_map run_entries (st_runs St m)) <-> In e (cont m).
  Proof.
    intros I. destruct (lw_runs L _ _ I) as [_ P]. unfold cont. rewrite in_run, in_flat_map. split.
    - intros (r & Jr & Je). apply in_run in Je. destruct Je as (t & Jt & Je). exists t. split; [|exact Je]. rewrite <- P. apply in_concat. eauto.
    - intros (t & Jt & Je). rewrite <- P in Jt. apply in_concat in Jt. destruct Jt as (r & Jr & Jt). exists r. split; [exact Jr|]. apply in_run. eauto.
  Qed.
  Lemma merge_ext (E E' out : list entry) : (forall e, In e E <-> In e E') -> merge_of E out -> merge_of E' out.
  Proof.
    intros X (S & M1 & M2). split; [exact S|]. split.
    - intros e J. destruct (M1 e J) as [A B]. split; [now apply X|]. intros e' J'. apply B. now apply X.
    - intros e J. apply M2. now apply X.
  Qed.
  Lemma disk_iter_ok a s : inv a s -> jn s -> fine T (disk_iter St s) (fun r => let (s', it) := r in
    exists a', slip a a' /\ (nxt s = None -> a' = a) /\ inv a' s' /\ jn s' /\ mem s' = mem s /\ time s' = time s /\ iters s' = iters s /\ nxt s' = None /\ thr s' = thr s /\ moves (sp_recover a') s s' /\
    exists out, streams (has St s') it out /\ merge_of (cont (cur s')) out).
  Proof.
    intros I J. unfold disk_iter. eapply fine_bind; [apply (try_replace_ok a s I)|]. intros s1 (a1 & Sl & I1 & N1 & M1 & Em & _ & Et & Th & Ej & Ei & _ & Qa).
    destruct (lw_runs L _ _ (iv_inv _ _ I1)) as [Sr Pr]. destruct (iter_tables_ok (has St s1) (st_runs St (cur s1))) as (it & out & E & Ec & Mi & Mo).
    - apply Forall_forall. intros r Jr. apply Forall_forall. intros t Jt. apply (proj1 (Forall_forall _ _) (iv_has _ _ I1)). rewrite <- Pr. apply in_concat. eauto.
    - exact Sr.
    - rewrite E. cbn [bind]. apply fine_ok. exists a1. split; [exact Sl|]. split; [exact Qa|]. split; [exact I1|]. split; [eapply replaced_jn; eauto|]. repeat (split; [assumption|]). exists out.
      split; [split; [exact Mi|exact Ec]|]. revert Mo. apply merge_ext. intros e. exact (runs_cont (time s1) _ e (iv_inv _ _ I1)).
  Qed.
  Lemma all_ok a s : inv a s -> jn s -> lim (time s) -> fine T (all St s) (fun r => let (s', l) := r in
    exists a', slip a a' /\ inv (flushed a') s' /\ jn s' /\ Forall2 same_pair l (sp_map a') /\ time s' = time s /\ moves (sp_recover a') s s').
  Proof.
    intros I J Li. unfold all. eapply fine_bind; [apply (flush_ok a s I J Li)|]. intros s1 (a1 & Sl & I1 & J1 & Q1 & E1 & T1 & Ei1 & M1 & Ra).
    eapply fine_bind; [apply (disk_iter_ok _ s1 I1 J1)|]. intros [s2 it] (a2 & _ & Qa & I2 & J2 & E2 & T2 & _ & _ & _ & M2 & out & So & Mo). rewrite (Qa (proj1 Q1)) in *. clear a2 Qa.
    rewrite (live_collect_ok _ it out So). cbn [bind]. apply fine_ok. exists a1. split; [exact Sl|]. split; [exact I2|]. split; [exact J2|]. split; [|split; [congruence|]].
    - apply (live_view (cont (cur s2))); [exact Mo| |apply (iv_map _ _ I2)]. pose proof (iv_view _ _ I2) as W. rewrite E2, E1 in W. exact W.
    - eapply moves_trans; [exact M1|]. apply (moves_more (sp_recover (flushed a1))); [|exact M2]. intros x [<-|[]]. exact Ra.
  Qed.

  (** *** min and max *)
  Lemma min_answers a s out : inv a s -> merge_of (cont (cur s)) out ->
    answers a LMin (OKey (match first_live (mem s), option_map fst (hd_error (live out)) with
                          | Some x, Some y => Some (kmin x y) | None, b => b | x, None => x end)).
  Proof.
    intros I Mo. rewrite first_live_ok.
    assert (B : best kle (live (mem s) ++ live out) (match option_map fst (hd_error (live (mem s))), option_map fst (hd_error (live out)) with
                          | Some x, Some y => Some (kmin x y) | None, b => b | x, None => x end)).
    { pose proof (best_min _ _ _ _ (best_hd _ (sorted_live _ (iv_mem _ _ I))) (best_hd _ (sorted_live _ (proj1 Mo)))) as X. destruct (hd_error (live (mem s))), (hd_error (live out)); exact X. }
    split.
    - cbn [promised lsm_spec_step snd same_out]. intros R. apply negb_true_iff in R.
      pose proof (mem_live _ _ _ _ (iv_mem _ _ I) (iv_newer _ _ I) (iv_removed _ _ I R) Mo (iv_view _ _ I)) as X.
      eapply (best_same kle); [apply kle_eq|apply kle_anti|exact X|exact B|apply best_hd, (iv_map _ _ I)].
    - destruct (iv_disk _ _ I) as (m & Jm & _ & Wm). eexists _, m. split; [reflexivity|]. split; [exact Jm|].
      refine (best_keys kle _ _ _ kle_eq _ B). apply (mem_keys _ _ _ _ _ (iv_mem _ _ I) (iv_newer _ _ I) Mo (iv_view _ _ I) Wm).
  Qed.
  Lemma max_answers a s out : inv a s -> merge_of (cont (cur s)) out ->
    answers a LMax (OKey (match first_live (rev (mem s)), option_map fst (last_error (live out)) with
                          | Some x, Some y => Some (kmax x y) | None, b => b | x, None => x end)).
  Proof.
    intros I Mo. rewrite first_live_ok, live_rev, <- last_error_hd.
    assert (B : best kge (live (mem s) ++ live out) (match option_map fst (last_error (live (mem s))), option_map fst (last_error (live out)) with
                          | Some x, Some y => Some (kmax x y) | None, b => b | x, None => x end)).
    { pose proof (best_max _ _ _ _ (best_last _ (sorted_live _ (iv_mem _ _ I))) (best_last _ (sorted_live _ (proj1 Mo)))) as X. destruct (last_error (live (mem s))), (last_error (live out)); exact X. }
    split.
    - cbn [promised lsm_spec_step snd same_out]. intros R. apply negb_true_iff in R.
      pose proof (mem_live _ _ _ _ (iv_mem _ _ I) (iv_newer _ _ I) (iv_removed _ _ I R) Mo (iv_view _ _ I)) as X.
      eapply (best_same kge); [apply kge_eq|apply kge_anti|exact X|exact B|apply best_last, (iv_map _ _ I)].
    - destruct (iv_disk _ _ I) as (m & Jm & _ & Wm). eexists _, m. split; [reflexivity|]. split; [exact Jm|].
      refine (best_keys kge _ _ _ kge_eq _ B). apply (mem_keys _ _ _ _ _ (iv_mem _ _ I) (iv_newer _ _ I) Mo (iv_view _ _ I) Wm).
  Qed.
  Lemma min_ok a s : inv a s -> jn s -> fine T (min St s) (fun r => let (s', k) := r in
    exists a', slip a a' /\ inv a' s' /\ jn s' /\ answers a' LMin (OKey k) /\ time s' = time s /\ moves (sp_recover a') s s').
  Proof.
    intros I J. unfold min. eapply fine_bind; [apply (disk_iter_ok _ s I J)|]. intros [s2 it] (a2 & Sl & _ & I2 & J2 & E2 & T2 & _ & _ & _ & M2 & out & So & Mo).
    destruct (live_next_ok _ it out So) as (it' & out' & -> & _). cbn [bind]. apply fine_ok. exists a2. split; [exact Sl|]. split; [exact I2|]. split; [exact J2|]. split; [|auto].
    pose proof (min_answers a2 s2 out I2 Mo) as X. rewrite E2 in X. destruct (first_live (mem s)), (hd_error (live out)); exact X.
  Qed.
  Lemma max_ok a s : inv a s -> jn s -> fine T (max St s) (fun r => let (s', k) := r in
    exists a', slip a a' /\ inv a' s' /\ jn s' /\ answers a' LMax (OKey k) /\ time s' = time s /\ moves (sp_recover a') s s').
  Proof.
    intros I J. unfold max. eapply fine_bind; [apply (disk_iter_ok _ s I J)|]. intros [s2 it] (a2 & Sl & _ & I2 & J2 & E2 & T2 & _ & _ & _ & M2 & out & So & Mo).
    rewrite (live_collect_ok _ it out So). cbn [bind]. apply fine_ok. exists a2. split; [exact Sl|]. split; [exact I2|]. split; [exact J2|]. split; [|auto].
    pose proof (max_answers a2 s2 out I2 Mo) as X. rewrite E2 in X. destruct (first_live (rev (mem s))), (last_error (live out)); exact X.
  Qed.

  (** *** clear *)
  Lemma clear_ok a s : inv a s -> jn s -> lim (time s) ->
    let a' := mkSp [] (map stale (sp_iters a)) true (sp_written a) false [[]] in
    fine T (clear St s) (fun s' => inv a' s' /\ jn s' /\ time s' = time s /\ moves (sp_recover a ++ [[]]) s s').
  Proof.
    intros I J Li a'. unfold clear. eapply fine_bind; [apply (join_ok a s I J Li)|]. intros s1 (I1 & M1 & Em & Et & Th & Ei & Ej).
    set (ids := nodup Nat.eq_dec (d_dirs (disk_of (log s1)))). destruct (remove_dirs_ok ids (disk_of (log s1))) as (es & -> & ->).
    { apply NoDup_nodup. }
    { apply Forall_forall. intros i Ji. apply nodup_In in Ji. now apply has_dir_in. }
    cbn [bind]. apply fine_ok. set (s2 := mkLsm _ _ _ _ _ _ _ _ _ _).
    destruct (removed_dirs ids (disk_of (log s1))) as (Dm & Dt & Dd). cbn zeta in Dm, Dt, Dd.
    assert (Dk : disk_of (log s2) = apply (fold_left apply (map ERemove ids) (disk_of (log s1))) (EMeta (st_new St))).
    { unfold s2. cbn [log]. rewrite disk_app, fold_left_app. reflexivity. }
    assert (Ce : cont (st_new St) = []) by (unfold cont; now rewrite (lw_empty L)).
    assert (I2 : inv a' s2).
    { constructor; unfold has; rewrite ?Dk; unfold s2, a'; cbn [mem usage time cur nxt thr joinable iters fresh log sp_map sp_iters sp_clean sp_written sp_removed sp_recover];
        rewrite ?Ce, ?(lw_empty L).
      - constructor.
      - intros e [].
      - intros e e' [].
      - intros e e' [].
      - apply (lw_new L).
      - constructor.
      - cbn. lia.
      - constructor.
      - apply view_nil.
      - constructor.
      - constructor.
      - intros m X. destruct Th as [Y|Y]; rewrite Y in X; discriminate.
      - discriminate.
      - intros _. split; [reflexivity|exact Th].
      - apply (iters_stale (has St s1)). apply I1.
      - reflexivity.
      - cbn [apply d_time]. rewrite Dt. apply I1.
      - reflexivity.
      - constructor.
      - now left.
      - exists []. split; [now left|]. split; [constructor|apply view_nil]. }
    split; [exact I2|]. split; [intros _; split; [reflexivity|exact Th]|]. split; [exact Et|].
    eapply moves_trans; [apply (moves_more (sp_recover a)); [apply incl_appl, incl_refl|exact M1]|].
    split; [split; cbn; lia|]. exists (map ERemove ids ++ [EMeta (st_new St)]). split; [reflexivity|].
    intros p q Q S. destruct (prefix_snoc _ _ _ _ Q) as [->|(q' & Q')].
    - apply (disk_good_more (sp_recover a') _ s2); [apply incl_appr, incl_refl|split; lia|exact (inv_good _ _ I2)].
    - destruct p as [|x p].
      + rewrite app_nil_r. apply (disk_good_more (sp_recover a) _ s1); [apply incl_appl, incl_refl|split; cbn; lia|exact (inv_good _ _ I1)].
      + exfalso. assert (Sp : exists l, x :: p = map (@ERemove meta) l).
        { exists (firstn (length (x :: p)) ids). rewrite <- firstn_map, Q'. rewrite firstn_app, Nat.sub_diag, firstn_all, app_nil_r. reflexivity. }
        destruct Sp as (l & El). rewrite El in S. apply settled_removes in S. subst l. discriminate.
  Qed.

  (** *** Kept iterators *)
  Lemma set_iters_inv a s l l' : inv a s -> Forall2 (iter_ok (has St s)) l l' -> (iterated l' = true -> quiet s) ->
    inv (set_sp_iters a l') (set_iters St s l).
  Proof.
    intros I F Q. constructor; unfold has, set_iters, set_sp_iters; cbn [mem usage time cur nxt thr joinable iters fresh log sp_map sp_iters sp_clean sp_written sp_removed sp_recover];
      try apply I; auto.
  Qed.
  Lemma F2_nth {A B} (R : A -> B -> Prop) l l' : Forall2 R l l' -> forall i, match nth_error l i, nth_error l' i with
    | Some x, Some y => R x y | None, None => True | _, _ => False end.
  Proof. induction 1; intros [|i]; cbn; auto. apply IHForall2. Qed.
  Lemma F2_set {A B} (R : A -> B -> Prop) l l' x y : Forall2 R l l' -> R x y -> forall i, Forall2 R (list_set l i x) (list_set l' i y).
  Proof. induction 1; intros Rx [|i]; cbn; constructor; auto. Qed.
  Lemma F2_snoc {A B} (R : A -> B -> Prop) l l' x y : Forall2 R l l' -> R x y -> Forall2 R (l ++ [x]) (l' ++ [y]).
  Proof. intros F X. apply Forall2_app; auto. Qed.
  Lemma iterated_set (l : list (sp_iter K V)) : forall i, iterated (list_set l i IGone) = true -> iterated l = true.
  Proof.
    unfold iterated. induction l as [|o l IH]; intros [|i] X; cbn [list_set existsb] in *; auto.
    - cbn in X. rewrite X. apply orb_true_r.
    - apply orb_true_iff in X. apply orb_true_iff. destruct X; eauto.
  Qed.
  Lemma nth_open (l : list (sp_iter K V)) i x : nth_error l i = Some (IOpen x) -> iterated l = true.
  Proof. intros E. apply existsb_exists. exists (IOpen x). split; [now apply nth_error_In in E|reflexivity]. Qed.

  (** *** open *)
  Lemma open_ok R s0 l : disk_good R s0 l -> d_time (disk_of l) <> None -> exists s m, lsm_open St l (fresh s0) = Ok s /\ In m R /\
    inv (mkSp m [] true true false [m]) s /\ jn s /\ (time s <= time s0)%N.
  Proof.
    intros (m & A1 & A2 & A3 & A4 & A5 & x & Jx & Sx & Wx) Et0. destruct (d_time (disk_of l)) as [t|] eqn:Et; [|congruence]. unfold lsm_open. rewrite A1, Et. cbn [expect bind].
    assert (X : forallb (fun y => has_dir (disk_of l) (t_id y)) (tables m) = true). { apply forallb_forall. intros y Jy. exact (proj1 (Forall_forall _ _) A2 y Jy). }
    rewrite X. eexists; exists x. split; [reflexivity|]. split; [exact Jx|].
    split; [|split; [intros _; split; cbn; auto|cbn; now apply A5]].
    destruct (A5 t eq_refl) as [A6 _]. constructor; unfold has; cbn [mem usage time cur nxt thr joinable iters fresh log sp_map sp_iters sp_clean sp_written sp_removed sp_recover]; auto; try discriminate.
    - constructor.
    - intros e [].
    - intros e e' [].
    - intros e e' [].
    - now left.
    - exists x. split; [now left|]. auto.
  Qed.

  (** *** One step *)
  Definition covered (o : lsm_op K V) : Prop :=
    match o with
    | LInsert k v => forall k' t, cmp k' k = Eq -> qd (k', mkSval (Some v) t)
    | LRemove k => forall k' t, cmp k' k = Eq -> qd (k', mkSval None t)
    | _ => True
    end.
  Definition goes (o : lsm_op K V) (a : sp K V) (s : state) (r : state * lsm_out K V) : Prop :=
    let (s', out) := r in exists a1 a2, slip a a1 /\ answers a1 o out /\ slip (fst (lsm_spec_step a1 o)) a2 /\
      inv a2 s' /\ jn s' /\ (time s <= time s' <= time s + 1)%N /\ moves (sp_recover a1 ++ sp_recover a2) s s'.
  Lemma moves_l a R s s' : moves (sp_recover a) s s' -> moves (sp_recover a ++ R) s s'.
  Proof. apply moves_more, incl_appl, incl_refl. Qed.
  Lemma moves_r R a s s' : moves (sp_recover a) s s' -> moves (R ++ sp_recover a) s s'.
  Proof. apply moves_more, incl_appr, incl_refl. Qed.
  (** Nothing slips after the call. *)
  Lemma goes_1 o a a1 s s' out : slip a a1 -> answers a1 o out -> inv (fst (lsm_spec_step a1 o)) s' -> jn s' ->
    (time s <= time s' <= time s + 1)%N -> moves (sp_recover a1 ++ sp_recover (fst (lsm_spec_step a1 o))) s s' -> goes o a s (s', out).
  Proof. intros. exists a1, (fst (lsm_spec_step a1 o)). pose proof (lw_refl L (fst (lsm_spec_step a1 o))). auto 10. Qed.
  Lemma goes_same o a s s' out : answers a o out -> inv (fst (lsm_spec_step a o)) s' -> jn s' ->
    (time s <= time s' <= time s + 1)%N -> moves (sp_recover a) s s' -> goes o a s (s', out).
  Proof. intros. apply (goes_1 o a a); auto using moves_l. apply (lw_refl L). Qed.
  Lemma plain_1 o a a1 s s' out : same_out out (snd (lsm_spec_step a1 o)) -> (forall k, snd (lsm_spec_step a1 o) <> OKey k) -> slip a a1 -> inv (fst (lsm_spec_step a1 o)) s' -> jn s' ->
    (time s <= time s' <= time s + 1)%N -> moves (sp_recover a1 ++ sp_recover (fst (lsm_spec_step a1 o))) s s' -> goes o a s (s', out).
  Proof. intros. apply (goes_1 o a a1); auto using answers_plain. Qed.
  Lemma plain_same o a s s' out : same_out out (snd (lsm_spec_step a o)) -> (forall k, snd (lsm_spec_step a o) <> OKey k) -> inv (fst (lsm_spec_step a o)) s' -> jn s' ->
    (time s <= time s' <= time s + 1)%N -> moves (sp_recover a) s s' -> goes o a s (s', out).
  Proof. intros. apply goes_same; auto using answers_plain. Qed.
  Lemma step_ok a s o : inv a s -> jn s -> lim (time s) -> allowed a o = true -> covered o -> fine T (lsm_step St s o) (goes o a s).
  Proof.
    intros I J Li Al Cv.
    assert (W : forall k d o, fst (lsm_spec_step a o) = written a (put_or_drop k d (sp_map a)) (is_none d) -> snd (lsm_spec_step a o) = OUnit -> (forall k' t, cmp k' k = Eq -> qd (k', mkSval d t)) ->
      fine T (let* s0 := write St s k d in Ok (s0, OUnit)) (goes o a s)).
    { intros k d o' E1 E2 Q. eapply fine_bind; [apply (write_ok a s k d I J Q)|]. intros s' (a2 & Sl & I' & J' & T' & M'). apply fine_ok. exists a, a2.
      split; [apply (lw_refl L)|]. split; [apply answers_plain; rewrite E2; [exact Logic.I|discriminate]|]. rewrite E1. split; [exact Sl|]. split; [exact I'|]. split; [exact J'|]. split; [rewrite T'; lia|now apply moves_r]. }
    assert (A : forall f o, (forall a l, Forall2 same_pair l (sp_map a) -> same_out (f l) (snd (lsm_spec_step a o))) -> (forall a, fst (lsm_spec_step a o) = flushed a) -> (forall a k, snd (lsm_spec_step a o) <> OKey k) ->
      fine T (let* (s0, l) := all St s in Ok (s0, f l)) (goes o a s)).
    { intros f o' X E1 Nk. eapply fine_bind; [apply (all_ok a s I J Li)|]. intros [s' l] (a1 & Sl & I' & J' & F & T' & M'). apply fine_ok.
      apply (plain_1 o' a a1); rewrite ?E1; try discriminate; auto; [rewrite T'; lia|now apply moves_l]. }
    assert (Th : forall t o, (forall a, lsm_spec_step a o = (a, OUnit)) -> (t = TIdle \/ t = TDead) -> (thr s = TPub \/ exists m, thr s = TRun m) -> fine T (Ok (set_thr St s t, OUnit)) (goes o a s)).
    { intros t o' E1 Ht Hs. apply fine_ok. apply plain_same; rewrite ?E1; cbn [fst snd same_out]; try discriminate; auto.
      - apply set_thr_inv; [exact I|destruct Ht; auto].
      - intros Ej. destruct (J Ej) as [_ [X|X]]; destruct Hs as [Y|[m Y]]; congruence.
      - cbn; lia.
      - now apply moves_same. }
    assert (Same : forall o, lsm_spec_step a o = (a, OUnit) -> fine T (Ok (s, OUnit)) (goes o a s)).
    { intros o' E1. apply fine_ok. apply plain_same; rewrite ?E1; cbn [fst snd same_out]; try discriminate; auto; [lia|now apply moves_same]. }
    assert (Nx : forall o, lsm_spec_step a o = (a, ONext None) -> fine T (Ok (s, ONext None)) (goes o a s)).
    { intros o' E1. apply fine_ok. apply plain_same; rewrite ?E1; cbn [fst snd same_out same_opt]; try discriminate; auto; [lia|now apply moves_same]. }
    destruct o; cbn [lsm_step allowed covered] in *.
    - apply (W k (Some v)); auto.
    - apply (W k None); auto.
    - eapply fine_bind; [apply (get_ok a s k I J)|]. intros [s' v] (a1 & Sl & I' & J' & -> & T' & M'). apply fine_ok.
      apply (plain_1 _ a a1); cbn [lsm_spec_step fst snd same_out]; try discriminate; auto; [rewrite T'; lia|now apply moves_l].
    - eapply fine_bind; [apply (get_ok a s k I J)|]. intros [s' v] (a1 & Sl & I' & J' & -> & T' & M'). apply fine_ok.
      apply (plain_1 _ a a1); cbn [lsm_spec_step fst snd same_out]; try discriminate; auto; [rewrite T'; lia|now apply moves_l].
    - apply (A (fun l => OLen (length l))); [|reflexivity|discriminate]. intros a1 l F. cbn. now apply same_length.
    - apply (A (fun l => OBool (length l =? 0))); [|reflexivity|discriminate]. intros a1 l F. cbn. now rewrite (same_length _ _ F).
    - eapply fine_bind; [apply (len_hint_ok a s I J)|]. intros [s' n] (a1 & Sl & I' & J' & X & T' & M'). apply fine_ok.
      apply (plain_1 _ a a1); cbn [lsm_spec_step fst snd same_out]; try discriminate; auto; [rewrite T'; lia|now apply moves_l].
    - eapply fine_bind; [apply (clear_ok a s I J Li)|]. intros s' (I' & J' & T' & M'). apply fine_ok.
      apply (plain_1 _ a a); cbn [lsm_spec_step fst snd same_out]; try discriminate; auto; [apply (lw_refl L)|rewrite T'; lia].
    - eapply fine_bind; [apply (min_ok a s I J)|]. intros [s' v] (a1 & Sl & I' & J' & X & T' & M'). apply fine_ok.
      apply (goes_1 _ a a1); auto; [rewrite T'; lia|now apply moves_l].
    - eapply fine_bind; [apply (max_ok a s I J)|]. intros [s' v] (a1 & Sl & I' & J' & X & T' & M'). apply fine_ok.
      apply (goes_1 _ a a1); auto; [rewrite T'; lia|now apply moves_l].
    - eapply fine_bind; [apply (flush_ok a s I J Li)|]. intros s' (a1 & Sl & I' & J' & _ & _ & T' & _ & M' & _). apply fine_ok.
      apply (plain_1 _ a a1); cbn [lsm_spec_step fst snd same_out]; try discriminate; auto; [rewrite T'; lia|now apply moves_l].
    - apply (A (fun l => OList l)); [|reflexivity|discriminate]. intros a1 l F. exact F.
    - eapply fine_bind; [apply (flush_ok a s I J Li)|]. intros s1 (a1 & Sl & I1 & J1 & Q1 & Em1 & T1 & Ei1 & M1 & Ra).
      eapply fine_bind; [apply (disk_iter_ok _ s1 I1 J1)|]. intros [s2 it] (a2 & _ & Qa & I2 & J2 & Em2 & T2 & Ei2 & N2 & Th2 & M2 & out & So & Mo). rewrite (Qa (proj1 Q1)) in *. clear a2 Qa.
      apply fine_ok. assert (Q2 : quiet s2) by (split; [exact N2|rewrite Th2; apply Q1]).
      apply (plain_1 _ a a1); cbn [lsm_spec_step fst snd same_out]; try discriminate; auto; [|cbn [set_iters time]; lia|].
      + apply (set_iters_inv (flushed a1) s2); [exact I2| |intros _; exact Q2]. apply F2_snoc; [exact (iv_iters _ _ I2)|]. exists out. split; [exact So|].
        apply (live_view (cont (cur s2))); [exact Mo| |apply (iv_map _ _ I2)]. pose proof (iv_view _ _ I2) as Wv. rewrite Em2, Em1 in Wv. exact Wv.
      + eapply moves_trans; [apply moves_l; exact M1|]. assert (X : moves (sp_recover (flushed a1)) s1 (set_iters St s2 (iters s2 ++ [Some it]))).
        { eapply moves_trans; [exact M2|]. now apply moves_same. }
        revert X. apply moves_more. apply incl_appr. intros x Jx. exact Jx.
    - pose proof (F2_nth _ _ _ (iv_iters _ _ I) i) as X. destruct (nth_error (iters s) i) as [[it|]|] eqn:E.
      + destruct (nth_error (sp_iters a) i) as [[l| |]|] eqn:El; cbn in X; try (now destruct X); try discriminate. destruct X as (out & So & F).
        destruct (live_next_ok _ it out So) as (it' & out' & -> & So' & Lo & _). cbn [bind fst snd]. apply fine_ok.
        assert (Q : quiet s) by (apply (iv_lock _ _ I); exact (nth_open _ _ _ El)).
        apply plain_same; cbn [lsm_spec_step]; rewrite ?El; cbn [fst snd]; [|discriminate| |intros _; exact Q|cbn [set_iters time]; lia|now apply moves_same].
        * cbn. destruct F; [exact Logic.I|assumption].
        * apply (set_iters_inv a s); [exact I| |intros _; exact Q]. apply F2_set; [apply I|]. exists out'. split; [exact So'|]. rewrite Lo.
          destruct F; [constructor|exact F].
      + destruct (nth_error (sp_iters a) i) as [[l| |]|] eqn:El; cbn in X; try (now destruct X); apply Nx; cbn [lsm_spec_step]; now rewrite El.
      + destruct (nth_error (sp_iters a) i) as [[l| |]|] eqn:El; cbn in X; try (now destruct X); apply Nx; cbn [lsm_spec_step]; now rewrite El.
    - apply fine_ok. apply plain_same; cbn [lsm_spec_step fst snd same_out]; try discriminate; auto; [|cbn [set_iters time]; lia|now apply moves_same].
      apply (set_iters_inv a s); [exact I| |]; [apply F2_set; [apply I|exact Logic.I]|]. intros X. apply (iv_lock _ _ I). exact (iterated_set _ _ X).
    - apply andb_true_iff in Al. destruct Al as [Al1 Al2]. pose proof (iv_time _ _ I) as Et. rewrite Al2 in Et. unfold lsm_open. rewrite (iv_meta _ _ I), Et. cbn [expect bind].
      assert (X : forallb (fun y => has_dir (disk_of (log s)) (t_id y)) (tables (cur s)) = true).
      { apply forallb_forall. intros y Jy. exact (proj1 (Forall_forall _ _) (iv_has _ _ I) y Jy). }
      rewrite X. cbn [bind]. apply fine_ok. pose proof (iv_clean _ _ I Al1) as Em.
      apply plain_same; cbn [lsm_spec_step fst snd same_out]; try discriminate; auto; [|intros _; split; [reflexivity|now left]|cbn [time]; lia|now apply moves_same].
      constructor; unfold has, set_sp_iters; cbn [mem usage time cur nxt thr joinable iters fresh log sp_map sp_iters sp_clean sp_written sp_removed sp_recover]; try apply I; try discriminate; auto.
      + constructor.
      + intros e [].
      + intros e e' [].
      + intros e e' [].
      + pose proof (iv_q _ _ I) as Q. rewrite Em in Q. exact Q.
      + pose proof (iv_view _ _ I) as Q. rewrite Em in Q. exact Q.
    - destruct (thr s) as [|m| |] eqn:Et; try now apply Same. eapply fine_bind; [apply (work_ok a s m TPub I Et Li); auto|]. intros s' (I' & M' & _ & T' & Et' & _ & Ej).
      apply fine_ok. apply plain_same; cbn [lsm_spec_step fst snd same_out]; try discriminate; auto; [|rewrite T'; lia]. intros X. rewrite Ej in X.
      destruct (J X) as [_ [Y|Y]]; congruence.
    - destruct (thr s) as [|m| |] eqn:Et; try now apply Same. apply Th; auto.
    - destruct (thr s) as [|m| |] eqn:Et; try now apply Same. apply Th; eauto.
    - destruct (thr s) as [|m| |] eqn:Et; try now apply Same. apply Th; eauto.
  Qed.

  (** *** Runs *)
  Lemma new_inv : inv sp_new (lsm_new St) /\ jn (lsm_new St).
  Proof.
    split; [|intros _; split; [reflexivity|now left]].
    assert (Ce : cont (st_new St) = []) by (unfold cont; now rewrite (lw_empty L)).
    constructor; unfold has; cbn [lsm_new sp_new mem usage time cur nxt thr joinable iters fresh log sp_map sp_iters sp_clean sp_written sp_removed sp_recover]; rewrite ?Ce, ?(lw_empty L).
    - constructor.
    - intros e [].
    - intros e e' [].
    - intros e e' [].
    - apply (lw_new L).
    - constructor.
    - cbn. lia.
    - constructor.
    - apply view_nil.
    - constructor.
    - constructor.
    - discriminate.
    - discriminate.
    - discriminate.
    - constructor.
    - reflexivity.
    - reflexivity.
    - reflexivity.
    - constructor.
    - now left.
    - exists []. split; [now left|]. split; [constructor|apply view_nil].
  Qed.
  (** What may be called does not depend on the pairs. *)
  Definition alike (i i' : sp_iter K V) : Prop := match i, i' with IOpen _, IOpen _ | IStale, IStale | IGone, IGone => True | _, _ => False end.
  Definition like (a a' : sp K V) : Prop := Forall2 alike (sp_iters a) (sp_iters a') /\ sp_clean a' = sp_clean a /\ sp_written a' = sp_written a.
  Lemma alike_refl l : Forall2 alike l l.
  Proof. induction l as [|[]]; constructor; cbn; auto. Qed.
  Lemma like_allowed a a' o : like a a' -> allowed a o = allowed a' o.
  Proof.
    intros (F & Ec & Ew). destruct o; cbn [allowed]; auto; [|now rewrite Ec, Ew]. pose proof (F2_nth _ _ _ F i) as X.
    destruct (nth_error (sp_iters a) i) as [[]|], (nth_error (sp_iters a') i) as [[]|]; cbn in X; tauto.
  Qed.
  Lemma like_step a a' o : like a a' -> like (fst (lsm_spec_step a o)) (fst (lsm_spec_step a' o)).
  Proof.
    intros X. pose proof X as (F & Ec & Ew). destruct o; cbn [lsm_spec_step fst]; try exact X; try (now split).
    - split; [|now split]. cbn [sp_iters]. clear - F. induction F as [|[] []]; constructor; cbn in *; tauto.
    - split; [|now split]. cbn [set_sp_iters sp_iters]. apply F2_snoc; [exact F|exact Logic.I].
    - pose proof (F2_nth _ _ _ F i) as Y. destruct (nth_error (sp_iters a) i) as [[]|], (nth_error (sp_iters a') i) as [[]|]; cbn [alike] in Y; try destruct Y; try exact X.
      split; [|now split]. cbn [fst set_sp_iters sp_iters]. apply F2_set; [exact F|exact Logic.I].
    - split; [|now split]. cbn [set_sp_iters sp_iters]. apply F2_set; [exact F|exact Logic.I].
    - split; [|now split]. constructor.
  Qed.
  Lemma like_used ops : forall a a', like a a' -> well_used a ops -> well_used a' ops.
  Proof.
    induction ops as [|o ops IH]; intros a a' X; [auto|]. cbn [well_used]. intros [A W]. split; [now rewrite <- (like_allowed a)|]. apply (IH _ _ (like_step _ _ o X) W).
  Qed.
  Lemma slip_like a a' : slip a a' -> like a a'.
  Proof. intros X. destruct (lw_same L _ _ X) as (E1 & E2 & E3 & _). split; [rewrite E1; apply alike_refl|auto]. Qed.

  Lemma run_ok ops : forall a s, inv a s -> jn s -> lim (time s + N.of_nat (length ops)) -> well_used a ops -> Forall covered ops ->
    fine T (run (lsm_step St) s ops) (fun r => let (s', outs) := r in
      exists a', loosely slip a ops outs a' /\ inv a' s' /\ jn s' /\ (time s' <= time s + N.of_nat (length ops))%N).
  Proof.
    induction ops as [|o ops IH]; intros a s I J Li Wu Cv.
    - apply fine_ok. exists a. cbn [length]. split; [constructor|]. split; [exact I|]. split; [exact J|lia].
    - destruct Wu as [Al Wu]. apply Forall_cons_iff in Cv. destruct Cv as [Co Cv]. cbn [length] in Li. cbn [run length].
      assert (Lt : lim (time s)) by (apply (lw_lim L _ _ Li); lia).
      eapply fine_bind; [exact (step_ok a s o I J Lt Al Co)|]. intros [s1 out] (a1 & a2 & Sl1 & So & Sl2 & I1 & J1 & T1 & _).
      assert (Wu2 : well_used a2 ops) by (apply (like_used ops _ _ (slip_like _ _ Sl2)), (like_used ops _ _ (like_step _ _ o (slip_like _ _ Sl1))), Wu).
      eapply fine_bind; [apply (IH a2 s1 I1 J1); auto; apply (lw_lim L _ _ Li); lia|]. intros [s' outs] (a' & Lo & I' & J' & T'). apply fine_ok.
      exists a'. split; [econstructor; eauto|]. split; [exact I'|]. split; [exact J'|]. lia.
  Qed.
  (** A crash while a call is under way: what is on disk at a settled point opens to one of the maps that the
      specification allows before or after the call. *)
  Lemma crash_ok s R s' : moves R s s' -> forall p q, log s' = p ++ q -> length (log s) <= length p -> settled p -> d_time (disk_of p) <> None ->
    exists s2 m, lsm_open St p (fresh s') = Ok s2 /\ In m R /\ inv (reopened m) s2 /\ jn s2 /\ (time s2 <= time s')%N.
  Proof.
    intros (F & es & E2 & G) p q El Len Se Dt. rewrite E2 in El.
    assert (Ep : exists r, p = log s ++ r /\ es = r ++ q).
    { destruct (prefix_app _ _ _ _ El) as [(r & Er')|X]; [|exact X]. exists []. assert (r = []) by (apply (f_equal (@length _)) in Er'; rewrite app_length in Er'; destruct r; [reflexivity|cbn in Er'; lia]).
      subst r. rewrite app_nil_r in *. split; [congruence|]. rewrite Er' in El. now apply app_inv_head in El. }
    destruct Ep as (r & -> & ->).
    assert (Gd : disk_good R s' (log s ++ r)) by (apply (G r q eq_refl); now apply settled_right in Se).
    destruct (open_ok _ _ _ Gd Dt) as (s2 & m & Eo & Jm & I2 & J2 & T3). exists s2, m. auto.
  Qed.
End Generic.

(** Metadata is installed without changing the contents. *)
Section Strict.
  Context {K V : Type} `{CmpLaws K}.
  Notation entry := (K * sval V)%type.
  Notation tm e := (sv_time (snd e)).
  Lemma strict_same (a a' : sp K V) : a = a' -> sp_iters a' = sp_iters a /\ sp_clean a' = sp_clean a /\ sp_written a' = sp_written a /\ sp_removed a' = sp_removed a /\
    incl (sp_recover a) (sp_recover a').
  Proof. intros <-. auto using incl_refl. Qed.
  Lemma strict_slip (qd : entry -> Prop) (a : sp K V) (M E E' : list entry) : sorted (sp_map a) -> uniq (M ++ E) -> (forall e e', In e M -> In e' E -> (tm e' < tm e)%N) -> Forall qd (M ++ E) -> shrink E E' ->
    view (M ++ E) (sp_map a) -> In (sp_map a) (sp_recover a) -> (exists m, In m (sp_recover a) /\ sorted m /\ view E m) ->
    exists a', a = a' /\ sorted (sp_map a') /\ view (M ++ E') (sp_map a') /\ In (sp_map a') (sp_recover a') /\ exists m, In m (sp_recover a') /\ sorted m /\ view E' m.
  Proof.
    intros S U Nw _ Sh W R (m & Jm & Sm & Wm). exists a. split; [reflexivity|]. split; [exact S|]. split; [apply (view_shrink _ _ _ U (shrink_newer _ _ _ Nw Sh) W)|]. split; [exact R|].
    exists m. split; [exact Jm|]. split; [exact Sm|]. refine (view_shrink _ _ _ _ Sh Wm). eapply uniq_sub; [|exact U]. intros e J. apply in_app_iff. auto.
  Qed.
  Lemma strict_agree ops : forall (a : sp K V) outs a', loosely eq a ops outs a' -> agree a ops outs /\ a' = fst (spec_run lsm_spec_step a ops).
  Proof.
    induction ops as [|o ops IH]; intros a outs a' X; inversion X; subst; [split; [exact Logic.I|reflexivity]|].
    match goal with X : loosely eq _ ops _ _ |- _ => destruct (IH _ _ _ X) as [A ->] end. cbn [agree spec_run]. split; [auto|]. destruct (lsm_spec_step a1 o) as [a2 r]. cbn [fst]. now destruct (spec_run lsm_spec_step a2 ops).
  Qed.
End Strict.
