(** A map on which calls return [Err] goes on as specified in LsmIoSpec.v, for every strategy that obeys [laws]. *)
From Verif Require Import ListLemmas OrdLemmas.
From Verif Require Export LsmIoFollow.

Section Proofs.
  Context {K V : Type} `{CmpLaws K} {Z : Sizes K V} (St : strategy K V).
  Notation meta := (st_meta St).
  Notation state := (lsm K V meta).
  Notation eff := (effect meta).
  Notation tm e := (sv_time (snd e)).
  Context (Inv : N -> meta -> Prop) (Comp : meta -> meta -> Prop) (qd : K * sval V -> Prop) (lim : N -> Prop)
          (less : list (K * sval V) -> list (K * sval V) -> Prop) (slip : sp K V -> sp K V -> Prop).
  Context (L : laws St Inv Comp qd False lim less slip) (Ksize : forall k k' : K, cmp k k' = Eq -> ksize k = ksize k').
  Notation inv := (inv St Inv Comp qd).
  Notation jn := (jn St).
  Notation patch := (patch St).
  Notation same := (same St).
  Notation cont := (cont St).

  Definition ghost (a : sp K V) (s : state) (l : list eff) (u : N) : Prop := same (log s) l /\ inv a (patch s l u).

  Lemma fine_false {A} (x : res A) P : fine False x P -> exists a, x = Ok a /\ P a.
  Proof. intros [[[] _]|X]; exact X. Qed.

  (** *** The invariant with more on the disk *)
  Lemma inv_more a s u l fr : inv a s -> (forall i, has St s i = true -> has_dir (disk_of l) i = true) -> same_meta St (log s) l -> same_time St (log s) l ->
    (bytes (mem s) <= u)%N -> fresh s <= fr -> inv a (mkLsm (mem s) u (time s) (cur s) (nxt s) (thr s) (joinable s) (iters s) fr l).
  Proof.
    intros I Hm Em Et Bu Fr.
    assert (Tk : forall ts : list (table K V), Forall (t_ok (has St s)) ts -> Forall (t_ok (has_dir (disk_of l))) ts). { intros ts F. eapply Forall_impl; [|exact F]. intros t X. apply Hm, X. }
    constructor; unfold has; cbn [mem usage time cur nxt thr joinable iters fresh log]; try apply I; auto.
    - eapply Forall_impl; [|apply (iv_ids _ _ _ _ _ _ I)]. cbn. intros; lia.
    - apply Tk. apply I.
    - intros m' E. destruct (iv_nxt _ _ _ _ _ _ I _ E) as (m & ts & G & Cm & Im' & Sh & Hm' & Fm' & X). exists m, ts. split; [exact G|]. split; [exact Cm|]. split; [exact Im'|]. split; [exact Sh|].
      split; [now apply Tk|]. split; [|exact X]. eapply Forall_impl; [|exact Fm']. cbn. intros; lia.
    - apply (iters_frame (has St s)); [exact Hm|apply I].
    - rewrite <- Em. apply I.
    - rewrite <- Et. apply I.
  Qed.
  Lemma ghost_usage a s l u u' : ghost a s l u -> (bytes (mem s) <= u')%N -> ghost a s l u'.
  Proof.
    intros (Sm & I) B. split; [exact Sm|]. apply (inv_more a (patch s l u) u' l (fresh s)); auto; reflexivity.
  Qed.
  Lemma ghost_empty a s l u : ghost a s l u -> mem s = [] -> ghost a s l (usage s).
  Proof. intros G E. apply (ghost_usage a s l u); [exact G|]. rewrite E. cbn. lia. Qed.

  Lemma removes_all ids : forall (d : disk meta) es, remove_dirs d ids = Ok es -> es = map ERemove ids.
  Proof.
    induction ids as [|i ids IH]; intros d es E; cbn [remove_dirs] in E; [now injection E as <-|]. destruct (has_dir d i); [|discriminate].
    destruct (remove_dirs (apply d (ERemove i)) ids) as [es'| |] eqn:R; try discriminate. cbn in E. injection E as <-. cbn. f_equal. eauto.
  Qed.
  (** Removing some of the directories leaves more than removing all. *)
  Lemma fewer_removed (l : list eff) p ids (e : eff) : incl p ids -> is_meta e = true ->
    (forall i, has_dir (disk_of (l ++ map ERemove ids ++ [e])) i = true -> has_dir (disk_of (l ++ map ERemove p ++ [e])) i = true) /\
    same_meta St (l ++ map ERemove ids ++ [e]) (l ++ map ERemove p ++ [e]) /\ same_time St (l ++ map ERemove ids ++ [e]) (l ++ map ERemove p ++ [e]).
  Proof.
    intros Ip Me. destruct e; try discriminate. rewrite !app_assoc. unfold same_meta, same_time. rewrite !(disk_app _ [_]), !disk_app. cbn [fold_left apply d_meta d_time].
    destruct (removed_dirs ids (disk_of l)) as (_ & Dt & Dd). destruct (removed_dirs p (disk_of l)) as (_ & Dt' & Dd'). cbn zeta in *. rewrite Dt, Dt'.
    split; [|auto]. intros i. change (has_dir (mkDisk _ _ ?x) i) with (existsb (Nat.eqb i) x). fold (has_dir (fold_left apply (map ERemove ids) (disk_of l)) i).
    fold (has_dir (fold_left apply (map ERemove p) (disk_of l)) i). rewrite Dd, Dd'. intros X. apply andb_true_iff in X. destruct X as [X Y]. rewrite X. cbn [andb].
    apply negb_true_iff in Y. apply negb_true_iff. destruct (existsb (Nat.eqb i) p) eqn:Q; [|reflexivity]. apply existsb_exists in Q. destruct Q as (j & Jj & Q).
    rewrite <- Y. symmetry. apply existsb_exists. exists j. auto.
  Qed.
  Lemma same_meta_end (l l' : list eff) (e : eff) : is_meta e = true -> same l l' -> same l (l' ++ [e]).
  Proof. intros Me Sm. unfold LsmIoLemmas.same in *. rewrite disk_app. destruct e; try discriminate. exact Sm. Qed.
  Lemma same_no_dirs (l : list eff) (e : eff) took : is_meta e = true \/ is_time St e = true -> same (l ++ maybe St took e) l.
  Proof. intros Me. unfold LsmIoLemmas.same, maybe. rewrite disk_app. destruct took; [|reflexivity]. destruct e, Me; try discriminate; reflexivity. Qed.
  Lemma same_trans (l1 l2 l3 : list eff) : same l1 l2 -> same l2 l3 -> same l1 l3.
  Proof. unfold LsmIoLemmas.same. congruence. Qed.

  (** *** try_replace *)
  Lemma replace_fails took n a s l u s' : ghost a s l u -> replace_io St took n s = Ok (Failed s') ->
    exists a' l', slip a a' /\ ghost a' s' l' u /\ mem s' = mem s /\ usage s' = usage s /\ time s' = time s /\
      nxt s' = None /\ thr s' = thr s /\ joinable s' = joinable s.
  Proof.
    intros (Sm & I) E. unfold replace_io in E. destruct (nxt s) as [m|] eqn:En; [|discriminate]. cbv zeta in E. set (r := st_replace St (cur s) m) in E. set (gone := filter _ _) in E.
    destruct (fine_false _ _ (try_replace_ok St Inv Comp qd False lim less slip L a _ I)) as (g & Eg & a' & Sl & I' & _). unfold try_replace in Eg.
    cbn [LsmIoLemmas.patch nxt cur log mem usage time thr joinable iters fresh] in Eg. rewrite En in Eg. cbv zeta in Eg. fold r in Eg. fold gone in Eg.
    destruct (remove_dirs (disk_of l) gone) as [es'| |] eqn:R; try discriminate. cbn [bind] in Eg. injection Eg as <-. apply removes_all in R. subst es'.
    assert (X : exists p tail, incl p gone /\ (tail = [] \/ tail = maybe St took (EMeta r)) /\
      s' = mkLsm (mem s) (usage s) (time s) r None (thr s) (joinable s) (iters s) (fresh s) (log s ++ map ERemove p ++ tail)).
    { pose proof (remove_follows St took gone n (disk_of (log s))) as X. destruct (remove_io St took n _ gone) as [[es [n'|]]| |]; cbn [bind] in E; try discriminate.
      - destruct X as [X _]. apply removes_all in X. subst es. destruct n' as [[|n']|]; cbn [attempt] in E; try discriminate. injection E as <-.
        exists gone, (maybe St took (EMeta r)). split; [apply incl_refl|]. auto.
      - destruct X as [_ (p & -> & Ip)]. injection E as <-. exists p, []. rewrite app_nil_r. auto. }
    destruct X as (p & tail & Ip & Tl & ->). destruct (fewer_removed l p gone (EMeta r) Ip eq_refl) as (F1 & F2 & F3).
    exists a', (l ++ map ERemove p ++ [EMeta r]). split; [exact Sl|]. split; [|cbn; auto 10]. split.
    - cbn [log]. rewrite !app_assoc. apply same_meta_end; [reflexivity|]. eapply same_trans; [|apply same_app, Sm].
      destruct Tl as [->| ->]; [rewrite app_nil_r; reflexivity|]. apply same_no_dirs. now left.
    - apply (inv_more _ _ u (l ++ map ERemove p ++ [EMeta r]) (fresh s) I'); auto. apply I.
  Qed.

  (** *** Failing writes: the logical time, the builder, the table *)
  Lemma tick_inv a s : inv a s -> inv a (mkLsm (mem s) (usage s) (time s + 1) (cur s) (nxt s) (thr s) (joinable s) (iters s) (fresh s)
    (log s ++ if sp_written a then [ETime (time s + 1)] else [])).
  Proof.
    intros I. set (es := if sp_written a then _ else _).
    assert (Sm : same (log s) (log s ++ es)). { unfold LsmIoLemmas.same. rewrite disk_app. unfold es. destruct (sp_written a); reflexivity. }
    assert (Hd : has_dir (disk_of (log s ++ es)) = has St s) by (symmetry; apply has_dir_same, Sm).
    constructor; unfold has; cbn [mem usage time cur nxt thr joinable iters fresh log]; rewrite ?Hd; try apply I.
    - intros e J. pose proof (iv_memt _ _ _ _ _ _ I e J). lia.
    - apply (lw_mono _ _ _ _ _ _ _ _ L (time s)); [apply I|lia].
    - intros m E. destruct (iv_thr _ _ _ _ _ _ I _ E) as (X & D & ts & G). split; [exact X|]. split; [exact D|]. exists ts. apply (grown_mono _ _ _ _ _ _ _ _ L (time s)); [exact G|lia].
    - intros m' E. destruct (iv_nxt _ _ _ _ _ _ I _ E) as (m & ts & G & Cm & Im' & X). exists m, ts. split; [apply (grown_mono _ _ _ _ _ _ _ _ L (time s)); [exact G|lia]|].
      split; [exact Cm|]. split; [apply (lw_mono _ _ _ _ _ _ _ _ L (time s)); [exact Im'|lia]|exact X].
    - rewrite disk_app. unfold es. destruct (sp_written a); apply I.
    - rewrite disk_app. unfold es. destruct (sp_written a) eqn:Ew; [reflexivity|]. pose proof (iv_time _ _ _ _ _ _ I) as X. now rewrite Ew in X.
  Qed.
  Lemma lose_inv a s m l : inv a s -> In m (sp_recover a) -> sorted m -> view (cont (cur s)) m ->
    l = log s ++ [ETable (fresh s)] ->
    inv (mkSp m (sp_iters a) true (sp_written a) false [m]) (mkLsm [] 0 (time s) (cur s) (nxt s) (thr s) (joinable s) (iters s) (S (fresh s)) l).
  Proof.
    intros I Jm Sm Vm ->.
    assert (Hm : forall i, has St s i = true -> has_dir (disk_of (log s ++ [ETable (fresh s)])) i = true) by (intros i; now apply has_more).
    pose proof (inv_more a s (usage s) (log s ++ [ETable (fresh s)]) (S (fresh s)) I Hm) as I1.
    assert (X : inv a (mkLsm (mem s) (usage s) (time s) (cur s) (nxt s) (thr s) (joinable s) (iters s) (S (fresh s)) (log s ++ [ETable (fresh s)]))).
    { apply I1; [unfold same_meta|unfold same_time|apply I|lia]; rewrite disk_app; reflexivity. }
    clear I1. constructor; unfold has; cbn [mem usage time cur nxt thr joinable iters fresh log sp_map sp_iters sp_clean sp_written sp_removed sp_recover]; try apply X; auto.
    - constructor.
    - intros e [].
    - intros e e' [].
    - intros e e' [].
    - cbn [app]. pose proof (iv_q _ _ _ _ _ _ I) as Q. apply Forall_app in Q. apply Q.
    - cbn. lia.
    - now left.
    - exists m. split; [now left|]. auto.
  Qed.

  (** What is left by a call whose flush fails *)
  Definition outcome (a : sp K V) (t : N) (s' : state) : Prop :=
    exists b room a' l' u', (b = a \/ forgets a b /\ room = true) /\ slip b a' /\ ghost a' s' l' u' /\ jn s' /\ (room = true -> u' = usage s') /\ time s' = t.
  Lemma compact_fails took n a s l u s' : ghost a s l u -> jn s -> mem s <> [] -> compact_io St took n s = Ok (Failed s') -> outcome a (time s) s'.
  Proof.
    intros (Sm & I) J Ne E. unfold compact_io in E. destruct n as [[|[|n]]|].
    - cbn [attempt] in E. injection E as <-. exists a, false, a, (l ++ maybe St took (ETable (fresh s))), u. split; [now left|]. split; [apply (lw_refl _ _ _ _ _ _ _ _ L)|].
      split; [|split; [exact J|split; [discriminate|reflexivity]]]. split; [now apply same_app|].
      apply (inv_more a (patch s l u) u (l ++ maybe St took (ETable (fresh s))) (S (fresh s)) I); [|unfold same_meta|unfold same_time|apply I|cbn; lia].
      + intros i. apply has_more. unfold maybe. now destruct took.
      + cbn. rewrite disk_app. unfold maybe. now destruct took.
      + cbn. rewrite disk_app. unfold maybe. now destruct took.
    - cbn [attempt] in E. injection E as <-. destruct (iv_disk _ _ _ _ _ _ I) as (m & Jm & Sm' & Vm).
      exists (mkSp m (sp_iters a) true (sp_written a) false [m]), true, (mkSp m (sp_iters a) true (sp_written a) false [m]), (l ++ [ETable (fresh s)]), 0%N.
      split; [right; split; [|reflexivity]; exists m; auto|]. split; [apply (lw_refl _ _ _ _ _ _ _ _ L)|]. split; [|auto]. split; [now apply same_app|].
      apply (lose_inv a (patch s l u)); auto.
    - cbn [attempt] in E. destruct (tb_build_ok (fresh s) (length (mem s)) (mem s) Ne (iv_mem _ _ _ _ _ _ I)) as (t & Eb & Ot & Et & It). rewrite Eb in E. cbn [bind] in E.
      destruct (push_ok St Inv Comp qd False lim less slip L a (patch s l u) t I Ne Ot Et It) as [I1 _]. cbn [LsmIoLemmas.patch nxt cur log mem usage time thr joinable iters fresh] in I1.
      set (m := st_push St (cur s) t) in *. destruct n as [|n]; cbn [attempt] in E.
      + injection E as <-. exists a, true, a, (l ++ [ETable (t_id t); EMeta m]), 0%N. split; [now left|]. split; [apply (lw_refl _ _ _ _ _ _ _ _ L)|]. split; [|auto].
        split; [|exact I1]. cbn [log]. change [ETable (t_id t); EMeta m] with ([ETable (t_id t)] ++ [EMeta m]). change (ETable (t_id t) :: maybe St took (EMeta m)) with ([ETable (t_id t)] ++ maybe St took (EMeta m)).
        rewrite !app_assoc. apply same_meta_end; [reflexivity|]. eapply same_trans; [apply same_no_dirs; now left|]. now apply same_app.
      + set (s1 := mkLsm [] 0 (time s) m _ _ _ _ _ (log s ++ _)) in E. destruct (busy St s1 || locked St s1); [discriminate|].
        unfold and_then in E. destruct (replace_io St took (Some n) s1) as [[n' s2|s2]| |] eqn:R; try discriminate. cbn in E. injection E as ->.
        assert (G : ghost a s1 (l ++ [ETable (t_id t); EMeta m]) 0). { split; [now apply same_app|exact I1]. }
        destruct (replace_fails took (Some n) a s1 _ _ s' G R) as (a' & l' & Sl & G' & _ & Eu & Et' & N' & Th' & Ej'). exists a, true, a', l', 0%N. split; [now left|]. split; [exact Sl|]. split; [exact G'|]. split; [apply (replaced_jn St s1); auto; exact J|]. split; [now rewrite Eu|exact Et'].
    - pose proof (compact_follows St took None s) as F. unfold compact_io in F. rewrite E in F. now destruct F.
  Qed.

  (** What the mirror image says *)
  Lemma mirror_ok {A} (st : A -> state) pt s l u (x y : res A) P Q : same (log s) l -> mirrored St st pt P s l u x y -> fine False y Q ->
    exists r es u', x = Ok r /\ log (st r) = log s ++ es /\ same (log (st r)) (l ++ es) /\ (u = usage s -> u' = usage (st r)) /\ P es r /\ Q (pt r (l ++ es) u').
  Proof.
    intros Sm M F. apply fine_false in F. destruct F as (g & Eg & q). destruct x as [r| |]; cbn [mirrored] in M; try congruence.
    destruct M as (es & u' & El & E & U & p). rewrite Eg in E. injection E as ->. exists r, es, u'. split; [reflexivity|]. split; [exact El|]. split; [rewrite El; now apply same_app|]. auto.
  Qed.
  Lemma replace_goes a s l u : ghost a s l u -> exists s' l' u' a', try_replace St s = Ok s' /\ (u = usage s -> u' = usage s') /\ slip a a' /\ ghost a' s' l' u' /\
    mem s' = mem s /\ time s' = time s /\ nxt s' = None /\ thr s' = thr s /\ joinable s' = joinable s /\ (nxt s = None -> a' = a).
  Proof.
    intros (Sm & I). destruct (mirror_ok _ _ s l u _ _ _ _ Sm (replace_mirror St s l u Sm) (try_replace_ok St Inv Comp qd False lim less slip L a _ I))
      as (s' & es & u' & E & El & Sm' & U & Em & a' & Sl & I' & N' & _ & _ & _ & Et & Th & Ej & _ & _ & Ea). exists s', (l ++ es), u', a'. split; [exact E|]. split; [exact U|]. split; [exact Sl|].
    split; [split; [exact Sm'|exact I']|]. auto 10.
  Qed.
  Lemma join_goes a s l u : ghost a s l u -> jn s -> lim (time s) -> exists s' l' u', join St s = Ok s' /\ ghost a s' l' u' /\ mem s' = mem s /\ time s' = time s /\
    (thr s' = TIdle \/ thr s' = TDead) /\ joinable s' = false.
  Proof.
    intros (Sm & I) J Li. destruct (mirror_ok _ _ s l u _ _ _ _ Sm (join_mirror St s l u Sm) (join_ok St Inv Comp qd False lim less slip L a _ I J Li))
      as (s' & es & u' & E & El & Sm' & U & Em & I' & _ & _ & Et & Th & Ei & Ej). exists s', (l ++ es), u'. split; [exact E|]. split; [split; [exact Sm'|exact I']|]. auto.
  Qed.
  Lemma compact_goes a s l u : ghost a s l u -> jn s -> mem s <> [] -> exists s' l' u' a', try_compact St s = Ok s' /\ slip a a' /\ ghost a' s' l' u' /\ jn s' /\ mem s' = [] /\ time s' = time s.
  Proof.
    intros (Sm & I) J Ne. destruct (mirror_ok _ _ s l u _ _ _ _ Sm (compact_mirror St s l u Sm) (try_compact_ok St Inv Comp qd False lim less slip L a _ I J Ne))
      as (s' & es & u' & E & El & Sm' & U & _ & a' & Sl & I' & J' & Em & Et & _). exists s', (l ++ es), u', a'. split; [exact E|]. split; [exact Sl|]. split; [split; [exact Sm'|exact I']|]. auto.
  Qed.
  Lemma flush_goes a s l u : ghost a s l u -> jn s -> lim (time s) -> exists s' l' u' a', flush St s = Ok s' /\ slip a a' /\ ghost (flushed a') s' l' u' /\ jn s' /\ quiet St s' /\ mem s' = [] /\ time s' = time s.
  Proof.
    intros (Sm & I) J Li. destruct (mirror_ok _ _ s l u _ _ _ _ Sm (flush_mirror St s l u Sm) (flush_ok St Inv Comp qd False lim less slip L a _ I J Li))
      as (s' & es & u' & E & El & Sm' & U & _ & a' & Sl & I' & J' & Q & Em & Et & _). exists s', (l ++ es), u', a'. split; [exact E|]. split; [exact Sl|]. split; [split; [exact Sm'|exact I']|]. auto.
  Qed.
  Lemma went {A} n n' (x : res (io St A)) y a : follows St n x y -> x = Ok (Went n' a) -> y = Ok a.
  Proof. intros F ->. now destruct F. Qed.

  Lemma flush_fails took n a s l u s' : ghost a s l u -> jn s -> lim (time s) -> flush_io St took n s = Ok (Failed s') -> outcome a (time s) s'.
  Proof.
    intros G J Li E. unfold flush_io, and_then in E.
    set (x := match mem s with [] => Ok (Went n s) | _ => compact_io St took n s end) in E.
    assert (X : match x with Ok (Failed s1) => outcome a (time s) s1 | Ok (Went _ s1) => exists l1 u1 a1, slip a a1 /\ ghost a1 s1 l1 u1 /\ jn s1 /\ mem s1 = [] /\ time s1 = time s | _ => True end).
    { unfold x. destruct (mem s) as [|e r] eqn:Em; [exists l, u, a; split; [apply (lw_refl _ _ _ _ _ _ _ _ L)|auto]|]. assert (Ne : mem s <> []) by congruence.
      pose proof (compact_follows St took n s) as F. destruct (compact_io St took n s) as [[n1 s1|s1]| |] eqn:Ec; auto.
      - destruct F as [F _]. destruct (compact_goes a s l u G J Ne) as (s2 & l2 & u2 & a2 & E2 & Sl & G2 & J2 & M2 & T2). rewrite F in E2. injection E2 as <-. exists l2, u2, a2. auto.
      - exact (compact_fails took n a s l u s1 G J Ne Ec). }
    clearbody x. destruct x as [[n1 s1|s1]| |]; cbn [bind] in E; try discriminate; [|injection E as <-; exact X].
    destruct X as (l1 & u1 & a1 & Sl1 & G1 & J1 & M1 & T1). destruct (joinable s1) eqn:Ej; [|discriminate]. rewrite <- T1 in Li.
    destruct (join_goes a1 s1 l1 u1 G1 J1 Li) as (s2 & l2 & u2 & E2 & G2 & M2 & T2 & Th2 & Ej2). rewrite E2 in E. cbn [bind] in E.
    destruct (replace_fails took n1 a1 s2 l2 u2 s' G2 E) as (a3 & l3 & Sl3 & G3 & M3 & U3 & T3 & N3 & Th3 & Ej3).
    exists a, true, a3, l3, (usage s'). split; [now left|]. split; [apply (lw_trans _ _ _ _ _ _ _ _ L _ _ _ Sl1 Sl3)|]. split; [apply (ghost_empty _ _ _ u2); [exact G3|congruence]|].
    split; [intros _; split; [exact N3|now rewrite Th3]|]. split; [auto|congruence].
  Qed.
  Lemma write_fails took n a s l u s' k d : ghost a s l u -> u = usage s -> jn s -> (forall k' t, cmp k' k = Eq -> qd (k', mkSval d t)) -> write_io St took n s k d = Ok (Failed s') ->
    (exists l', ghost a s' l' (usage s') /\ jn s' /\ (time s' = time s + 1)%N) \/ outcome (written a (put_or_drop k d (sp_map a)) (is_none d)) (time s + 1) s'.
  Proof.
    intros (Sm & I) -> J Q E. unfold write_io in E. cbv zeta in E. destruct n as [n|]; [|pose proof (write_follows St took None s k d) as F; unfold write_io in F; cbv zeta in F; rewrite E in F; now destruct F].
    destruct n as [|n]; cbn [attempt] in E.
    - injection E as <-. left. pose proof (tick_inv a _ I) as I'. eexists. split; [|split; [exact J|reflexivity]]. split; [|exact I'].
      cbn [log LsmIoLemmas.patch time]. eapply same_trans; [apply same_no_dirs; now right|]. eapply same_trans; [exact Sm|]. unfold LsmIoLemmas.same. rewrite disk_app. now destruct (sp_written a).
    - right. set (v := mkSval d (time s)) in E. pose proof (iv_mem _ _ _ _ _ _ I) as So. cbn [LsmIoLemmas.patch mem] in So.
      assert (X : exists u, match find_version (mem s) k with
              | Some old => let size := (ksize k + vsize old)%N in if (size <=? usage s)%N then Ok (usage s - size)%N else Panic
              | None => Ok (usage s)
              end = Ok u /\ (bytes (bt_insert k v (mem s)) <= u + (ksize k + vsize v))%N).
      { pose proof (iv_use _ _ _ _ _ _ I) as U. cbn [LsmIoLemmas.patch mem usage] in U. destruct (bt_insert_cases k v (mem s) So) as [(l1 & k' & v' & l2 & Em & Qk & E')|(l1 & l2 & Em & E' & N)]; rewrite E'.
        - rewrite (find_version_in (mem s) (k', v') k So); [|rewrite Em; apply in_app_iff; right; now left|now apply cmp_eq_sym]. cbn zeta. cbn [snd].
          rewrite Em, bytes_app in U. cbn [bytes fold_right fst snd] in U. fold (bytes l2) in U. rewrite (Ksize k k' Qk). destruct (N.leb_spec (ksize k' + vsize v') (usage s)); [|lia].
          eexists. split; [reflexivity|]. rewrite bytes_app. cbn [bytes fold_right fst snd]. fold (bytes l2). lia.
        - rewrite (proj2 (find_version_none (mem s) k) N). exists (usage s). split; [reflexivity|]. rewrite Em, bytes_app in U. rewrite bytes_app. cbn [bytes fold_right fst snd]. fold (bytes l2). lia. }
      cbv zeta in X. destruct X as (u & Eu & U). rewrite Eu in E. cbn [bind] in E. set (s1 := mkLsm (bt_insert k v (mem s)) _ _ _ _ _ _ _ _ (log s ++ _)) in E.
      destruct (st_max_mem St <? usage s1)%N; [|discriminate].
      apply (compact_fails took (Some n) _ s1 (l ++ [ETime (time s + 1)]) (u + (ksize k + vsize v)) s'); [|exact J| |exact E].
      + split; [now apply same_app|]. exact (wrote_inv St Inv Comp qd False lim less slip L a (patch s l (usage s)) k d _ I Q U).
      + cbn [s1 mem]. destruct (mem s) as [|[k' v'] r]; [discriminate|]. cbn [bt_insert]. destruct (cmp k k'); discriminate.
  Qed.
  Lemma stale_inv a s l u : ghost a s l u -> ghost (leave_iter a) (set_iters St s (iters s ++ [Some (mkIter [] [] None)])) l u.
  Proof.
    intros (Sm & I). split; [exact Sm|]. apply (set_iters_inv St Inv Comp qd a (patch s l u)); [exact I| |].
    - apply F2_snoc; [apply I|exact Logic.I].
    - intros X. apply (iv_lock _ _ _ _ _ _ I). unfold iterated in *. rewrite existsb_app in X. cbn in X. now rewrite orb_false_r in X.
  Qed.

  (** What a call that returns [Err] leaves *)
  Definition fails (o : lsm_op K V) (room : bool) (a : sp K V) (s s' : state) : Prop :=
    exists a1 b room' lost a' l' u', slip a a1 /\ leaves a1 room o b room' lost /\ slip b a' /\ ghost a' s' l' u' /\ jn s' /\ (room' = true -> u' = usage s') /\ (time s' <= time s + 1)%N.
  Lemma refl a : slip a a.
  Proof. apply (lw_refl _ _ _ _ _ _ _ _ L). Qed.
  Lemma outcome_flush o room a s s' : flushes o = true -> outcome a (time s) s' -> fails o room a s s'.
  Proof.
    intros Fo (b & room' & a' & l' & u' & B & Sl & G & J & U & Et). exists a, b, room', [], a', l', u'. split; [apply refl|]. split; [|repeat (split; [assumption|]); lia].
    destruct B as [->|[Fg ->]]; [now apply leaves_full|now apply leaves_lost].
  Qed.
  Lemma outcome_write o room a s s' : writes o = true -> outcome (fst (lsm_spec_step a o)) (time s + 1) s' -> fails o room a s s'.
  Proof.
    intros Fo (b & room' & a' & l' & u' & B & Sl & G & J & U & Et). exists a, b, room', [], a', l', u'. split; [apply refl|]. split; [|repeat (split; [assumption|]); lia].
    destruct B as [->|[Fg ->]]; [now apply leaves_written|now apply leaves_forgotten].
  Qed.
  (** An iterator that is not made *)
  Lemma iter_fails took n a s l u s' : ghost a s l u -> jn s -> iter_io St took n s = Ok (Failed s') ->
    (exists a' l', nxt s <> None /\ slip a a' /\ ghost a' s' l' u /\ jn s' /\ usage s' = usage s /\ time s' = time s) \/
    (exists a' l' u' s1, try_replace St s = Ok s1 /\ slip a a' /\ ghost (leave_iter a') s' l' u' /\ jn s' /\ (u = usage s -> u' = usage s') /\ time s' = time s /\ mem s' = mem s /\ (nxt s = None -> a' = a)).
  Proof.
    intros G J E. unfold iter_io, and_then in E. pose proof (replace_follows St took n s) as F. destruct (replace_io St took n s) as [[n1 s1|s1]| |] eqn:Er; cbn [bind] in E; try discriminate.
    - right. destruct F as [F _]. destruct (replace_goes a s l u G) as (s2 & l2 & u2 & a2 & E2 & U2 & Sl & G2 & M2 & T2 & N2 & Th2 & Ej2 & Ea2). rewrite F in E2. injection E2 as <-.
      destruct n1 as [[|n1]|]; cbn [attempt] in E; try (destruct (mi_new _ _) in E; discriminate). injection E as <-. exists a2, l2, u2, s1. split; [exact F|]. split; [exact Sl|].
      split; [now apply stale_inv|]. split; [exact (replaced_jn St s s1 J N2 Th2 Ej2)|]. auto.
    - left. injection E as <-. destruct (replace_fails took n a s l u s1 G Er) as (a3 & l3 & Sl3 & G3 & M3 & U3 & T3 & N3 & Th3 & Ej3).
      exists a3, l3. split; [intros X; unfold replace_io in Er; rewrite X in Er; discriminate|]. split; [exact Sl3|]. split; [exact G3|]. split; [now apply (replaced_jn St s)|]. auto.
  Qed.
  Lemma scan_fails o room took n a s l u s' : flushes o = true -> o <> LFlush -> ghost a s l u -> jn s -> lim (time s) ->
    and_then St (flush_io St took n s) (iter_io St took) = Ok (Failed s') -> fails o room a s s'.
  Proof.
    intros Fo No G J Li E. unfold and_then in E. pose proof (flush_follows St took n s) as F. destruct (flush_io St took n s) as [[n1 s1|s1]| |] eqn:Er; cbn [bind] in E; try discriminate.
    - destruct F as [F _]. destruct (flush_goes a s l u G J Li) as (s2 & l2 & u2 & a2 & E2 & Sl & G2 & J2 & Q2 & M2 & T2). rewrite F in E2. injection E2 as <-.
      destruct (iter_fails took n1 _ s1 l2 u2 s' G2 J2 E) as [(a3 & l3 & N & _)|(a3 & l3 & u3 & s3 & Es & Sl3 & G3 & J3 & U3 & T3 & M3 & Ea3)]; [now destruct (N (proj1 Q2))|].
      rewrite (Ea3 (proj1 Q2)) in *. exists a2, (leave_iter (flushed a2)), true, [length (sp_iters a2)], (leave_iter (flushed a2)), l3, (usage s').
      split; [exact Sl|]. split; [now apply leaves_iter_flushed|]. split; [apply refl|]. split; [apply (ghost_empty _ _ _ u3); [exact G3|congruence]|]. split; [exact J3|]. split; [auto|lia].
    - injection E as <-. apply outcome_flush; [exact Fo|]. exact (flush_fails took n a s l u s1 G J Li Er).
  Qed.
  Lemma all_scans took n s s' : all_io St took n s = Ok (Failed s') -> and_then St (flush_io St took n s) (iter_io St took) = Ok (Failed s').
  Proof.
    unfold all_io, and_then. intros E. destruct (flush_io St took n s) as [[n1 s1|s1]| |]; cbn [bind] in *; try discriminate; [|injection E as ->; reflexivity].
    destruct (iter_io St took n1 s1) as [[n2 [s2 it]|s2]| |]; cbn [bind] in *; try discriminate; [|injection E as ->; reflexivity].
    destruct (live_collect _ it); discriminate.
  Qed.
  Lemma extreme_fails o room took n a s l u s' : extremal o = true -> ghost a s l u -> jn s -> (room = true -> u = usage s) -> iter_io St took n s = Ok (Failed s') -> fails o room a s s'.
  Proof.
    intros Xo G J U E. assert (Rd : writes o || reads o || flushes o = true) by (destruct o; try discriminate; reflexivity).
    destruct (iter_fails took n a s l u s' G J E) as [(a3 & l3 & N & Sl3 & G3 & J3 & U3 & T3)|(a3 & l3 & u3 & s3 & Es & Sl3 & G3 & J3 & U3 & T3 & M3 & Ea3)].
    - exists a, a, room, [], a3, l3, u. split; [apply refl|]. split; [now apply leaves_same|]. split; [exact Sl3|]. split; [exact G3|]. split; [exact J3|]. split; [intros R; rewrite U3; auto|lia].
    - exists a3, (leave_iter a3), room, [length (sp_iters a3)], (leave_iter a3), l3, u3. split; [exact Sl3|]. split; [now apply leaves_iter|]. split; [apply refl|]. split; [exact G3|]. split; [exact J3|]. split; [auto|lia].
  Qed.
  (** A read that fails after the metadata was replaced, or that *)
  Lemma read_fails o room took n a s l u s' : reads o = true -> ghost a s l u -> jn s -> (room = true -> u = usage s) ->
    replace_io St took n s = Ok (Failed s') \/ try_replace St s = Ok s' -> fails o room a s s'.
  Proof.
    intros Xo G J U E. assert (Rd : writes o || reads o || flushes o = true) by (rewrite Xo; now destruct (writes o)). destruct E as [E|E].
    - destruct (replace_fails took n a s l u s' G E) as (a3 & l3 & Sl3 & G3 & M3 & U3 & T3 & N3 & Th3 & Ej3).
      exists a, a, room, [], a3, l3, u. split; [apply refl|]. split; [now apply leaves_same|]. split; [exact Sl3|]. split; [exact G3|]. split; [now apply (replaced_jn St s)|]. split; [intros R; rewrite U3; auto|lia].
    - destruct (replace_goes a s l u G) as (s2 & l2 & u2 & a2 & E2 & U2 & Sl & G2 & M2 & T2 & N2 & Th2 & Ej2 & _). rewrite E in E2. injection E2 as <-.
      exists a, a, room, [], a2, l2, u2. split; [apply refl|]. split; [now apply leaves_same|]. split; [exact Sl|]. split; [exact G2|]. split; [now apply (replaced_jn St s)|]. split; [auto|lia].
  Qed.
  Lemma clear_fails took n a s l u s' room : ghost a s l u -> jn s -> lim (time s) -> clear_io St took n s = Ok (Failed s') -> fails LClear room a s s'.
  Proof.
    intros G J Li E. unfold clear_io in E. destruct (join_goes a s l u G J Li) as (s1 & l1 & u1 & E1 & (Sm1 & I1) & M1 & T1 & Th1 & Ej1). rewrite E1 in E. cbn [bind] in E. cbv zeta in E.
    set (ids := nodup _ _) in E. set (new := EMeta (st_new St)) in E.
    assert (X : exists p tail, incl p ids /\ (tail = [] \/ tail = maybe St took new) /\
      s' = mkLsm [] (usage s1) (time s1) (st_new St) None (thr s1) (joinable s1) (iters s1) (fresh s1) (log s1 ++ map ERemove p ++ tail)).
    { destruct n as [[|n]|]; cbn [attempt] in E.
      - injection E as <-. exists [], []. cbn [map app]. split; [intros i []|]. auto.
      - pose proof (remove_follows St took ids (Some n) (disk_of (log s1))) as X. destruct (remove_io St took (Some n) _ ids) as [[es [n'|]]| |]; cbn [bind] in E; try discriminate.
        + destruct X as [X _]. apply removes_all in X. subst es. destruct n' as [[|n']|]; cbn [attempt] in E; try discriminate. injection E as <-.
          exists ids, (maybe St took new). split; [apply incl_refl|]. auto.
        + destruct X as [_ (p & -> & Ip)]. injection E as <-. exists p, []. rewrite app_nil_r. auto.
      - pose proof (remove_follows St took ids None (disk_of (log s1))) as X. destruct (remove_io St took None _ ids) as [[es [n'|]]| |]; cbn [bind] in E; try discriminate.
        + destruct X as [_ X]. rewrite (X eq_refl) in E. discriminate.
        + now destruct X. }
    destruct X as (p & tail & Ip & Tl & ->). set (a' := fst (lsm_spec_step a LClear)).
    exists a, a', true, [], a', (l1 ++ map ERemove p ++ [new]), (usage s1). split; [apply refl|]. split; [now apply leaves_cleared|]. split; [apply refl|].
    split; [|split; [intros _; split; [reflexivity|exact Th1]|split; [auto|cbn; lia]]]. split.
    { cbn [log]. rewrite !app_assoc. apply same_meta_end; [reflexivity|]. eapply same_trans; [|apply same_app, Sm1].
      destruct Tl as [->| ->]; [rewrite app_nil_r; reflexivity|]. apply same_no_dirs. now left. }
    assert (Ce : cont (st_new St) = []) by (unfold LsmMapProofs.cont; now rewrite (lw_empty _ _ _ _ _ _ _ _ L)).
    destruct (removed_dirs p (disk_of l1)) as (Dm & Dt & Dd). cbn zeta in Dm, Dt, Dd.
    assert (Dk : disk_of (l1 ++ map ERemove p ++ [new]) = apply (fold_left apply (map ERemove p) (disk_of l1)) new) by (rewrite disk_app, fold_left_app; reflexivity).
    constructor; unfold has, a'; cbn [LsmIoLemmas.patch mem usage time cur nxt thr joinable iters fresh log lsm_spec_step fst sp_map sp_iters sp_clean sp_written sp_removed sp_recover];
      rewrite ?Ce, ?(lw_empty _ _ _ _ _ _ _ _ L), ?Dk.
    - constructor.
    - intros e [].
    - intros e e' [].
    - intros e e' [].
    - apply (lw_new _ _ _ _ _ _ _ _ L).
    - constructor.
    - cbn. lia.
    - constructor.
    - apply view_nil.
    - constructor.
    - constructor.
    - intros m X. destruct Th1 as [Y|Y]; rewrite Y in X; discriminate.
    - discriminate.
    - intros _. split; [reflexivity|exact Th1].
    - apply (iters_stale (has St (patch s1 l1 u1))). apply I1.
    - reflexivity.
    - cbn [new apply d_time]. rewrite Dt. apply I1.
    - reflexivity.
    - constructor.
    - now left.
    - exists []. split; [now left|]. split; [constructor|apply view_nil].
  Qed.

  Lemma failed {A} (x : res (io St A)) f s' : finish St x f = Ok (s', None) -> x = Ok (Failed s').
  Proof. unfold finish. destruct x as [[n a|s]| |]; cbn [bind]; try discriminate; [destruct (f a); discriminate|]. intros E. now injection E as ->. Qed.
  Lemma get_fails o room took n a s l u s' k : reads o = true -> ghost a s l u -> jn s -> (room = true -> u = usage s) -> get_io St took n s k = Ok (Failed s') -> fails o room a s s'.
  Proof.
    intros Ro G J U E. unfold get_io, and_then in E. destruct (find_version (mem s) k); [discriminate|]. pose proof (replace_follows St took n s) as F.
    apply (read_fails o room took n a s l u); auto. destruct (replace_io St took n s) as [[n1 s1|s1]| |]; cbn [bind] in E; try discriminate; [|left; congruence].
    destruct F as [F _]. destruct n1 as [[|n1]|]; cbn [attempt] in E; try (destruct (st_get _ _ _ _) in E; discriminate). right. congruence.
  Qed.
  Lemma call_fails o room took n a s l u s' : ghost a s l u -> jn s -> (room = true -> u = usage s) -> lim (time s) -> covered qd o -> (writes o = true -> room = true) ->
    call_io St took n s o = Ok (s', None) -> fails o room a s s'.
  Proof.
    intros G J U Li Cv Ro E.
    assert (Wr : forall k d, writes o = true -> fst (lsm_spec_step a o) = written a (put_or_drop k d (sp_map a)) (is_none d) -> (forall k' t, cmp k' k = Eq -> qd (k', mkSval d t)) ->
      write_io St took n s k d = Ok (Failed s') -> fails o room a s s').
    { intros k d Wo Ea Q Ew. destruct (write_fails took n a s l u s' k d G (U (Ro Wo)) J Q Ew) as [(l' & G' & J' & T')|X]; [|apply outcome_write; [exact Wo|]; now rewrite Ea].
      exists a, a, room, [], a, l', (usage s'). split; [apply refl|]. split; [apply leaves_same; now rewrite Wo|]. split; [apply refl|]. split; [exact G'|]. split; [exact J'|]. split; [auto|lia]. }
    destruct o; cbn [call_io] in E; try apply failed in E;
      try (apply (scan_fails _ room took n a s l u s'); [reflexivity|discriminate|exact G|exact J|exact Li|now apply all_scans]);
      try (apply (get_fails _ room took n a s l u s' k); [reflexivity|exact G|exact J|exact U|exact E]).
    - now apply (Wr k (Some v)).
    - now apply (Wr k None).
    - unfold hint_io, and_then in E. pose proof (replace_follows St took n s) as F. apply (read_fails _ room took n a s l u); auto.
      destruct (replace_io St took n s) as [[n1 s1|s1]| |]; cbn [bind] in E; try discriminate; [destruct (sum_hints _); discriminate|left; congruence].
    - now apply (clear_fails took n a s l u).
    - unfold min_io, and_then in E. cbv zeta in E. pose proof (iter_follows St took n s) as F. destruct (iter_io St took n s) as [[n1 [s1 it]|s1]| |] eqn:Ei; cbn [bind] in E; try discriminate.
      + destruct n1 as [[|n1]|]; cbn [attempt] in E; try (destruct (live_next _ it) as [[b r]| |] in E; discriminate). apply (read_fails _ room took n a s l u); auto. right.
        destruct F as [F _]. unfold disk_iter in F. destruct (try_replace St s) as [s2| |]; cbn [bind] in F; try discriminate. destruct (mi_new _ _) in F; cbn [bind] in F; congruence.
      + injection E as <-. now apply (extreme_fails _ room took n a s l u).
    - unfold max_io, and_then in E. cbv zeta in E. destruct (iter_io St took n s) as [[n1 [s1 it]|s1]| |] eqn:Ei; cbn [bind] in E; try discriminate; [destruct (live_collect _ it) in E; discriminate|].
      injection E as <-. now apply (extreme_fails _ room took n a s l u).
    - apply outcome_flush; [reflexivity|]. now apply (flush_fails took n a s l u).
    - now apply (scan_fails _ room took n a s l u).
    - destruct (lsm_step St s (LIterNext i)) as [[? ?]| |]; discriminate.
    - destruct (lsm_step St s (LIterDrop i)) as [[? ?]| |]; discriminate.
    - destruct (lsm_step St s LReopen) as [[? ?]| |]; discriminate.
    - destruct (lsm_step St s BgPublish) as [[? ?]| |]; discriminate.
    - destruct (lsm_step St s BgDone) as [[? ?]| |]; discriminate.
    - destruct (lsm_step St s BgFail) as [[? ?]| |]; discriminate.
    - destruct (lsm_step St s BgDie) as [[? ?]| |]; discriminate.
  Qed.

  (** *** All calls *)
  Definition closes (y : closing) (s : state) (l : list eff) : Prop :=
    match y with
    | Sound => same_meta St (log s) l /\ same_time St (log s) l
    | Unsound => True
    | Written => same_time St (log s) l /\ (same_meta St (log s) l \/ mem s <> [])
    end.
  Definition rel (x : iosp K V) (s : state) : Prop :=
    exists l u, ghost (io_sp x) s l u /\ jn s /\ (io_room x = true -> u = usage s) /\ closes (io_closing x) s l.
  Lemma step_goes x s o l u : ghost (io_sp x) s l u -> jn s -> (io_room x = true -> u = usage s) -> closes (io_closing x) s l -> lim (time s) -> io_allowed x o = true -> covered qd o ->
    exists s' out a1 a2, lsm_step St s o = Ok (s', out) /\ slip (io_sp x) a1 /\ answers a1 o out /\ slip (fst (lsm_spec_step a1 o)) a2 /\ rel (io_ok x o a2) s' /\ (time s' <= time s + 1)%N.
  Proof.
    intros (Sm & I) J U Cl Li Al Cv. unfold io_allowed in Al. apply andb_true_iff in Al. destruct Al as [Al Al2].
    assert (Wr : writes o = true -> u = usage s) by (destruct o; try discriminate; auto).
    assert (Re : o = LReopen -> same_meta St (log s) l /\ same_time St (log s) l) by (intros ->; destruct (io_closing x); try discriminate; exact Cl).
    destruct (mirror_ok _ _ s l u _ _ _ _ Sm (step_mirror St s l u o Sm Wr Re) (step_ok St Inv Comp qd False lim less slip L Ksize _ _ o I J Li Al Cv))
      as ([s' out] & es & u' & E & El & Sm' & U' & Lf & X). cbn [fst] in *. unfold ppatch in X. cbn [fst snd] in X. destruct X as (a1 & a2 & Sl1 & An & Sl2 & I' & J' & Ti & _).
    exists s', out, a1, a2. split; [exact E|]. split; [exact Sl1|]. split; [exact An|]. split; [exact Sl2|]. split; [|cbn in Ti; lia].
    assert (G' : ghost a2 s' (l ++ es) u') by (split; assumption).
    assert (Em : flushes o || match o with LClear | LReopen => true | _ => false end = true -> mem s' = []).
    { intros F. apply (iv_clean _ _ _ _ _ _ I'). destruct (lw_same _ _ _ _ _ _ _ _ L _ _ Sl2) as (_ & -> & _). destruct o; try discriminate; try reflexivity.
      cbn. destruct (lw_same _ _ _ _ _ _ _ _ L _ _ Sl1) as (_ & -> & _). cbn [allowed] in Al. apply andb_true_iff in Al. apply Al. }
    assert (Y : exists u2, ghost a2 s' (l ++ es) u2 /\ (io_room (io_ok x o a2) = true -> u2 = usage s')).
    { destruct (flushes o || match o with LClear | LReopen => true | _ => false end) eqn:Fl.
      - exists (usage s'). split; [apply (ghost_empty _ _ _ u'); auto|auto].
      - exists u'. split; [exact G'|]. cbn [io_room io_ok]. rewrite <- orb_assoc, Fl, orb_false_r. auto. }
    destruct Y as (u2 & G2 & U2). exists (l ++ es), u2. split; [exact G2|]. split; [exact J'|]. split; [exact U2|]. cbn [io_ok io_closing].
    unfold left_by in Lf. destruct (io_closing x); cbn [closes] in Cl.
    - destruct Cl. cbn [closes]. rewrite El. split; [now apply meta_app|now apply time_app].
    - destruct (writes o); [|exact Logic.I]. destruct Lf as [Lt Lm]. cbn [closes]. rewrite El. split; [now apply time_set|]. destruct Lm as [Lm|Lm]; [auto|left; now apply meta_set].
    - destruct Cl as [Ct Cm]. destruct (writes o) eqn:Wo.
      + assert (flushes o || match o with LClear => true | _ => false end = false) as -> by (destruct o; try discriminate; reflexivity). cbn [closes]. rewrite El.
        destruct Lf as [Lt Lm]. split; [now apply time_app|]. destruct Lm as [Lm|Lm]; [auto|left; now apply meta_set].
      + destruct (flushes o) eqn:Fo; cbn [orb].
        * cbn [closes]. rewrite El. split; [|now apply time_app]. destruct Lf as [Lm|Lm]; [|now apply meta_set]. destruct Cm as [Cm|Cm]; [now apply meta_app|congruence].
        * assert (Cg : mem s' = mem s -> closes Written s' (l ++ es)).
          { intros Z0. cbn [closes]. rewrite El. split; [now apply time_app|]. destruct Cm as [Cm|Cm]; [left; now apply meta_app|right; congruence]. }
          destruct o; cbn [writes flushes] in *; try discriminate; try (apply Cg; exact Lf). cbn [closes]. rewrite El. split; [now apply meta_set|now apply time_app].
  Qed.
  Lemma persist (may : lsm_op K V -> Prop) n : (forall o, may o -> covered qd o) -> forall x s, rel x s -> lim (time s + N.of_nat n) -> persists St may slip n x s.
  Proof.
    intros Cm. induction n as [|n IH]; intros x s (l & u & G & J & U & Cl) Li; [exact Logic.I|]. cbn [persists]. intros o f Mo Al.
    assert (Lt : lim (time s)) by (apply (lw_lim _ _ _ _ _ _ _ _ L _ _ Li); lia). pose proof (Cm o Mo) as Co.
    assert (Ro : writes o = true -> io_room x = true). { intros W. unfold io_allowed in Al. apply andb_true_iff in Al. destruct Al as [_ Al]. destruct o; try discriminate; exact Al. }
    destruct (step_goes x s o l u G J U Cl Lt Al Co) as (s1 & out & a1 & a2 & E & Sl1 & An & Sl2 & R & Ti).
    assert (X : exists took n, io_step St s (o, f) = call_io St took n s o /\ (f = None -> n = None)).
    { destruct f as [[n0 took]|]; [exists took, (Some n0)|exists false, None]; split; auto; discriminate. }
    destruct X as (took & n0 & Es & Fn). rewrite Es. pose proof (call_follows St took n0 s o) as F. destruct (call_io St took n0 s o) as [[s' [r|]]| |] eqn:Ec; cbn [ends] in F; try congruence.
    - rewrite E in F. injection F as <- <-. exists s1, (Some out), a1, a2. split; [reflexivity|]. split; [exact Sl1|]. split; [exact An|]. split; [exact Sl2|].
      apply IH; [exact R|]. apply (lw_lim _ _ _ _ _ _ _ _ L _ _ Li). lia.
    - destruct (call_fails o (io_room x) took n0 _ s l u s' G J U Lt Co Ro Ec) as (b1 & b & room' & lost & b2 & l' & u' & Sb1 & Lv & Sb2 & G' & J' & U' & T').
      exists s', None, b1, b2. split; [reflexivity|]. split; [exact Sb1|]. split; [intros ->; now apply F, Fn|]. exists b, room', lost. split; [exact Lv|]. split; [exact Sb2|].
      apply IH; [|apply (lw_lim _ _ _ _ _ _ _ _ L _ _ Li); lia]. exists l', u'. cbn. auto.
  Qed.
  Lemma new_rel : rel io_new (lsm_new St).
  Proof.
    destruct (new_inv St Inv Comp qd False lim less slip L) as [I J]. exists (log (lsm_new St)), (usage (lsm_new St)). split; [split; [reflexivity|exact I]|]. split; [exact J|]. split; [auto|]. split; reflexivity.
  Qed.
  Lemma persist_new (may : lsm_op K V -> Prop) n : (forall o, may o -> covered qd o) -> lim (N.of_nat n) -> persists St may slip n io_new (lsm_new St).
  Proof. intros Cm Li. apply persist; [exact Cm|exact new_rel|exact Li]. Qed.
End Proofs.
