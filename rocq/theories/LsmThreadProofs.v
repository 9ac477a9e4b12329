(** The calls of the LSM map, interleaved with the thread action by action, refine its specification. *)
From Verif Require Import ListLemmas OrdLemmas.
From Verif Require Export LsmThreadSpec LsmClaims.

Section Thread.
  Context {K V : Type} `{CmpLaws K} {Z : Sizes K V} (St : strategy K V) (Inv : N -> st_meta St -> Prop) (Comp : st_meta St -> st_meta St -> Prop)
          (qd : K * sval V -> Prop) (lim : N -> Prop) (less : list (K * sval V) -> list (K * sval V) -> Prop) (slip : sp K V -> sp K V -> Prop).
  Context (L : laws St Inv Comp qd False lim less slip) (Ksize : forall k k' : K, cmp k k' = Eq -> ksize k = ksize k').
  Notation meta := (st_meta St).
  Notation state := (lsm K V meta).
  Notation inv := (inv St Inv Comp qd).
  Notation jn := (jn St).
  Notation quiet := (quiet St).
  Notation op := (lsm_op K V).
  Notation out := (lsm_out K V).
  Notation prog := (prog K V St).
  Notation world := (world K V St).

  Lemma fineF {A} (x : res A) P : fine False x P -> exists a, x = Ok a /\ P a.
  Proof. intros [[[] _]|X]. exact X. Qed.

  (** *** Turns of the thread *)
  Definition is_bg (o : op) : Prop := match o with BgPublish | BgDone | BgFail | BgDie => True | _ => False end.
  Inductive env : state -> state -> Prop :=
  | env_refl s : env s s
  | env_step s b s1 o s2 : is_bg b -> lsm_step St s b = Ok (s1, o) -> env s1 s2 -> env s s2.
  Record rely (s s' : state) : Prop := mkRely {
    ry_mem : mem s' = mem s; ry_time : time s' = time s; ry_cur : cur s' = cur s; ry_iters : iters s' = iters s; ry_join : joinable s' = joinable s;
    ry_has : forall i, has St s i = true -> has St s' i = true;
    ry_fin : finished St s = true -> s' = s }.
  Lemma rely_refl s : rely s s.
  Proof. constructor; auto. Qed.
  Lemma rely_trans a b c : rely a b -> rely b c -> rely a c.
  Proof.
    intros [A1 A2 A3 A4 A5 A6 A7] [B1 B2 B3 B4 B5 B6 B7]. constructor; try congruence; auto.
    intros F. rewrite (A7 F) in *. auto.
  Qed.
  Lemma work_frame s m after s' : work St s m after = Ok s' -> cur s' = cur s /\ forall i, has St s i = true -> has St s' i = true.
  Proof.
    unfold work. destruct (st_compact St _ _ m) as [[m' fr]| |]; intros E; try discriminate; injection E as <-; cbn [cur]; (split; [reflexivity|]); [|auto].
    intros i Hi. unfold has in *. cbn [log]. destruct (tables_log St (seq (fresh s) (fr - fresh s)) (log s)) as (_ & _ & ->). rewrite Hi. apply orb_true_r.
  Qed.
  Lemma bg_ok a s b : inv a s -> lim (time s) -> is_bg b -> exists s' o, lsm_step St s b = Ok (s', o) /\ inv a s' /\ (jn s -> jn s') /\ rely s s' /\ moves St Inv qd (sp_recover a) s s'.
  Proof.
    intros I Li B.
    assert (Mv : forall s', log s' = log s -> fresh s' = fresh s -> time s' = time s -> moves St Inv qd (sp_recover a) s s') by (intros; now apply (moves_same St Inv Comp qd)).
    assert (Same : exists s' o, Ok (s, OUnit) = Ok (s', o : lsm_out K V) /\ inv a s' /\ (jn s -> jn s') /\ rely s s' /\ moves St Inv qd (sp_recover a) s s') by (do 2 eexists; split; [reflexivity|]; auto 10 using rely_refl).
    assert (Th : forall t, (t = TIdle \/ t = TDead) -> (thr s = TPub \/ exists m, thr s = TRun m) ->
      exists s' o, Ok (set_thr St s t, OUnit) = Ok (s', o : lsm_out K V) /\ inv a s' /\ (jn s -> jn s') /\ rely s s' /\ moves St Inv qd (sp_recover a) s s').
    { intros t Ht Hs. do 2 eexists; split; [reflexivity|]. split; [apply (set_thr_inv St Inv Comp qd); [exact I|destruct Ht; auto]|]. split.
      - intros J Ej. destruct (J Ej) as [_ [X|X]]; destruct Hs as [Y|[m Y]]; congruence.
      - split; [|now apply Mv]. constructor; auto. unfold finished. destruct Hs as [Y|[m Y]]; rewrite Y; discriminate. }
    destruct b; try now destruct B.
    - cbn [lsm_step]. destruct (thr s) as [|m| |] eqn:Et; auto.
      destruct (fineF _ _ (work_ok St Inv Comp qd False lim less slip L a s m TPub I Et Li (or_intror eq_refl))) as (s' & E & I' & M' & Em & Et' & Th' & Ei & Ej).
      destruct (work_frame _ _ _ _ E) as [Ec Hm]. rewrite E. cbn [bind]. do 2 eexists. split; [reflexivity|]. split; [exact I'|]. split.
      + intros J X. rewrite Ej in X. destruct (J X) as [_ [Y|Y]]; congruence.
      + split; [|exact M']. constructor; auto. unfold finished. rewrite Et. discriminate.
    - cbn [lsm_step]. destruct (thr s) as [|m| |] eqn:Et; auto.
    - cbn [lsm_step]. destruct (thr s) as [|m| |] eqn:Et; auto. apply Th; eauto.
    - cbn [lsm_step]. destruct (thr s) as [|m| |] eqn:Et; auto. apply Th; eauto.
  Qed.
  Lemma env_ok a s s' : inv a s -> lim (time s) -> env s s' -> inv a s' /\ (jn s -> jn s') /\ rely s s'.
  Proof.
    intros I Li E. revert I Li. induction E as [s|s b s1 o s2 B E1 E2 IH]; intros I Li; [auto using rely_refl|].
    destruct (bg_ok a s b I Li B) as (s1' & o' & E & I1 & J1 & R1 & _). rewrite E1 in E. injection E as <- _.
    destruct IH as (I2 & J2 & R2); [exact I1|rewrite (ry_time _ _ R1); exact Li|]. split; [exact I2|]. split; [auto|]. eapply rely_trans; eauto.
  Qed.
  Lemma rely_quiet s s' : rely s s' -> quiet s -> s' = s.
  Proof. intros R [_ [Q|Q]]; apply (ry_fin _ _ R); unfold finished; now rewrite Q. Qed.
  Lemma rely_streams s s' (it : miter K V) l : rely s s' -> streams (has St s) it l -> streams (has St s') it l.
  Proof.
    intros R S. apply (streams_frame (has St s)); [exact S|]. intros t (r & Jr & Jt). apply (ry_has _ _ R).
    destruct S as [M _]. pose proof (proj1 (Forall_forall _ _) (mv_ok _ _ M) _ Jr) as Y. apply (proj1 (Forall_forall _ _) Y (Closed t) Jt).
  Qed.

  (** *** Programs: [J] holds at every point, [Dk] of every action, [Q] when the program returns, within [n] actions. *)
  Section Ok.
  Context (J : state -> Prop) (Dk : state -> state -> Prop) (Q : out -> state -> Prop).
  Inductive ok : nat -> prog -> state -> Prop :=
  | ok_ret n r s : J s -> Q r s -> ok n (Ret St r) s
  | ok_do n f s s' p : J s -> f s = Ok (s', p) -> Dk s s' -> (forall s'', env s' s'' -> ok n p s'') -> ok (S n) (Do St f) s
  | ok_wait n p s : J s -> (finished St s = true -> ok n p s) -> ok (S n) (Wait St (finished St) p) s.
  Lemma ok_J n p s : ok n p s -> J s.
  Proof. now destruct 1. Qed.
  Lemma ok_more n p s : ok n p s -> forall m, n <= m -> ok m p s.
  Proof.
    induction 1 as [n r s Js Qs|n f s s' p Js E Ds X IH|n p s Js X IH]; intros m Le; [now constructor| |]; (destruct m as [|m]; [lia|]).
    - econstructor; eauto. intros s'' En. apply (IH s'' En). lia.
    - econstructor; eauto. intros F. apply (IH F). lia.
  Qed.

  (** States of the specification that stand for the map at this point *)
  Context (ok_at : sp K V -> Prop) (Slips : forall a a', ok_at a -> slip a a' -> ok_at a') (HJ : forall a s, ok_at a -> inv a s -> lim (time s) -> J s)
          (HD : forall a s s', ok_at a -> moves St Inv qd (sp_recover a) s s' -> Dk s s').
  Definition pre (a : sp K V) (s : state) : Prop := inv a s /\ lim (time s).
  Lemma pre_env a s s' : pre a s -> env s s' -> pre a s' /\ (jn s -> jn s') /\ rely s s'.
  Proof.
    intros [I Li] E. destruct (env_ok a s s' I Li E) as (I' & J' & R). split; [split; [exact I'|now rewrite (ry_time _ _ R)]|auto].
  Qed.
  Lemma HD_same a s s' : ok_at a -> pre a s -> log s' = log s -> fresh s' = fresh s -> time s' = time s -> Dk s s'.
  Proof. intros Oa [I _] E1 E2 E3. apply (HD a); [exact Oa|]. now apply (moves_same St Inv Comp qd). Qed.
  Record same (s s' : state) : Prop := mkSame { sm_mem : mem s' = mem s; sm_time : time s' = time s; sm_iters : iters s' = iters s; sm_join : joinable s' = joinable s }.
  Lemma rely_same s s' : rely s s' -> same s s'.
  Proof. intros R. constructor; apply R. Qed.
  Lemma same_trans s1 s2 s3 : same s1 s2 -> same s2 s3 -> same s1 s3.
  Proof. intros [] []. constructor; congruence. Qed.

  Lemma replace_prog_ok n p a s : ok_at a -> pre a s ->
    (forall a' s', ok_at a' -> slip a a' -> pre a' s' -> same s s' -> (jn s -> jn s') -> (finished St s = true -> quiet s') -> (quiet s -> a' = a) -> ok n p s') ->
    ok (S n) (replace St p) s.
  Proof.
    intros Oa [I Li] X. destruct (fineF _ _ (try_replace_ok St Inv Comp qd False lim less slip L a s I)) as (s1 & E & a1 & Sl & I1 & N1 & M1 & Em & _ & Et & Th & Ej & Ei & _ & Qa).
    unfold replace. econstructor; [now apply (HJ a)|rewrite E; reflexivity|now apply (HD a1); eauto|]. intros s2 En.
    assert (P1 : pre a1 s1) by (split; [exact I1|now rewrite Et]). destruct (pre_env _ _ _ P1 En) as (P2 & J2 & R2).
    apply (X a1); auto.
    - eauto.
    - eapply same_trans; [|apply rely_same, R2]. constructor; auto.
    - intros Js. apply J2. apply (replaced_jn St s s1); auto.
    - intros F. assert (F1 : finished St s1 = true) by (unfold finished in *; now rewrite Th). rewrite (ry_fin _ _ R2 F1). split; [exact N1|].
      unfold finished in F1. destruct (thr s1); auto; discriminate.
    - intros [Qn _]. auto.
  Qed.
  Lemma compact_prog_ok n p a s : ok_at a -> pre a s -> jn s -> mem s <> [] ->
    (forall a' s', ok_at a' -> slip a a' -> pre a' s' -> jn s' -> mem s' = [] -> time s' = time s -> iters s' = iters s -> ok n p s') ->
    ok (S (S (S (S n)))) (compact_prog St p) s.
  Proof.
    intros Oa [I Li] Js Ne X. unfold compact_prog.
    destruct (tb_build_ok (fresh s) (length (mem s)) (mem s) Ne (iv_mem _ _ _ _ _ _ I)) as (t & E & Ot & Et & It).
    destruct (push_ok St Inv Comp qd False lim less slip L a s t I Ne Ot Et It) as [I1 M1].
    econstructor; [now apply (HJ a)|unfold push; rewrite E; cbn [bind]; reflexivity|now apply (HD a)|]. set (s1 := mkLsm _ _ _ _ _ _ _ _ _ _) in *. intros s2 En2.
    assert (P1 : pre a s1) by (split; [exact I1|exact Li]). assert (J1 : jn s1) by exact Js. destruct (pre_env _ _ _ P1 En2) as (P2 & J2 & R2). specialize (J2 J1).
    econstructor; [apply (HJ a); auto; apply P2|reflexivity|now apply (HD_same a)|]. intros s3 En3. destruct (pre_env _ _ _ P2 En3) as (P3 & J3 & R3). specialize (J3 J2).
    destruct (busy St s2 || locked St s2) eqn:B.
    - apply (ok_more n); [|lia]. apply (X a); auto; [apply (lw_refl _ _ _ _ _ _ _ _ L)|..].
      + now rewrite (ry_mem _ _ R3), (ry_mem _ _ R2).
      + now rewrite (ry_time _ _ R3), (ry_time _ _ R2).
      + now rewrite (ry_iters _ _ R3), (ry_iters _ _ R2).
    - apply orb_false_iff in B. destruct B as [B Lk].
      assert (F2 : finished St s2 = true) by (unfold busy in B; unfold finished; destruct (thr s2); auto; discriminate).
      assert (Es : s3 = s2) by exact (ry_fin _ _ R3 F2). subst s3.
      destruct (fineF _ _ (try_replace_ok St Inv Comp qd False lim less slip L a s2 (proj1 P2))) as (s4 & E4 & a4 & Sl & I4 & N4 & M4 & Em4 & _ & Et4 & Th4 & Ej4 & Ei4 & _).
      assert (Ti4 : time s4 = time s) by now rewrite Et4, (ry_time _ _ R2).
      assert (P4 : pre a4 s4) by (split; [exact I4|now rewrite Ti4]). assert (Th : thr s4 = TIdle) by (rewrite Th4; unfold busy in B; destruct (thr s2); auto; discriminate).
      unfold replace. econstructor; [apply (HJ a); auto; apply P2|rewrite E4; reflexivity|apply (HD a4); eauto|]. intros s5 En5. destruct (pre_env _ _ _ P4 En5) as (_ & _ & R5).
      assert (Es : s5 = s4) by (apply (ry_fin _ _ R5); unfold finished; now rewrite Th). subst s5.
      econstructor; [apply (HJ a4); eauto; apply P4|reflexivity|apply (HD_same a4); eauto; unfold spawn; destruct (st_due St (cur s4)); reflexivity|]. intros s6 En6.
      assert (Lk4 : locked St s4 = false) by (unfold locked in *; rewrite Ei4; exact Lk).
      assert (Y : pre a4 (spawn St s4) /\ jn (spawn St s4) /\ mem (spawn St s4) = [] /\ time (spawn St s4) = time s /\ iters (spawn St s4) = iters s).
      { assert (Em : mem s4 = []) by now rewrite Em4, (ry_mem _ _ R2). assert (Ei : iters s4 = iters s) by now rewrite Ei4, (ry_iters _ _ R2).
        unfold spawn. destruct (st_due St (cur s4)) eqn:D.
        - pose proof (set_join_inv St Inv Comp qd a4 _ true (set_thr_inv St Inv Comp qd a4 s4 (TRun (cur s4)) I4 (or_intror (or_intror (or_intror (conj eq_refl (conj N4 (conj D (unlocked_idle St Inv Comp qd _ _ I4 Lk4))))))))) as I5.
          split; [split; [exact I5|exact (proj2 P4)]|]. split; [discriminate|]. auto.
        - split; [exact P4|]. split; [intros _; split; auto|]. auto. }
      destruct Y as (P5 & J5 & Em5 & Et5 & Ei5). destruct (pre_env _ _ _ P5 En6) as (P6 & J6 & R6).
      apply (X a4); auto; [eauto|now rewrite (ry_mem _ _ R6)|now rewrite (ry_time _ _ R6)|now rewrite (ry_iters _ _ R6)].
  Qed.
  Lemma join_prog_ok n yes no a s : ok_at a -> pre a s -> jn s ->
    (forall s', pre a s' -> finished St s' = true -> joinable s' = false -> mem s' = mem s -> time s' = time s -> iters s' = iters s -> ok n yes s') ->
    (forall s', pre a s' -> jn s' -> quiet s' -> same s s' -> ok n no s') ->
    ok (S (S (S n))) (join_prog St yes no) s.
  Proof.
    intros Oa P Js Y N. unfold join_prog. econstructor; [apply (HJ a); auto; apply P|reflexivity|now apply (HD_same a)|]. intros s1 En1. destruct (pre_env _ _ _ P En1) as (P1 & J1 & R1). specialize (J1 Js).
    destruct (joinable s) eqn:Ej.
    - econstructor; [apply (HJ a); auto; apply P1|]. intros F. econstructor; [apply (HJ a); auto; apply P1|reflexivity|now apply (HD_same a)|]. intros s2 En2.
      assert (P2 : pre a (unjoin St s1)) by (split; [apply (set_join_inv St Inv Comp qd a s1 false), P1|exact (proj2 P1)]).
      destruct (pre_env _ _ _ P2 En2) as (_ & _ & R2). assert (Es : s2 = unjoin St s1) by (apply (ry_fin _ _ R2); exact F). subst s2.
      apply Y; auto; cbn [unjoin mem time iters]; apply R1.
    - assert (Q1 : quiet s1) by (apply J1; rewrite (ry_join _ _ R1); exact Ej). apply (ok_more n); [|lia]. apply N; auto. now apply rely_same.
  Qed.
  Lemma flush_prog_ok n p a s : ok_at a -> pre a s -> jn s ->
    (forall a' s', ok_at a' -> slip a a' -> pre a' s' -> pre (flushed a') s' -> jn s' -> quiet s' -> mem s' = [] -> time s' = time s -> iters s' = iters s -> ok n p s') ->
    ok (9 + n) (flush_prog St p) s.
  Proof.
    intros Oa P Js X. unfold flush_prog. econstructor; [apply (HJ a); auto; apply P|reflexivity|now apply (HD_same a)|]. intros s1 En1. destruct (pre_env _ _ _ P En1) as (P1 & J1 & R1). specialize (J1 Js).
    assert (Fl : forall a' s', mem s' = [] -> pre a' s' -> pre (flushed a') s') by (intros a' s' Em [I' Li']; split; [now apply flushed_inv|exact Li']).
    assert (Jo : forall a' s', ok_at a' -> slip a a' -> pre a' s' -> jn s' -> mem s' = [] -> time s' = time s -> iters s' = iters s -> ok (4 + n) (join_prog St (replace St p) p) s').
    { intros a' s' Oa' Sl P' J' Em Et Ei. apply (join_prog_ok (S n) _ _ a'); auto.
      - intros s2 P2 F2 Ej Em2 Et2 Ei2. apply (replace_prog_ok n p a'); auto. intros a3 s3 Oa3 Sl3 P3 Sm _ Q3 _. specialize (Q3 F2).
        assert (Em3 : mem s3 = []) by (rewrite (sm_mem _ _ Sm); congruence).
        apply (X a3); auto; [apply (lw_trans _ _ _ _ _ _ _ _ L _ _ _ Sl Sl3)|intros _; exact Q3|rewrite (sm_time _ _ Sm); congruence|rewrite (sm_iters _ _ Sm); congruence].
      - intros s2 P2 J2 Q2 Sm. apply (ok_more n); [|lia]. assert (Em2 : mem s2 = []) by (rewrite (sm_mem _ _ Sm); exact Em).
        apply (X a'); auto; [rewrite (sm_time _ _ Sm); exact Et|rewrite (sm_iters _ _ Sm); exact Ei]. }
    destruct (mem s) as [|e l] eqn:Em.
    - apply (ok_more (4 + n)); [|lia]. apply (Jo a); auto; [apply (lw_refl _ _ _ _ _ _ _ _ L)|now rewrite (ry_mem _ _ R1)|apply R1|apply R1].
    - apply (compact_prog_ok (4 + n) _ a); auto; [rewrite (ry_mem _ _ R1); congruence|]. intros a' s' Oa' Sl P' J' Em' Et' Ei'.
      apply (Jo a'); auto; [rewrite Et'; apply R1|rewrite Ei'; apply R1].
  Qed.
  Lemma iter_prog_ok n f a s : ok_at a -> pre a s -> jn s ->
    (forall a' s' (it : miter K V) l, ok_at a' -> slip a a' -> (quiet s -> a' = a /\ quiet s') -> pre a' s' -> jn s' -> same s s' -> streams (has St s') it l -> merge_of (cont St (cur s')) l -> ok n (f it) s') ->
    ok (S (S n)) (iter_prog St f) s.
  Proof.
    intros Oa P Js X. unfold iter_prog. apply (replace_prog_ok (S n) _ a); auto. intros a1 s1 Oa1 Sl1 P1 Sm1 J1 Q1 Qa1. specialize (J1 Js). pose proof (proj1 P1) as I1.
    destruct (lw_runs _ _ _ _ _ _ _ _ L _ _ (iv_inv _ _ _ _ _ _ I1)) as [Sr Pr]. destruct (iter_tables_ok (has St s1) (st_runs St (cur s1))) as (it & l & E & Ec & Mi & Mo).
    - apply Forall_forall. intros r Jr. apply Forall_forall. intros t Jt. apply (proj1 (Forall_forall _ _) (iv_has _ _ _ _ _ _ I1)). rewrite <- Pr. apply in_concat. eauto.
    - exact Sr.
    - econstructor; [apply (HJ a1); auto; apply P1|rewrite E; reflexivity|now apply (HD_same a1)|]. intros s2 En2. destruct (pre_env _ _ _ P1 En2) as (P2 & J2 & R2).
      apply (X a1 s2 it l); auto.
      + intros Qs. split; [auto|]. assert (Q' : quiet s1) by (apply Q1; destruct Qs as [_ [Y|Y]]; unfold finished; now rewrite Y). now rewrite (rely_quiet _ _ R2 Q').
      + eapply same_trans; [exact Sm1|now apply rely_same].
      + apply (rely_streams s1); [exact R2|]. split; [exact Mi|exact Ec].
      + rewrite (ry_cur _ _ R2). revert Mo. apply merge_ext. intros e. exact (runs_cont St Inv Comp qd False lim less slip L (time s1) _ e (iv_inv _ _ _ _ _ _ I1)).
  Qed.
  End Ok.

  (** *** Calls *)
  Definition stands (o : op) (a b : sp K V) : Prop := slip a b \/ exists a1, slip a a1 /\ slip (fst (lsm_spec_step a1 o)) b.
  Definition mid (o : op) (a : sp K V) (s : state) : Prop := exists b, stands o a b /\ inv b s /\ lim (time s).
  Definition safe (o : op) (a : sp K V) (s s' : state) : Prop := exists R, (forall m, In m R -> exists b, stands o a b /\ In m (sp_recover b)) /\ moves St Inv qd R s s'.
  Definition done (o : op) (a : sp K V) (t : N) (r : out) (s : state) : Prop := exists a1 a2, slip a a1 /\ answers a1 o r /\
    slip (fst (lsm_spec_step a1 o)) a2 /\ inv a2 s /\ jn s /\ (time s <= t + 1)%N.
  Lemma stands_slip o a b b' : stands o a b -> slip b b' -> stands o a b'.
  Proof. intros [X|(a1 & X & Y)] S; [left|right; exists a1; split; [exact X|]]; eapply (lw_trans _ _ _ _ _ _ _ _ L); eauto. Qed.
  Lemma stands_mid o a b s : stands o a b -> inv b s -> lim (time s) -> mid o a s.
  Proof. intros X I Li. exists b. auto. Qed.
  Lemma stands_safe o a b s s' : stands o a b -> moves St Inv qd (sp_recover b) s s' -> safe o a s s'.
  Proof. intros X M. exists (sp_recover b). split; [eauto|exact M]. Qed.
  Lemma stands_safe2 o a b b' s s' : stands o a b -> stands o a b' -> moves St Inv qd (sp_recover b ++ sp_recover b') s s' -> safe o a s s'.
  Proof. intros X X' M. exists (sp_recover b ++ sp_recover b'). split; [|exact M]. intros m Jm. apply in_app_iff in Jm. destruct Jm; eauto. Qed.
  Lemma same_safe o a b s s' : stands o a b -> pre b s -> log s' = log s -> fresh s' = fresh s -> time s' = time s -> safe o a s s'.
  Proof. intros X [I _] E1 E2 E3. apply (stands_safe o a b); [exact X|]. now apply (moves_same St Inv Comp qd). Qed.
  Notation Slips o a := (stands_slip o a).
  Notation HJ o a := (stands_mid o a).
  Notation HD o a := (stands_safe o a).
  Lemma refl a : slip a a.
  Proof. apply (lw_refl _ _ _ _ _ _ _ _ L). Qed.
  Lemma stands_refl o a : stands o a a.
  Proof. left. apply refl. Qed.
  Hint Resolve refl stands_refl : core.
  (** Return *)
  Lemma ret_ok o a t n r a1 a2 s : slip a a1 -> answers a1 o r -> slip (fst (lsm_spec_step a1 o)) a2 ->
    pre a2 s -> jn s -> (time s <= t + 1)%N -> ok (mid o a) (safe o a) (done o a t) n (Ret St r) s.
  Proof.
    intros S1 P S2 [I Li] J T. constructor.
    - exists a2. split; [right; eauto|auto].
    - exists a1, a2. auto 10.
  Qed.
  (** A last action that leaves the map alone *)
  Lemma last_ok o a t n f r a1 s : slip a a1 -> answers a1 o r -> fst (lsm_spec_step a1 o) = a1 ->
    pre a1 s -> jn s -> (time s <= t + 1)%N -> f s = Ok (s, Ret St r) -> ok (mid o a) (safe o a) (done o a t) (S n) (Do St f) s.
  Proof.
    intros S1 P E Pr J T Ef. econstructor; [exists a1; split; [left; exact S1|exact Pr]|exact Ef|apply (same_safe o a a1); auto; now left|]. intros s' En. destruct (pre_env _ _ _ Pr En) as (P' & J' & R).
    apply (ret_ok o a t n r a1 a1); auto; [rewrite E; auto|now rewrite (ry_time _ _ R)].
  Qed.

  Lemma ret_plain o a t n r a1 a2 s : same_out r (snd (lsm_spec_step a1 o)) -> (forall k, snd (lsm_spec_step a1 o) <> OKey k) -> slip a a1 -> slip (fst (lsm_spec_step a1 o)) a2 ->
    pre a2 s -> jn s -> (time s <= t + 1)%N -> ok (mid o a) (safe o a) (done o a t) n (Ret St r) s.
  Proof. intros. apply (ret_ok o a t n r a1 a2); auto using answers_plain. Qed.
  Lemma last_plain o a t n f r a1 s : same_out r (snd (lsm_spec_step a1 o)) -> (forall k, snd (lsm_spec_step a1 o) <> OKey k) -> slip a a1 -> fst (lsm_spec_step a1 o) = a1 ->
    pre a1 s -> jn s -> (time s <= t + 1)%N -> f s = Ok (s, Ret St r) -> ok (mid o a) (safe o a) (done o a t) (S n) (Do St f) s.
  Proof. intros. apply (last_ok o a t n f r a1); auto using answers_plain. Qed.

  Lemma write_prog_ok k d o a s : (forall b, lsm_spec_step b o = (written b (put_or_drop k d (sp_map b)) (is_none d), OUnit)) ->
    (forall k' t, cmp k' k = Eq -> qd (k', mkSval d t)) -> inv a s -> jn s -> lim (time s + 1) -> ok (mid o a) (safe o a) (done o a (time s)) 5 (write_prog St k d) s.
  Proof.
    intros Eo Qk I J Li. unfold write_prog. pose proof (iv_mem _ _ _ _ _ _ I) as S. set (v := mkSval d (time s)).
    assert (X : exists u, match find_version (mem s) k with
              | Some old => let size := (ksize k + vsize old)%N in if (size <=? usage s)%N then Ok (usage s - size)%N else Panic
              | None => Ok (usage s)
              end = Ok u /\ (bytes (bt_insert k v (mem s)) <= u + (ksize k + vsize v))%N).
    { pose proof (iv_use _ _ _ _ _ _ I) as U. destruct (bt_insert_cases k v (mem s) S) as [(l1 & k' & v' & l2 & E & Qe & E')|(l1 & l2 & E & E' & N)]; rewrite E'.
      - rewrite (find_version_in (mem s) (k', v') k S); [|rewrite E; apply in_app_iff; right; now left|now apply cmp_eq_sym]. cbn zeta. cbn [snd].
        rewrite E, bytes_app in U. cbn [bytes fold_right fst snd] in U. fold (bytes l2) in U. rewrite (Ksize k k' Qe). destruct (N.leb_spec (ksize k' + vsize v') (usage s)); [|lia].
        eexists. split; [reflexivity|]. rewrite bytes_app. cbn [bytes fold_right fst snd]. fold (bytes l2). lia.
      - rewrite (proj2 (find_version_none (mem s) k) N). exists (usage s). split; [reflexivity|]. rewrite E, bytes_app in U. rewrite bytes_app. cbn [bytes fold_right fst snd]. fold (bytes l2). lia. }
    destruct X as (u & Eu & U). pose proof (wrote_inv St Inv Comp qd False lim less slip L a s k d _ I Qk U) as I1. fold v in I1. set (s1 := mkLsm _ _ _ _ _ _ _ _ _ _) in *.
    set (a1 := written a _ _) in *.
    assert (M0 : mid o a s) by (exists a; split; [auto|]; split; [exact I|]; apply (lw_lim _ _ _ _ _ _ _ _ L _ _ Li); lia).
    assert (Ss : stands o a a1) by (right; exists a; split; [auto|]; rewrite Eo; cbn [fst]; fold a1; auto).
    econstructor; [exact M0|cbv zeta in Eu |- *; fold v; rewrite Eu; cbn [bind]; fold s1; reflexivity| |].
    { apply (stands_safe o a a1); [exact Ss|]. apply (moves_one St Inv Comp qd a s s1 (ETime (time s + 1))); [exact I|reflexivity|split; cbn; lia|intros x Jx; apply in_app_iff; auto|].
      exact (inv_good St Inv Comp qd _ _ I1). }
    intros s2 En. assert (P1 : pre a1 s1) by (split; [exact I1|exact Li]). assert (J1 : jn s1) by exact J. destruct (pre_env _ _ _ P1 En) as (P2 & J2 & R2). specialize (J2 J1).
    destruct (st_max_mem St <? usage s1)%N.
    - apply (compact_prog_ok _ _ _ (stands o a) (Slips o a) (HJ o a) (HD o a) 0 _ a1); auto.
      + rewrite (ry_mem _ _ R2). destruct (bt_in k v (mem s) S) as (_ & k' & _ & Jk). intros E. unfold s1 in E. cbn [mem] in E. rewrite E in Jk. destruct Jk.
      + intros a' s' _ Sl P' J' _ T' _. apply (ret_plain o a (time s) 0 OUnit a a'); auto; rewrite ?Eo; cbn [fst snd same_out]; try discriminate; auto. rewrite T', (ry_time _ _ R2). cbn. lia.
    - apply (ret_plain o a (time s) 4 OUnit a a1); auto; rewrite ?Eo; cbn [fst snd same_out]; try discriminate; auto. rewrite (ry_time _ _ R2). cbn. lia.
  Qed.
  Lemma get_prog_ok k f o a s : (forall b, lsm_spec_step b o = (b, f (lookup k (sp_map b)))) -> (forall v, same_out (f v) (f v)) -> (forall v k, f v <> OKey k) -> inv a s -> jn s -> lim (time s + 1) ->
    ok (mid o a) (safe o a) (done o a (time s)) 3 (get_prog St k f) s.
  Proof.
    intros Eo Rf Nf I J Li. unfold get_prog. assert (P : pre a s) by (split; [exact I|apply (lw_lim _ _ _ _ _ _ _ _ L _ _ Li); lia]).
    destruct (version_exists (cont St (cur s)) k) as (o0 & V0). destruct (find_version (mem s) k) as [v|] eqn:F.
    - apply (last_plain o a (time s) 2 _ (f (sv_data v)) a); auto; rewrite ?Eo; cbn [fst snd]; auto; [|lia|now rewrite F].
      pose proof (iv_view _ _ _ _ _ _ I k _ (version_mem _ _ k (iv_mem _ _ _ _ _ _ I) (iv_newer _ _ _ _ _ _ I) _ V0)) as X. rewrite F in X. cbn [seen] in X. rewrite X. apply Rf.
    - econstructor; [exists a; split; [auto|exact P]|rewrite F; reflexivity|now apply (same_safe o a a)|]. intros s1 En. destruct (pre_env _ _ _ P En) as (P1 & J1 & R1). specialize (J1 J).
      apply (replace_prog_ok _ _ _ (stands o a) (Slips o a) (HJ o a) (HD o a) 1 _ a); auto. intros a2 s2 _ Sl P2 Sm J2 _ _. specialize (J2 J1).
      destruct (lw_get _ _ _ _ _ _ _ _ L _ _ (has St s2) k (iv_inv _ _ _ _ _ _ (proj1 P2)) (iv_has _ _ _ _ _ _ (proj1 P2))) as (r & Er & Vr).
      apply (last_plain o a (time s) 0 _ (f (match r with Some v => sv_data v | None => None end)) a2); auto; rewrite ?Eo; cbn [fst snd]; auto.
      + pose proof (iv_view _ _ _ _ _ _ (proj1 P2) k _ (version_mem _ _ k (iv_mem _ _ _ _ _ _ (proj1 P2)) (iv_newer _ _ _ _ _ _ (proj1 P2)) _ Vr)) as X.
        rewrite (sm_mem _ _ Sm), (ry_mem _ _ R1), F in X. unfold seen in X. rewrite <- X. apply Rf.
      + rewrite (sm_time _ _ Sm), (ry_time _ _ R1). lia.
      + now rewrite Er.
  Qed.
  Lemma hint_prog_ok a s : inv a s -> jn s -> lim (time s + 1) -> ok (mid LLenHint a) (safe LLenHint a) (done LLenHint a (time s)) 2 (hint_prog St) s.
  Proof.
    intros I J Li. unfold hint_prog. assert (P : pre a s) by (split; [exact I|apply (lw_lim _ _ _ _ _ _ _ _ L _ _ Li); lia]).
    apply (replace_prog_ok _ _ _ (stands _ a) (Slips _ a) (HJ _ a) (HD _ a) 1 _ a); auto. intros a1 s1 _ Sl P1 Sm J1 _ _. specialize (J1 J). pose proof (proj1 P1) as I1.
    destruct (lw_basic _ _ _ _ _ _ _ _ L _ _ (iv_inv _ _ _ _ _ _ I1)) as (O & _).
    eapply (last_plain _ a (time s) 0 _ _ a1); auto; [|discriminate|rewrite (sm_time _ _ Sm); lia|rewrite (hints_ok _ O); reflexivity]. cbn [lsm_spec_step snd same_out].
    fold (cont St (cur s1)). rewrite <- app_length. apply keys_le; [apply I1|]. intros p Jp.
    destruct (version_exists (mem s1 ++ cont St (cur s1)) (fst p)) as (o & Vo). pose proof (iv_view _ _ _ _ _ _ I1 _ _ Vo) as X.
    rewrite (lookup_in (fst p) p (sp_map a1) (iv_map _ _ _ _ _ _ I1) Jp (cmp_refl _)) in X. destruct o as [v|]; [|discriminate]. destruct Vo as (e & [Je _] & Qe & <-).
    exists e. split; [|exact Qe]. apply in_app_iff in Je. apply in_app_iff. destruct Je as [Je|Je]; [now left|]. right. apply filter_In. split; [exact Je|].
    unfold has_data. cbn [seen] in X. now rewrite X.
  Qed.
  (** The map that a flush leaves is the tables. *)
  Lemma flushed_view a s l : inv a s -> mem s = [] -> merge_of (cont St (cur s)) l -> Forall2 same_pair (live l) (sp_map a).
  Proof.
    intros I Em Mo. apply (live_view (cont St (cur s))); [exact Mo| |apply (iv_map _ _ _ _ _ _ I)]. pose proof (iv_view _ _ _ _ _ _ I) as W. now rewrite Em in W.
  Qed.
  Lemma all_prog_ok f o a s : (forall b, lsm_spec_step b o = (flushed b, f (sp_map b))) -> (forall l l', Forall2 same_pair l l' -> same_out (f l) (f l')) -> (forall l k, f l <> OKey k) ->
    inv a s -> jn s -> lim (time s + 1) -> ok (mid o a) (safe o a) (done o a (time s)) 12 (all_prog St f) s.
  Proof.
    intros Eo Rf Nf I J Li. unfold all_prog. assert (P : pre a s) by (split; [exact I|apply (lw_lim _ _ _ _ _ _ _ _ L _ _ Li); lia]).
    apply (flush_prog_ok _ _ _ (stands _ a) (Slips _ a) (HJ _ a) (HD _ a) 3 _ a); auto. intros a1 s1 _ Sl1 P1 Pf J1 Q1 Em1 T1 _.
    assert (Ss : stands o a (flushed a1)) by (right; exists a1; split; [auto|]; rewrite Eo; cbn [fst]; auto).
    apply (iter_prog_ok _ _ _ (stands _ a) (Slips _ a) (HJ _ a) (HD _ a) 1 _ (flushed a1)); auto. intros a2 s2 it l _ _ X P2 J2 Sm So Mo. destruct (X Q1) as [-> Q2].
    unfold collect. econstructor; [exists (flushed a1); auto|rewrite (live_collect_ok _ it l So); reflexivity|now apply (same_safe o a (flushed a1))|]. intros s3 En. destruct (pre_env _ _ _ P2 En) as (P3 & J3 & R3). specialize (J3 J2).
    apply (ret_plain o a (time s) 0 _ a1 (flushed a1)); auto; rewrite ?Eo; cbn [fst snd]; auto.
    - apply Rf. apply (flushed_view (flushed a1) s2); [apply P2|now rewrite (sm_mem _ _ Sm)|exact Mo].
    - rewrite (ry_time _ _ R3), (sm_time _ _ Sm), T1. lia.
  Qed.
  Lemma open_prog_ok a s : inv a s -> jn s -> lim (time s + 1) -> ok (mid LIterOpen a) (safe LIterOpen a) (done LIterOpen a (time s)) 12 (prog_of St LIterOpen) s.
  Proof.
    intros I J Li. cbn [prog_of]. assert (P : pre a s) by (split; [exact I|apply (lw_lim _ _ _ _ _ _ _ _ L _ _ Li); lia]).
    apply (flush_prog_ok _ _ _ (stands _ a) (Slips _ a) (HJ _ a) (HD _ a) 3 _ a); auto. intros a1 s1 O1 Sl1 P1 Pf J1 Q1 Em1 T1 _.
    apply (iter_prog_ok _ _ _ (stands _ a) (Slips _ a) (HJ _ a) (HD _ a) 1 _ a1); auto. intros a2 s2 it l _ _ X P2 J2 Sm So Mo. destruct (X Q1) as [-> Q2].
    assert (Em2 : mem s2 = []) by now rewrite (sm_mem _ _ Sm).
    econstructor; [exists a1; split; [left; exact Sl1|exact P2]|reflexivity|apply (same_safe LIterOpen a a1); auto; now left|]. intros s3 En. set (s2' := set_iters St s2 _) in *.
    assert (P3 : pre (fst (lsm_spec_step a1 LIterOpen)) s2').
    { split; [|exact (proj2 P2)]. cbn [lsm_spec_step fst]. apply (set_iters_inv St Inv Comp qd (flushed a1) s2); [apply flushed_inv; [apply P2|exact Em2]| |intros _; exact Q2].
      apply F2_snoc; [exact (iv_iters _ _ _ _ _ _ (proj1 P2))|]. exists l. split; [exact So|]. apply (flushed_view a1 s2); auto. apply P2. }
    assert (J3 : jn s2') by (intros _; exact Q2). destruct (pre_env _ _ _ P3 En) as (P4 & J4 & R4). specialize (J4 J3).
    apply (ret_plain LIterOpen a (time s) 0 OUnit a1 (fst (lsm_spec_step a1 LIterOpen))); auto; [exact Logic.I|discriminate|].
    rewrite (ry_time _ _ R4). unfold s2'. cbn [set_iters time]. rewrite (sm_time _ _ Sm), T1. lia.
  Qed.
  Lemma min_prog_ok a s : inv a s -> jn s -> lim (time s + 1) -> ok (mid LMin a) (safe LMin a) (done LMin a (time s)) 3 (min_prog St) s.
  Proof.
    intros I J Li. unfold min_prog. assert (P : pre a s) by (split; [exact I|apply (lw_lim _ _ _ _ _ _ _ _ L _ _ Li); lia]).
    apply (iter_prog_ok _ _ _ (stands _ a) (Slips _ a) (HJ _ a) (HD _ a) 1 _ a); auto. intros a2 s2 it l _ Sl _ P2 J2 Sm So Mo. pose proof (proj1 P2) as I2.
    destruct (live_next_ok _ it l So) as (it' & out' & E & _). eapply (last_ok _ a (time s) 0 _ _ a2); auto; [|rewrite (sm_time _ _ Sm); lia|rewrite E; reflexivity].
    pose proof (min_answers St Inv Comp qd a2 s2 l I2 Mo) as X. destruct (first_live (mem s2)), (hd_error (live l)); exact X.
  Qed.
  Lemma max_prog_ok a s : inv a s -> jn s -> lim (time s + 1) -> ok (mid LMax a) (safe LMax a) (done LMax a (time s)) 3 (max_prog St) s.
  Proof.
    intros I J Li. unfold max_prog. assert (P : pre a s) by (split; [exact I|apply (lw_lim _ _ _ _ _ _ _ _ L _ _ Li); lia]).
    apply (iter_prog_ok _ _ _ (stands _ a) (Slips _ a) (HJ _ a) (HD _ a) 1 _ a); auto. intros a2 s2 it l _ Sl _ P2 J2 Sm So Mo. pose proof (proj1 P2) as I2.
    eapply (last_ok _ a (time s) 0 _ _ a2); auto; [|rewrite (sm_time _ _ Sm); lia|rewrite (live_collect_ok _ it l So); reflexivity].
    pose proof (max_answers St Inv Comp qd a2 s2 l I2 Mo) as X. destruct (first_live (rev (mem s2))), (last_error (live l)); exact X.
  Qed.
  Lemma wipe_ok a s : inv a s -> lim (time s) -> finished St s = true -> exists s', wipe St s = Ok s' /\
    inv (mkSp [] (map stale (sp_iters a)) true (sp_written a) false [[]]) s' /\ jn s' /\ time s' = time s /\ moves St Inv qd (sp_recover a ++ [[]]) s s'.
  Proof.
    intros I Li F. assert (I0 : inv a (unjoin St s)) by (apply (set_join_inv St Inv Comp qd a s false), I).
    assert (J0 : jn (mkLsm (mem s) (usage s) (time s) (cur s) (nxt s) (thr s) true (iters s) (fresh s) (log s))) by discriminate.
    pose proof (set_join_inv St Inv Comp qd a s true I) as I1.
    destruct (fineF _ _ (clear_ok St Inv Comp qd False lim less slip L a _ I1 J0 Li)) as (s' & E & I' & J' & T' & M').
    assert (Er : clear St (mkLsm (mem s) (usage s) (time s) (cur s) (nxt s) (thr s) true (iters s) (fresh s) (log s)) = wipe St (unjoin St s)).
    { unfold clear, join. cbn [joinable thr]. unfold finished in F. destruct (thr s) eqn:Et; try discriminate; cbn [bind]; unfold unjoin; cbn; rewrite Et; reflexivity. }
    rewrite Er in E. unfold wipe in E |- *. cbn [unjoin log usage time thr joinable iters fresh] in E.
    destruct (remove_dirs (disk_of (log s)) (nodup Nat.eq_dec (d_dirs (disk_of (log s))))) as [es| |]; try discriminate. cbn [bind] in E |- *. injection E as <-.
    eexists. split; [reflexivity|]. split; [|split; [intros _; split; [reflexivity|]|split; [reflexivity|exact M']]].
    - exact (set_join_inv St Inv Comp qd _ _ (joinable s) I').
    - cbn [thr]. unfold finished in F. destruct (thr s); auto; discriminate.
  Qed.
  Lemma clear_prog_ok a s : inv a s -> jn s -> lim (time s + 1) -> ok (mid LClear a) (safe LClear a) (done LClear a (time s)) 4 (clear_prog St) s.
  Proof.
    intros I J Li. unfold clear_prog. assert (P : pre a s) by (split; [exact I|apply (lw_lim _ _ _ _ _ _ _ _ L _ _ Li); lia]).
    assert (X : forall s', pre a s' -> finished St s' = true -> time s' = time s ->
      ok (mid LClear a) (safe LClear a) (done LClear a (time s)) 1 (Do St (fun s => let* s := wipe St s in Ok (s, Ret St OUnit))) s').
    { intros s' [I' Li'] F T. destruct (wipe_ok a s' I' Li' F) as (s2 & E & I2 & J2 & T2 & M2).
      econstructor; [exists a; auto|rewrite E; reflexivity|apply (stands_safe2 LClear a a (fst (lsm_spec_step a LClear))); auto; right; exists a; auto|]. intros s3 En.
      assert (P2 : pre (fst (lsm_spec_step a LClear)) s2) by (split; [exact I2|now rewrite T2]). destruct (pre_env _ _ _ P2 En) as (P3 & J3 & R3). specialize (J3 J2).
      apply (ret_plain LClear a (time s) 0 OUnit a (fst (lsm_spec_step a LClear))); auto; [exact Logic.I|discriminate|]. rewrite (ry_time _ _ R3), T2, T. lia. }
    apply (join_prog_ok _ _ _ (stands _ a) (HJ _ a) (HD _ a) 1 _ _ a); auto. intros s' P' _ [_ Q'] Sm. apply X; auto; [|apply Sm].
    unfold finished. destruct Q' as [Y|Y]; now rewrite Y.
  Qed.
  Lemma single_ok o a s : inv a s -> jn s -> lim (time s + 1) -> allowed a o = true -> covered qd o ->
    ok (mid o a) (safe o a) (done o a (time s)) 1 (Do St (fun s => let* (s, r) := lsm_step St s o in Ok (s, Ret St r))) s.
  Proof.
    intros I J Li Al Co. assert (P : pre a s) by (split; [exact I|apply (lw_lim _ _ _ _ _ _ _ _ L _ _ Li); lia]).
    destruct (fineF _ _ (step_ok St Inv Comp _ False lim less slip L Ksize a s o I J (proj2 P) Al Co)) as ([s' r] & E & a1 & a2 & Sl1 & So & Sl2 & I' & J' & Ti & M).
    econstructor; [exists a; split; [auto|exact P]|rewrite E; reflexivity|apply (stands_safe2 o a a1 a2); auto; [now left|right; eauto]|]. intros s2 En.
    assert (P' : pre a2 s') by (split; [exact I'|apply (lw_lim _ _ _ _ _ _ _ _ L _ _ Li); lia]). destruct (pre_env _ _ _ P' En) as (P2 & J2 & R2).
    apply (ret_ok o a (time s) 0 r a1 a2); auto. rewrite (ry_time _ _ R2). lia.
  Qed.
  Definition longest : nat := 12.
  Lemma prog_ok o a s : inv a s -> jn s -> lim (time s + 1) -> allowed a o = true -> covered qd o -> ok (mid o a) (safe o a) (done o a (time s)) longest (prog_of St o) s.
  Proof.
    intros I J Li Al Co.
    assert (Bg : forall o', (forall b, lsm_spec_step b o' = (b, OUnit)) -> ok (mid o' a) (safe o' a) (done o' a (time s)) longest (Ret St OUnit) s).
    { intros o' E. apply (ret_plain o' a (time s) _ OUnit a a); auto; rewrite ?E; cbn [fst snd same_out]; try discriminate; auto; [|lia]. split; [exact I|]. apply (lw_lim _ _ _ _ _ _ _ _ L _ _ Li). lia. }
    destruct o; cbn [prog_of covered] in *; try (now apply Bg); unfold longest.
    - apply (ok_more _ _ _ 5); [|lia]. apply write_prog_ok; auto.
    - apply (ok_more _ _ _ 5); [|lia]. apply write_prog_ok; auto.
    - apply (ok_more _ _ _ 3); [|lia]. apply get_prog_ok; auto; [reflexivity|discriminate].
    - apply (ok_more _ _ _ 3); [|lia]. apply get_prog_ok; auto; [reflexivity|discriminate].
    - apply all_prog_ok; auto; [|discriminate]. intros l l' F. cbn. now apply same_length.
    - apply all_prog_ok; auto; [|discriminate]. intros l l' F. cbn. now rewrite (same_length _ _ F).
    - apply (ok_more _ _ _ 2); [|lia]. now apply hint_prog_ok.
    - apply (ok_more _ _ _ 4); [|lia]. now apply clear_prog_ok.
    - apply (ok_more _ _ _ 3); [|lia]. now apply min_prog_ok.
    - apply (ok_more _ _ _ 3); [|lia]. now apply max_prog_ok.
    - assert (P : pre a s) by (split; [exact I|apply (lw_lim _ _ _ _ _ _ _ _ L _ _ Li); lia]). apply (ok_more _ _ _ 9); [|lia].
      apply (flush_prog_ok _ _ _ (stands _ a) (Slips _ a) (HJ _ a) (HD _ a) 0 _ a); auto. intros a1 s1 _ Sl1 P1 Pf J1 Q1 Em1 T1 _.
      apply (ret_plain LFlush a (time s) 0 OUnit a1 (flushed a1)); cbn; auto; [discriminate|]. rewrite T1. lia.
    - apply all_prog_ok; auto. discriminate.
    - now apply open_prog_ok.
    - apply (ok_more _ _ _ 1); [|lia]. now apply single_ok.
    - apply (ok_more _ _ _ 1); [|lia]. now apply single_ok.
    - apply (ok_more _ _ _ 1); [|lia]. now apply single_ok.
  Qed.

  (** *** Turns *)
  Definition rank (s : state) : nat := match thr s with TRun _ => 2 | TPub => 1 | TIdle | TDead => 0 end.
  Lemma rank_finished s : finished St s = true <-> rank s = 0.
  Proof. unfold finished, rank. destruct (thr s); split; intros; (reflexivity || discriminate). Qed.
  Lemma work_rank s m t s' : work St s m t = Ok s' -> thr s' = t \/ thr s' = TIdle.
  Proof. unfold work. destruct (st_compact St _ _ m) as [[m' fr]| |]; intros E; try discriminate; injection E as <-; cbn [thr set_thr]; auto. Qed.
  Lemma bg_rank s t s' o : t <> Main -> lsm_step St s (thread_turn t) = Ok (s', o) -> rank s' <= rank s /\ (t = Publish -> rank s' <= 1) /\ (t = Finish -> rank s <= 1 -> rank s' = 0).
  Proof.
    intros N E. unfold rank. destruct t; cbn [thread_turn lsm_step] in E; try congruence; destruct (thr s) as [|m| |] eqn:Et; cbn [bind] in E.
    all: try (injection E as <- <-; cbn [set_thr thr]; rewrite ?Et; repeat split; intros; try discriminate; lia).
    destruct (work St s m TPub) as [s1| |] eqn:Ew; try discriminate. injection E as <- <-. destruct (work_rank _ _ _ _ Ew) as [-> | ->]; repeat split; intros; try discriminate; lia.
  Qed.
  Lemma thread_bg t : t <> Main -> is_bg (thread_turn t).
  Proof. destruct t; cbn; auto. Qed.

  Inductive wok : nat -> sp K V -> list op -> world -> Prop :=
  | wok_idle a ops s : inv a s -> jn s -> lim (time s + N.of_nat (length ops)) -> wok (longest + 2) a ops (mkWorld St s None ops)
  | wok_call n o a ops s t p : (forall s', env s s' -> ok (mid o a) (safe o a) (done o a t) n p s') -> lim (t + N.of_nat (length (o :: ops))) ->
      wok (S n) a (o :: ops) (mkWorld St s (Some p) ops).
  Definition stuck (t : turn) (ops : list op) (w w' : world) : Prop :=
    rank (w_map St w') <= rank (w_map St w) /\ (t = Publish -> rank (w_map St w') <= 1) /\ (t = Finish -> rank (w_map St w) <= 1 -> rank (w_map St w') = 0) /\
    (t = Main -> ops <> [] -> rank (w_map St w) <> 0).
  Definition csafe (a : sp K V) (o : option op) (s s' : state) : Prop :=
    exists R, (forall m, In m R -> exists b, midway slip a o b /\ In m (sp_recover b)) /\ moves St Inv qd R s s'.
  Lemma csafe_self a o b s s' : midway slip a o b -> inv b s -> log s' = log s -> fresh s' = fresh s -> time s' = time s -> csafe a o s s'.
  Proof. intros B I E1 E2 E3. exists (sp_recover b). split; [eauto|]. now apply (moves_same St Inv Comp qd). Qed.
  Lemma stands_midway o a b : stands o a b -> midway slip a (Some o) b.
  Proof. intros [X|(a1 & X & Y)]; [now left|right; eauto 10]. Qed.
  Lemma safe_csafe o a s s' : safe o a s s' -> csafe a (Some o) s s'.
  Proof. intros (R & X & M). exists R. split; [|exact M]. intros m Jm. destruct (X m Jm) as (b & Sb & Jb). eauto using stands_midway. Qed.

  Lemma turn_ok n a ops w t : wok n a ops w -> well_used a ops -> Forall (covered qd) ops ->
    exists w' outs, take_turn St w t = Ok (w', outs) /\ csafe a (hd_error ops) (w_map St w) (w_map St w') /\
      ((outs = [] /\ exists n', wok n' a ops w' /\ (n' < n \/ n' = n /\ stuck t ops w w')) \/
       (exists o ops' r a1 a2, ops = o :: ops' /\ outs = [r] /\ slip a a1 /\ answers a1 o r /\ slip (fst (lsm_spec_step a1 o)) a2 /\
          wok (longest + 2) a2 ops' w')).
  Proof.
    intros W Wu Co. assert (Dt : t = Main \/ t <> Main) by (destruct t; (now left) || (right; discriminate)). destruct Dt as [->|Nm].
    - destruct W as [a ops s I J Li|n o a ops s t0 p X Li]; cbn [take_turn w_call w_todo w_map].
      + destruct ops as [|o ops].
        * do 2 eexists. split; [reflexivity|]. split; [apply (csafe_self a _ a); auto; now left|]. left. split; [reflexivity|]. eexists. split; [constructor; eauto|]. right. split; [reflexivity|].
          repeat split; try discriminate; auto.
        * do 2 eexists. split; [reflexivity|]. cbn [w_map]. split; [apply (csafe_self a _ a); auto; now left|]. left. split; [reflexivity|]. exists (S longest). split; [|left; lia].
          destruct Wu as [Al _]. apply Forall_cons_iff in Co. destruct Co as [Co _]. apply (wok_call _ _ _ _ _ (time s)); [|exact Li]. intros s' En.
          assert (P : pre a s) by (split; [exact I|apply (lw_lim _ _ _ _ _ _ _ _ L _ _ Li); lia]). destruct (pre_env _ _ _ P En) as (P' & J' & R). rewrite <- (ry_time _ _ R).
          apply prog_ok; auto; [apply P'|]. rewrite (ry_time _ _ R). apply (lw_lim _ _ _ _ _ _ _ _ L _ _ Li). cbn [length]. lia.
      + pose proof (X s (env_refl s)) as X0. cbn [hd_error]. inversion X0 as [n' r s' M Q|n' f s' s1 p' M E Ds X1|n' p' s' M X1]; subst.
        * destruct Q as (a1 & a2 & S1 & So & S2 & I2 & J2 & T2). destruct M as (b & Sb & Ib & _). do 2 eexists. split; [reflexivity|]. cbn [w_map].
          split; [apply (csafe_self a _ b); auto using stands_midway|]. right. exists o, ops, r, a1, a2. repeat (split; [auto|]). constructor; auto.
          apply (lw_lim _ _ _ _ _ _ _ _ L _ _ Li). cbn [length]. lia.
        * rewrite E. cbn [bind]. do 2 eexists. split; [reflexivity|]. cbn [w_map]. split; [now apply safe_csafe|]. left. split; [reflexivity|]. exists (S n'). split; [|left; lia].
          apply (wok_call _ _ _ _ _ t0); auto.
        * destruct M as (b & Sb & Ib & Lb). destruct (finished St s) eqn:F.
          -- do 2 eexists. split; [reflexivity|]. cbn [w_map]. split; [apply (csafe_self a _ b); auto using stands_midway|]. left. split; [reflexivity|]. exists (S n'). split; [|left; lia].
             apply (wok_call _ _ _ _ _ t0); auto. intros s' En. destruct (env_ok _ _ _ Ib Lb En) as (_ & _ & R). rewrite (ry_fin _ _ R F). auto.
          -- do 2 eexists. split; [reflexivity|]. cbn [w_map]. split; [apply (csafe_self a _ b); auto using stands_midway|]. left. split; [reflexivity|].
             exists (S (S n')). split; [apply (wok_call _ _ _ _ _ t0); auto|]. right. split; [reflexivity|]. repeat split; try discriminate; auto. cbn [w_map]. intros _ _ E0.
             apply rank_finished in E0. congruence.
    - assert (Et : take_turn St w t = (let* (s, _) := lsm_step St (w_map St w) (thread_turn t) in Ok (mkWorld St s (w_call St w) (w_todo St w), []))) by (destruct t; auto; congruence).
      rewrite Et. clear Et. destruct W as [a ops s I J Li|n o a ops s t0 p X Li]; cbn [w_call w_todo w_map].
      + assert (Lt : lim (time s)) by (apply (lw_lim _ _ _ _ _ _ _ _ L _ _ Li); lia). destruct (bg_ok a s _ I Lt (thread_bg t Nm)) as (s' & o & E & I' & J' & R & M). rewrite E. cbn [bind].
        do 2 eexists. split; [reflexivity|]. cbn [w_map]. split; [exists (sp_recover a); split; [intros m Jm; exists a; split; [now left|exact Jm]|exact M]|]. left. split; [reflexivity|]. exists (longest + 2).
        split; [constructor; auto; now rewrite (ry_time _ _ R)|]. right. split; [reflexivity|]. destruct (bg_rank _ _ _ _ Nm E) as (A & B & D). repeat split; auto.
      + destruct (ok_J _ _ _ _ _ _ (X s (env_refl s))) as (b & Sb & Ib & Lb). destruct (bg_ok b s _ Ib Lb (thread_bg t Nm)) as (s' & o' & E & I' & J' & R & M). rewrite E. cbn [bind].
        do 2 eexists. split; [reflexivity|]. cbn [w_map hd_error]. split; [exists (sp_recover b); split; [eauto using stands_midway|exact M]|]. left. split; [reflexivity|]. exists (S n).
        split; [apply (wok_call _ _ _ _ _ t0); auto; intros s'' En; apply X; eapply env_step; [apply (thread_bg t Nm)|exact E|exact En]|].
        right. split; [reflexivity|]. destruct (bg_rank _ _ _ _ Nm E) as (A & B & D). repeat split; auto.
  Qed.
  Lemma used_slips a a1 a2 o ops : slip a a1 -> slip (fst (lsm_spec_step a1 o)) a2 -> well_used (fst (lsm_spec_step a o)) ops -> well_used a2 ops.
  Proof.
    intros S1 S2 W. pose proof (slip_like St Inv Comp qd False lim less slip L) as Sl. apply (like_used ops _ _ (Sl _ _ S2)), (like_used ops _ _ (like_step _ _ o (Sl _ _ S1))), W.
  Qed.
  Lemma turns_ok ts : forall n a ops w, wok n a ops w -> well_used a ops -> Forall (covered qd) ops ->
    exists w' outs a' n', take_turns St w ts = Ok (w', outs) /\ loosely slip a (firstn (length outs) ops) outs a' /\ wok n' a' (skipn (length outs) ops) w' /\
      well_used a' (skipn (length outs) ops) /\ Forall (covered qd) (skipn (length outs) ops).
  Proof.
    induction ts as [|t ts IH]; intros n a ops w W Wu Co; cbn [take_turns].
    - exists w, [], a, n. cbn. split; [reflexivity|]. split; [constructor|auto].
    - destruct (turn_ok n a ops w t W Wu Co) as (w1 & o1 & E & _ & [(-> & n' & W1 & _)|(o & ops' & r & a1 & a2 & -> & -> & S1 & So & S2 & W1)]); rewrite E; cbn [bind].
      + destruct (IH _ _ _ _ W1 Wu Co) as (w2 & outs & a' & n2 & E2 & Lo & R). rewrite E2. cbn [bind app]. exists w2, outs, a', n2. auto.
      + apply Forall_cons_iff in Co. destruct Co as [_ Co]. destruct Wu as [_ Wu]. destruct (IH _ _ _ _ W1 (used_slips _ _ _ _ _ S1 S2 Wu) Co) as (w2 & outs & a' & n2 & E2 & Lo & R).
        rewrite E2. cbn [bind app]. exists w2, (r :: outs), a', n2. split; [reflexivity|]. split; [|exact R]. cbn [length firstn]. econstructor; eauto.
  Qed.

  (** *** Every call returns *)
  Lemma cycles_mono ts : cycles 0 ts <= cycles 1 ts /\ cycles 1 ts <= cycles 2 ts /\ cycles 2 ts <= S (cycles 0 ts).
  Proof. induction ts as [|[] ts IH]; cbn [cycles]; lia. Qed.
  Lemma cycles_ok ts : forall st n a ops w w' outs k, wok n a ops w -> well_used a ops -> Forall (covered qd) ops -> st <= 2 -> rank (w_map St w) <= 2 - st ->
    take_turns St w ts = Ok (w', outs) -> n + (longest + 2) * k <= cycles st ts -> S k <= length ops -> S k <= length outs.
  Proof.
    induction ts as [|t ts IH]; intros st n a ops w w' outs k W Wu Co Ls Rk E Ro Lk.
    - exfalso. assert (n <> 0) by (destruct W; discriminate). cbn [cycles] in Ro. lia.
    - cbn [take_turns] in E. destruct (turn_ok n a ops w t W Wu Co) as (w1 & o1 & E1 & _ & X). rewrite E1 in E. cbn [bind] in E.
      destruct (take_turns St w1 ts) as [[w2 o2]| |] eqn:E2; try discriminate. cbn [bind] in E. injection E as <- <-.
      assert (Rs : cycles st (t :: ts) <= S (cycles 0 ts)).
      { pose proof (cycles_mono ts). destruct st as [|[|[|st]]]; [| | |lia]; cbn [cycles]; destruct t; lia. }
      assert (Rk1 : rank (w_map St w1) <= 2 - 0) by (unfold rank; destruct (thr (w_map St w1)); lia).
      destruct X as [(-> & n' & W1 & [Lt|[-> (A & B & D & F)]])|(o & ops' & r & a1 & a2 & -> & -> & S1 & So & S2 & W1)]; cbn [app].
      + apply (IH 0 n' a ops w1 w2 o2 k); auto; lia.
      + assert (Ne : ops <> []) by (destruct ops; [cbn in Lk; lia|discriminate]). pose proof (cycles_mono ts) as Mo.
        destruct st as [|[|[|st]]]; [| | |lia]; cbn [cycles] in Ro.
        * destruct t; try (apply (IH 0 n a ops w1 w2 o2 k); auto; lia). apply (IH 1 n a ops w1 w2 o2 k); auto.
        * destruct t; try (apply (IH 1 n a ops w1 w2 o2 k); auto; lia). apply (IH 2 n a ops w1 w2 o2 k); auto. rewrite D; auto; lia.
        * destruct t; try (apply (IH 2 n a ops w1 w2 o2 k); auto; lia). exfalso. apply F; auto. lia.
      + cbn [length] in *. destruct k as [|k]; [lia|]. apply le_n_S. apply Forall_cons_iff in Co. destruct Co as [_ Co]. destruct Wu as [_ Wu].
        assert (n <> 0) by (destruct W; discriminate). apply (IH 0 (longest + 2) a2 ops' w1 w2 o2 k); auto; [exact (used_slips _ _ _ _ _ S1 S2 Wu)|unfold longest in *; lia|lia].
  Qed.

  (** *** Tables that the thread reads are there. *)
  Lemma thread_tables n a ops w m : wok n a ops w -> thr (w_map St w) = TRun m -> forall t, In t (st_tables St m) -> In (t_id t) (d_dirs (disk_of (log (w_map St w)))).
  Proof.
    intros W Et t J. assert (X : exists b, inv b (w_map St w)).
    { destruct W as [a ops s I Js Li|n o a ops s t0 p X Li]; cbn [w_map]; [eauto|]. destruct (ok_J _ _ _ _ _ _ (X s (env_refl s))) as (b & Sb & Ib & Lb). eauto. }
    destruct X as (b & I). destruct (iv_thr _ _ _ _ _ _ I _ Et) as (_ & _ & ts & G). destruct G as (Ec & _). pose proof (iv_has _ _ _ _ _ _ I) as Hs. rewrite Ec in Hs.
    pose proof (tables_grown St Inv Comp qd False lim less slip L ts m) as P. assert (Jt : In t (st_tables St (fold_left (st_push St) ts m))) by (eapply Permutation_in; [symmetry; exact P|apply in_app_iff; auto]).
    pose proof (proj1 (Forall_forall _ _) Hs t Jt) as Y. cbn beta in Y. unfold t_ok, has, has_dir in Y. apply existsb_exists in Y. destruct Y as (x & Jx & Ex). apply Nat.eqb_eq in Ex. now subst x.
  Qed.
End Thread.
