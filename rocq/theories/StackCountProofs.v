(** The histories of TreiberStack are exactly those of an atomic stack with a counter that is updated later. *)
From Coq Require Import Permutation.
From Verif Require Export StackProofs.

Section StackCountProofs.
  Context {T : Type}.
  Notation state := (sstate T).
  Implicit Types (s : state) (t u a p : nat) (kth : nat -> kstatus T).

  Definition on_node (h : nat -> option (snode T)) a (f : T -> kstatus T) : kstatus T :=
    match h a with Some n => f (n_value n) | None => KIdle end.
  Definition kloc (h : nat -> option (snode T)) (l : loc T) : kstatus T :=
    match l with
    | Idle => KIdle
    | PushNew v => KCalled (CPush v)
    | PushLoad a | PushStore a _ | PushCas a _ => on_node h a (fun v => KCalled (CPush v))
    | PushAdd => KEffect OUnit
    | PopPin | PopLoad | PopNext _ | PopCas _ _ => KCalled CPop
    | PopSub p => on_node h p (fun v => KEffect (OPop (Some v)))
    | PopDefer p | PopRead p => on_node h p (fun v => KDone (OPop (Some v)))
    | LenLoad => KCalled CLen
    | Done o => KDone o
    end.
  Definition kst s t : kstatus T := kloc (st_heap s) (st_threads s t).
  Definition held (l : loc T) : option nat :=
    match l with PushLoad a | PushStore a _ | PushCas a _ | PopSub a | PopDefer a | PopRead a => Some a | _ => None end.

  Lemma kloc_frame (h h' : nat -> option (snode T)) l :
    (forall a, held l = Some a -> option_map n_value (h' a) = option_map n_value (h a)) -> kloc h' l = kloc h l.
  Proof.
    intros X. destruct l; cbn [kloc held] in *; auto; specialize (X _ eq_refl); unfold on_node;
      match goal with |- context [h' ?a] => destruct (h' a), (h a) end; cbn [option_map] in X; try discriminate; auto; now injection X as ->.
  Qed.
  Lemma held_own s own addrs vs th u a : inv s own addrs vs th -> held (st_threads s u) = Some a ->
    own a = UPriv u \/ own a = UPop u \/ exists W, own a = URet W /\ In u W.
  Proof.
    intros I X. pose proof (i_loc _ _ _ _ _ I u) as L. destruct (st_threads s u); cbn [held loc_ok] in *; try discriminate;
      injection X as ->; [left|left|left|right; left|right; left|right; right]; tauto.
  Qed.
  Lemma chain_fun (h : nat -> option (snode T)) x l vs : chain h x l vs -> forall l' vs', chain h x l' vs' -> vs' = vs.
  Proof.
    induction 1 as [|a v n l vs E C IH]; intros l' vs' C'; inversion C'; subst; auto.
    match goal with X : h a = _ |- _ => rewrite E in X; injection X as <- <- end. f_equal. eauto.
  Qed.

  Lemma step_counted s own addrs vs th lb s' evs own' addrs' vs' th' kth : inv s own addrs vs th ->
    stack_step s lb = Ok (s', evs) -> inv s' own' addrs' vs' th' -> (forall t, kth t = kst s t) ->
    exists kth', (forall t, kth' t = kst s' t) /\ counted_run vs (st_len s) kth (history evs) vs' (st_len s') kth'.
  Proof.
    intros I E I' KE. pose proof I as [A1 A2 A3 A4 A5 A6 A7 A8 A9 A10 A11 A12].
    pose proof (i_chain _ _ _ _ _ I') as C'.
    assert (Hn : forall u a, held (st_threads s u) = Some a -> exists n, st_heap s a = Some n /\ own a <> UStk).
    { intros u a Ha. destruct (st_heap s a) as [n|] eqn:En.
      - exists n. split; [reflexivity|]. destruct (held_own _ _ _ _ _ u a I Ha) as [O|[O|(W & O & _)]]; congruence.
      - exfalso. apply A1 in En. destruct (held_own _ _ _ _ _ u a I Ha) as [O|[O|(W & O & _)]]; congruence. }
    assert (Same : st_head s' = st_head s -> (forall a, own a = UStk -> st_heap s' a = st_heap s a) -> vs' = vs).
    { intros E2 X. rewrite E2 in C'. eapply chain_fun; [|exact C']. apply (chain_ext (st_heap s)); [exact A2|].
      intros a Ia. apply X. now apply A3. }
    set (keeps := forall a n, st_heap s a = Some n -> option_map n_value (st_heap s' a) = Some (n_value n)).
    assert (Hs : st_heap s' = st_heap s -> keeps) by (intros Q a n En; rewrite Q, En; reflexivity).
    assert (Oth : keeps -> forall t l, st_threads s' = update (st_threads s) t l -> forall u, u <> t -> kth u = kst s' u).
    { intros VP t l Et u N. rewrite KE. unfold kst. rewrite Et, update_other by exact N. symmetry. apply kloc_frame.
      intros a Ha. destruct (Hn u a Ha) as (n & En & _). rewrite En. cbn [option_map]. now apply VP. }
    assert (Silent : keeps -> forall t l, st_threads s' = update (st_threads s) t l -> st_head s' = st_head s ->
      (forall a, own a = UStk -> st_heap s' a = st_heap s a) -> st_len s' = st_len s -> evs = [] -> kth t = kst s' t ->
      exists kth', (forall t, kth' t = kst s' t) /\ counted_run vs (st_len s) kth (history evs) vs' (st_len s') kth').
    { intros VP t l Et Hh Hu Hl -> Kt. exists kth. split.
      - intros u. destruct (Nat.eq_dec u t) as [->|N]; [exact Kt|exact (Oth VP t l Et u N)].
      - rewrite (Same Hh Hu), Hl. constructor. }
    assert (Visible : keeps -> forall t l k, st_threads s' = update (st_threads s) t l -> k = kst s' t ->
      counted_run vs (st_len s) kth (history evs) vs' (st_len s') (update kth t k) ->
      exists kth', (forall t, kth' t = kst s' t) /\ counted_run vs (st_len s) kth (history evs) vs' (st_len s') kth').
    { intros VP t l k Et Ek R. exists (update kth t k). split; [|exact R].
      intros u. destruct (Nat.eq_dec u t) as [->|N]; [now rewrite update_same|rewrite update_other by exact N; exact (Oth VP t l Et u N)]. }
    assert (Nop : s' = s -> evs = [] ->
      exists kth', (forall t, kth' t = kst s' t) /\ counted_run vs (st_len s) kth (history evs) vs' (st_len s') kth').
    { intros -> ->. exists kth. split; [exact KE|]. rewrite (Same eq_refl ltac:(auto)). constructor. }
    destruct lb as [t c|t a|a]; cbn [stack_step] in E.
    - destruct (st_threads s t) eqn:Et; try (injection E as <- <-; apply Nop; reflexivity).
      injection E as <- <-. eapply Visible; [now apply Hs|reflexivity| |].
      + unfold kst. cbn. rewrite update_same. instantiate (1 := KCalled c). destruct c; reflexivity.
      + rewrite (Same eq_refl ltac:(auto)). cbn. apply k_call; [rewrite KE; unfold kst; now rewrite Et|constructor].
    - pose proof (A7 t) as L. assert (Kt : kth t = kloc (st_heap s) (st_threads s t)) by apply KE.
      destruct (st_threads s t) as [|v|b|b h|b h| | | |p|p n|p|p|p| |o] eqn:Et; cbn [kloc loc_ok] in Kt, L.
      + injection E as <- <-. now apply Nop.
      + destruct (st_heap s a) eqn:Ea; injection E as <- <-; [now apply Nop|].
        assert (Ne : forall b n, st_heap s b = Some n -> update (st_heap s) a (Some (SNode v None)) b = Some n)
          by (intros b n Eb; rewrite update_other by congruence; exact Eb).
        eapply Silent; try reflexivity.
        * intros b n Eb. cbn. now rewrite (Ne b n Eb).
        * intros b Ob. cbn. apply update_other. intros ->. apply A1 in Ea. congruence.
        * rewrite Kt. unfold kst. cbn. rewrite update_same. cbn. unfold on_node. now rewrite update_same.
      + injection E as <- <-. eapply Silent; try reflexivity; [now apply Hs|]. rewrite Kt. unfold kst. cbn. rewrite update_same. reflexivity.
      + destruct L as (O & v & n & Eb & _). rewrite Eb in E. injection E as <- <-. eapply Silent; try reflexivity.
        * intros a' n' Ea. cbn. destruct (Nat.eq_dec a' b) as [->|N]; [rewrite update_same, Ea in *; injection Eb as ->; reflexivity|rewrite update_other by exact N; now rewrite Ea].
        * intros a' Oa. cbn. apply update_other. congruence.
        * rewrite Kt. unfold kst. cbn. rewrite update_same. cbn. unfold on_node. rewrite update_same. now rewrite Eb.
      + destruct (opt_eqb (st_head s) h) eqn:Eo; injection E as <- <-.
        * apply opt_eqb_eq in Eo. subst h. destruct L as (O & v & Eb & _). eapply Visible; [now apply Hs|reflexivity| |].
          -- unfold kst. cbn. rewrite update_same. reflexivity.
          -- cbn in C' |- *. rewrite (chain_fun _ _ _ _ (chain_cons _ _ _ _ _ _ Eb A2) _ _ C').
             apply k_push with t v; [rewrite Kt; unfold on_node; now rewrite Eb|constructor].
        * eapply Silent; try reflexivity; [now apply Hs|]. rewrite Kt. unfold kst. cbn. rewrite update_same. reflexivity.
      + injection E as <- <-. eapply Visible; [now apply Hs|reflexivity| |].
        * unfold kst. cbn. rewrite update_same. reflexivity.
        * rewrite (Same eq_refl ltac:(auto)). apply k_add with t; [exact Kt|constructor].
      + injection E as <- <-. eapply Silent; try reflexivity; [now apply Hs|]. rewrite Kt. unfold kst. cbn. rewrite update_same. reflexivity.
      + destruct (st_head s) as [p|] eqn:Eh; injection E as <- <-.
        * eapply Silent; try reflexivity; [now apply Hs|exact Eh|]. rewrite Kt. unfold kst. cbn. rewrite update_same. reflexivity.
        * eapply Visible; [now apply Hs|reflexivity| |].
          -- unfold kst. cbn. rewrite update_same. reflexivity.
          -- rewrite (Same Eh ltac:(auto)). inversion A2; subst. apply k_pop_empty with t; [exact Kt|constructor].
      + destruct (st_heap s p) as [n|] eqn:Ep; [|discriminate]. injection E as <- <-.
        eapply Silent; try reflexivity; [now apply Hs|]. rewrite Kt. unfold kst. cbn. rewrite update_same. reflexivity.
      + destruct (opt_eqb (st_head s) (Some p)) eqn:Eo; injection E as <- <-.
        * apply opt_eqb_eq in Eo. destruct L as (_ & (v & Ep) & _). rewrite Eo in A2. inversion A2 as [|x v0 n0 l0 vs0 Ep0 Ch]; subst.
          rewrite Ep in Ep0. injection Ep0 as <- <-. eapply Visible; [now apply Hs|reflexivity| |].
          -- unfold kst. cbn. rewrite update_same. cbn. unfold on_node. rewrite Ep. reflexivity.
          -- cbn in C' |- *. rewrite (chain_fun _ _ _ _ Ch _ _ C'). apply k_pop with t; [exact Kt|constructor].
        * eapply Silent; try reflexivity; [now apply Hs|]. rewrite Kt. unfold kst. cbn. rewrite update_same. reflexivity.
      + injection E as <- <-. destruct L as (_ & v & n & Ep & _). unfold on_node in Kt. rewrite Ep in Kt. cbn in Kt.
        eapply Visible; [now apply Hs|reflexivity| |].
        * unfold kst. cbn. rewrite update_same. cbn. unfold on_node. rewrite Ep. reflexivity.
        * rewrite (Same eq_refl ltac:(auto)). apply k_sub with t v; [exact Kt|constructor].
      + injection E as <- <-. eapply Silent; try reflexivity; [now apply Hs|]. rewrite Kt. unfold kst. cbn. rewrite update_same. reflexivity.
      + destruct (st_heap s p) as [n|] eqn:Ep; [|discriminate]. injection E as <- <-.
        eapply Silent; try reflexivity; [now apply Hs|]. rewrite Kt. unfold kst. cbn. rewrite update_same. unfold on_node. now rewrite Ep.
      + injection E as <- <-. eapply Visible; [now apply Hs|reflexivity| |].
        * unfold kst. cbn. rewrite update_same. reflexivity.
        * rewrite (Same eq_refl ltac:(auto)). apply k_len with t; [exact Kt|constructor].
      + injection E as <- <-. eapply Visible; [now apply Hs|reflexivity| |].
        * unfold kst. cbn. rewrite update_same. reflexivity.
        * rewrite (Same eq_refl ltac:(auto)). cbn. apply k_return; [exact Kt|constructor].
    - destruct (find _ (st_retired s)) as [[a' W]|] eqn:Ef; [|injection E as <- <-; now apply Nop].
      apply find_some in Ef as [Ir Ef]. cbn [fst snd] in Ef. apply Bool.andb_true_iff in Ef as [Ea Ew]. apply Nat.eqb_eq in Ea. subst a'.
      destruct W; [|discriminate]. apply A5 in Ir. destruct (st_heap s a) as [n|] eqn:En; [|discriminate]. injection E as <- <-.
      exists kth. split.
      + intros u. rewrite KE. unfold kst. cbn. symmetry. apply kloc_frame. intros b Hb. rewrite update_other; [reflexivity|]. intros ->.
        destruct (held_own _ _ _ _ _ u a I Hb) as [O|[O|(W & O & Iw)]]; try congruence. rewrite Ir in O. injection O as <-. destruct Iw.
      + rewrite (Same eq_refl); [constructor|]. intros b Ob. cbn. apply update_other. congruence.
  Qed.

  Lemma counted_app (vs : list T) n th h vs1 n1 th1 h2 vs2 n2 th2 :
    counted_run vs n th h vs1 n1 th1 -> counted_run vs1 n1 th1 h2 vs2 n2 th2 -> counted_run vs n th (h ++ h2) vs2 n2 th2.
  Proof.
    induction 1; intros R; simpl; auto;
      [eapply k_call|eapply k_return|eapply k_push|eapply k_pop|eapply k_pop_empty|eapply k_add|eapply k_sub|eapply k_len]; eauto.
  Qed.
  Lemma exec_counted ls : forall s own addrs vs th kth, inv s own addrs vs th -> (forall t, kth t = kst s t) ->
    exists s' tr own' addrs' vs' th' kth', exec s ls = Ok (s', tr) /\ inv s' own' addrs' vs' th' /\ (forall t, kth' t = kst s' t) /\
      counted_run vs (st_len s) kth (history tr) vs' (st_len s') kth'.
  Proof.
    induction ls as [|lb ls IH]; intros s own addrs vs th kth I Kt.
    - exists s, [], own, addrs, vs, th, kth. split; [reflexivity|]. split; [exact I|]. split; [exact Kt | constructor].
    - destruct (step_ok s own addrs vs th lb I) as (s1 & e1 & own1 & ad1 & vs1 & th1 & E1 & I1 & _).
      destruct (step_counted _ _ _ _ _ _ _ _ _ _ _ _ kth I E1 I1 Kt) as (kth1 & Kt1 & R1).
      destruct (IH _ _ _ _ _ kth1 I1 Kt1) as (s2 & e2 & own2 & ad2 & vs2 & th2 & kth2 & E2 & I2 & Kt2 & R2).
      exists s2, (e1 ++ e2), own2, ad2, vs2, th2, kth2. split; [cbn [exec]; rewrite E1; cbn [bind]; rewrite E2; reflexivity|].
      split; [exact I2|]. split; [exact Kt2|]. rewrite history_app. eapply counted_app; eauto.
  Qed.
  Theorem stack_counted ls s tr : exec (T:=T) stack_new ls = Ok (s, tr) -> counted (history tr).
  Proof.
    intros E. destruct (exec_counted ls _ _ _ _ _ (fun _ => KIdle) inv_init ltac:(reflexivity)) as (s' & tr' & ? & ? & vs' & th' & kth' & E' & _ & _ & R).
    rewrite E in E'. injection E' as <- <-. eexists _, _, _. exact R.
  Qed.

  (** ** Conversely: every history of the atomic stack with the late counter happens under some schedule *)
  Definition at_loc (h : nat -> option (snode T)) (k : kstatus T) (l : loc T) : Prop :=
    match k with
    | KIdle => l = Idle
    | KCalled (CPush v) => l = PushNew v
    | KCalled CPop => l = PopPin
    | KCalled CLen => l = LenLoad
    | KEffect OUnit => l = PushAdd
    | KEffect (OPop (Some v)) => exists p n, l = PopSub p /\ h p = Some (SNode v n)
    | KEffect _ => False
    | KDone o => l = Done o
    end.
  Record sim s (vs : list T) (n : N) kth : Prop := {
    m_chain : exists addrs, chain (st_heap s) (st_head s) addrs vs;
    m_len : st_len s = n;
    m_room : exists b, forall a, b <= a -> st_heap s a = None;
    m_loc : forall t, at_loc (st_heap s) (kth t) (st_threads s t)
  }.

  Lemma at_loc_frame (h h' : nat -> option (snode T)) k l : (forall a n, h a = Some n -> h' a = Some n) -> at_loc h k l -> at_loc h' k l.
  Proof.
    intros X. destruct k as [|[v| |]|[|[v|]|m]|o]; cbn [at_loc]; auto. intros (p & n & E & Ep). exists p, n. auto.
  Qed.
  Lemma locs_update (h h' : nat -> option (snode T)) kth (f : nat -> loc T) t k l : (forall a n, h a = Some n -> h' a = Some n) ->
    (forall u, at_loc h (kth u) (f u)) -> at_loc h' k l -> forall u, at_loc h' (update kth t k u) (update f t l u).
  Proof.
    intros X M Mt u. destruct (Nat.eq_dec u t) as [->|N]; [now rewrite !update_same|]. rewrite !update_other by exact N.
    eapply at_loc_frame; eauto.
  Qed.
  Lemma update_twice {A} (f : nat -> A) i x y u : update (update f i x) i y u = update f i y u.
  Proof. unfold update. now destruct (u =? i). Qed.

  Ltac go := repeat (cbn [bind set_loc st_threads pin unpin set_head set_len set_retired set_heap st_head st_heap st_len st_pinned st_retired n_next n_value]; rewrite ?update_same).

  Lemma sim_push s vs n kth t v : sim s vs n kth -> kth t = KCalled (CPush v) -> exists ls s1, exec s ls = Ok (s1, []) /\
    sim s1 (v :: vs) n (update kth t (KEffect OUnit)).
  Proof.
    intros [(addrs & Ch) Ln (b & Rm) Lc] Kt. pose proof (Lc t) as Lt. rewrite Kt in Lt. cbn [at_loc] in Lt.
    exists [LStep t b; LStep t 0; LStep t 0; LStep t 0]. eexists. split.
    - cbn [exec stack_step]. rewrite Lt, (Rm b (le_n b)). go. rewrite opt_eqb_refl. go. reflexivity.
    - assert (Kp : forall a n, st_heap s a = Some n -> update (update (st_heap s) b (Some (SNode v None))) b (Some (SNode v (st_head s))) a = Some n).
      { intros a m Ea. rewrite update_twice, update_other; auto. intros ->. rewrite Rm in Ea by lia. discriminate. }
      constructor; cbn [set_loc st_threads pin set_head set_heap st_head st_heap st_len].
      + exists (b :: addrs). apply chain_cons with (st_head s); [apply update_same|]. apply (chain_ext (st_heap s)); [exact Ch|].
        intros a Ia. assert (Q : exists m, st_heap s a = Some m).
        { clear -Ch Ia. induction Ch as [|a' v n l vs E C IH]; [destruct Ia|]. destruct Ia as [<-|Ia]; eauto. }
        destruct Q as (m & Q). now rewrite (Kp _ _ Q).
      + exact Ln.
      + exists (S b). intros a La. rewrite update_twice, update_other by lia. apply Rm. lia.
      + intros u. rewrite !update_twice. now apply (locs_update (st_heap s)).
  Qed.
  Lemma sim_pop s vs n kth t v : sim s (v :: vs) n kth -> kth t = KCalled CPop -> exists ls s1, exec s ls = Ok (s1, []) /\
    sim s1 vs n (update kth t (KEffect (OPop (Some v)))).
  Proof.
    intros [(addrs & Ch) Ln Rm Lc] Kt. pose proof (Lc t) as Lt. rewrite Kt in Lt. cbn [at_loc] in Lt.
    inversion Ch as [|p v0 nx l vs0 Ep Ch' Eh E1 E2]; subst v0 vs0.
    exists [LStep t 0; LStep t 0; LStep t 0; LStep t 0]. eexists. split.
    - cbn [exec stack_step]. rewrite Lt. go. rewrite <- Eh. go. rewrite Ep. go. rewrite <- Eh, opt_eqb_refl. go. reflexivity.
    - constructor; cbn [set_loc st_threads pin set_head set_heap st_head st_heap st_len]; eauto.
      intros u. rewrite !update_twice. apply (locs_update (st_heap s)); auto. cbn [at_loc]. eauto.
  Qed.
  Lemma sim_pop_empty s n kth t : sim s [] n kth -> kth t = KCalled CPop -> exists ls s1, exec s ls = Ok (s1, []) /\
    sim s1 [] n (update kth t (KDone (OPop None))).
  Proof.
    intros [(addrs & Ch) Ln Rm Lc] Kt. pose proof (Lc t) as Lt. rewrite Kt in Lt. cbn [at_loc] in Lt. inversion Ch as [Eh|]; subst addrs.
    exists [LStep t 0; LStep t 0]. eexists. split.
    - cbn [exec stack_step]. rewrite Lt. go. rewrite <- Eh. go. reflexivity.
    - constructor; cbn [set_loc st_threads pin set_head set_heap st_head st_heap st_len]; eauto.
      intros u. rewrite !update_twice. now apply (locs_update (st_heap s)).
  Qed.
  Lemma sim_sub s vs n kth t v : sim s vs n kth -> kth t = KEffect (OPop (Some v)) -> exists ls s1, exec s ls = Ok (s1, []) /\
    sim s1 vs ((n + (2 ^ 64 - 1)) mod 2 ^ 64) (update kth t (KDone (OPop (Some v)))).
  Proof.
    intros [(addrs & Ch) Ln Rm Lc] Kt. pose proof (Lc t) as Lt. rewrite Kt in Lt. cbn [at_loc] in Lt. destruct Lt as (p & nx & Lt & Ep).
    exists [LStep t 0; LStep t 0; LStep t 0]. eexists. split.
    - cbn [exec stack_step]. rewrite Lt. go. rewrite Ep. go. reflexivity.
    - constructor; cbn [set_loc st_threads pin set_head set_heap set_retired set_len st_head st_heap st_len]; eauto.
      + now rewrite Ln.
      + intros u. rewrite !update_twice. now apply (locs_update (st_heap s)).
  Qed.

  Lemma counted_exec (vs : list T) n kth h vs' n' kth' : counted_run vs n kth h vs' n' kth' ->
    forall s, sim s vs n kth -> exists ls s', exec s ls = Ok (s', h).
  Proof.
    assert (Seq : forall s ls1 s1 e h2, exec s ls1 = Ok (s1, e) -> (exists ls s', exec s1 ls = Ok (s', h2)) -> exists ls s', exec s ls = Ok (s', e ++ h2)).
    { intros s ls1 s1 e h2 E1 (ls & s' & E2). exists (ls1 ++ ls), s'. eapply exec_app; eauto. }
    induction 1 as [vs n th|vs n th t c h vs' n' th' Kt _ IH|vs n th t o h vs' n' th' Kt _ IH|vs n th t v h vs' n' th' Kt _ IH
      |vs n th t v h vs' n' th' Kt _ IH|n th t h vs' n' th' Kt _ IH|vs n th t h vs' n' th' Kt _ IH|vs n th t v h vs' n' th' Kt _ IH
      |vs n th t h vs' n' th' Kt _ IH]; intros s M.
    - exists [], s. reflexivity.
    - pose proof M as [Ch Ln Rm Lc]. pose proof (Lc t) as Lt. rewrite Kt in Lt. cbn [at_loc] in Lt.
      apply (Seq s [LCall t c] (set_loc s t (match c with CPush v => PushNew v | CPop => PopPin | CLen => LenLoad end)) [EInv t c]).
      + cbn [exec stack_step]. rewrite Lt. reflexivity.
      + apply IH. constructor; auto. cbn. apply (locs_update (st_heap s)); auto. destruct c; reflexivity.
    - pose proof M as [Ch Ln Rm Lc]. pose proof (Lc t) as Lt. rewrite Kt in Lt. cbn [at_loc] in Lt.
      apply (Seq s [LStep t 0] (set_loc (unpin s t) t Idle) [ERet t o]).
      + cbn [exec stack_step]. rewrite Lt. reflexivity.
      + apply IH. constructor; auto. cbn. now apply (locs_update (st_heap s)).
    - destruct (sim_push _ _ _ _ t v M Kt) as (ls & s1 & E1 & M1). exact (Seq _ _ _ [] _ E1 (IH s1 M1)).
    - destruct (sim_pop _ _ _ _ t v M Kt) as (ls & s1 & E1 & M1). exact (Seq _ _ _ [] _ E1 (IH s1 M1)).
    - destruct (sim_pop_empty _ _ _ t M Kt) as (ls & s1 & E1 & M1). exact (Seq _ _ _ [] _ E1 (IH s1 M1)).
    - pose proof M as [Ch Ln Rm Lc]. pose proof (Lc t) as Lt. rewrite Kt in Lt. cbn [at_loc] in Lt.
      apply (Seq s [LStep t 0] (set_loc (set_len s ((st_len s + 1) mod two64)) t (Done OUnit)) []).
      + cbn [exec stack_step]. rewrite Lt. reflexivity.
      + apply IH. constructor; auto; cbn; [now rewrite Ln|now apply (locs_update (st_heap s))].
    - destruct (sim_sub _ _ _ _ t v M Kt) as (ls & s1 & E1 & M1). exact (Seq _ _ _ [] _ E1 (IH s1 M1)).
    - pose proof M as [Ch Ln Rm Lc]. pose proof (Lc t) as Lt. rewrite Kt in Lt. cbn [at_loc] in Lt.
      apply (Seq s [LStep t 0] (set_loc s t (Done (OLen (st_len s)))) []).
      + cbn [exec stack_step]. rewrite Lt. reflexivity.
      + apply IH. constructor; auto. cbn. apply (locs_update (st_heap s)); auto. now rewrite Ln.
  Qed.
  Theorem stack_counted_all (h : list (stack_event T)) : counted h -> exists ls s, exec stack_new ls = Ok (s, h).
  Proof.
    intros (vs & n & th & R). apply (counted_exec _ _ _ _ _ _ _ R stack_new). constructor; cbn.
    - exists []. constructor.
    - reflexivity.
    - exists 0. auto.
    - reflexivity.
  Qed.
End StackCountProofs.
