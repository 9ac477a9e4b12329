(** TreiberStack on memory with views: every step, every execution *)
From Verif Require Export StackWeakLenProofs.
From Coq Require Import Lia Permutation.

Section Step.
  Context {T : Type}.
  Notation state := (wstate T).
  Notation loc := (loc T).
  Notation segs := (nat -> list (nat * stack_out T)).

  Definition good (s : state) (ob : wobs T) : Prop := exists g seg cnt, safe s g /\ lin s g ob seg /\ lens s ob seg cnt.
  Definition steps_well (s : state) (ob : wobs T) (r : res (state * list (wevent T))) : Prop :=
    exists s' e, r = Ok (s', e) /\ good s' (fold_left observe e ob).

  Lemma stay s ob : good s ob -> steps_well s ob (Ok (s, [])).
  Proof. intros G. exists s, []. auto. Qed.
  Lemma views_thread (s : state) t v : vle (w_view s t) v -> forall u, vle (w_view s u) (update (w_view s) t v u).
  Proof. intros L u. destruct (Nat.eq_dec u t) as [->|N]; [now rewrite update_eq|rewrite update_ne by exact N; apply vle_refl]. Qed.
  (** A thread moves; nothing is decided. *)
  Lemma move s g ob seg cnt t l v : safe s g -> lin s g ob seg -> lens s ob seg cnt -> vle (w_view s t) v -> loc_ok s g t v l ->
    (made l = None \/ made l = made (w_thread s t)) -> (taken l = None \/ taken l = taken (w_thread s t)) -> fits s ob seg t v l -> tallied s ob cnt t v l ->
    steps_well s ob (Ok (set_thread s t l v, [])).
  Proof.
    intros S L M Le Lo Ma Ta Ft Fn. eexists _, []. split; [reflexivity|]. exists g, seg, cnt. split; [now apply safe_thread|].
    assert (Th : forall u, u <> t -> w_thread (set_thread s t l v) u = w_thread s u) by (intros u N; cbn; now apply update_ne).
    split; [eapply (lin_move s _ g ob seg t)|eapply (lens_move s _ ob seg seg cnt t)]; eauto using views_thread.
    - exact (views_thread s t _ Le).
    - cbn. rewrite !update_eq. exact Ft.
    - exact (views_thread s t _ Le).
    - cbn. rewrite !update_eq. exact Fn.
  Qed.
  Lemma readable_some {A} (l : list A) n i x : readable l n i = Some x -> n <= i /\ nth_error l i = Some x.
  Proof. unfold readable. destruct (Nat.leb_spec n i); [auto|discriminate]. Qed.

  Lemma holds_thread (s : state) t l v id x : holds s id x -> holds (set_thread s t l v) id x.
  Proof. exact (fun H => H). Qed.

  (** A failed compare-and-set *)
  Lemma cas_no s g ob seg cnt o t i old new yes no h m : safe s g -> lin s g ob seg -> lens s ob seg cnt -> readable (w_head s) (v_head (w_view s t)) i = Some (h, m) -> same_pointer s h old = false ->
    (forall v, vle (w_view s t) v -> loc_ok s g t v no) -> (made no = None \/ made no = made (w_thread s t)) -> (taken no = None \/ taken no = taken (w_thread s t)) ->
    (forall v, vle (w_view s t) v -> fits s ob seg t v no) -> (forall v, vle (w_view s t) v -> tallied s ob cnt t v no) -> steps_well s ob (Ok (cas o s t i old new yes no, [])).
  Proof.
    intros S L M R Sp Lo Ma Ta Ft Fn. unfold cas. rewrite R, Sp. eapply move; eauto using see_head_le.
  Qed.
  Lemma last_index (s : state) i h m : nth_error (w_head s) i = Some (h, m) -> (S i =? length (w_head s)) = true -> i = len s - 1 /\ S i = len s.
  Proof. intros _ E. apply Nat.eqb_eq in E. unfold len. lia. Qed.

  Lemma step_call s ob t c : good s ob -> steps_well s ob (wstep s (LCall t c)).
  Proof.
    intros (g & seg & cnt & S & L & M). cbn [wstep]. destruct (w_thread s t) eqn:Th; try (apply stay; exists g, seg, cnt; auto).
    eexists _, _. split; [reflexivity|]. exists g, seg, cnt. split; [|split].
    - apply safe_thread; auto using vle_refl; destruct c; cbn; auto.
    - cbn [fold_left]. eapply (lin_call s); try reflexivity; eauto. exact (views_thread s t _ ltac:(apply vle_refl)).
    - cbn [fold_left]. eapply (lens_call s _ g); try reflexivity; eauto. exact (views_thread s t _ ltac:(apply vle_refl)).
  Qed.
  Lemma step_sync s ob t u : good s ob -> steps_well s ob (wstep s (LSync t u)).
  Proof.
    intros (g & seg & cnt & S & L & M). cbn [wstep]. eexists _, _. split; [reflexivity|]. exists g, seg, cnt. set (s' := set_thread _ _ _ _).
    assert (Vw : forall w, vle (w_view s w) (w_view s' w)) by exact (views_thread s u _ ltac:(apply join_l)).
    assert (Vt : vle (w_view s t) (w_view s' u)) by (cbn; rewrite update_eq; apply join_r).
    assert (Th : forall w, w_thread s' w = w_thread s w) by (intros w; cbn; destruct (Nat.eq_dec w u) as [->|N]; [apply update_eq|now apply update_ne]).
    split; [|split; cbn [fold_left]].
    - apply safe_thread; auto using join_l. eapply loc_le; [apply join_l|apply S].
    - eapply (lin_sync s); try reflexivity; eauto.
    - eapply (lens_sync s); try reflexivity; eauto.
  Qed.
  Lemma step_free s ob i : good s ob -> steps_well s ob (wstep s (LFree i)).
  Proof.
    intros (g & seg & cnt & S & L & M). cbn [wstep]. destruct (find _ _) as [[[i' v] w]|] eqn:F; [|apply stay; exists g, seg, cnt; auto]. apply find_some in F. cbn in F. destruct F as [J F].
    apply andb_true_iff in F. destruct F as [F W]. apply Nat.eqb_eq in F. subst i'. destruct w; [|discriminate]. destruct (sf_ret s g S _ _ _ J) as (Li & _). destruct (node_live s i Li) as (n & E & E'). rewrite E.
    eexists _, []. split; [reflexivity|]. exists g, seg, cnt. split; [now apply safe_free|]. split.
    - eapply (lin_move s _ g ob seg 0); eauto using vle_refl. apply (l_fits s g ob seg L).
    - eapply (lens_move s _ ob seg seg cnt 0); eauto using vle_refl. exact (k_thread s ob seg cnt M 0).
  Qed.

  Lemma holds_node (s : state) id x n : holds s id x -> w_node s id = Some n -> n_value n = x.
  Proof. intros (m & E & F) E'. rewrite E in E'. now injection E' as <-. Qed.
  Lemma pin_view (s : state) t blind u : vle (w_view s u) (w_view (pin s t blind) u).
  Proof. cbn. destruct (Nat.eq_dec u t) as [->|N]; [rewrite update_eq; eapply vle_trans; [apply join_l|apply defers_le]|rewrite update_ne by exact N; apply vle_refl]. Qed.
  Lemma good_pin (s : state) g ob seg cnt t blind : safe s g -> lin s g ob seg -> lens s ob seg cnt -> safe (pin s t blind) g /\ lin (pin s t blind) g ob seg /\ lens (pin s t blind) ob seg cnt.
  Proof.
    intros S L M. split; [now apply safe_pin|]. split.
    - eapply (lin_move s _ g ob seg t); eauto using pin_view. eapply fits_le; [apply pin_view|]. apply (l_fits s g ob seg L).
    - eapply (lens_move s _ ob seg seg cnt t); eauto using pin_view. eapply tallied_le; [apply pin_view|]. exact (k_thread s ob seg cnt M t).
  Qed.
  Lemma last_counts (s : state) ob seg cnt n m : lens s ob seg cnt -> last (w_len s) (0%N, view0) = (n, m) -> counts n cnt.
  Proof.
    intros M E. pose proof (k_len s ob seg cnt M) as El. assert (X : nth_error (w_len s) (length cnt) = Some (n, m)).
    { destruct (w_len s) as [|x l] using rev_ind; [discriminate|]. clear IHl. rewrite last_last in E. subst x. rewrite app_length in El. cbn in El. rewrite nth_error_app2 by lia. replace (length cnt - length l) with 0 by lia. reflexivity. }
    pose proof (k_value s ob seg cnt M _ _ _ X) as Y. now rewrite firstn_all in Y.
  Qed.
  Lemma bump_good s g ob seg cnt t d next i c o : safe s g -> lin s g ob seg -> lens s ob seg cnt -> o_cur ob t = Some i -> nth_error (o_calls ob) i = Some c -> ~ In i (map fst cnt) ->
    (exists k, In (i, o) (seg k)) -> (forall n, counts n cnt -> counts (wrap64 (n + d)) (cnt ++ [(i, o)])) ->
    let v := see_len (w_view s t) (length (w_len s)) in
    loc_ok s g t v next -> (made next = None \/ made next = made (w_thread s t)) -> (taken next = None \/ taken next = taken (w_thread s t)) -> fits s ob seg t v next ->
    (In (i, o) (firstn (v_len v) (cnt ++ [(i, o)])) -> tallied s ob (cnt ++ [(i, o)]) t v next) ->
    steps_well s ob (Ok (bump Release s t d next, [])).
  Proof.
    intros S L M Ec Ei Ni Pl Co v Lo Ma Ta Ft Fn. unfold bump. fold v. destruct (last (w_len s) (0%N, view0)) as [n m] eqn:El. set (s1 := add_len s _ _).
    assert (Le : vle (w_view s t) v) by apply see_len_le. eexists _, []. split; [reflexivity|]. exists g, seg, (cnt ++ [(i, o)]).
    split; [|split].
    - apply safe_thread; auto. now apply safe_len.
    - eapply (lin_move s _ g ob seg t); eauto.
      + exact (views_thread s t _ Le).
      + intros u N. cbn. now apply update_ne.
      + cbn. rewrite !update_eq. exact Ft.
    - eapply (lens_bump s _ ob seg cnt t i o); eauto.
      + reflexivity.
      + exact (views_thread s t _ Le).
      + intros u N. cbn. now apply update_ne.
      + intros u j N Ej ->. apply N. exact (l_one s g ob seg L u t i Ej Ec).
      + apply Co. eapply last_counts; eauto.
      + cbn. rewrite !update_eq. apply Fn. rewrite firstn_all2; [apply in_or_app; right; now left|]. pose proof (k_len s ob seg cnt M). rewrite app_length. cbn. lia.
  Qed.

  Lemma step_run s ob t a blind : good s ob -> steps_well s ob (wstep s (LStep t a blind)).
  Proof.
    intros (g & seg & cnt & S & L & M). assert (St : steps_well s ob (Ok (s, []))) by (apply stay; exists g, seg, cnt; auto).
    cbn [wstep]. pose proof (sf_loc s g S t) as Lo. pose proof (l_fits s g ob seg L t) as Ft. pose proof (k_thread s ob seg cnt M t) as Fn. assert (Len0 : 0 < len s) by apply S.
    assert (Oth : forall s1 : state, w_thread s1 = w_thread s -> forall l v u, u <> t -> w_thread (set_thread s1 t l v) u = w_thread s u) by (intros s1 E l v u N; cbn; rewrite E; now apply update_ne).
    destruct (w_thread s t) as [|x|b|b|b h|b h| | | |p|p n|p|p|p| |o] eqn:Th.
    - exact St.
    - (* PushNew *)
      destruct (w_mem s a) eqn:Ma; [exact St|]. eexists _, []. split; [reflexivity|]. exists g, seg, cnt. split; [now apply safe_alloc|].
      assert (Ho : forall id y, holds s id y -> holds (alloc s a x) id y).
      { intros id y (n & E & F). exists n. split; [|exact F]. cbn. rewrite update_ne; [exact E|]. intros ->. apply (sf_fresh s g S) in E. lia. }
      split.
      + eapply (lin_move s _ g ob seg t); eauto.
        * exact (views_thread s t _ ltac:(apply see_node_le)).
        * cbn [set_thread w_thread w_view]. rewrite !update_eq. destruct Ft as (i & c & A & B & D & E). exists i, c. split; [exact A|]. split; [exact B|]. exists x. split; [|auto].
          eexists. cbn. rewrite update_eq. split; reflexivity.
      + eapply (lens_move s _ ob seg seg cnt t); eauto.
        * exact (views_thread s t _ ltac:(apply see_node_le)).
        * cbn [set_thread w_thread w_view]. rewrite !update_eq. exact Fn.
    - (* PushPin *)
      destruct (good_pin s g ob seg cnt t blind S L M) as (S1 & L1 & M1). pose proof (sf_loc _ g S1 t) as Lo1. pose proof (l_fits _ g ob seg L1 t) as Ft1.
      assert (Th1 : w_thread (pin s t blind) t = PushPin b) by exact Th. rewrite Th1 in Lo1, Ft1.
      destruct (move _ g ob seg cnt t (PushLoad b) (w_view (pin s t blind) t) S1 L1 M1) as (s' & e & E & G); auto using vle_refl.
      + split; [exact Lo1|now left].
      + right. now rewrite Th1.
      + exists s', e. auto.
    - (* PushLoad *)
      destruct (readable _ _ a) as [[h m]|] eqn:R; [|exact St]. destruct (readable_some _ _ _ _ R) as [Hv Ei]. destruct Lo as [Ow Pt].
      apply (move s g ob seg cnt t); auto.
      + apply see_head_le.
      + split; [eapply owns_le; [apply see_head_le|exact Ow]|]. split; [exact Pt|]. eapply read_held; eauto.
      + right. now rewrite Th.
    - (* PushStore *)
      destruct Lo as ((Lb & Ub & (n & k & En & Ek & _)) & Pt & Hh). destruct (node_live s b Lb) as (n' & E & E'). rewrite En in E'. injection E' as <-. rewrite E, Ek.
      eexists _, []. split; [reflexivity|]. exists g, seg, cnt. split; [now apply safe_store|].
      assert (Ho : forall id y, holds s id y -> holds (set_node s b (WNode (n_addr n) (n_value n) (n_next n ++ [h]))) id y).
      { intros id y (m & Em & F). cbn. unfold holds. cbn. destruct (Nat.eq_dec id b) as [->|N]; [rewrite update_eq; eexists; split; [reflexivity|]; cbn; congruence|rewrite update_ne by exact N; eauto]. }
      split.
      + eapply (lin_move s _ g ob seg t); eauto.
        * exact (views_thread s t _ ltac:(apply see_node_le)).
        * cbn [set_thread w_thread w_view]. rewrite !update_eq. destruct Ft as (i & c & A & B & x & D & F). exists i, c. split; [exact A|]. split; [exact B|]. exists x. split; [|exact F]. exact (Ho b x D).
      + eapply (lens_move s _ ob seg seg cnt t); eauto.
        * exact (views_thread s t _ ltac:(apply see_node_le)).
        * cbn [set_thread w_thread w_view]. rewrite !update_eq. exact Fn.
    - (* PushCas *)
      pose proof Lo as (Ow & Pt & Hh & Nx). destruct Ft as (i & c & A & B & x & D & F & G).
      destruct (readable (w_head s) (v_head (w_view s t)) a) as [[q m]|] eqn:R; [|unfold cas; rewrite R; exact St]. destruct (same_pointer s q h) eqn:Sp.
      + unfold cas. rewrite R, Sp. destruct (Nat.eqb_spec (Datatypes.S a) (length (w_head s))) as [Ea|]; [|exact St]. destruct (readable_some _ _ _ _ R) as [Hv Ei].
        assert (a = len s - 1) by (unfold len; lia). assert (E1 : Datatypes.S a = len s) by exact Ea. rewrite E1. subst a.
        eexists _, []. split; [reflexivity|]. eexists _, (update seg (len s) [(i, OUnit)]), cnt. split; [eapply safe_push; eauto|]. split.
        * eapply (lin_grow s _ g ob seg t i c OUnit); eauto.
          -- unfold len. cbn. rewrite app_length. reflexivity.
          -- exact (views_thread s t _ ltac:(apply see_head_le)).
          -- lia.
          -- cbn. rewrite B. cbn. rewrite F. split; [reflexivity|]. unfold before. destruct (len s) as [|k] eqn:Ek; [lia|]. now rewrite Nat.sub_succ, Nat.sub_0_r.
          -- cbn [set_thread w_thread w_view]. rewrite !update_eq. exists i, c. split; [exact A|]. split; [exact B|]. split; [unfold is_len; now rewrite F|]. exists (len s). split; [cbn; lia|]. rewrite update_eq. now left.
        * eapply (lens_move s _ ob seg _ cnt t); eauto.
          -- intros k y J. destruct (Nat.eq_dec k (len s)) as [->|N]; [rewrite (l_end s g ob seg L) in J by lia; destruct J|now rewrite update_ne by exact N].
          -- exact (views_thread s t _ ltac:(apply see_head_le)).
          -- cbn [set_thread w_thread w_view]. rewrite !update_eq. exact Fn.
      + eapply cas_no; eauto.
        * intros v Lv. split; [eapply owns_le; eauto|exact Pt].
        * right. now rewrite Th.
        * intros v Lv. exists i, c. split; [exact A|]. split; [exact B|]. exists x. auto.
    - (* PushAdd *)
      destruct Ft as (i & c & A & B & D & F). destruct (Fn i c A B) as [_ Ni]. eapply (bump_good s g ob seg cnt t 1 (Done OUnit) i c OUnit); eauto.
      + destruct F as (k & _ & F). eauto.
      + intros n. apply counts_push.
      + exists i, c. split; [exact A|]. split; [exact B|]. now right.
      + intros J i' c' A' B'. rewrite A in A'. injection A' as <-. rewrite B in B'. injection B' as <-. rewrite D. now right.
    - (* PopPin *)
      destruct (good_pin s g ob seg cnt t blind S L M) as (S1 & L1 & M1). pose proof (l_fits _ g ob seg L1 t) as Ft1.
      assert (Th1 : w_thread (pin s t blind) t = PopPin) by exact Th. rewrite Th1 in Ft1.
      destruct (move _ g ob seg cnt t PopLoad (w_view (pin s t blind) t) S1 L1 M1) as (s' & e & E & G); auto using vle_refl.
      + now left.
      + exists s', e. auto.
    - (* PopLoad *)
      destruct (readable _ _ a) as [[h m]|] eqn:R; [|exact St]. destruct (readable_some _ _ _ _ R) as [Hv Ei]. destruct Ft as (i & c & A & B & D & F).
      set (v := on_read Acquire (see_head (w_view s t) a) m). assert (Le : vle (w_view s t) v) by (eapply vle_trans; [apply see_head_le|apply join_l]).
      assert (Ha : a < len s) by (apply nth_error_Some; rewrite Ei; discriminate). destruct (sf_head s g S _ _ _ Ei) as [Eh Sm]. destruct h as [p|].
      + apply (move s g ob seg cnt t); auto.
        * split; [exact Lo|]. split; [eapply read_held; eauto|]. eapply sees_le; [apply join_r|]. apply (Sm a); [lia|]. destruct (g_stk g a) as [|p' r]; [discriminate|]. injection Eh as <-. now left.
        * exists i, c. auto.
      + eexists _, []. split; [reflexivity|]. exists g, (update seg a (seg a ++ [(i, OPop None)])), cnt. split; [apply safe_thread; cbn; auto|]. split.
        * eapply (lin_insert s _ g ob seg t i c (OPop None) a); eauto.
          -- exact (views_thread s t _ Le).
          -- cbn. rewrite B. cbn. rewrite D. destruct (sf_link s g S a Ha) as [_ Fo]. destruct (g_stk g a) as [|]; [|discriminate]. inversion Fo. auto.
          -- cbn [set_thread w_thread w_view]. rewrite !update_eq. exists i, c. split; [exact A|]. split; [exact B|]. right. exists a. split; [unfold v; cbn; lia|]. rewrite update_eq. apply in_or_app. right. now left.
        * eapply (lens_move s _ ob seg _ cnt t); eauto.
          -- intros k y J. destruct (Nat.eq_dec k a) as [->|N]; [rewrite update_eq; apply in_or_app; now left|now rewrite update_ne by exact N].
          -- exact (views_thread s t _ Le).
          -- cbn [set_thread w_thread w_view]. rewrite !update_eq. intros i' c' A' B'. destruct (Fn i' c' A' B') as [-> _]. now left.
    - (* PopNext *)
      destruct Lo as (Pt & Hh & Se). pose proof Hh as (Lp & Pp & _). pose proof Se as (n & k & En & Ek & Hk). destruct (node_live s p Lp) as (n' & E & E'). rewrite En in E'. injection E' as <-. rewrite E, Ek.
      destruct (readable _ k a) as [h|] eqn:R; [|exact St]. destruct (readable_some _ _ _ _ R) as [Hv Ei]. apply (move s g ob seg cnt t); auto.
      + apply see_node_le.
      + split; [exact Pt|]. split; [exact Hh|]. split; [eapply sees_le; [apply see_node_le|exact Se]|]. exists n. assert (Ha : a < length (n_next n)) by (apply nth_error_Some; rewrite Ei; discriminate).
        destruct (nth_error_split _ _ Ei) as (l1 & l2 & El & Hl). exists l1. split; [exact En|]. rewrite El in *. rewrite app_length in *. cbn in *. destruct l2; [reflexivity|]. cbn in *. lia.
    - (* PopCas *)
      pose proof Lo as (Pt & Hh & Se & Nx). destruct Ft as (i & c & A & B & D & F).
      destruct (readable (w_head s) (v_head (w_view s t)) a) as [[q m]|] eqn:R; [|unfold cas; rewrite R; exact St]. destruct (same_pointer s q (Some p)) eqn:Sp.
      + unfold cas. rewrite R, Sp. destruct (Nat.eqb_spec (Datatypes.S a) (length (w_head s))) as [Ea|]; [|exact St]. destruct (readable_some _ _ _ _ R) as [Hv Ei].
        assert (a = len s - 1) by (unfold len; lia). assert (E1 : Datatypes.S a = len s) by exact Ea. rewrite E1. subst a.
        destruct (safe_pop s g t p n q m S Th Ei Sp) as [(r & x & y & Er & Ey & Hx) S1].
        eexists _, []. split; [reflexivity|]. eexists _, (update seg (len s) [(i, OPop (Some x))]), cnt. split; [exact S1|]. split.
        * eapply (lin_grow s _ g ob seg t i c (OPop (Some x))); eauto.
          -- unfold len. cbn. rewrite app_length. reflexivity.
          -- exact (views_thread s t _ ltac:(apply see_head_le)).
          -- lia.
          -- cbn. rewrite B. cbn. rewrite D. assert (Eb : before g (len s) = g_val g (len s - 1)) by (unfold before; destruct (len s) as [|k] eqn:Ek; [lia|]; now rewrite Nat.sub_succ, Nat.sub_0_r).
             rewrite Eb, Ey. auto.
          -- cbn [set_thread w_thread w_view]. rewrite !update_eq. exists i, c. split; [exact A|]. split; [exact B|]. split; [unfold is_len; now rewrite D|]. exists x. split; [exact Hx|].
             exists (len s). split; [cbn; lia|]. rewrite update_eq. now left.
        * eapply (lens_move s _ ob seg _ cnt t); eauto.
          -- intros k z J. destruct (Nat.eq_dec k (len s)) as [->|N]; [rewrite (l_end s g ob seg L) in J by lia; destruct J|now rewrite update_ne by exact N].
          -- exact (views_thread s t _ ltac:(apply see_head_le)).
          -- cbn [set_thread w_thread w_view]. rewrite !update_eq. exact Fn.
      + eapply cas_no; eauto. intros v Lv. exists i, c. auto.
    - (* PopSub *)
      destruct Ft as (i & c & A & B & D & x & Hx & F). destruct (Fn i c A B) as [_ Ni]. eapply (bump_good s g ob seg cnt t 18446744073709551615 (PopDefer p) i c (OPop (Some x))); eauto.
      + destruct F as (k & _ & F). eauto.
      + intros n. apply counts_pop.
      + right. now rewrite Th.
      + exists i, c. split; [exact A|]. split; [exact B|]. split; [exact D|]. exists x. auto.
      + intros J i' c' A' B'. rewrite A in A'. injection A' as <-. rewrite B in B'. injection B' as <-. split; [exact D|]. exists x. auto.
    - (* PopDefer *)
      eexists _, []. split; [reflexivity|]. exists g, seg, cnt. split; [now apply safe_defer|]. split.
      + eapply (lin_move s _ g ob seg t); eauto.
        * exact (views_thread s t _ ltac:(apply vle_refl)).
        * cbn [set_thread w_thread w_view]. rewrite !update_eq. exact Ft.
      + eapply (lens_move s _ ob seg seg cnt t); eauto.
        * exact (views_thread s t _ ltac:(apply vle_refl)).
        * cbn [set_thread w_thread w_view]. rewrite !update_eq. exact Fn.
    - (* PopRead *)
      destruct Lo as (Pt & (Lp & _) & Vp). destruct (node_live s p Lp) as (n & E & E'). rewrite E. destruct (v_node (w_view s t) p); [|congruence].
      apply (move s g ob seg cnt t); auto using vle_refl.
      + exact I.
      + destruct Ft as (i & c & A & B & D & x & F & G). exists i, c. split; [exact A|]. split; [exact B|]. right. now rewrite (holds_node s p x n F E').
      + intros i c A B. destruct (Fn i c A B) as (-> & x & F & G). right. now rewrite (holds_node s p x n F E').
    - (* LenLoad *)
      destruct (readable _ _ a) as [[n m]|] eqn:R; [|exact St]. destruct (readable_some _ _ _ _ R) as [Hv Ei]. apply (move s g ob seg cnt t); auto.
      + eapply vle_trans; [apply see_len_le|apply join_l].
      + destruct Ft as (i & c & A & B & D). exists i, c. auto.
      + intros i c A B. pose proof (Fn i c A B) as Il. cbn in Il. rewrite Il. exists n, a. split; [reflexivity|]. split; [exact (k_value s ob seg cnt M _ _ _ Ei)|].
        destruct (l_cur s g ob seg L t i A) as (c' & B' & _ & Kn). rewrite B in B'. injection B' as <-. intros j e y J. eapply (covers_k ob _ _ a); [exact Hv|apply (k_know s ob seg cnt M t)|]. now apply Kn.
    - (* Done *)
      eexists _, _. split; [reflexivity|]. exists g, seg, cnt. split; [eapply safe_unpin; eauto using vle_refl|]. cbn [fold_left]. split.
      + eapply (lin_ret s); try reflexivity; eauto. exact (views_thread s t _ ltac:(apply vle_refl)).
      + eapply (lens_ret s _ g); try reflexivity; eauto. exact (views_thread s t _ ltac:(apply vle_refl)).
  Qed.
  Lemma step_good s ob l : good s ob -> steps_well s ob (wstep s l).
  Proof. destruct l; [apply step_call|apply step_run|apply step_free|apply step_sync]. Qed.
  Lemma exec_good ls : forall s ob, good s ob -> exists s' tr, wexec s ls = Ok (s', tr) /\ good s' (fold_left observe tr ob).
  Proof.
    induction ls as [|l ls IH]; intros s ob G; cbn [wexec]; [exists s, []; auto|]. destruct (step_good s ob l G) as (s1 & e1 & -> & G1). cbn. destruct (IH s1 _ G1) as (s2 & e2 & -> & G2). cbn.
    exists s2, (e1 ++ e2). split; [reflexivity|]. now rewrite fold_left_app.
  Qed.
  Lemma good_new : good wstack_new obs_new.
  Proof.
    exists (mkGhost (fun _ => []) (fun _ => [])), (fun _ => []), []. assert (NP : forall g : ghost (T := T), (forall i, g_stk g i = []) -> forall id, ~ published wstack_new g id) by (intros g E id (i & _ & J); rewrite E in J; exact J).
    split; [|split].
    - constructor.
      + unfold len. cbn. auto.
      + intros i _. constructor.
      + intros i h m E. destruct i as [|i]; [injection E as <- <-; split; [reflexivity|intros j id _ []]|destruct i; discriminate].
      + intros i _. split; [exact I|constructor].
      + intros id [].
      + intros a id E. discriminate E.
      + intros id n E. discriminate E.
      + intros id v w [].
      + constructor.
      + intros id P. exfalso. refine (NP _ _ id P). reflexivity.
      + intros t. exact I.
      + intros t u b E. discriminate E.
      + intros t u p E. discriminate E.
    - constructor.
      + reflexivity.
      + intros i Hi. assert (i = 0) by (cbn in Hi; unfold len in Hi; cbn in Hi; lia). subst i. reflexivity.
      + intros k. constructor.
      + intros k k' j [].
      + intros i c o E. destruct i; discriminate E.
      + intros k l1 i o l2 c j d E. destruct l1; discriminate E.
      + intros t j [].
      + intros t i E. discriminate E.
      + intros j [(t & [])|(i & c & E & _)]. destruct i; discriminate E.
      + intros t u i E. discriminate E.
      + intros t. reflexivity.
    - constructor.
      + reflexivity.
      + intros k n m E. destruct k as [|k]; [injection E as <- <-; split; reflexivity|destruct k; discriminate].
      + constructor.
      + intros x [].
      + intros t j c x [].
      + intros i c o E. destruct i; discriminate E.
      + intros t i c E. discriminate E.
  Qed.

  (** *** From segments to one order *)
  Lemma NoDup_app_intro {A} (a b : list A) : NoDup a -> NoDup b -> (forall x, In x a -> ~ In x b) -> NoDup (a ++ b).
  Proof.
    intros N M D. induction N as [|x a Nx N IH]; [exact M|]. cbn. constructor; [|apply IH; intros y J; apply D; now right]. intros J. apply in_app_or in J. destruct J as [J|J]; [contradiction|]. apply (D x); [now left|exact J].
  Qed.
  Lemma flat_cut {A B} (f : A -> list B) ks : forall l1 x l2, flat_map f ks = l1 ++ x :: l2 -> exists k1 k k2 a b, ks = k1 ++ k :: k2 /\ f k = a ++ x :: b /\ l1 = flat_map f k1 ++ a.
  Proof.
    induction ks as [|k ks IH]; intros l1 x l2 E; [destruct l1; discriminate|]. cbn in E. revert l1 E. assert (X : forall h l1, h ++ flat_map f ks = l1 ++ x :: l2 ->
      (exists b, h = l1 ++ x :: b) \/ exists l1', l1 = h ++ l1' /\ flat_map f ks = l1' ++ x :: l2).
    { induction h as [|y h IHh]; intros l1 E; [right; exists l1; auto|]. destruct l1 as [|z l1].
      - injection E as -> E. left. exists h. reflexivity.
      - injection E as -> E. destruct (IHh l1 E) as [(b & ->)|(l1' & -> & E')]; [left; now exists b|right; now exists l1']. }
    intros l1 E. destruct (X _ _ E) as [(b & Eb)|(l1' & -> & E')].
    - exists [], k, ks, l1, b. auto.
    - destruct (IH _ _ _ E') as (k1 & k' & k2 & a & b & -> & Ef & ->). exists (k :: k1), k', k2, a, b. split; [reflexivity|]. split; [exact Ef|]. cbn. now rewrite app_assoc.
  Qed.
  Lemma seq_cut a n k1 k k2 : seq a n = k1 ++ k :: k2 -> k1 = seq a (k - a) /\ a <= k < a + n.
  Proof.
    revert a k1. induction n as [|n IH]; intros a k1 E; [destruct k1; discriminate|]. destruct k1 as [|y k1]; injection E as <- E.
    - rewrite Nat.sub_diag. split; [reflexivity|lia].
    - destruct (IH _ _ E) as [-> H]. split; [|lia]. replace (k - a) with (Datatypes.S (k - Datatypes.S a)) by lia. reflexivity.
  Qed.
  Lemma flat_nodup {A} (f : nat -> list (nat * A)) ks : NoDup ks -> (forall k, NoDup (map fst (f k))) -> (forall k k' j, In j (map fst (f k)) -> In j (map fst (f k')) -> k = k') -> NoDup (map fst (flat_map f ks)).
  Proof.
    intros N X Y. induction N as [|k ks Nk N IH]; [constructor|]. cbn. rewrite map_app. apply NoDup_app_intro; auto.
    intros j J J'. apply in_map_iff in J'. destruct J' as (y & Ey & J'). apply in_flat_map in J'. destruct J' as (k' & Jk & J'). assert (k = k') by (apply (Y k k' j J); apply in_map_iff; exists y; auto). subst k'. contradiction.
  Qed.
  Lemma good_explained s tr : good s (observed tr) -> explained tr.
  Proof.
    intros (g & seg & cnt & S & L & M). unfold explained. set (calls := o_calls (observed tr)). assert (In1 : forall k x, In x (seg k) -> In x (flat_map seg (seq 0 (len s)))).
    { intros k x J. apply in_flat_map. exists k. split; [|exact J]. apply in_seq. split; [lia|]. destruct (Nat.lt_ge_cases k (len s)) as [|Hk]; [lia|]. rewrite (l_end _ _ _ _ L k Hk) in J. destruct J. }
    exists (flat_map seg (seq 0 (len s))). split; [|split; [|split; [|split]]].
    - apply flat_nodup; [apply seq_NoDup|apply (l_nodup _ _ _ _ L)|apply (l_apart _ _ _ _ L)].
    - assert (X : forall n k, k + n = len s -> stack_runs calls (before g k) (flat_map seg (seq k n))).
      { induction n as [|n IH]; intros k E; [exact I|]. cbn [seq flat_map]. eapply runs_stack; [apply (l_runs _ _ _ _ L k); lia|]. apply (IH (Datatypes.S k)). lia. }
      exact (X (len s) 0 eq_refl).
    - intros i c o E Ln Eo. destruct (l_done _ _ _ _ L i c o E Ln Eo) as (k & J). eauto.
    - intros l1 i o l2 c E Ei j d J Ej Ln. destruct (flat_cut _ _ _ _ _ E) as (k1 & k & k2 & a & b & Es & Ef & ->). destruct (seq_cut _ _ _ _ _ Es) as [-> Hk]. rewrite Nat.sub_0_r.
      rewrite map_app. apply in_or_app. destruct (l_after _ _ _ _ L k a i o b c j d Ef Ei J Ej Ln) as [X|(k' & Hk' & X)]; [now right|left]. apply in_map_iff in X. destruct X as (y & Ey & X). apply in_map_iff. exists y. split; [exact Ey|].
      apply in_flat_map. exists k'. split; [apply in_seq; lia|exact X].
    - intros i c o E Ln Eo. destruct (k_done _ _ _ _ M i c o E Ln Eo) as (n & k & A & B & D). exists n, (firstn k cnt). split; [exact A|]. split; [exact B|].
      assert (Sub : forall x, In x (firstn k cnt) -> In x cnt) by (intros x J; rewrite <- (firstn_skipn k cnt); apply in_or_app; now left). split; [|split; [|exact D]].
      + pose proof (k_nodup _ _ _ _ M) as N. rewrite <- (firstn_skipn k cnt), map_app in N. revert N. generalize (map fst (firstn k cnt)) as l, (map fst (skipn k cnt)) as r. clear.
        induction l as [|x l IH]; intros r N; [constructor|]. inversion N as [|? ? A B]; subst. constructor; [intros J; apply A; apply in_or_app; now left|exact (IH r B)].
      + intros x J. destruct (k_placed _ _ _ _ M x (Sub x J)) as (k' & J'). eauto.
  Qed.
  Lemma exec_safe (ls : list (label T)) : exists s tr, wexec wstack_new ls = Ok (s, tr).
  Proof. destruct (exec_good ls _ _ good_new) as (s & tr & E & _). eauto. Qed.
  Lemma exec_explained (ls : list (label T)) s tr : wexec wstack_new ls = Ok (s, tr) -> explained tr.
  Proof. intros E. destruct (exec_good ls _ _ good_new) as (s' & tr' & E' & G). rewrite E in E'. injection E' as <- <-. exact (good_explained s tr G). Qed.
End Step.
