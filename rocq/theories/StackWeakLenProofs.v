(** TreiberStack on memory with views: what [len] counts *)
From Verif Require Export StackWeakLinProofs.
From Coq Require Import Lia Permutation.

Section Len.
  Context {T : Type}.
  Notation state := (wstate T).
  Notation loc := (loc T).
  Notation segs := (nat -> list (nat * stack_out T)).
  Notation dones := (list (nat * stack_out T)).

  (** Ghost [cnt]: the calls that changed the counter, in order.  The message [k] of the counter counts the first [k]. *)
  Definition covers (ob : wobs T) (js : list nat) (d : dones) : Prop :=
    forall j c x, In j js -> nth_error (o_calls ob) j = Some c -> is_len c = false -> c_out c = Some x -> x = OPop None \/ In (j, x) d.
  Definition answers (ob : wobs T) (cnt : dones) (c : wcall T) (o : stack_out T) : Prop :=
    exists n k, o = OLen n /\ counts n (firstn k cnt) /\ covers ob (c_after c) (firstn k cnt).
  Definition tallied (s : state) (ob : wobs T) (cnt : dones) (t : nat) (v : view) (l : loc) : Prop :=
    forall i c, o_cur ob t = Some i -> nth_error (o_calls ob) i = Some c ->
    match l with
    | Idle => True
    | LenLoad => is_len c = true
    | PopDefer p | PopRead p => is_len c = false /\ exists x, holds s p x /\ In (i, OPop (Some x)) (firstn (v_len v) cnt)
    | Done o => if is_len c then answers ob cnt c o else o = OPop None \/ In (i, o) (firstn (v_len v) cnt)
    | _ => is_len c = false /\ ~ In i (map fst cnt)
    end.
  Record lens (s : state) (ob : wobs T) (seg : segs) (cnt : dones) : Prop := mkLens {
    k_len : length (w_len s) = S (length cnt);
    k_value : forall k n m, nth_error (w_len s) k = Some (n, m) -> counts n (firstn k cnt);
    k_nodup : NoDup (map fst cnt);
    k_placed : forall x, In x cnt -> exists k, In x (seg k);
    k_know : forall t, covers ob (o_know ob t) (firstn (v_len (w_view s t)) cnt);
    k_done : forall i c o, nth_error (o_calls ob) i = Some c -> is_len c = true -> c_out c = Some o -> answers ob cnt c o;
    k_thread : forall t, tallied s ob cnt t (w_view s t) (w_thread s t) }.

  Lemma firstn_in {A} (l : list A) k k' x : k <= k' -> In x (firstn k l) -> In x (firstn k' l).
  Proof.
    revert k k'. induction l as [|y l IH]; intros k k' L J; [destruct k; destruct J|]. destruct k as [|k]; [destruct J|]. destruct k' as [|k']; [lia|]. destruct J as [->|J]; [now left|right]. apply (IH k k'); [lia|exact J].
  Qed.
  Lemma firstn_ext {A} (l r : list A) k x : In x (firstn k l) -> In x (firstn k (l ++ r)).
  Proof. intros J. rewrite firstn_app. apply in_or_app. now left. Qed.
  Lemma covers_le ob js d d' : (forall x, In x d -> In x d') -> covers ob js d -> covers ob js d'.
  Proof. intros L X j c x A B D E. destruct (X j c x A B D E) as [Y|Y]; auto. Qed.
  Lemma covers_k ob js k k' cnt : k <= k' -> covers ob js (firstn k cnt) -> covers ob js (firstn k' cnt).
  Proof. intros L. apply covers_le. intros x. now apply firstn_in. Qed.

  Lemma tallied_le s ob cnt t v v' l : vle v v' -> tallied s ob cnt t v l -> tallied s ob cnt t v' l.
  Proof.
    intros (_ & L & _) X i c A B. specialize (X i c A B). destruct l; auto.
    - destruct X as (X & x & Y & Z). split; [exact X|]. exists x. split; [exact Y|]. exact (firstn_in _ _ _ _ L Z).
    - destruct X as (X & x & Y & Z). split; [exact X|]. exists x. split; [exact Y|]. exact (firstn_in _ _ _ _ L Z).
    - destruct (is_len c); [exact X|]. destruct X as [X|X]; [now left|right]. exact (firstn_in _ _ _ _ L X).
  Qed.
  Lemma tallied_holds s s' ob cnt t v l : (forall id x, holds s id x -> holds s' id x) -> tallied s ob cnt t v l -> tallied s' ob cnt t v l.
  Proof.
    intros L X i c A B. specialize (X i c A B). destruct l; auto.
    - destruct X as (X & x & Y & Z). split; [exact X|]. exists x. auto.
    - destruct X as (X & x & Y & Z). split; [exact X|]. exists x. auto.
  Qed.

  (** *** The counter stays. *)
  Lemma lens_move s s' ob seg seg' cnt t : lens s ob seg cnt -> w_len s' = w_len s -> (forall k x, In x (seg k) -> In x (seg' k)) -> (forall id x, holds s id x -> holds s' id x) ->
    (forall u, vle (w_view s u) (w_view s' u)) -> (forall u, u <> t -> w_thread s' u = w_thread s u) -> tallied s' ob cnt t (w_view s' t) (w_thread s' t) -> lens s' ob seg' cnt.
  Proof.
    intros L El Sub Ho Vw Th Ft. constructor; try rewrite El; try apply L.
    - intros x J. destruct (k_placed s ob seg cnt L x J) as (k & Jk). exists k. auto.
    - intros u. eapply covers_k; [apply Vw|apply (k_know s ob seg cnt L)].
    - intros u. destruct (Nat.eq_dec u t) as [->|N]; [exact Ft|]. rewrite (Th u N). apply (tallied_le s' ob cnt u (w_view s u)); [apply Vw|]. apply (tallied_holds s); [exact Ho|]. apply (k_thread s ob seg cnt L).
  Qed.

  (** *** The counter changes. *)
  Lemma lens_bump s s' ob seg cnt t i o n m : lens s ob seg cnt -> w_len s' = w_len s ++ [(n, m)] -> (forall id x, holds s id x -> holds s' id x) ->
    (forall u, vle (w_view s u) (w_view s' u)) -> (forall u, u <> t -> w_thread s' u = w_thread s u) -> o_cur ob t = Some i -> ~ In i (map fst cnt) -> (exists k, In (i, o) (seg k)) ->
    (forall u j, u <> t -> o_cur ob u = Some j -> j <> i) ->
    counts n (cnt ++ [(i, o)]) -> tallied s' ob (cnt ++ [(i, o)]) t (w_view s' t) (w_thread s' t) -> lens s' ob seg (cnt ++ [(i, o)]).
  Proof.
    intros L El Ho Vw Th Ec Ni Pl Ne Co Ft. assert (N0 := k_len s ob seg cnt L). constructor.
    - rewrite El, !app_length, N0. cbn. lia.
    - intros k n' m' E. rewrite El in E. destruct (Nat.lt_ge_cases k (length (w_len s))) as [Hk|Hk].
      + rewrite nth_error_app1 in E by exact Hk. rewrite firstn_app. replace (k - length cnt) with 0 by lia. cbn. rewrite app_nil_r. exact (k_value s ob seg cnt L k n' m' E).
      + rewrite nth_error_app2 in E by exact Hk. assert (k = length (w_len s)). { assert (X : k - length (w_len s) < 1) by (apply nth_error_Some with (l := [(n, m)]); rewrite E; discriminate). lia. }
        subst k. rewrite Nat.sub_diag in E. injection E as <- <-. rewrite firstn_all2 by (rewrite app_length; cbn; lia). exact Co.
    - rewrite map_app. cbn. apply Permutation_NoDup with (l := i :: map fst cnt); [apply Permutation_cons_append|]. constructor; [exact Ni|apply L].
    - intros x J. apply in_app_or in J. destruct J as [J|[<-|[]]]; [exact (k_placed s ob seg cnt L x J)|exact Pl].
    - intros u. eapply covers_le; [|apply (k_know s ob seg cnt L u)]. intros x J. apply firstn_ext. eapply firstn_in; [|exact J]. apply Vw.
    - intros j c x A B D. destruct (k_done s ob seg cnt L j c x A B D) as (n' & k & E & Cn & Cv).
      assert (k <= length cnt \/ firstn k cnt = firstn (length cnt) cnt) as [Hk|Hk] by (destruct (Nat.le_gt_cases k (length cnt)); [now left|right; now rewrite !firstn_all2 by lia]).
      + exists n', k. rewrite firstn_app. replace (k - length cnt) with 0 by lia. cbn. rewrite app_nil_r. auto.
      + exists n', (length cnt). rewrite firstn_app, Nat.sub_diag. cbn. rewrite app_nil_r. rewrite Hk in *. auto.
    - intros u. destruct (Nat.eq_dec u t) as [->|N]; [exact Ft|]. rewrite (Th u N). apply (tallied_le s' ob _ u (w_view s u)); [apply Vw|]. apply (tallied_holds s); [exact Ho|].
      intros j c A B. pose proof (k_thread s ob seg cnt L u j c A B) as X. specialize (Ne u j N A).
      assert (Nin : ~ In j (map fst cnt) -> ~ In j (map fst (cnt ++ [(i, o)]))) by (rewrite map_app; intros Y Z; apply in_app_or in Z; destruct Z as [Z|[Z|[]]]; [contradiction|cbn in Z; congruence]).
      destruct (w_thread s u); auto;
        try (match type of X with _ /\ exists _, _ => destruct X as (X & x & Y & Z); split; [exact X|]; exists x; split; [exact Y|now apply firstn_ext] | _ /\ _ => destruct X as [X Y]; auto end).
      destruct (is_len c).
      + destruct X as (n' & k & E & Cn & Cv). assert (k <= length cnt \/ firstn k cnt = firstn (length cnt) cnt) as [Hk|Hk] by (destruct (Nat.le_gt_cases k (length cnt)); [now left|right; now rewrite !firstn_all2 by lia]).
        * exists n', k. rewrite firstn_app. replace (k - length cnt) with 0 by lia. cbn. rewrite app_nil_r. auto.
        * exists n', (length cnt). rewrite firstn_app, Nat.sub_diag. cbn. rewrite app_nil_r. rewrite Hk in *. auto.
      + destruct X as [X|X]; [now left|right; now apply firstn_ext].
  Qed.

  (** *** Events *)
  Lemma lens_call s s' g ob seg cnt t c : lin s g ob seg -> lens s ob seg cnt -> w_thread s t = Idle -> w_len s' = w_len s -> (forall id x, holds s id x -> holds s' id x) ->
    (forall u, vle (w_view s u) (w_view s' u)) -> w_thread s' = update (w_thread s) t (match c with CPush v => PushNew v | CPop => PopPin | CLen => LenLoad end) ->
    lens s' (observe ob (WCall t c)) seg cnt.
  Proof.
    intros L0 L Th El Ho Vw Tt. set (n := length (o_calls ob)). set (c' := mkWcall c None (o_know ob t)).
    assert (Inv : forall j d, nth_error (o_calls ob ++ [c']) j = Some d -> nth_error (o_calls ob) j = Some d \/ j = n /\ d = c').
    { intros j d E. destruct (Nat.lt_ge_cases j n) as [Hj|Hj]; [left; now rewrite nth_error_app1 in E|right]. rewrite nth_error_app2 in E by exact Hj. fold n in E.
      destruct (j - n) as [|m] eqn:Em; [|destruct m; discriminate]. injection E as <-. split; [lia|reflexivity]. }
    assert (Cov : forall js d, covers ob js d -> covers (observe ob (WCall t c)) js d).
    { intros js d X j e x A B D E. cbn in B. destruct (Inv _ _ B) as [B'|[-> ->]]; [exact (X j e x A B' D E)|discriminate]. }
    assert (Ans : forall d o, answers ob cnt d o -> answers (observe ob (WCall t c)) cnt d o) by (intros d o (x & k & A & B & D); exists x, k; auto).
    constructor; try rewrite El; try apply L.
    - intros u. apply Cov. eapply covers_k; [apply Vw|apply (k_know s ob seg cnt L)].
    - intros i d o E Ln Eo. destruct (Inv _ _ E) as [E'|[-> ->]]; [apply Ans; exact (k_done s ob seg cnt L i d o E' Ln Eo)|discriminate].
    - intros u. destruct (Nat.eq_dec u t) as [->|N].
      + assert (E : w_thread s' t = match c with CPush v => PushNew v | CPop => PopPin | CLen => LenLoad end) by (rewrite Tt; apply update_eq). rewrite E. intros i d A B. cbn in A, B. rewrite update_eq in A. injection A as <-.
        fold n in B. assert (d = c'). { rewrite nth_error_app2 in B by (unfold n; lia). unfold n in B. rewrite Nat.sub_diag in B. now injection B as <-. } subst d.
        assert (Nn : ~ In n (map fst cnt)). { intros J. apply in_map_iff in J. destruct J as ((j & o) & Ej & J). cbn in Ej. subst j. destruct (k_placed s ob seg cnt L _ J) as (k & Jk).
          destruct (lin_in s g ob seg k n L0) as (d & Ed); [apply in_map_iff; exists (n, o); auto|]. assert (n < n) by (apply nth_error_Some; fold n in Ed; rewrite Ed; discriminate). lia. }
        destruct c; cbn; auto.
      + assert (E : w_thread s' u = w_thread s u) by (rewrite Tt; now apply update_ne). rewrite E. apply (tallied_le _ _ _ _ (w_view s u)); [apply Vw|]. apply (tallied_holds s); [exact Ho|].
        intros i d A B. cbn in A, B. rewrite update_ne in A by exact N. destruct (l_cur s g ob seg L0 u i A) as (d0 & Ed & _). destruct (Inv _ _ B) as [B'|[-> _]].
        * pose proof (k_thread s ob seg cnt L u i d A B') as X. destruct (w_thread s u); auto. destruct (is_len d); [now apply Ans|exact X].
        * exfalso. assert (n < n) by (apply nth_error_Some; fold n in Ed; rewrite Ed; discriminate). lia.
  Qed.
  Lemma lens_ret s s' g ob seg cnt t o : lin s g ob seg -> lens s ob seg cnt -> w_thread s t = Done o -> w_len s' = w_len s -> (forall id x, holds s id x -> holds s' id x) ->
    (forall u, vle (w_view s u) (w_view s' u)) -> w_thread s' = update (w_thread s) t Idle -> lens s' (observe ob (WRet t o)) seg cnt.
  Proof.
    intros L0 L Th El Ho Vw Tt. pose proof (l_fits s g ob seg L0 t) as F. rewrite Th in F. destruct F as (i & c & Ec & Ei & _). pose proof (k_thread s ob seg cnt L t i c Ec Ei) as F. rewrite Th in F.
    destruct (l_cur s g ob seg L0 t i Ec) as (c0 & Ei' & Nout & Aft). rewrite Ei in Ei'. injection Ei' as <-. unfold observe. rewrite Ec.
    set (ob' := mkWobs _ _ _).
    assert (Inv : forall j d, nth_error (o_calls ob') j = Some d -> exists d0, nth_error (o_calls ob) j = Some d0 /\ is_len d = is_len d0 /\ c_after d = c_after d0 /\
      (j <> i /\ d = d0 \/ j = i /\ d0 = c /\ c_out d = Some o)).
    { intros j d E. cbn in E. rewrite edit_nth in E. destruct (Nat.eqb_spec j i) as [->|N]; [rewrite Ei in E; injection E as <-; exists c; cbn; auto 7|exists d; auto 7]. }
    (* nobody knows of a call in progress *)
    assert (Cov : forall js d, ~ In i js -> covers ob js d -> covers ob' js d).
    { intros js d Ni X j e x A B D E. destruct (Inv _ _ B) as (e0 & B0 & Q & _ & [[N ->]|(-> & _)]); [exact (X j e0 x A B0 D E)|contradiction]. }
    assert (Nk : ~ known ob i). { intros K. destruct (l_old s g ob seg L0 i K) as (d & x & Ed & Ex). congruence. }
    assert (Ans : forall j d d' x, nth_error (o_calls ob) j = Some d -> c_after d' = c_after d -> answers ob cnt d x -> answers ob' cnt d' x).
    { intros j d d' x Ed Ea (n & k & A & B & D). exists n, k. split; [exact A|]. split; [exact B|]. rewrite Ea. apply Cov; [|exact D]. intros J. apply Nk. right. eauto. }
    constructor; try rewrite El; try apply L.
    - intros u. assert (C0 : covers ob' (o_know ob u) (firstn (v_len (w_view s' u)) cnt)).
      { apply Cov; [intros J; apply Nk; left; eauto|]. eapply covers_k; [apply Vw|apply (k_know s ob seg cnt L)]. }
      cbn [o_know ob']. unfold update. destruct (Nat.eqb_spec u t) as [->|N]; [|exact C0]. intros j e x [<-|J] B D E; [|exact (C0 j e x J B D E)].
      destruct (Inv _ _ B) as (e0 & B0 & Q & _ & [[N _]|(_ & -> & Eo)]); [contradiction|]. rewrite Q in D. rewrite D in F. rewrite E in Eo. injection Eo as ->. destruct F as [F|F]; [now left|right].
      eapply firstn_in; [|exact F]. apply Vw.
    - intros j d x E Ln Eo. destruct (Inv _ _ E) as (d0 & E0 & Q & Qa & [[N ->]|(-> & -> & Eo')]).
      + eapply (Ans j d0); eauto. exact (k_done s ob seg cnt L j d0 x E0 Ln Eo).
      + rewrite Q in Ln. rewrite Ln in F. rewrite Eo in Eo'. injection Eo' as ->. eapply (Ans i c); eauto.
    - intros u. destruct (Nat.eq_dec u t) as [->|N].
      + intros j d A. cbn in A. rewrite update_eq in A. discriminate.
      + assert (E : w_thread s' u = w_thread s u) by (rewrite Tt; now apply update_ne). rewrite E. apply (tallied_le _ _ _ _ (w_view s u)); [apply Vw|]. apply (tallied_holds s); [exact Ho|].
        intros j d A B. cbn in A. rewrite update_ne in A by exact N. destruct (Inv _ _ B) as (d0 & B0 & Q & Qa & [[Nj ->]|(-> & _)]); [|exfalso; apply N; exact (l_one s g ob seg L0 u t i A Ec)].
        pose proof (k_thread s ob seg cnt L u j d0 A B0) as X. destruct (w_thread s u); auto. destruct (is_len d0); [eapply (Ans j d0); eauto|exact X].
  Qed.
  Lemma lens_sync s s' ob seg cnt t u : lens s ob seg cnt -> w_len s' = w_len s -> (forall id x, holds s id x -> holds s' id x) -> (forall w, vle (w_view s w) (w_view s' w)) ->
    vle (w_view s t) (w_view s' u) -> (forall w, w_thread s' w = w_thread s w) -> lens s' (observe ob (WSync t u)) seg cnt.
  Proof.
    intros L El Ho Vw Vt Tt. constructor; try rewrite El; try apply L.
    - intros w. assert (C0 : covers ob (o_know ob w) (firstn (v_len (w_view s' w)) cnt)) by (eapply covers_k; [apply Vw|apply (k_know s ob seg cnt L)]).
      cbn [observe o_know]. unfold update. destruct (Nat.eqb_spec w u) as [->|N]; [|exact C0]. intros j e x J B D E. apply in_app_or in J. destruct J as [J|J]; [|exact (C0 j e x J B D E)].
      assert (C1 : covers ob (o_know ob t) (firstn (v_len (w_view s' u)) cnt)) by (eapply covers_k; [apply Vt|apply (k_know s ob seg cnt L)]). exact (C1 j e x J B D E).
    - intros w. rewrite Tt. apply (tallied_le _ _ _ _ (w_view s w)); [apply Vw|]. apply (tallied_holds s); [exact Ho|]. exact (k_thread s ob seg cnt L w).
  Qed.

  (** *** Counting one more *)
  Lemma counts_push n (d : dones) i : counts n d -> counts (wrap64 (n + 1)) (d ++ [(i, OUnit)]).
  Proof.
    unfold counts, wrap64. intros [A B]. rewrite !filter_app, !app_length. cbn [filter did_push did_pop snd length]. rewrite !Nat2N.inj_add. cbn [N.of_nat]. rewrite N.add_0_r.
    change 18446744073709551616%N with (2 ^ 64)%N. set (w := (2 ^ 64)%N) in *. assert (W : w <> 0%N) by (unfold w; lia). split; [now apply N.mod_lt|].
    rewrite N.add_mod_idemp_l by exact W. replace (n + 1 + N.of_nat (length (filter did_pop d)))%N with (n + N.of_nat (length (filter did_pop d)) + 1)%N by lia.
    rewrite <- N.add_mod_idemp_l by exact W. rewrite B. now rewrite N.add_mod_idemp_l by exact W.
  Qed.
  Lemma counts_pop n (d : dones) i x : counts n d -> counts (wrap64 (n + 18446744073709551615)) (d ++ [(i, OPop (Some x))]).
  Proof.
    unfold counts, wrap64. intros [A B]. rewrite !filter_app, !app_length. cbn [filter did_push did_pop snd length]. rewrite !Nat2N.inj_add. cbn [N.of_nat]. rewrite N.add_0_r.
    change 18446744073709551616%N with (2 ^ 64)%N. change 18446744073709551615%N with (2 ^ 64 - 1)%N. change (N.pos (Pos.of_succ_nat 0)) with 1%N. set (w := (2 ^ 64)%N) in *. assert (W : w <> 0%N) by (unfold w; lia). split; [now apply N.mod_lt|].
    rewrite N.add_mod_idemp_l by exact W. replace (n + (w - 1) + (N.of_nat (length (filter did_pop d)) + 1))%N with (n + N.of_nat (length (filter did_pop d)) + 1 * w)%N by lia.
    now rewrite N.mod_add.
  Qed.
End Len.
