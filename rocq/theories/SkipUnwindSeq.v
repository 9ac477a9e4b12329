(** SkipMap with panicking comparisons: the calls that go along the bottom level, and all calls together. *)
From Verif Require Export SkipUnwindFind.

Section Sequence.
  Context {K V : Type} `{CmpLaws K}.
  Notation hp := (heap (K * V) (option nat)).
  Notation cells := (list (nat * (K * V))).
  Implicit Types (h : hp) (ch : nat -> nat -> option nat) (par : nat -> nat -> nat) (k : K) (Xs Xa : cells).

  (** The nodes met from [p] on. *)
  Fixpoint path h (p : option nat) (X : cells) : Prop :=
    match X with
    | [] => p = None
    | (a, e) :: X' => p = Some a /\ da h a = Some e /\ exists q, lk h a 0 = Some q /\ path h q X'
    end.
  Lemma path_of h ch par : inv h ch par -> forall R a p, ch a 0 = Some 0 -> lk h a 0 = Some p -> sorted (map snd R) ->
    (forall x e, In (x, e) R <-> ch x 0 = Some 0 /\ da h x = Some e /\ cmp (key_of h a) (key_of h x) = Lt) -> path h p R.
  Proof.
    intros I. induction R as [|[b e] R IH]; intros a p Ha Lp So Mem; cbn [path].
    - destruct p as [x|]; auto. exfalso. destruct (iv_next _ _ _ I _ _ _ _ Ha Lp) as [Hx Kx].
      destruct (iv_data _ _ _ I _ _ _ Hx) as [e De]; [eapply iv_below; eauto|]. apply (Mem x e). auto.
    - cbn [map snd] in So. apply sorted_cons in So as [G So]. unfold all_gt in G. rewrite Forall_forall in G.
      destruct (proj1 (Mem b e)) as (Hb & Db & Kb); [now left|].
      destruct (iv_full _ _ _ I _ _ _ _ Ha Hb Kb) as (n & Ln & Kn). rewrite Lp in Ln. injection Ln as ->.
      destruct (iv_next _ _ _ I _ _ _ _ Ha Lp) as [Hn Kn']. destruct (iv_data _ _ _ I _ _ _ Hn) as [f Df]; [eapply iv_below; eauto|].
      assert (n = b) as ->.
      { destruct (proj2 (Mem n f)) as [[= <- <-]|Q]; auto. exfalso. apply Kn. rewrite (key_of_data _ _ _ Df), (key_of_data _ _ _ Db).
        apply cmp_lt_gt. exact (G f (in_map snd _ _ Q)). }
      split; [reflexivity|]. split; [exact Db|]. destruct (iv_link _ _ _ I _ _ _ Hb) as (_ & q & Lq). exists q. split; [exact Lq|].
      apply (IH b q Hb Lq So). intros x g. split.
      + intros Q. destruct (proj1 (Mem x g)) as (Hx & Dx & _); [now right|]. split; auto. split; auto.
        rewrite (key_of_data _ _ _ Dx), (key_of_data _ _ _ Db). exact (G g (in_map snd _ _ Q)).
      + intros (Hx & Dx & Kx). destruct (proj2 (Mem x g)) as [[= <- <-]|Q]; auto; [|rewrite cmp_refl in Kx; discriminate].
        split; auto. split; auto. korder.
  Qed.
  Lemma shown_path h ch par Xs Xa : inv h ch par -> rep h ch Xs Xa -> exists p, lk h 0 0 = Some p /\ path h p Xs.
  Proof.
    intros I R. pose proof (iv_head _ _ _ I 0 ltac:(lia)) as H0. destruct (iv_link _ _ _ I _ _ _ H0) as (_ & p & Lp). exists p. split; auto.
    eapply path_of; eauto; [apply R|]. intros x e. rewrite (rp_shown _ _ _ _ R). unfold key_of. rewrite (iv_root _ _ _ I). split.
    - intros (Q & Nx & D). rewrite D. auto.
    - intros (Q & D & L). split; auto. split; auto. intros ->. rewrite (iv_root _ _ _ I) in D. discriminate.
  Qed.
  Lemma live_le h : live_nodes h <= length h.
  Proof. unfold live_nodes. induction h as [|[c|] h IH]; cbn [filter length]; lia. Qed.

  Lemma iter_path h : forall X p fuel, path h p X -> length X <= fuel -> iter_from fuel h p = Ok (map snd X).
  Proof.
    induction X as [|[a e] X IH]; intros p fuel Hp Hf; cbn [path] in Hp.
    - subst p. destruct fuel; reflexivity.
    - destruct Hp as (-> & De & q & Lq & Hp). destruct fuel as [|fuel]; cbn [length] in Hf; [lia|]. cbn [iter_from].
      rewrite (da_get _ _ _ De). cbn [bind]. rewrite (lk_get _ _ _ _ Lq). cbn [bind]. rewrite (IH q fuel) by (auto; lia). reflexivity.
  Qed.
  Lemma path_frame h h' : forall X p, (forall a, In a (map fst X) -> da h' a = da h a /\ lk h' a 0 = lk h a 0) -> path h p X -> path h' p X.
  Proof.
    induction X as [|[a e] X IH]; intros p Fr; cbn [path]; auto. intros (-> & De & q & Lq & Hp).
    destruct (Fr a) as [F1 F2]; [now left|]. split; auto. split; [congruence|]. exists q. split; [congruence|]. apply IH; auto.
    intros b Ib. apply Fr. now right.
  Qed.
  (** Freeing the nodes of a path leaves the others. *)
  Definition freed h (X : cells) h' : Prop :=
    live_nodes h = live_nodes h' + length X /\ length h' = length h /\ forall b, ~ In b (map fst X) -> nth_error h' b = nth_error h b.
  Lemma free_cell h a (e : K * V) : da h a = Some e -> exists h', dealloc h a = Ok h' /\ live_nodes h = S (live_nodes h') /\ length h' = length h /\
    forall b, b <> a -> nth_error h' b = nth_error h b.
  Proof.
    intros E. unfold da in E. destruct (nth_error h a) as [[n|]|] eqn:En; try discriminate. unfold dealloc, read. rewrite En. cbn [bind].
    eexists. split; [reflexivity|]. split; [eapply live_nodes_set_none; eauto|]. split; [apply list_set_length|].
    intros b Nb. now rewrite list_set_nth, (proj2 (Nat.eqb_neq a b)) by auto.
  Qed.
  Lemma cell_same h h' a : nth_error h' a = nth_error h a -> da h' a = da h a /\ forall j, lk h' a j = lk h a j.
  Proof. intros E. unfold da, lk. rewrite E. auto. Qed.
  Lemma free_path : forall X h p fuel, path h p X -> NoDup (map fst X) -> length X <= fuel -> exists h', free_from fuel h p = Ok (h', map snd X) /\ freed h X h'.
  Proof.
    induction X as [|[a e] X IH]; intros h p fuel Hp N Hf; cbn [path] in Hp.
    - subst p. exists h. split; [now destruct fuel|]. split; [cbn; lia|]. auto.
    - destruct Hp as (-> & De & q & Lq & Hp). destruct fuel as [|fuel]; cbn [length] in Hf; [lia|]. cbn [free_from].
      rewrite (lk_get _ _ _ _ Lq), (da_get _ _ _ De). cbn [bind]. destruct (free_cell _ _ _ De) as (h1 & E1 & L1 & Ln1 & F1). rewrite E1. cbn [bind].
      cbn [map fst] in N. inversion N as [|? ? N1 N2]; subst.
      destruct (IH h1 q fuel) as (h2 & E2 & L2 & Ln2 & F2); [|auto|lia|].
      { eapply path_frame; [|exact Hp]. intros b Ib. destruct (cell_same h h1 b) as [A B]; auto. apply F1. intros ->. auto. }
      rewrite E2. cbn [bind]. exists h2. split; [reflexivity|]. split; [cbn [length]; lia|]. split; [congruence|].
      intros b Nb. cbn [map fst In] in Nb. rewrite F2, F1; auto.
  Qed.
  Lemma take_path : forall X h p n, path h p X -> NoDup (map fst X) -> length X <= n ->
    exists h', into_iter_take n h p = Ok (h', None, map snd X) /\ freed h X h'.
  Proof.
    induction X as [|[a e] X IH]; intros h p fuel Hp N Hf; cbn [path] in Hp.
    - subst p. exists h. split; [now destruct fuel|]. split; [cbn; lia|]. auto.
    - destruct Hp as (-> & De & q & Lq & Hp). destruct fuel as [|fuel]; cbn [length] in Hf; [lia|]. cbn [into_iter_take].
      rewrite (da_get _ _ _ De). cbn [bind]. rewrite (lk_get _ _ _ _ Lq). cbn [bind]. destruct (free_cell _ _ _ De) as (h1 & E1 & L1 & Ln1 & F1). rewrite E1. cbn [bind].
      cbn [map fst] in N. inversion N as [|? ? N1 N2]; subst.
      destruct (IH h1 q fuel) as (h2 & E2 & L2 & Ln2 & F2); [|auto|lia|].
      { eapply path_frame; [|exact Hp]. intros b Ib. destruct (cell_same h h1 b) as [A B]; auto. apply F1. intros ->. auto. }
      rewrite E2. cbn [bind]. exists h2. split; [reflexivity|]. split; [cbn [length]; lia|]. split; [congruence|].
      intros b Nb. cbn [map fst In] in Nb. rewrite F2, F1; auto.
  Qed.
  (** Writing the values along a path. *)
  Lemma write_path : forall X h p vs, path h p X -> NoDup (map fst X) -> exists h' X',
    itermut_from h p vs = Ok (h', firstn (length vs) (map snd X)) /\ map fst X' = map fst X /\ map snd X' = write_vals (map snd X) vs /\
    (forall a e, In (a, e) X' -> da h' a = Some e) /\ (forall a, ~ In a (map fst X) -> da h' a = da h a) /\
    (forall a, key_of h' a = key_of h a) /\ (forall a j, lk h' a j = lk h a j) /\ length h' = length h /\ live_nodes h' = live_nodes h.
  Proof.
    induction X as [|[a e] X IH]; intros h p vs Hp N; cbn [path] in Hp.
    - subst p. exists h, []. rewrite firstn_nil. destruct vs; repeat split; auto; intros ? ? [].
    - destruct Hp as (-> & De & q & Lq & Hp). cbn [map fst] in N. inversion N as [|? ? N1 N2]; subst. destruct vs as [|v vs].
      + exists h, ((a, e) :: X). cbn [itermut_from length firstn]. split; [reflexivity|]. split; [reflexivity|]. split; [now destruct e|].
        split; [|repeat split; auto]. intros b f Q.
        assert (G : forall Y p, path h p Y -> In (b, f) Y -> da h b = Some f).
        { clear. induction Y as [|[c g] Y IH]; intros p; [intros _ []|]. cbn [path]. intros (_ & D & q & _ & P) [[= <- <-]|Q]; eauto. }
        apply (G ((a, e) :: X) (Some a)); auto. cbn [path]. eauto 8.
      + cbn [itermut_from]. rewrite (da_get _ _ _ De). cbn [bind]. rewrite (lk_get _ _ _ _ Lq). cbn [bind].
        destruct (da_set _ _ (fst e, v) _ De) as (h1 & E1 & D1 & D2 & L1 & Ln1 & Lv1). rewrite E1. cbn [bind].
        destruct (IH h1 q vs) as (h2 & X' & E2 & A1 & A2 & A3 & A4 & A5 & A6 & A7 & A8); auto.
        { eapply path_frame; [|exact Hp]. intros b Ib. split; auto. apply D2. intros ->. auto. }
        rewrite E2. cbn [bind]. exists h2, ((a, (fst e, v)) :: X'). split; [reflexivity|]. cbn [map fst snd]. split; [congruence|].
        split; [destruct e; cbn [write_vals fst]; congruence|]. split; [|split; [|split; [|split; [|split]]]].
        * intros b f [[= <- <-]|Q]; auto. rewrite A4; auto.
        * intros b Nb. cbn [In] in Nb. rewrite A4, D2; auto.
        * intros b. rewrite A5. eapply set_key; eauto.
        * intros b j. now rewrite A6.
        * congruence.
        * congruence.
  Qed.

  (** Only the head is linked. *)
  Definition only_head : nat -> nat -> option nat := fun a i => if (a =? 0) && (i <=? 32) then Some 0 else None.
  Lemma only_head_some a i c : only_head a i = Some c -> a = 0 /\ i <= 32 /\ c = 0.
  Proof. unfold only_head. destruct (Nat.eqb_spec a 0), (Nat.leb_spec i 32); cbn [andb]; intros Q; try discriminate. repeat split; auto. congruence. Qed.
  Lemma inv_only_head h : da h 0 = None -> (forall i, i <= 32 -> lk h 0 i = Some None) -> inv h only_head (fun _ _ => 0).
  Proof.
    intros D L. split.
    - exact D.
    - intros i Hi. unfold only_head. cbn [Nat.eqb andb]. now rewrite (proj2 (Nat.leb_le i 32)).
    - intros a i c Q. apply only_head_some in Q as (-> & Hi & ->). rewrite L by auto. eauto.
    - intros a i c Q. apply only_head_some in Q as (-> & _). congruence.
    - intros a i c b Q. apply only_head_some in Q as (-> & Hi & ->). rewrite L by auto. discriminate.
    - intros a b i c Qa Qb. apply only_head_some in Qa as (-> & _), Qb as (-> & _). rewrite cmp_refl. discriminate.
    - intros a b i c Qa Qb. apply only_head_some in Qa as (-> & _), Qb as (-> & _). auto.
    - intros a i c d Q1 Q2. apply only_head_some in Q2 as (_ & _ & ->). reflexivity.
    - intros a i j c Q Hj. apply only_head_some in Q as (-> & Hi & ->). exists 0. unfold only_head. cbn [Nat.eqb andb]. now rewrite (proj2 (Nat.leb_le j 32)) by lia.
    - intros a i c Q. apply only_head_some in Q as (_ & _ & ->). eapply lk_lt. apply (L 0). lia.
  Qed.
  Lemma rep_only_head h : da h 0 = None -> rep h only_head [] [].
  Proof.
    intros D. split; [| |constructor|constructor].
    - intros a e. split; [intros []|]. intros (Q & Na & _). apply only_head_some in Q as (-> & _). congruence.
    - intros a e. split; [intros []|]. intros ((c & Nc & Q) & _). apply only_head_some in Q as (_ & _ & ->). congruence.
  Qed.
  (** The head, with its links zeroed. *)
  Lemma zero_head h ch par : inv h ch par -> forall h1, nth_error h1 0 = nth_error h 0 -> exists h2, zero_links h1 0 None = Ok h2 /\ da h2 0 = None /\
    (forall i, i <= 32 -> lk h2 0 i = Some None) /\ (forall b, b <> 0 -> nth_error h2 b = nth_error h1 b) /\ length h2 = length h1 /\ live_nodes h2 = live_nodes h1.
  Proof.
    intros I h1 E. assert (Hd : forall i, i <= 32 -> exists l, lk h 0 i = Some l) by (intros i Hi; eapply iv_link; eauto; apply I; auto).
    pose proof (iv_root _ _ _ I) as D. unfold da, lk in *. rewrite <- E in D, Hd. destruct (nth_error h1 0) as [[n|]|] eqn:En.
    2,3: destruct (Hd 0 ltac:(lia)); discriminate.
    unfold zero_links, read. rewrite En. cbn [bind]. eexists. split; [reflexivity|].
    assert (H0 : (0 <? length h1) = true) by (apply Nat.ltb_lt, nth_error_Some; congruence).
    split; [|split; [|split; [|split]]].
    - rewrite list_set_nth, Nat.eqb_refl, H0. exact D.
    - intros i Hi. rewrite list_set_nth, Nat.eqb_refl, H0. cbn [sn_links]. destruct (Hd i Hi) as [l Hl].
      apply nth_error_repeat. apply nth_error_Some. congruence.
    - intros b Nb. now rewrite list_set_nth, (proj2 (Nat.eqb_neq 0 b)) by auto.
    - apply list_set_length.
    - eapply live_set; eauto.
  Qed.
  Lemma free_head h ch par : inv h ch par -> forall h1, nth_error h1 0 = nth_error h 0 -> exists h2, dealloc h1 0 = Ok h2 /\
    live_nodes h1 = S (live_nodes h2) /\ length h2 = length h1 /\ forall b, b <> 0 -> nth_error h2 b = nth_error h1 b.
  Proof.
    intros I h1 E. pose proof (iv_head _ _ _ I 0 ltac:(lia)) as H0. destruct (iv_link _ _ _ I _ _ _ H0) as (_ & l & Ll).
    unfold lk in Ll. rewrite <- E in Ll. destruct (nth_error h1 0) as [[n|]|] eqn:En; try discriminate. unfold dealloc, read. rewrite En. cbn [bind].
    eexists. split; [reflexivity|]. split; [eapply live_nodes_set_none; eauto|]. split; [apply list_set_length|].
    intros b Nb. now rewrite list_set_nth, (proj2 (Nat.eqb_neq 0 b)) by auto.
  Qed.
  Lemma not_shown h ch par Xs Xa : inv h ch par -> rep h ch Xs Xa -> ~ In 0 (map fst Xs).
  Proof. intros I R Q. apply in_map_iff in Q as ([a e] & Ea & Q). cbn in Ea. subst a. apply R in Q. tauto. Qed.

  Lemma urel_new : urel (skip_new : skip_map K V) [] [] 0.
  Proof.
    exists only_head, (fun _ _ => 0), [], []. cbn [sk_heap sk_len skip_new].
    assert (D : da (K := K) (V := V) (sk_heap skip_new) 0 = None) by reflexivity.
    split; [apply inv_only_head; auto|]. 2: split; [now apply rep_only_head|repeat split; reflexivity].
    intros i Hi. unfold lk, skip_new, alloc, max_height. cbn [sk_heap fst app nth_error sn_links]. apply nth_error_repeat. lia.
  Qed.
  Lemma clear_call (m : skip_map K V) shown aside lost : urel m shown aside lost -> exists m', skip_clear m = Ok (m', shown) /\ urel m' [] [] (lost + length aside).
  Proof.
    intros (ch & par & Xs & Xa & I & R & -> & -> & Len & Lv). unfold skip_clear. destruct (shown_path _ _ _ _ _ I R) as (p & Lp & P).
    rewrite (lk_get _ _ _ _ Lp). cbn [bind]. pose proof (live_le (sk_heap m)).
    destruct (free_path Xs (sk_heap m) p (length (sk_heap m)) P (rep_nodup _ _ _ _ R)) as (h1 & E1 & L1 & Ln1 & F1); [lia|]. rewrite E1. cbn [bind].
    destruct (zero_head _ _ _ I h1) as (h2 & E2 & D2 & L2 & F2 & Ln2 & Lv2); [apply F1; eapply not_shown; eauto|]. rewrite E2. cbn [bind].
    eexists. split; [reflexivity|]. exists only_head, (fun _ _ => 0), [], []. cbn [sk_heap sk_len]. split; [now apply inv_only_head|].
    split; [now apply rep_only_head|]. rewrite map_length. cbn [length]. repeat split; auto. lia.
  Qed.
  Lemma drop_call (m : skip_map K V) shown aside lost : urel m shown aside lost -> exists h', skip_drop m = Ok (h', shown) /\ live_nodes h' = length aside + lost.
  Proof.
    intros (ch & par & Xs & Xa & I & R & -> & -> & Len & Lv). unfold skip_drop. destruct (shown_path _ _ _ _ _ I R) as (p & Lp & P).
    rewrite (lk_get _ _ _ _ Lp). cbn [bind]. pose proof (live_le (sk_heap m)).
    destruct (free_head _ _ _ I _ eq_refl) as (h1 & E1 & L1 & Ln1 & F1). rewrite E1. cbn [bind].
    destruct (free_path Xs h1 p (length h1)) as (h2 & E2 & L2 & Ln2 & F2); [|eapply rep_nodup; eauto|lia|].
    { eapply path_frame; [|exact P]. intros b Ib. destruct (cell_same (sk_heap m) h1 b) as [A B]; auto. apply F1. intros ->. eapply not_shown; eauto. }
    rewrite E2. exists h2. split; [reflexivity|]. rewrite map_length. lia.
  Qed.
  Lemma iter_call (m : skip_map K V) shown aside lost : urel m shown aside lost -> skip_iter m = Ok shown.
  Proof.
    intros (ch & par & Xs & Xa & I & R & -> & -> & Len & Lv). unfold skip_iter. destruct (shown_path _ _ _ _ _ I R) as (p & Lp & P).
    rewrite (lk_get _ _ _ _ Lp). cbn [bind]. pose proof (live_le (sk_heap m)). apply iter_path; auto. lia.
  Qed.
  Lemma min_call (m : skip_map K V) shown aside lost : urel m shown aside lost -> skip_min m = Ok (option_map fst (hd_error shown)).
  Proof.
    intros (ch & par & Xs & Xa & I & R & -> & -> & Len & Lv). unfold skip_min. destruct (shown_path _ _ _ _ _ I R) as (p & Lp & P).
    rewrite (lk_get _ _ _ _ Lp). cbn [bind]. destruct Xs as [|[a e] Xs]; cbn [path] in P; [now subst p|]. destruct P as (-> & De & _).
    cbn [map hd_error option_map snd]. now apply key_at_da.
  Qed.
  Lemma iter_mut_call (m : skip_map K V) shown aside lost vs : urel m shown aside lost -> exists m',
    skip_iter_mut m vs = Ok (m', firstn (length vs) shown) /\ urel m' (write_vals shown vs) aside lost.
  Proof.
    intros (ch & par & Xs & Xa & I & R & -> & -> & Len & Lv). unfold skip_iter_mut. destruct (shown_path _ _ _ _ _ I R) as (p & Lp & P).
    rewrite (lk_get _ _ _ _ Lp). cbn [bind]. pose proof (rep_nodup _ _ _ _ R) as N.
    destruct (write_path Xs _ p vs P N) as (h' & X' & E & A1 & A2 & A3 & A4 & A5 & A6 & A7 & A8). rewrite E. cbn [bind].
    eexists. split; [reflexivity|]. exists ch, par, X', Xa. cbn [sk_heap sk_len].
    assert (LX : length X' = length Xs) by (rewrite <- (map_length fst X'), A1; apply map_length).
    split; [eapply inv_data; [| | |exact I]; auto|]. split; [|repeat split; auto; lia]. split.
    - intros a e. split.
      + intros Q. assert (Ia : In a (map fst Xs)) by (rewrite <- A1; apply (in_map fst _ _ Q)).
        apply in_map_iff in Ia as ([a' f] & Ea & Ia). cbn in Ea. subst a'. apply R in Ia. rewrite (A3 _ _ Q). tauto.
      + intros (Q & Na & D). destruct (iv_data _ _ _ I _ _ _ Q Na) as [f Df]. assert (Ia : In (a, f) Xs) by (apply R; auto).
        apply (in_map fst) in Ia. rewrite <- A1 in Ia. apply in_map_iff in Ia as ([a' g] & Ea & Ia). cbn in Ea. subst a'.
        assert (g = e) as -> by (apply A3 in Ia; congruence). exact Ia.
    - intros a e. rewrite (rp_aside _ _ _ _ R). assert (Q : forall c, c <> 0 -> ch a 0 = Some c -> da h' a = da (sk_heap m) a).
      { intros c Nc Q. apply A4. intros Ia. apply in_map_iff in Ia as ([a' f] & Ea & Ia). cbn in Ea. subst a'. apply R in Ia as (Q' & _). congruence. }
      split; intros ((c & Nc & Q') & D); (split; [eauto|]); rewrite (Q c Nc Q') in *; auto.
    - rewrite A2. apply sorted_write_vals, R.
    - apply R.
  Qed.
  Lemma into_iter_call (m : skip_map K V) shown aside lost : urel m shown aside lost -> exists h',
    skip_into_iter m (length (sk_heap m)) = Ok (h', shown, []) /\ live_nodes h' = length aside + lost.
  Proof.
    intros (ch & par & Xs & Xa & I & R & -> & -> & Len & Lv). unfold skip_into_iter, into_iter_new. destruct (shown_path _ _ _ _ _ I R) as (p & Lp & P).
    rewrite (lk_get _ _ _ _ Lp). cbn [bind]. pose proof (live_le (sk_heap m)).
    destruct (zero_head _ _ _ I (sk_heap m) eq_refl) as (h1 & E1 & D1 & L1 & F1 & Ln1 & Lv1). rewrite E1. cbn [bind].
    unfold skip_drop. cbn [sk_heap]. rewrite (lk_get _ _ _ _ (L1 0 ltac:(lia))). cbn [bind].
    destruct (free_head _ _ _ (inv_only_head _ D1 L1) _ eq_refl) as (h2 & E2 & Lv2 & Ln2 & F2). rewrite E2. cbn [bind].
    assert (Q : free_from (length h2) h2 None = Ok (h2, [])) by (destruct (length h2); reflexivity). rewrite Q. cbn [bind].
    destruct (take_path Xs h2 p (length (sk_heap m))) as (h3 & E3 & L3 & Ln3 & F3); [|eapply rep_nodup; eauto|lia|].
    { eapply path_frame; [|exact P]. intros b Ib. assert (b <> 0) by (intros ->; eapply not_shown; eauto).
      destruct (cell_same (sk_heap m) h2 b) as [A B]; auto. rewrite F2, F1; auto. }
    rewrite E3. cbn [bind]. assert (Q' : into_iter_drop (length h3) h3 None = Ok (h3, [])) by (destruct (length h3); reflexivity). rewrite Q'. cbn [bind].
    exists h3. split; [reflexivity|]. rewrite map_length. lia.
  Qed.
End Sequence.
