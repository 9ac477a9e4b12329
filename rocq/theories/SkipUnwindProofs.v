(** SkipMap with panicking comparisons: what the calls return. *)
From Verif Require Export SkipUnwindLoops SkipMapProofs UnwindSpec.

Section Rep.
  Context {K V : Type} `{CmpLaws K}.
  Notation hp := (heap (K * V) (option nat)).
  Notation cells := (list (nat * (K * V))).
  Implicit Types (h : hp) (ch : nat -> nat -> option nat) (par : nat -> nat -> nat) (k : K) (Xs Xa : cells) (go : K -> bool).

  (** [Xs]: the nodes of the chain of the head at level 0; [Xa]: the nodes of the other chains. *)
  Record rep h ch Xs Xa : Prop := {
    rp_shown : forall a e, In (a, e) Xs <-> ch a 0 = Some 0 /\ a <> 0 /\ da h a = Some e;
    rp_aside : forall a e, In (a, e) Xa <-> (exists c, c <> 0 /\ ch a 0 = Some c) /\ da h a = Some e;
    rp_sorted : sorted (map snd Xs);
    rp_nodup : NoDup (map fst Xa) }.
  Definition urel (m : skip_map K V) (shown aside : list (K * V)) (lost : nat) : Prop := exists ch par Xs Xa,
    inv (sk_heap m) ch par /\ rep (sk_heap m) ch Xs Xa /\ shown = map snd Xs /\ aside = map snd Xa /\
    sk_len m = length Xs + length Xa /\ live_nodes (sk_heap m) = S (length Xs + length Xa + lost).

  Lemma rep_same h h' ch ch' Xs Xa : (forall a, da h' a = da h a) -> (forall a, ch' a 0 = ch a 0) -> rep h ch Xs Xa -> rep h' ch' Xs Xa.
  Proof.
    intros D Q R. split; [| |apply R|apply R].
    - intros a e. rewrite Q, D. apply R.
    - intros a e. rewrite Q, D. apply R.
  Qed.
  Lemma rep_nodup h ch Xs Xa : rep h ch Xs Xa -> NoDup (map fst Xs).
  Proof.
    intros R. pose proof (rp_sorted _ _ _ _ R) as So. assert (D : forall a e, In (a, e) Xs -> da h a = Some e) by (intros a e I; apply R in I; tauto).
    clear R. induction Xs as [|[a e] X IH]; constructor.
    - intros I. apply in_map_iff in I as ([b e'] & Q & I). cbn in Q. subst b. cbn [map snd] in So. apply sorted_cons in So as [G _].
      assert (E : Some e = Some e') by (rewrite <- (D a e), <- (D a e'); auto; [now right|now left]). injection E as <-.
      unfold all_gt in G. rewrite Forall_forall in G. specialize (G e (in_map snd _ _ I)). cbn in G. rewrite cmp_refl in G. discriminate.
    - cbn [map] in So. apply sorted_cons in So as [_ So]. apply IH; auto. intros b e' I. apply D. now right.
  Qed.

  Lemma filter_snd (f : K * V -> bool) (X : cells) : map snd (filter (fun x => f (snd x)) X) = filter f (map snd X).
  Proof. induction X as [|x X IH]; auto. cbn [filter map]. destruct (f (snd x)); cbn [map]; congruence. Qed.
  Definition lower k (X : cells) : cells := filter (fun x => is_lt (cmp (fst (snd x)) k)) X.
  Definition upper k (X : cells) : cells := filter (fun x => is_gt (cmp (fst (snd x)) k)) X.
  Lemma lower_snd k X : map snd (lower k X) = below k (map snd X).
  Proof. apply (filter_snd (fun p => is_lt (cmp (fst p) k))). Qed.
  Lemma upper_snd k X : map snd (upper k X) = above k (map snd X).
  Proof. apply (filter_snd (fun p => is_gt (cmp (fst p) k))). Qed.
  Lemma in_lower x k X : In x (lower k X) <-> In x X /\ cmp (fst (snd x)) k = Lt.
  Proof. unfold lower. rewrite filter_In. destruct (cmp (fst (snd x)) k); cbn; intuition discriminate. Qed.
  Lemma in_upper x k X : In x (upper k X) <-> In x X /\ cmp (fst (snd x)) k = Gt.
  Proof. unfold upper. rewrite filter_In. destruct (cmp (fst (snd x)) k); cbn; intuition discriminate. Qed.

  Lemma at_none k (l : list (K * V)) : (forall p, In p l -> cmp (fst p) k <> Eq) -> at_key k l = [].
  Proof.
    intros N. destruct (at_key k l) as [|p r] eqn:E; auto. exfalso. assert (I : In p (at_key k l)) by (rewrite E; now left).
    apply in_at in I as [I Q]. exact (N p I Q).
  Qed.
  Lemma at_one k (l : list (K * V)) p : sorted l -> In p l -> cmp (fst p) k = Eq -> at_key k l = [p].
  Proof.
    intros So I Q. destruct (at_key_cases l k So) as [E|(e & E & Ke)].
    - assert (Ip : In p (at_key k l)) by (apply in_at; auto). rewrite E in Ip. destruct Ip.
    - rewrite E. f_equal. assert (Ip : In p (at_key k l)) by (apply in_at; auto). rewrite E in Ip. destruct Ip as [Ip|[]]; auto.
  Qed.

  (** What is left when a node was taken out of the chain [d]. *)
  Lemma rep_shown_key h ch Xs Xa k : rep h ch Xs Xa -> no_more h ch 0 0 k -> at_key k (map snd Xs) = [].
  Proof.
    intros R Nm. apply at_none. intros p Ip. apply in_map_iff in Ip as ([a e] & <- & Ia). cbn [snd]. apply R in Ia as (Ha & _ & Da).
    specialize (Nm a Ha). rewrite (key_of_data _ _ _ Da) in Nm. exact Nm.
  Qed.
  Lemma took_shown h ch par h' ch' Xs Xa k r : inv h ch par -> rep h ch Xs Xa -> took h ch 0 k h' ch' r ->
    rep h' ch' (lower k Xs ++ upper k Xs) Xa /\ r = hd_error (at_key k (map snd Xs)) /\
    length (lower k Xs ++ upper k Xs) + (match r with Some _ => 1 | None => 0 end) = length Xs /\
    live_nodes h' + (match r with Some _ => 1 | None => 0 end) = live_nodes h.
  Proof.
    intros I R T. pose proof (rp_sorted _ _ _ _ R) as So. set (l := map snd Xs).
    assert (Len : length (lower k Xs ++ upper k Xs) + length (at_key k l) = length Xs).
    { pose proof (f_equal (@length _) (sorted_split l k So)) as Q. unfold l in Q at 1. rewrite map_length in Q.
      rewrite <- (map_length snd (lower k Xs ++ upper k Xs)), map_app, lower_snd, upper_snd. fold l.
      rewrite !app_length in *. lia. }
    assert (So' : sorted (map snd (lower k Xs ++ upper k Xs))).
    { rewrite map_app, lower_snd, upper_snd. now apply sorted_delete. }
    destruct r as [e|].
    - destruct T as (y & Hy & Ny & Dy & Ke & -> & Da & Lv & Ln & Up).
      assert (Iy : In (y, e) Xs) by (apply R; auto).
      assert (At : at_key k l = [e]) by (apply at_one; auto; apply (in_map snd _ _ Iy)).
      rewrite At in *. cbn [length] in Len. split; [|split; [reflexivity|lia]]. split; [| |exact So'|apply R].
      + intros a f. rewrite in_app_iff, in_lower, in_upper. cbn [snd]. rewrite !(rp_shown _ _ _ _ R), clr_some. split.
        * intros Q. assert (Na : a <> y) by (intros ->; destruct Q as [[(_ & _ & D) Q]|[(_ & _ & D) Q]]; rewrite Dy in D; injection D as <-; congruence).
          rewrite Da by auto. tauto.
        * intros ((Q1 & Q2) & Q3 & Q4). assert (Na : a <> y) by (destruct Q2; congruence). rewrite Da in Q4 by auto.
          assert (Kf : cmp (fst f) k <> Eq).
          { intros Q. apply Na. apply (iv_uniq _ _ _ I _ _ _ _ Q1 Hy). rewrite (key_of_data _ _ _ Q4), (key_of_data _ _ _ Dy).
            change (cmp (fst f) (fst e) = Eq). korder. }
          destruct (cmp (fst f) k) eqn:E; try congruence; auto.
      + intros a f. rewrite (rp_aside _ _ _ _ R). split.
        * intros ((c & Nc & Hc) & D). assert (Na : a <> y) by (intros ->; congruence). rewrite Da by auto. split; auto. exists c. split; auto.
          apply clr_some. auto.
        * intros ((c & Nc & Hc) & D). apply clr_some in Hc as [Hc Na]. assert (a <> y) by (destruct Na; congruence). rewrite Da in D by auto. eauto.
    - destruct T as (-> & -> & Nm). pose proof (rep_shown_key _ _ _ _ _ R Nm) as At. fold l in At. rewrite At in *. cbn [length] in Len.
      split; [|split; [reflexivity|lia]]. split; [|apply R|exact So'|apply R].
      intros a f. rewrite in_app_iff, in_lower, in_upper. cbn [snd]. rewrite !(rp_shown _ _ _ _ R). split; [tauto|]. intros Q.
      assert (Kf : cmp (fst f) k <> Eq).
      { destruct Q as (Q1 & Q2 & Q3). specialize (Nm a Q1). rewrite (key_of_data _ _ _ Q3) in Nm. exact Nm. }
      destruct (cmp (fst f) k) eqn:E; try congruence; auto.
  Qed.
  Lemma took_aside h ch h' ch' Xs Xa k d r : rep h ch Xs Xa -> d <> 0 -> took h ch d k h' ch' r ->
    live_nodes h' + (match r with Some _ => 1 | None => 0 end) = live_nodes h /\
    match r with
    | None => rep h' ch' Xs Xa
    | Some e => exists y P Q, Xa = P ++ (y, e) :: Q /\ ch y 0 = Some d /\ cmp (fst e) k = Eq /\ rep h' ch' Xs (P ++ Q)
    end.
  Proof.
    intros R Nd T. destruct r as [e|].
    - destruct T as (y & Hy & Ny & Dy & Ke & -> & Da & Lv & Ln & Up). split; [lia|].
      assert (Iy : In (y, e) Xa) by (apply R; eauto). apply in_split in Iy as (P & Q & ->). exists y, P, Q. split; [reflexivity|]. split; [auto|]. split; [auto|].
      pose proof (rp_nodup _ _ _ _ R) as N. rewrite map_app in N. cbn [map fst] in N. apply NoDup_remove in N as [N1 N2]. rewrite <- map_app in N1, N2.
      split; [| |apply R|exact N1].
      + intros a f. rewrite (rp_shown _ _ _ _ R), clr_some. split.
        * intros (Q1 & Q2 & Q3). assert (a <> y) by (intros ->; congruence). rewrite Da by auto. auto.
        * intros ((Q1 & Q2) & Q3 & Q4). assert (a <> y) by (destruct Q2; congruence). rewrite Da in Q4 by auto. auto.
      + intros a f. assert (E : In (a, f) (P ++ Q) <-> In (a, f) (P ++ (y, e) :: Q) /\ a <> y).
        { rewrite !in_app_iff. cbn [In]. split.
          - intros X. split; [tauto|]. intros ->. apply N2. apply in_app_iff in X. apply (in_map fst _ _ X).
          - intros [[X|[X|X]] Y]; auto. injection X as -> ->. congruence. }
        rewrite E, (rp_aside _ _ _ _ R). split.
        * intros (((c & Nc & Hc) & D) & Na). rewrite Da by auto. split; auto. exists c. split; auto. apply clr_some. auto.
        * intros ((c & Nc & Hc) & D). apply clr_some in Hc as [Hc Na]. assert (a <> y) by (destruct Na; congruence). rewrite Da in D by auto. eauto 6.
    - destruct T as (-> & -> & Nm). auto.
  Qed.

  (** A chain other than the one of the head at level 0 has a node that was set aside. *)
  Lemma chain_aside h ch par Xs Xa a d : inv h ch par -> rep h ch Xs Xa -> ch a 0 = Some d -> d <> 0 -> exists e, In (a, e) Xa.
  Proof.
    intros I R Ha Nd. destruct (iv_data _ _ _ I a 0 d Ha) as [e De].
    - intros ->. rewrite (iv_head _ _ _ I) in Ha by lia. congruence.
    - exists e. apply R. eauto.
  Qed.
  Lemma some_aside (Xa : cells) x : In x Xa -> map snd Xa <> [].
  Proof. destruct Xa; [intros []|discriminate]. Qed.

  (** *** remove *)
  Lemma remove_call m shown aside lost k b : urel m shown aside lost -> exists m' x shown' aside',
    skip_remove_u m k b = Ok (m', x) /\ skip_call shown aside lost (MRemove k) (option_map RPair x) shown' aside' lost /\ urel m' shown' aside' lost.
  Proof.
    intros (ch & par & Xs & Xa & I & R & -> & -> & Len & Lv). unfold skip_remove_u, max_height.
    destruct (level_top _ _ _ k I) as [H0 Up]. pose proof (head_below _ _ _ k I) as Kc.
    destruct (remove_loop_inv k 32 b _ ch par 0 0 I H0 Kc Up) as
      [(h' & ch' & E & I' & (D & Lv' & Ln) & C0)|(b' & h1 & ch1 & h' & ch' & d & r & E & ((D & Lv' & Ln) & C0) & I1 & I' & (a & Ha) & T)]; rewrite E; cbn [bind].
    - exists (SkipMap h' (sk_len m)), None, (map snd Xs), (map snd Xa). split; [reflexivity|]. split; [apply (call_panic _ _ _ (MRemove k))|].
      exists ch', par, Xs, Xa. cbn [sk_heap sk_len]. split; [exact I'|]. split; [eapply rep_same; eauto|]. repeat split; auto. congruence.
    - assert (R1 : rep h1 ch1 Xs Xa) by (eapply rep_same; eauto).
      destruct (Nat.eq_dec d 0) as [->|Nd].
      + destruct (took_shown _ _ _ _ _ _ _ _ _ I1 R1 T) as (R2 & Er & Len2 & Lv2).
        assert (Step : forall len', len' = length (lower k Xs ++ upper k Xs) + length Xa ->
          exists m' x shown' aside', Ok (SkipMap h' len', Some r) = Ok (m', x) /\
            skip_call (map snd Xs) (map snd Xa) lost (MRemove k) (option_map RPair x) shown' aside' lost /\ urel m' shown' aside' lost).
        { intros len' ->. exists (SkipMap h' (length (lower k Xs ++ upper k Xs) + length Xa)), (Some r), (below k (map snd Xs) ++ above k (map snd Xs)), (map snd Xa).
          split; [reflexivity|]. split.
          - cbn [option_map]. rewrite Er. apply (call_plain _ _ lost (MRemove k)). apply (plain_other (MRemove k)); discriminate.
          - exists ch', par, (lower k Xs ++ upper k Xs), Xa. cbn [sk_heap sk_len]. rewrite map_app, lower_snd, upper_snd.
            split; [exact I'|]. split; [exact R2|]. repeat split; auto. destruct r; lia. }
        destruct r as [e|]; [|apply Step; lia]. rewrite Len.
        destruct (length Xs + length Xa) as [|n] eqn:En; [lia|]. cbn [checked_pred bind]. apply Step. lia.
      + destruct (took_aside _ _ _ _ _ _ _ _ _ R1 Nd T) as [Lv2 R2].
        destruct (chain_aside _ _ _ _ _ _ _ I1 R1 Ha Nd) as [e0 I0]. pose proof (some_aside _ _ I0) as Ne.
        destruct r as [e|].
        * destruct R2 as (y & P & Q & -> & Hy & Ke & R2). rewrite Len, app_length. cbn [length].
          replace (length Xs + (length P + S (length Q))) with (S (length Xs + length (P ++ Q))) by (rewrite app_length; lia).
          cbn [checked_pred bind]. exists (SkipMap h' (length Xs + length (P ++ Q))), (Some (Some e)), (map snd Xs), (map snd (P ++ Q)).
          split; [reflexivity|]. split.
          -- apply call_astray; auto. apply astray_remove; auto. rewrite !map_app. cbn [map snd]. apply Permutation_sym, Permutation_middle.
          -- exists ch', par, Xs, (P ++ Q). cbn [sk_heap sk_len]. split; [exact I'|]. split; [exact R2|]. repeat split; auto.
             rewrite app_length in *. cbn [length] in *. lia.
        * exists (SkipMap h' (sk_len m)), (Some None), (map snd Xs), (map snd Xa). split; [reflexivity|].
          split; [apply call_astray; auto; apply astray_no_remove|]. exists ch', par, Xs, Xa. cbn [sk_heap sk_len].
          split; [exact I'|]. split; [exact R2|]. repeat split; auto. lia.
  Qed.

  (** *** insert *)
  Lemma insert_call m shown aside lost k v n b : urel m shown aside lost -> exists m' x shown' aside',
    skip_insert_u m k v n b = Ok (m', x) /\ skip_call shown aside lost (MInsert k v) (option_map RPair x) shown' aside' lost /\ urel m' shown' aside' lost.
  Proof.
    intros (ch & par & Xs & Xa & I & R & -> & -> & Len & Lv). unfold skip_insert_u, max_height, alloc.
    set (t := height_of n). pose proof (height_of_le n : t <= 32) as Ht. clearbody t.
    set (new := length (sk_heap m)). set (h0 := sk_heap m ++ _).
    pose proof (inv_alloc (sk_heap m) ch par (k, v) t I Ht) as I0. fold h0 new in I0.
    assert (Nn : new <> 0). { pose proof (iv_lt _ _ _ 0 0 0 I (iv_head _ _ _ I 0 ltac:(lia))). unfold new. lia. }
    assert (Dn : da h0 new = Some (k, v)) by (unfold da, h0, new; now rewrite new_cell).
    assert (Do : forall a, a <> new -> da h0 a = da (sk_heap m) a).
    { intros a Na. unfold da, h0. destruct (Nat.lt_ge_cases a (length (sk_heap m))) as [L|L]; [now rewrite old_cell|].
      rewrite (proj2 (nth_error_None (sk_heap m) a)) by lia. rewrite (proj2 (nth_error_None (_ ++ _) a)); auto. rewrite app_length. cbn [length]. unfold new in Na. lia. }
    assert (Old : forall a c j, ch a j = Some c -> a < new /\ c < new) by (intros a c j Q; split; [eapply iv_lt|eapply iv_name]; eauto).
    assert (C0n : add_ch ch new t new 0 = Some new) by (apply add_ch_new; split; auto; lia).
    assert (R0 : rep h0 (add_ch ch new t) Xs ((new, (k, v)) :: Xa)).
    { split; [| |apply R|].
      - intros a e. rewrite (rp_shown _ _ _ _ R). destruct (Nat.eq_dec a new) as [->|Na].
        + split; [intros (Q & _); apply Old in Q; lia|]. intros (Q & _). rewrite C0n in Q. congruence.
        + rewrite add_ch_old, Do by auto. tauto.
      - intros a e. cbn [In]. rewrite (rp_aside _ _ _ _ R). destruct (Nat.eq_dec a new) as [->|Na].
        + rewrite C0n, Dn. split.
          * intros [[= <-]|((c & _ & Q) & _)]; [eauto|]. apply Old in Q. lia.
          * intros (_ & [= <-]). auto.
        + rewrite add_ch_old, Do by auto. split; [|tauto]. intros [[= <- <-]|Q]; [congruence|exact Q].
      - cbn [map fst]. constructor; [|apply R]. intros Q. apply in_map_iff in Q as ([a e] & Ea & Q). cbn in Ea. subst a.
        apply R in Q as ((c & _ & Q) & _). apply Old in Q. lia. }
    assert (Lv0 : live_nodes h0 = S (live_nodes (sk_heap m))) by apply live_app.
    destruct (level_top _ _ _ k I0) as [H0 Up]. pose proof (head_below _ _ _ k I0) as Kc.
    destruct (insert_loop_inv k new t Nn 32 b h0 _ _ 0 0 I0 (key_of_data _ _ _ Dn) H0 Kc Up) as
      [(h' & ch' & par' & E & I' & (D & Lv' & Ln) & C0)|
       (b' & h1 & ch1 & h2 & ch2 & h' & ch' & par' & d & r & E & ((D & Lv' & Ln) & C0) & (par1 & I1) & I' & (a & Ha) & Nd & T & (D2 & Lv2 & Ln2) & Hn & C2)].
    { intros j _ Hj. apply add_ch_new. auto. }
    { intros a j _ Q. destruct (Nat.eq_dec a new) as [->|Na]; auto. rewrite add_ch_old in Q by auto. apply Old in Q. lia. }
    { intros d Q. apply add_ch_new in Q. lia. }
    { intros j Hj. destruct (add_ch ch new t new j) eqn:Q; auto. apply add_ch_new in Q. lia. }
    - rewrite E. cbn [bind]. exists (SkipMap h' (S (sk_len m))), None, (map snd Xs), ((k, v) :: map snd Xa). split; [reflexivity|].
      split; [apply (call_panic _ _ _ (MInsert k v))|]. exists ch', par', Xs, ((new, (k, v)) :: Xa). cbn [sk_heap sk_len].
      split; [exact I'|]. split; [eapply rep_same; eauto|]. cbn [length]. repeat split; auto; lia.
    - rewrite E. cbn [bind].
      assert (R1 : rep h1 ch1 Xs ((new, (k, v)) :: Xa)) by (eapply rep_same; eauto).
      assert (C1n : ch1 new 0 = Some new) by now rewrite C0.
      destruct (Nat.eq_dec d 0) as [->|Nd0].
      + destruct (took_shown _ _ _ _ _ _ _ _ _ I1 R1 T) as (R2 & Er & Len2 & Lv3).
        assert (R' : rep h' ch' (lower k Xs ++ (new, (k, v)) :: upper k Xs) Xa).
        { split.
          - intros x e. rewrite D2. assert (Q : In (x, e) (lower k Xs ++ (new, (k, v)) :: upper k Xs) <-> (x, e) = (new, (k, v)) \/ In (x, e) (lower k Xs ++ upper k Xs)).
            { rewrite !in_app_iff. cbn [In]. intuition. }
            rewrite Q, (rp_shown _ _ _ _ R2). assert (In (new, (k, v)) ((new, (k, v)) :: Xa)) as In2 by now left.
            apply (rp_aside _ _ _ _ R2) in In2 as ((c & Nc & Hc) & Dn2). destruct (Nat.eq_dec x new) as [->|Nx].
            + rewrite Hn, Dn2. split; [intros [[= <-]|(Q1 & _)]; [auto|congruence]|]. intros (_ & _ & [= <-]). auto.
            + rewrite C2 by auto. split; [intros [[= ? ?]|X]; [congruence|exact X]|auto].
          - intros x e. rewrite D2. destruct (Nat.eq_dec x new) as [->|Nx].
            + rewrite Hn. split.
              * intros Q. exfalso. pose proof (rp_nodup _ _ _ _ R0) as N. cbn [map fst] in N. inversion N as [|? ? N1 _]; subst. apply N1, (in_map fst _ _ Q).
              * intros ((c & Nc & [= <-]) & _). congruence.
            + rewrite C2 by auto. rewrite <- (rp_aside _ _ _ _ R2). cbn [In]. split; auto. intros [[= ? ?]|Q]; [congruence|auto].
          - rewrite map_app. cbn [map snd]. rewrite lower_snd, upper_snd. apply sorted_insert, R.
          - apply R. }
        assert (Step : forall len', len' = length (lower k Xs ++ upper k Xs) + S (length Xa) ->
          exists m' x shown' aside', Ok (SkipMap h' len', Some r) = Ok (m', x) /\
            skip_call (map snd Xs) (map snd Xa) lost (MInsert k v) (option_map RPair x) shown' aside' lost /\ urel m' shown' aside' lost).
        { intros len' ->. eexists _, (Some r), (below k (map snd Xs) ++ (k, v) :: above k (map snd Xs)), (map snd Xa).
          split; [reflexivity|]. split.
          - cbn [option_map]. rewrite Er. apply (call_plain _ _ lost (MInsert k v)). apply (plain_other (MInsert k v)); discriminate.
          - exists ch', par', (lower k Xs ++ (new, (k, v)) :: upper k Xs), Xa. cbn [sk_heap sk_len]. rewrite map_app. cbn [map snd]. rewrite lower_snd, upper_snd.
            split; [exact I'|]. split; [exact R'|]. split; [reflexivity|]. split; [reflexivity|]. rewrite !app_length in *. cbn [length]. destruct r; lia. }
        destruct r as [e|]; [|apply Step; lia]. cbn [checked_pred bind]. apply Step. lia.
      + destruct (took_aside _ _ _ _ _ _ _ _ _ R1 Nd0 T) as [Lv3 R2].
        assert (Ne : map snd Xa <> []).
        { destruct (chain_aside _ _ _ _ _ _ _ I1 R1 Ha Nd0) as [e0 [Q|Q]]; [|eapply some_aside; eauto]. injection Q as <- <-. congruence. }
        assert (Move : forall Y, rep h2 ch2 Xs ((new, (k, v)) :: Y) -> rep h' ch' Xs ((new, (k, v)) :: Y)).
        { intros Y RY. assert (In (new, (k, v)) ((new, (k, v)) :: Y)) as In2 by now left. apply (rp_aside _ _ _ _ RY) in In2 as ((c & Nc & Hc) & Dn2).
          split; [| |apply RY|apply RY].
          - intros x e. rewrite D2, (rp_shown _ _ _ _ RY). destruct (Nat.eq_dec x new) as [->|Nx]; [|now rewrite C2 by auto].
            rewrite Hn, Hc. split; intros (Q & _); congruence.
          - intros x e. rewrite D2, (rp_aside _ _ _ _ RY). destruct (Nat.eq_dec x new) as [->|Nx]; [|now rewrite C2 by auto].
            rewrite Hn, Hc. split; intros (_ & Q); split; eauto. }
        destruct r as [e|].
        * destruct R2 as (y & P & Q & EP & Hy & Ke & R2). destruct P as [|p P].
          { cbn [app] in EP. injection EP as <- _ _. congruence. }
          injection EP as <- ->. cbn [app] in R2. cbn [checked_pred bind].
          eexists _, (Some (Some e)), (map snd Xs), ((k, v) :: map snd (P ++ Q)). split; [reflexivity|]. split.
          -- apply call_astray; auto. apply astray_replace; auto. rewrite !map_app. cbn [map snd]. apply Permutation_sym, Permutation_middle.
          -- exists ch', par', Xs, ((new, (k, v)) :: P ++ Q). cbn [sk_heap sk_len]. split; [exact I'|]. split; [now apply Move|]. repeat split; auto.
             ++ rewrite app_length in *. cbn [length] in *. rewrite app_length. lia.
             ++ rewrite app_length in *. cbn [length] in *. rewrite app_length. lia.
        * eexists _, (Some None), (map snd Xs), ((k, v) :: map snd Xa). split; [reflexivity|].
          split; [apply call_astray; auto; apply astray_insert|]. exists ch', par', Xs, ((new, (k, v)) :: Xa). cbn [sk_heap sk_len].
          split; [exact I'|]. split; [now apply Move|]. cbn [length]. repeat split; auto; lia.
  Qed.
End Rep.
