(** SkipMap with panicking comparisons: the calls that only search. *)
From Verif Require Export SkipUnwindProofs.

Section Find.
  Context {K V : Type} `{CmpLaws K}.
  Notation hp := (heap (K * V) (option nat)).
  Notation cells := (list (nat * (K * V))).
  Implicit Types (h : hp) (ch : nat -> nat -> option nat) (par : nat -> nat -> nat) (k : K) (Xs Xa : cells) (go : K -> bool).

  (** The nodes behind the place where a walk stopped. *)
  Lemma stop_rest h ch par i c cur go cur' nx : inv h ch par -> stops h ch i c cur go cur' nx ->
    forall a, ch a i = Some c -> cmp (key_of h cur') (key_of h a) = Lt ->
    exists n e, nx = Some n /\ da h n = Some e /\ ch n i = Some c /\ go (fst e) = false /\ cmp (Some (fst e)) (key_of h a) <> Gt.
  Proof.
    intros I (S1 & S2 & S3 & S4) a Ha L. destruct (iv_full _ _ _ I _ _ _ _ S1 Ha L) as (n & Ln & Kn). rewrite S3 in Ln. injection Ln as ->.
    destruct (S4 n eq_refl) as (e & De & Hn & Ge & _). exists n, e. rewrite <- (key_of_data _ _ _ De). auto.
  Qed.

  (** find *)
  Definition finds h ch k (r : option nat) : Prop :=
    match r with
    | Some y => exists d e, ch y 0 = Some d /\ y <> 0 /\ da h y = Some e /\ cmp (fst e) k = Eq
    | None => exists a d, ch a 0 = Some d /\ no_more h ch 0 d k
    end.
  Lemma find_loop_inv h ch par k : inv h ch par -> forall i c cur, ch cur i = Some c -> cmp (key_of h cur) (Some k) = Lt ->
    exists r, find_loop i h cur k = Ok r /\ finds h ch k r.
  Proof.
    intros I. induction i as [|i IH]; intros c cur Hc Kc;
      destruct (walk_inv h ch par _ c (fun x => is_lt (cmp x k)) cur I Hc) as (cur' & nx & W & St);
      pose proof (stop_rest _ _ _ _ _ _ _ _ _ I St) as Rest; destruct St as (S1 & S2 & S3 & S4);
      (assert (Kc' : cmp (key_of h cur') (Some k) = Lt);
       [destruct S2 as [->|(x & Ex & Gx)]; auto; rewrite Ex; change (cmp x k = Lt); destruct (cmp x k); auto; discriminate|]);
      cbn [find_loop]; rewrite W; cbn [bind].
    all: assert (Hit : forall y e, nx = Some y -> da h y = Some e -> is_eq (cmp (fst e) k) = true -> finds h ch k (Some y)).
    1,3: (intros y e -> De Q; destruct (S4 y eq_refl) as (_ & _ & Hy & _ & Ky); destruct (iv_down _ _ _ I y _ 0 _ Hy) as [d Hd]; [lia|];
      exists d, e; split; [auto|]; split; [eapply iv_below; eauto|]; split; [auto|]; destruct (cmp (fst e) k); auto; discriminate).
    - assert (Miss : (forall y e, nx = Some y -> da h y = Some e -> is_eq (cmp (fst e) k) = false) -> finds h ch k None).
      { intros N. exists cur', c. split; auto. intros a Ha Ka. destruct (Rest a Ha) as (n & e & -> & De & Hn & Ge & Kn); [korder|].
        specialize (N n e eq_refl De). rewrite (cmp_eq_r _ _ _ Ka) in Kn. change (cmp (fst e) k <> Gt) in Kn.
        destruct (cmp (fst e) k); congruence || discriminate. }
      destruct nx as [y|]; cbn [bind].
      + destruct (S4 y eq_refl) as (e & De & _). rewrite (da_get _ _ _ De). cbn [bind]. destruct (is_eq (cmp (fst e) k)) eqn:Q.
        * exists (Some y). eauto.
        * exists None. split; auto. apply Miss. intros y' e' [= <-] De'. congruence.
      + exists None. split; auto. apply Miss. discriminate.
    - assert (Down : exists r, find_loop i h cur' k = Ok r /\ finds h ch k r).
      { destruct (iv_down _ _ _ I cur' (S i) i c S1) as [d Hd]; [lia|]. eauto. }
      destruct nx as [y|]; cbn [bind]; auto.
      destruct (S4 y eq_refl) as (e & De & _). rewrite (da_get _ _ _ De). cbn [bind]. destruct (is_eq (cmp (fst e) k)) eqn:Q; auto.
      exists (Some y). eauto.
  Qed.
  Lemma find_u_sim h k : forall i b cur r, find_loop i h cur k = Ok r ->
    find_loop_u i b h cur k = Ok None \/ find_loop_u i b h cur k = Ok (Some r).
  Proof.
    induction i as [|i IH]; intros b cur r; cbn [find_loop find_loop_u];
      destruct (walk_all h cur _ (fun x => is_lt (cmp x k))) as [[cur' nx]| |] eqn:W; try discriminate; cbn [bind];
      unfold walk_all_u; destruct (walk_u_sim _ _ _ _ b _ _ W) as [E|[b1 E]]; rewrite E; cbn [bind]; auto;
      (destruct nx as [y|]; cbn [bind]; [destruct (get_data h y) as [e| |]; try discriminate; cbn [bind]; destruct b1; cbn [bind]; auto;
        destruct (is_eq (cmp (fst e) k))|]); intros Q; auto; injection Q as <-; auto.
  Qed.
  Lemma find_call (m : skip_map K V) ch par k b : inv (sk_heap m) ch par ->
    skip_find_u m k b = Ok None \/ exists r, skip_find_u m k b = Ok (Some r) /\ finds (sk_heap m) ch k r.
  Proof.
    intros I. destruct (find_loop_inv _ _ _ k I (starting_height (sk_len m)) 0 0) as (r & E & F).
    - apply I. apply starting_height_le.
    - apply (head_below _ _ _ _ I).
    - unfold skip_find_u. destruct (find_u_sim _ _ _ b _ _ E) as [Q|Q]; eauto.
  Qed.

  (** The answer of a lookup, from the pairs shown or from those aside. *)
  Lemma finds_some h ch Xs Xa k y : rep h ch Xs Xa -> finds h ch k (Some y) -> exists e, da h y = Some e /\ cmp (fst e) k = Eq /\
    (In (y, e) Xs /\ at_key k (map snd Xs) = [e] \/ In (y, e) Xa).
  Proof.
    intros R (d & e & Hy & Ny & De & Ke). exists e. split; auto. split; auto. destruct (Nat.eq_dec d 0) as [->|Nd].
    - left. assert (Iy : In (y, e) Xs) by (apply R; auto). split; auto. apply at_one; auto; [apply R|]. apply (in_map snd _ _ Iy).
    - right. apply R. eauto.
  Qed.
  Lemma finds_none h ch par Xs Xa k : inv h ch par -> rep h ch Xs Xa -> finds h ch k None -> at_key k (map snd Xs) = [] \/ map snd Xa <> [].
  Proof.
    intros I R (a & d & Ha & Nm). destruct (Nat.eq_dec d 0) as [->|Nd].
    - left. eapply rep_shown_key; eauto.
    - right. destruct (chain_aside _ _ _ _ _ _ _ I R Ha Nd) as [e Q]. eapply some_aside; eauto.
  Qed.
  Lemma get_call (m : skip_map K V) shown aside lost k b : urel m shown aside lost ->
    exists x, skip_get_u m k b = Ok x /\
      (x = None \/ x = Some (option_map snd (hd_error (at_key k shown))) \/
       (exists e : K * V, x = Some (Some (snd e)) /\ cmp (fst e) k = Eq /\ In e aside) \/ (x = Some None /\ aside <> [])).
  Proof.
    intros (ch & par & Xs & Xa & I & R & -> & -> & Len & Lv). unfold skip_get_u.
    destruct (find_call m ch par k b I) as [E|([y|] & E & F)]; rewrite E; cbn [bind]; eauto.
    - destruct (finds_some _ _ _ _ _ _ R F) as (e & De & Ke & Q). rewrite (da_get _ _ _ De). cbn [bind]. eexists. split; [reflexivity|].
      destruct Q as [[_ Q]|Q]; [rewrite Q; auto|]. right. right. left. exists e. split; auto. split; auto. apply (in_map snd _ _ Q).
    - eexists. split; [reflexivity|]. destruct (finds_none _ _ _ _ _ _ I R F) as [Q|Q]; [rewrite Q; auto|]. auto.
  Qed.

  (** get_mut *)
  Lemma inv_data h h' ch par : (forall a, key_of h' a = key_of h a) -> (forall a j, lk h' a j = lk h a j) -> length h' = length h ->
    inv h ch par -> inv h' ch par.
  Proof.
    intros Kk L Len I. split.
    - pose proof (Kk 0) as Q. unfold key_of in Q. rewrite (iv_root _ _ _ I) in Q. destruct (da h' 0); auto; discriminate.
    - apply I.
    - intros a i c Q. rewrite L. eapply iv_link; eauto.
    - intros a i c Q Na. destruct (iv_data _ _ _ I _ _ _ Q Na) as [e De]. pose proof (Kk a) as Ka. rewrite (key_of_data _ _ _ De) in Ka.
      apply key_of_some in Ka as (e' & De' & _). eauto.
    - intros a i c b Q. rewrite L, !Kk. eapply iv_next; eauto.
    - intros a b i c Qa Qb. rewrite !Kk. intros Lt. destruct (iv_full _ _ _ I _ _ _ _ Qa Qb Lt) as (n & Ln & Kn). exists n. now rewrite L, Kk.
    - intros a b i c. rewrite !Kk. apply I.
    - apply I.
    - apply I.
    - rewrite Len. apply I.
  Qed.
  Lemma set_key h h' y (e e' : K * V) : da h y = Some e -> da h' y = Some e' -> fst e' = fst e -> (forall a, a <> y -> da h' a = da h a) ->
    forall a, key_of h' a = key_of h a.
  Proof.
    intros De De' Q Do a. destruct (Nat.eq_dec a y) as [->|Na]; [|now apply same_key, Do].
    rewrite (key_of_data _ _ _ De), (key_of_data _ _ _ De'). congruence.
  Qed.
  Lemma in_replace (y : nat) (e e' : K * V) P Q a f : ~ In y (map fst (P ++ Q)) ->
    (In (a, f) (P ++ (y, e') :: Q) <-> a = y /\ f = e' \/ a <> y /\ In (a, f) (P ++ (y, e) :: Q)).
  Proof.
    intros N. rewrite !in_app_iff. cbn [In].
    assert (N' : In (a, f) P \/ In (a, f) Q -> a <> y) by (intros X ->; apply N; apply in_app_iff in X; apply (in_map fst _ _ X)).
    split.
    - intros [X|[X|X]]; [right|left|right]; auto 8. injection X as <- <-. auto.
    - intros [[-> ->]|[Na [X|[X|X]]]]; auto. injection X as <- <-. congruence.
  Qed.
  Lemma rep_replace_shown h h' ch P Q Xa y e e' : rep h ch (P ++ (y, e) :: Q) Xa -> da h' y = Some e' -> fst e' = fst e ->
    (forall a, a <> y -> da h' a = da h a) -> rep h' ch (P ++ (y, e') :: Q) Xa.
  Proof.
    intros R De' Fe Do. assert (N : ~ In y (map fst (P ++ Q))).
    { pose proof (rep_nodup _ _ _ _ R) as N. rewrite map_app in N. cbn [map fst] in N. apply NoDup_remove in N as [_ N]. now rewrite <- map_app in N. }
    assert (Iy : In (y, e) (P ++ (y, e) :: Q)) by (apply in_app_iff; right; now left).
    apply R in Iy as (Hy & Ny & De). split.
    - intros a f. rewrite (in_replace y e e' P Q a f N), (rp_shown _ _ _ _ R). destruct (Nat.eq_dec a y) as [->|Na].
      + rewrite De'. split; [intros [[_ ->]|[X _]]; [auto|congruence]|]. intros (_ & _ & [= <-]). auto.
      + rewrite Do by auto. tauto.
    - intros a f. rewrite (rp_aside _ _ _ _ R). destruct (Nat.eq_dec a y) as [->|Na]; [|now rewrite Do].
      split; intros ((c & Nc & X) & _); congruence.
    - eapply sorted_keys; [|apply R]. rewrite !map_app. cbn [map snd]. now rewrite Fe.
    - apply R.
  Qed.
  Lemma rep_replace_aside h h' ch P Q Xs y e e' : rep h ch Xs (P ++ (y, e) :: Q) -> da h' y = Some e' ->
    (forall a, a <> y -> da h' a = da h a) -> rep h' ch Xs (P ++ (y, e') :: Q).
  Proof.
    intros R De' Do. pose proof (rp_nodup _ _ _ _ R) as N0. rewrite map_app in N0. cbn [map fst] in N0.
    pose proof (NoDup_remove_2 _ _ _ N0) as N. rewrite <- map_app in N.
    assert (Iy : In (y, e) (P ++ (y, e) :: Q)) by (apply in_app_iff; right; now left).
    apply R in Iy as ((c0 & Nc0 & Hy) & De). split; [| |apply R|rewrite map_app; exact N0].
    - intros a f. rewrite (rp_shown _ _ _ _ R). destruct (Nat.eq_dec a y) as [->|Na]; [|now rewrite Do]. split; intros (X & _); congruence.
    - intros a f. rewrite (in_replace y e e' P Q a f N), (rp_aside _ _ _ _ R). destruct (Nat.eq_dec a y) as [->|Na].
      + rewrite De'. split; [intros [[_ ->]|[X _]]; [eauto|congruence]|]. intros (_ & [= <-]). auto.
      + rewrite Do by auto. tauto.
  Qed.
  Lemma get_mut_call (m : skip_map K V) shown aside lost k v b : urel m shown aside lost -> exists m' x shown' aside',
    skip_get_mut_u m k v b = Ok (m', x) /\ skip_call shown aside lost (MGetMut k v) (option_map RVal x) shown' aside' lost /\ urel m' shown' aside' lost.
  Proof.
    intros U. pose proof U as (ch & par & Xs & Xa & I & R & -> & -> & Len & Lv). unfold skip_get_mut_u.
    destruct (find_call m ch par k b I) as [E|([y|] & E & F)]; rewrite E; cbn [bind].
    - eexists m, None, _, _. split; [reflexivity|]. split; [apply (call_panic _ _ _ (MGetMut k v))|exact U].
    - destruct (finds_some _ _ _ _ _ _ R F) as (e & De & Ke & Q). rewrite (da_get _ _ _ De). cbn [bind].
      destruct (da_set _ _ (fst e, v) _ De) as (h' & E' & D1 & D2 & L' & Ln' & Lv'). rewrite E'. cbn [bind].
      assert (I' : inv h' ch par) by (apply (inv_data (sk_heap m)); auto; eapply set_key; eauto).
      destruct Q as [[Iy At]|Iy]; apply in_split in Iy as (P & Q & ->); rewrite app_length in *; cbn [length] in *.
      + eexists _, (Some (Some (snd e))), (map snd (P ++ (y, (fst e, v)) :: Q)), (map snd Xa). split; [reflexivity|]. split.
        * replace (map snd (P ++ (y, (fst e, v)) :: Q)) with (fst (map_spec_step (map snd (P ++ (y, e) :: Q)) (MGetMut k v))).
          -- replace (option_map RVal (Some (Some (snd e)))) with (Some (snd (map_spec_step (map snd (P ++ (y, e) :: Q)) (MGetMut k v)))).
             ++ apply (call_plain _ _ lost (MGetMut k v)). apply plain_other; discriminate.
             ++ cbn [map_spec_step snd option_map]. now rewrite At.
          -- cbn [map_spec_step fst]. rewrite At. cbn [map app]. rewrite map_app. cbn [map snd].
             pose proof (rp_sorted _ _ _ _ R) as So. rewrite map_app in So |- *. cbn [map snd] in So |- *.
             destruct (pieces_eq _ _ _ k So) as (B & _ & A); [korder|]. now rewrite B, A.
        * exists ch, par, (P ++ (y, (fst e, v)) :: Q), Xa. cbn [sk_heap sk_len]. rewrite app_length. cbn [length].
          split; [exact I'|]. split; [eapply rep_replace_shown; eauto|]. repeat split; auto. lia.
      + eexists _, (Some (Some (snd e))), (map snd Xs), ((fst e, v) :: map snd (P ++ Q)). split; [reflexivity|]. split.
        * apply call_astray; [rewrite map_app; destruct (map snd P); discriminate|]. apply astray_get_mut; auto.
          rewrite !map_app. cbn [map snd]. apply Permutation_sym, Permutation_middle.
        * assert (R' : rep h' ch Xs (P ++ (y, (fst e, v)) :: Q)) by (eapply rep_replace_aside; eauto).
          exists ch, par, Xs, ((y, (fst e, v)) :: P ++ Q). cbn [sk_heap sk_len]. split; [exact I'|]. split.
          -- split; [apply R'| |apply R'|].
             ++ intros a f. rewrite <- (rp_aside _ _ _ _ R'), !in_app_iff. cbn [In]. rewrite in_app_iff. tauto.
             ++ pose proof (rp_nodup _ _ _ _ R') as N. rewrite map_app in N. cbn [map fst] in N |- *. rewrite map_app.
                eapply Permutation_NoDup; [|exact N]; apply Permutation_sym, Permutation_middle.
          -- cbn [length map snd]. rewrite app_length. repeat split; auto; lia.
    - eexists m, (Some None), _, _. split; [reflexivity|]. split; [|exact U].
      destruct (finds_none _ _ _ _ _ _ I R F) as [Q|Q].
      + pose proof (call_plain (map snd Xs) (map snd Xa) lost (MGetMut k v) (snd (map_spec_step (map snd Xs) (MGetMut k v))) (fst (map_spec_step (map snd Xs) (MGetMut k v))) (map snd Xa)) as G.
        cbn [map_spec_step fst snd] in G. rewrite Q in G. cbn [map app hd_error option_map] in G |- *.
        pose proof (sorted_split _ k (rp_sorted _ _ _ _ R)) as Sp. rewrite Q in Sp. cbn [app] in Sp. rewrite <- Sp in G. apply G.
        pose proof (plain_other (MGetMut k v) (map snd Xs) (map snd Xa)) as P. cbn [map_spec_step fst snd] in P. rewrite Q in P. cbn [map app hd_error option_map] in P.
        rewrite <- Sp in P. apply P; discriminate.
      + apply call_astray; auto. apply astray_no_get_mut.
  Qed.

  (** descend *)
  Lemma descend_inv h ch par go : inv h ch par -> forall i c cur, ch cur i = Some c ->
    exists c' cur' nx, descend i h cur go = Ok (cur', nx) /\ stops h ch 0 c' cur go cur' nx.
  Proof.
    intros I. induction i as [|i IH]; intros c cur Hc; destruct (walk_inv h ch par _ c go cur I Hc) as (cur' & nx & W & St);
      cbn [descend]; rewrite W; cbn [bind]; eauto.
    destruct St as (S1 & S2 & _). destruct (iv_down _ _ _ I cur' (S i) i c S1) as [d Hd]; [lia|].
    destruct (IH d cur' Hd) as (c' & cur2 & nx2 & E & T1 & T2 & T3). exists c', cur2, nx2. split; [exact E|]. split; [exact T1|]. split; [|exact T3].
    destruct T2 as [->|T2]; auto.
  Qed.
  Lemma descend_u_sim h go : forall i b cur r, descend i h cur go = Ok r ->
    descend_u i b h cur go = Ok None \/ descend_u i b h cur go = Ok (Some r).
  Proof.
    induction i as [|i IH]; intros b cur r; cbn [descend descend_u];
      destruct (walk_all h cur _ go) as [[cur' nx]| |] eqn:W; try discriminate; cbn [bind];
      unfold walk_all_u; destruct (walk_u_sim _ _ _ _ b _ _ W) as [E|[b1 E]]; rewrite E; cbn [bind]; auto.
    intros [= <-]. auto.
  Qed.
  Lemma descend_top (m : skip_map K V) ch par go : inv (sk_heap m) ch par -> exists c cur nx,
    descend (starting_height (sk_len m)) (sk_heap m) 0 go = Ok (cur, nx) /\ stops (sk_heap m) ch 0 c 0 go cur nx.
  Proof. intros I. eapply descend_inv; eauto. apply I, starting_height_le. Qed.

  Lemma last_exact (l : list (K * V)) p : sorted l -> In p l -> (forall q, In q l -> cmp (fst q) (fst p) <> Gt) -> last_error l = Some p.
  Proof.
    intros So Ip Mx. destruct (exists_last (l := l)) as (l' & q & ->); [intros ->; destruct Ip|]. rewrite last_error_app. f_equal.
    apply sorted_app in So as (_ & _ & C'). assert (Iq : In q (l' ++ [q])) by (apply in_app_iff; right; now left).
    apply in_app_iff in Ip as [Ip|[Ip|[]]]; auto. exfalso. apply (Mx q Iq). apply cmp_lt_gt. eapply C'; eauto. now left.
  Qed.
  Lemma hd_exact (l : list (K * V)) p : sorted l -> In p l -> (forall q, In q l -> cmp (fst p) (fst q) <> Gt) -> hd_error l = Some p.
  Proof.
    destruct l as [|q l]; [intros _ []|]. intros So [->|Ip] Mn; [reflexivity|]. exfalso. apply sorted_cons in So as [G _].
    unfold all_gt in G. rewrite Forall_forall in G. apply (Mn q); [now left|]. apply cmp_lt_gt. auto.
  Qed.

  Lemma key_at_da h y (e : K * V) : da h y = Some e -> key_at h (Some y) = Ok (Some (fst e)).
  Proof. intros D. unfold key_at. now rewrite (da_get _ _ _ D). Qed.
  (** Where the last node of the walk is: the head, or a node with data. *)
  Lemma stop_here h ch par Xs Xa c go cur nx : inv h ch par -> rep h ch Xs Xa -> stops h ch 0 c 0 go cur nx ->
    (cur = 0 /\ c = 0) \/ exists e, da h cur = Some e /\ go (fst e) = true /\ (c = 0 /\ In (cur, e) Xs \/ c <> 0 /\ In (cur, e) Xa).
  Proof.
    intros I R (S1 & S2 & _). destruct S2 as [->|(x & Ex & Gx)].
    - left. split; auto. rewrite (iv_head _ _ _ I) in S1 by lia. congruence.
    - right. apply key_of_some in Ex as (e & De & <-). exists e. split; auto. split; auto. destruct (Nat.eq_dec c 0) as [->|Nc].
      + left. split; auto. apply R. split; auto. split; auto. intros ->. rewrite (iv_root _ _ _ I) in De. discriminate.
      + right. split; auto. apply R. eauto.
  Qed.
  Lemma not_head_ne cur : cur <> 0 -> not_head cur = Some cur.
  Proof. intros N. destruct cur; [now destruct N|reflexivity]. Qed.
  Lemma shown_key h ch Xs Xa p : rep h ch Xs Xa -> In p (map snd Xs) -> exists a, ch a 0 = Some 0 /\ a <> 0 /\ da h a = Some p.
  Proof. intros R Q. apply in_map_iff in Q as ([a e] & <- & Q). apply R in Q. eauto. Qed.

  Lemma floor_stop (m : skip_map K V) shown aside lost k : urel m shown aside lost -> exists x,
    (let* (cur, _) := descend (starting_height (sk_len m)) (sk_heap m) 0 (fun x => negb (is_gt (cmp x k))) in
     key_at (sk_heap m) (not_head cur)) = Ok x /\
    (x = option_map fst (last_error (below k shown ++ at_key k shown)) \/ exists e, x = Some (fst e) /\ cmp (fst e) k <> Gt /\ In e aside).
  Proof.
    intros (ch & par & Xs & Xa & I & R & -> & -> & Len & Lv).
    destruct (descend_top m ch par (fun x => negb (is_gt (cmp x k))) I) as (c & cur & nx & E & St). rewrite E. cbn [bind].
    pose proof (stop_rest _ _ _ _ _ _ _ _ _ I St) as Rest. pose proof (rp_sorted _ _ _ _ R) as So.
    assert (So' : sorted (below k (map snd Xs) ++ at_key k (map snd Xs))).
    { pose proof So as Q. rewrite (sorted_split _ k So), app_assoc in Q. apply sorted_app in Q. tauto. }
    assert (In' : forall p, In p (below k (map snd Xs) ++ at_key k (map snd Xs)) <-> In p (map snd Xs) /\ cmp (fst p) k <> Gt).
    { intros p. rewrite in_app_iff, in_below, in_at. destruct (cmp (fst p) k); intuition discriminate. }
    destruct (stop_here _ _ _ _ _ _ _ _ _ I R St) as [[-> ->]|(e & De & Ge & Q)].
    - exists None. split; [reflexivity|]. left. destruct (below k (map snd Xs) ++ at_key k (map snd Xs)) as [|p l] eqn:Q; [reflexivity|]. exfalso.
      destruct (proj1 (In' p) (or_introl eq_refl)) as [Ip Kp].
      destruct (shown_key _ _ _ _ _ R Ip) as (a & Ha & Na & Da). destruct (Rest a Ha) as (n & f & _ & _ & _ & Gf & Kf).
      { rewrite (key_of_data _ _ _ Da). unfold key_of. now rewrite (iv_root _ _ _ I). }
      rewrite (key_of_data _ _ _ Da) in Kf. change (cmp (fst f) (fst p) <> Gt) in Kf. destruct (cmp (fst f) k) eqn:Q1; try discriminate.
      destruct (cmp (fst p) k) eqn:Q2; [| |congruence]; apply Kf; korder.
    - assert (N0 : cur <> 0) by (intros ->; rewrite (iv_root _ _ _ I) in De; discriminate).
      assert (Ke : cmp (fst e) k <> Gt) by (destruct (cmp (fst e) k); discriminate).
      rewrite (not_head_ne cur N0), (key_at_da _ _ _ De). exists (Some (fst e)). split; [reflexivity|].
      destruct Q as [[-> Q]|[Nc Q]]; [left|right; exists e; split; auto; split; auto; apply (in_map snd _ _ Q)].
      rewrite (last_exact _ e So'); [reflexivity| |].
      + apply In'. split; auto. apply (in_map snd _ _ Q).
      + intros q Iq Gq. apply In' in Iq as [Iq Kq]. destruct (shown_key _ _ _ _ _ R Iq) as (a & Ha & Na & Da).
        destruct (Rest a Ha) as (n & f & _ & _ & _ & Gf & Kf).
        { rewrite (key_of_data _ _ _ Da), (key_of_data _ _ _ De). now apply cmp_gt_lt. }
        rewrite (key_of_data _ _ _ Da) in Kf. change (cmp (fst f) (fst q) <> Gt) in Kf. destruct (cmp (fst f) k) eqn:Q1; try discriminate.
        destruct (cmp (fst q) k) eqn:Q2; [| |congruence]; apply Kf; korder.
  Qed.
  Lemma ceil_stop (m : skip_map K V) shown aside lost k : urel m shown aside lost -> exists x,
    (let* (_, nx) := descend (starting_height (sk_len m)) (sk_heap m) 0 (fun x => is_lt (cmp x k)) in key_at (sk_heap m) nx) = Ok x /\
    (x = option_map fst (hd_error (at_key k shown ++ above k shown)) \/
     (exists e, x = Some (fst e) /\ cmp (fst e) k <> Lt /\ In e aside) \/ x = None /\ aside <> []).
  Proof.
    intros (ch & par & Xs & Xa & I & R & -> & -> & Len & Lv).
    destruct (descend_top m ch par (fun x => is_lt (cmp x k)) I) as (c & cur & nx & E & St). rewrite E. cbn [bind].
    pose proof (stop_rest _ _ _ _ _ _ _ _ _ I St) as Rest. pose proof (rp_sorted _ _ _ _ R) as So.
    assert (So' : sorted (at_key k (map snd Xs) ++ above k (map snd Xs))).
    { pose proof So as Q. rewrite (sorted_split _ k So) in Q. apply sorted_app in Q. tauto. }
    assert (In' : forall p, In p (at_key k (map snd Xs) ++ above k (map snd Xs)) <-> In p (map snd Xs) /\ cmp (fst p) k <> Lt).
    { intros p. rewrite in_app_iff, in_at, in_above. destruct (cmp (fst p) k); intuition discriminate. }
    assert (Kc : cmp (key_of (sk_heap m) cur) (Some k) = Lt).
    { destruct St as (_ & [->|(x & Ex & Gx)] & _); [apply (head_below _ _ _ _ I)|]. rewrite Ex. change (cmp x k = Lt). destruct (cmp x k); auto; discriminate. }
    assert (Beyond : forall p, In p (at_key k (map snd Xs) ++ above k (map snd Xs)) -> exists a, ch a 0 = Some 0 /\ da (sk_heap m) a = Some p /\
      cmp (key_of (sk_heap m) cur) (key_of (sk_heap m) a) = Lt).
    { intros p Ip. apply In' in Ip as [Ip Kp]. destruct (shown_key _ _ _ _ _ R Ip) as (a & Ha & Na & Da). exists a. split; auto. split; auto.
      rewrite (key_of_data _ _ _ Da). change (cmp (Some (fst p)) (Some k) <> Lt) in Kp.
      destruct (cmp (Some (fst p)) (Some k)) eqn:Q; [|congruence|]; korder. }
    destruct (Nat.eq_dec c 0) as [->|Nc].
    - destruct nx as [n|].
      + destruct St as (_ & _ & _ & S4). destruct (S4 n eq_refl) as (e & De & Hn & Ge & Kn). rewrite (key_at_da _ _ _ De).
        exists (Some (fst e)). split; [reflexivity|]. left. rewrite (hd_exact _ e So'); [reflexivity| |].
        * apply In'. split; [|destruct (cmp (fst e) k); discriminate]. apply (in_map snd Xs (n, e)). apply R. split; auto. split; auto. eapply iv_below; eauto.
        * intros q Iq. destruct (Beyond q Iq) as (a & Ha & Da & La). destruct (Rest a Ha La) as (n' & f & [= <-] & Df & _ & _ & Kf).
          rewrite (key_of_data _ _ _ Da) in Kf. assert (f = e) as -> by congruence. exact Kf.
      + exists None. split; [reflexivity|]. left. destruct (at_key k (map snd Xs) ++ above k (map snd Xs)) as [|p l]; [reflexivity|]. exfalso.
        destruct (Beyond p (or_introl eq_refl)) as (a & Ha & Da & La). destruct (Rest a Ha La) as (? & ? & X & _). discriminate.
    - destruct nx as [n|].
      + destruct St as (_ & _ & _ & S4). destruct (S4 n eq_refl) as (e & De & Hn & Ge & Kn). rewrite (key_at_da _ _ _ De).
        exists (Some (fst e)). split; [reflexivity|]. right. left. exists e. split; auto. split; [destruct (cmp (fst e) k); discriminate|].
        apply (in_map snd Xa (n, e)). apply R. eauto.
      + exists None. split; [reflexivity|]. right. right. split; auto. destruct St as (S1 & _).
        destruct (chain_aside _ _ _ _ _ _ _ I R S1 Nc) as [e Q]. eapply some_aside; eauto.
  Qed.
  Lemma max_stop (m : skip_map K V) shown aside lost : urel m shown aside lost -> exists x, skip_max m = Ok x /\
    (x = option_map fst (last_error shown) \/ exists e, x = Some (fst e) /\ In e aside).
  Proof.
    intros (ch & par & Xs & Xa & I & R & -> & -> & Len & Lv). unfold skip_max.
    destruct (descend_top m ch par (fun _ => true) I) as (c & cur & nx & E & St). rewrite E. cbn [bind].
    pose proof (stop_rest _ _ _ _ _ _ _ _ _ I St) as Rest. pose proof (rp_sorted _ _ _ _ R) as So.
    destruct (stop_here _ _ _ _ _ _ _ _ _ I R St) as [[-> ->]|(e & De & Ge & Q)].
    - exists None. split; [reflexivity|]. left. destruct (map snd Xs) as [|p l] eqn:Q; [reflexivity|]. exfalso.
      assert (Ip : In p (map snd Xs)) by (rewrite Q; now left).
      destruct (shown_key _ _ _ _ _ R Ip) as (a & Ha & Na & Da). destruct (Rest a Ha) as (n & f & _ & _ & _ & Gf & Kf); [|discriminate].
      rewrite (key_of_data _ _ _ Da). unfold key_of. now rewrite (iv_root _ _ _ I).
    - assert (N0 : cur <> 0) by (intros ->; rewrite (iv_root _ _ _ I) in De; discriminate).
      rewrite (not_head_ne cur N0), (key_at_da _ _ _ De). exists (Some (fst e)). split; [reflexivity|].
      destruct Q as [[-> Q]|[Nc Q]]; [left|right; exists e; split; auto; apply (in_map snd _ _ Q)].
      rewrite (last_exact _ e So); [reflexivity| |].
      + apply (in_map snd _ _ Q).
      + intros q Iq Gq. destruct (shown_key _ _ _ _ _ R Iq) as (a & Ha & Na & Da).
        destruct (Rest a Ha) as (n & f & _ & _ & _ & Gf & Kf); [|discriminate].
        rewrite (key_of_data _ _ _ Da), (key_of_data _ _ _ De). now apply cmp_gt_lt.
  Qed.
End Find.
