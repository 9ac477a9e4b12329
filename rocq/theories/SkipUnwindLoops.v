(** SkipMap with panicking comparisons: the loops keep the shape of the memory. *)
From Verif Require Export SkipUnwindInv.

Lemma filter_fewer {A} (f g : A -> bool) (l : list A) : (forall x, f x = true -> g x = true) -> length (filter f l) <= length (filter g l).
Proof.
  intros I. induction l as [|x l IH]; auto. cbn [filter]. destruct (f x) eqn:F.
  - rewrite (I _ F). cbn [length]. lia.
  - destruct (g x); cbn [length]; lia.
Qed.
Lemma filter_lower {A} (f g : A -> bool) (l : list A) x : (forall x, f x = true -> g x = true) -> In x l -> g x = true -> f x = false ->
  length (filter f l) < length (filter g l).
Proof.
  intros I Hx Gx Fx. apply in_split in Hx as (l1 & l2 & ->). rewrite !filter_app, !app_length. cbn [filter]. rewrite Gx, Fx. cbn [length].
  pose proof (filter_fewer f g l1 I). pose proof (filter_fewer f g l2 I). lia.
Qed.

Section Loops.
  Context {K V : Type} `{CmpLaws K}.
  Notation hp := (heap (K * V) (option nat)).
  Implicit Types (h : hp) (ch : nat -> nat -> option nat) (par : nat -> nat -> nat) (k : K) (go : K -> bool).

  Definition ahead h ch i c (a : nat) : nat :=
    length (filter (fun b => match ch b i with Some d => (d =? c) && is_lt (cmp (key_of h a) (key_of h b)) | None => false end) (seq 0 (length h))).
  Lemma ahead_next h ch par i c a b : inv h ch par -> ch a i = Some c -> lk h a i = Some (Some b) -> ahead h ch i c b < ahead h ch i c a.
  Proof.
    intros I Ha Lb. destruct (iv_next _ _ _ I _ _ _ _ Ha Lb) as [Hb Kb]. unfold ahead. apply (filter_lower _ _ _ b).
    - intros x. destruct (ch x i) as [d|]; auto. destruct (d =? c); auto. cbn [andb]. intros L.
      destruct (cmp (key_of h b) (key_of h x)) eqn:E; try discriminate. now rewrite (cmp_lt_trans _ _ _ Kb E).
    - apply in_seq. split; [lia|]. eapply iv_lt; eauto.
    - rewrite Hb, Nat.eqb_refl, Kb. reflexivity.
    - rewrite Hb, Nat.eqb_refl, cmp_refl. reflexivity.
  Qed.
  Lemma ahead_le h ch i c a : ahead h ch i c a <= length h.
  Proof.
    unfold ahead. etransitivity; [apply (filter_fewer _ (fun _ => true))|]; auto.
    rewrite <- (seq_length (length h) 0) at 2. generalize (seq 0 (length h)). induction l; cbn; lia.
  Qed.

  (** Where a walk stops. *)
  Definition stops h ch i c cur go (cur' : nat) (nx : option nat) : Prop :=
    ch cur' i = Some c /\ (cur' = cur \/ exists x, key_of h cur' = Some x /\ go x = true) /\ lk h cur' i = Some nx /\
    forall y, nx = Some y -> exists e, da h y = Some e /\ ch y i = Some c /\ go (fst e) = false /\ cmp (key_of h cur') (key_of h y) = Lt.
  Lemma walk_inv h ch par i c go cur : inv h ch par -> ch cur i = Some c ->
    exists cur' nx, walk_all h cur i go = Ok (cur', nx) /\ stops h ch i c cur go cur' nx.
  Proof.
    intros I Hc. unfold walk_all.
    assert (G : forall fuel cur, ahead h ch i c cur < fuel -> ch cur i = Some c ->
      exists cur' nx, walk fuel h cur i go = Ok (cur', nx) /\ stops h ch i c cur go cur' nx).
    { clear cur Hc. induction fuel as [|fuel IH]; intros cur Hf Hc; [lia|]. cbn [walk].
      destruct (iv_link _ _ _ I _ _ _ Hc) as (_ & l & Hl). rewrite (lk_get _ _ _ _ Hl). cbn [bind]. destruct l as [y|].
      - destruct (iv_next _ _ _ I _ _ _ _ Hc Hl) as [Hy Ky].
        destruct (iv_data _ _ _ I _ _ _ Hy) as [e He]; [eapply iv_below; eauto|]. rewrite (da_get _ _ _ He). cbn [bind].
        destruct (go (fst e)) eqn:G.
        + pose proof (ahead_next _ _ _ _ _ _ _ I Hc Hl). destruct (IH y) as (cur' & nx & E & S1 & S2 & S3); [lia|auto|].
          exists cur', nx. split; [exact E|]. split; [exact S1|]. split; [|exact S3]. right. destruct S2 as [->|S2]; auto.
          exists (fst e). split; auto. unfold key_of. now rewrite He.
        + exists cur, (Some y). split; [reflexivity|]. split; [auto|]. split; [auto|]. split; [auto|]. intros ? [= <-]. eauto.
      - exists cur, None. split; [reflexivity|]. split; [auto|]. split; [auto|]. split; [auto|]. discriminate. }
    apply G; auto. pose proof (ahead_le h ch i c cur). lia.
  Qed.
  Lemma key_of_some h a x : key_of h a = Some x -> exists e, da h a = Some e /\ fst e = x.
  Proof. unfold key_of. destruct (da h a) as [e|]; [|discriminate]. intros [= <-]. eauto. Qed.
  Lemma key_of_data h a e : da h a = Some e -> key_of h a = Some (fst e).
  Proof. unfold key_of. now intros ->. Qed.

  (** A walk with panics is the walk without, or it panics. *)
  Lemma walk_u_sim go i h : forall fuel b cur r, walk fuel h cur i go = Ok r ->
    walk_u fuel b h cur i go = Ok None \/ exists b', walk_u fuel b h cur i go = Ok (Some (b', r)).
  Proof.
    induction fuel as [|fuel IH]; intros b cur r; [discriminate|]. cbn [walk walk_u].
    destruct (get_link h cur i) as [[y|]| |]; try discriminate; cbn [bind].
    - destruct (get_data h y) as [e| |]; try discriminate. cbn [bind]. destruct b as [|b]; auto.
      destruct (go (fst e)); [apply IH|]. intros [= <-]. eauto.
    - intros [= <-]. eauto.
  Qed.

  (** One level of insert or remove. *)
  Definition no_more h ch i c k : Prop := forall a, ch a i = Some c -> cmp (key_of h a) (Some k) <> Eq.
  Definition same_data h h' : Prop := (forall a, da h' a = da h a) /\ live_nodes h' = live_nodes h /\ length h' = length h.
  Definition took h ch c k h' ch' (r : option (K * V)) : Prop :=
    match r with
    | None => h' = h /\ ch' = ch /\ no_more h ch 0 c k
    | Some e => exists y, ch y 0 = Some c /\ y <> 0 /\ da h y = Some e /\ cmp (fst e) k = Eq /\ ch' = clr ch y 0 /\
        (forall a, a <> y -> da h' a = da h a) /\ live_nodes h = S (live_nodes h') /\ length h' = length h /\ forall j, ch' y j = None
    end.
  Lemma level_inv h ch par i c k cur : inv h ch par -> ch cur i = Some c -> cmp (key_of h cur) (Some k) = Lt ->
    (forall y, ch y i = Some c -> cmp (key_of h y) (Some k) = Eq -> forall j, i < j -> ch y j = None) ->
    exists cur' nx h' ch' r, walk_all h cur i (fun x => is_lt (cmp x k)) = Ok (cur', nx) /\ unlink h cur' i nx k = Ok (h', r) /\
      inv h' ch' par /\ ch' cur' i = Some c /\ cmp (key_of h' cur') (Some k) = Lt /\ no_more h' ch' i c k /\
      (forall b, lk h' cur' i = Some (Some b) -> cmp (Some k) (key_of h' b) = Lt) /\
      (forall a j, j <> i -> ch' a j = ch a j) /\ (forall a d, ch' a i = Some d -> ch a i = Some d) /\
      (forall a, ch a i <> Some c -> ch' a i = ch a i) /\
      (forall a d, d <> c -> ch a i = Some d -> ch' a i = Some d) /\
      (i <> 0 -> same_data h h' /\ r = None) /\ (i = 0 -> took h ch c k h' ch' r).
  Proof.
    intros I Hc Kc Up. destruct (walk_inv h ch par i c (fun x => is_lt (cmp x k)) cur I Hc) as (cur' & nx & W & S1 & S2 & S3 & S4).
    assert (Kc' : cmp (key_of h cur') (Some k) = Lt).
    { destruct S2 as [->|(x & Ex & Gx)]; auto. rewrite Ex. change (cmp x k = Lt). destruct (cmp x k); auto; discriminate. }
    exists cur', nx.
    assert (Eqy : forall a, ch a i = Some c -> cmp (key_of h a) (Some k) = Eq -> nx = Some a).
    { intros a Ha Ka. assert (L : cmp (key_of h cur') (key_of h a) = Lt) by korder.
      destruct (iv_full _ _ _ I _ _ _ _ S1 Ha L) as (n & Ln & Kn). rewrite S3 in Ln. injection Ln as ->.
      destruct (S4 n eq_refl) as (e & De & Hn & Ge & _). f_equal. apply (iv_uniq _ _ _ I _ _ _ _ Hn Ha).
      assert (Nk : cmp (key_of h n) (Some k) <> Lt).
      { rewrite (key_of_data _ _ _ De). change (cmp (fst e) k <> Lt). intros L'. rewrite L' in Ge. discriminate. }
      destruct (cmp (key_of h n) (key_of h a)) eqn:E; auto; [|congruence]. exfalso. apply Nk. korder. }
    assert (Same : (forall a, nx = Some a -> cmp (key_of h a) (Some k) <> Eq) -> unlink h cur' i nx k = Ok (h, None) ->
      exists h' ch' r, walk_all h cur i (fun x => is_lt (cmp x k)) = Ok (cur', nx) /\ unlink h cur' i nx k = Ok (h', r) /\
      inv h' ch' par /\ ch' cur' i = Some c /\ cmp (key_of h' cur') (Some k) = Lt /\ no_more h' ch' i c k /\
      (forall b, lk h' cur' i = Some (Some b) -> cmp (Some k) (key_of h' b) = Lt) /\
      (forall a j, j <> i -> ch' a j = ch a j) /\ (forall a d, ch' a i = Some d -> ch a i = Some d) /\
      (forall a, ch a i <> Some c -> ch' a i = ch a i) /\
      (forall a d, d <> c -> ch a i = Some d -> ch' a i = Some d) /\
      (i <> 0 -> same_data h h' /\ r = None) /\ (i = 0 -> took h ch c k h' ch' r)).
    { intros Ne U. exists h, ch, None.
      assert (Nm : no_more h ch i c k) by (intros a Ha Ka; exact (Ne a (Eqy a Ha Ka) Ka)).
      split; [exact W|]. split; [exact U|]. split; [exact I|]. split; [exact S1|]. split; [exact Kc'|]. split; [exact Nm|].
      split; [|split; [auto|split; [auto|split; [auto|split; [auto|split; [repeat split; auto|]]]]]; intros ->; cbn [took]; auto].
      intros b Lb. rewrite S3 in Lb. injection Lb as ->. destruct (S4 b eq_refl) as (e & De & Hb & Ge & _).
      specialize (Ne b eq_refl). rewrite (key_of_data _ _ _ De) in Ne |- *. change (cmp (fst e) k <> Eq) in Ne. change (cmp k (fst e) = Lt).
      apply cmp_gt_lt. destruct (cmp (fst e) k) eqn:E; auto; [congruence|discriminate]. }
    destruct nx as [y|].
    2:{ apply Same; [discriminate|reflexivity]. }
    destruct (S4 y eq_refl) as (e & De & Hy & Ge & Ky).
    destruct (is_eq (cmp (fst e) k)) eqn:Qe.
    2:{ apply Same.
        - intros a [= <-]. rewrite (key_of_data _ _ _ De). change (cmp (fst e) k <> Eq). intros E. rewrite E in Qe. discriminate.
        - unfold unlink. rewrite (da_get _ _ _ De). cbn [bind]. now rewrite Qe. }
    clear Same. assert (Ek : cmp (fst e) k = Eq) by (destruct (cmp (fst e) k); auto; discriminate).
    assert (Eky : cmp (key_of h y) (Some k) = Eq) by (rewrite (key_of_data _ _ _ De); exact Ek).
    assert (Ny0 : y <> 0) by (eapply iv_below; eauto).
    assert (Nyc : cur' <> y) by (intros <-; rewrite cmp_refl in Ky; discriminate).
    unfold unlink. rewrite (da_get _ _ _ De). cbn [bind]. rewrite Qe.
    destruct (iv_link _ _ _ I _ _ _ Hy) as (_ & nn & Lnn). rewrite (lk_get _ _ _ _ Lnn). cbn [bind].
    destruct (lk_set h cur' i nn _ S3) as (h1 & E1 & L1 & L2 & D1 & Len1 & Liv1). rewrite E1. cbn [bind].
    pose proof (inv_unlink h h1 ch par cur' y i c nn I S1 S3 Lnn (Up y Hy Eky) L1 L2 D1 Len1) as I1.
    assert (K1 : forall a, key_of h1 a = key_of h a) by (intros; apply same_key; auto).
    assert (Nm : no_more h1 (clr ch y i) i c k).
    { intros a Ha Ka. rewrite K1 in Ka. apply clr_some in Ha as [Ha Na]. pose proof (Eqy a Ha Ka) as [= ->]. destruct Na; congruence. }
    assert (Nx : forall b, lk h1 cur' i = Some (Some b) -> cmp (Some k) (key_of h1 b) = Lt).
    { intros b Lb. rewrite L1 in Lb. injection Lb as ->. rewrite K1. destruct (iv_next _ _ _ I _ _ _ _ Hy Lnn) as [_ Kb]. korder. }
    assert (Frame : (forall a j, j <> i -> clr ch y i a j = ch a j) /\ (forall a d, clr ch y i a i = Some d -> ch a i = Some d) /\
      (forall a, ch a i <> Some c -> clr ch y i a i = ch a i) /\ (forall a d, d <> c -> ch a i = Some d -> clr ch y i a i = Some d)).
    { split; [|split; [|split]].
      - intros a j Nj. unfold clr. rewrite (proj2 (Nat.eqb_neq j i)) by auto. now rewrite andb_false_r.
      - intros a d Q. apply clr_some in Q. tauto.
      - intros a Na. unfold clr. destruct (Nat.eqb_spec a y) as [->|]; [congruence|]. reflexivity.
      - intros a d Nd Q. apply clr_some. split; auto. left. intros ->. congruence. }
    destruct Frame as (F1 & F2 & F3 & F4).
    destruct i as [|i].
    - destruct (da_free h1 y e) as (h2 & E2 & D2 & L3 & Len2 & Liv2); [now rewrite D1|]. rewrite E2. cbn [bind].
      assert (Ny : forall j, clr ch y 0 y j = None).
      { intros j. destruct j as [|j]; [unfold clr; now rewrite Nat.eqb_refl|]. rewrite F1 by lia. apply Up; auto. lia. }
      assert (K2 : forall a d j, clr ch y 0 a j = Some d -> key_of h2 a = key_of h1 a).
      { intros a d j Q. apply same_key, D2. intros ->. rewrite Ny in Q. discriminate. }
      assert (Sc : clr ch y 0 cur' 0 = Some c) by (apply clr_some; auto).
      pose proof (inv_free h1 h2 (clr ch y 0) par y I1 Ny D2 L3 Len2) as I2.
      exists h2, (clr ch y 0), (Some e). split; [exact W|]. split; [reflexivity|]. split; [exact I2|].
      split; [exact Sc|]. split; [rewrite (K2 _ _ _ Sc), K1; exact Kc'|]. split.
      { intros a Ha. rewrite (K2 _ _ _ Ha). now apply Nm. }
      split. { intros b Lb. destruct (iv_next _ _ _ I2 _ _ _ _ Sc Lb) as [Hb _]. rewrite (K2 _ _ _ Hb). apply Nx. rewrite <- L3; auto. }
      split; [exact F1|]. split; [exact F2|]. split; [exact F3|]. split; [exact F4|]. split; [congruence|]. intros _.
      exists y. repeat split; auto; [intros a Na; now rewrite D2 by auto|lia|lia].
    - exists h1, (clr ch y (Datatypes.S i)), None. split; [exact W|]. split; [reflexivity|]. split; [exact I1|].
      split; [apply clr_some; auto|]. split; [now rewrite K1|]. split; [exact Nm|]. split; [exact Nx|].
      split; [exact F1|]. split; [exact F2|]. split; [exact F3|]. split; [exact F4|]. split; [|discriminate]. intros _. repeat split; auto.
  Qed.

  (** The level below: the same premises hold again. *)
  Lemma level_down h ch par i c k cur : inv h ch par -> ch cur (S i) = Some c -> no_more h ch (S i) c k ->
    exists d, ch cur i = Some d /\ par d i = c /\ forall y, ch y i = Some d -> cmp (key_of h y) (Some k) = Eq -> forall j, i < j -> ch y j = None.
  Proof.
    intros I Hc Nm. destruct (iv_down _ _ _ I cur (S i) i c Hc) as [d Hd]; [lia|]. exists d. split; [exact Hd|].
    pose proof (iv_tree _ _ _ I _ _ _ _ Hd Hc) as Pd. split; [exact Pd|].
    intros y Hy Ky j Hj. destruct (ch y j) as [e|] eqn:Ey; auto. exfalso.
    destruct (iv_down _ _ _ I y j (S i) e Ey) as [f Hf]; [lia|]. pose proof (iv_tree _ _ _ I _ _ _ _ Hy Hf) as Pf.
    assert (f = c) as -> by congruence. exact (Nm y Hf Ky).
  Qed.
  Lemma level_top h ch par k : inv h ch par -> ch 0 32 = Some 0 /\ forall y, ch y 32 = Some 0 -> cmp (key_of h y) (Some k) = Eq -> forall j, 32 < j -> ch y j = None.
  Proof.
    intros I. split; [now apply I|]. intros y _ _ j Hj. destruct (ch y j) as [e|] eqn:Ey; auto.
    destruct (iv_link _ _ _ I _ _ _ Ey). lia.
  Qed.
  Lemma head_below h ch par k : inv h ch par -> cmp (key_of h 0) (Some k) = Lt.
  Proof. intros I. unfold key_of. now rewrite (iv_root _ _ _ I). Qed.

  Lemma unlink_u_sim b h cur i nx k x : unlink h cur i nx k = Ok x -> unlink_u b h cur i nx k = Ok None \/ exists b', unlink_u b h cur i nx k = Ok (Some (b', x)).
  Proof.
    intros E. unfold unlink_u. destruct nx as [y|]; [destruct b as [|b]; auto; rewrite E; cbn [bind]; eauto|].
    cbn in E. injection E as <-. eauto.
  Qed.

  Definition left_as_is h ch h' ch' : Prop := same_data h h' /\ forall a, ch' a 0 = ch a 0.
  Lemma as_is_refl h ch : left_as_is h ch h ch.
  Proof. repeat split; auto. Qed.
  Lemma remove_loop_inv k : forall i b h ch par c cur, inv h ch par -> ch cur i = Some c -> cmp (key_of h cur) (Some k) = Lt ->
    (forall y, ch y i = Some c -> cmp (key_of h y) (Some k) = Eq -> forall j, i < j -> ch y j = None) ->
    (exists h' ch', remove_loop_u i b h cur k = Ok (Threw h') /\ inv h' ch' par /\ left_as_is h ch h' ch') \/
    (exists b' h1 ch1 h' ch' d r, remove_loop_u i b h cur k = Ok (Came b' h' r) /\ left_as_is h ch h1 ch1 /\ inv h1 ch1 par /\ inv h' ch' par /\
       (exists a, ch1 a 0 = Some d) /\ took h1 ch1 d k h' ch' r).
  Proof.
    induction i as [|i IH]; intros b h ch par c cur I Hc Kc Up;
      destruct (level_inv h ch par _ c k cur I Hc Kc Up) as
        (cur' & nx & h' & ch' & r & W & U & I' & Hc' & Kc' & Nm & Nx & F1 & F2 & F3 & F4 & Hi & H0);
      cbn [remove_loop_u]; unfold walk_all_u; destruct (walk_u_sim _ _ _ _ b _ _ W) as [E|[b1 E]]; rewrite E; cbn [bind];
      [now (left; exists h, ch; auto using as_is_refl)| |now (left; exists h, ch; auto using as_is_refl)| ];
      (destruct (unlink_u_sim b1 _ _ _ _ _ _ U) as [E1|[b2 E1]]; rewrite E1; cbn [bind]; [now (left; exists h, ch; auto using as_is_refl)|]).
    - right. exists b2, h, ch, h', ch', c, r. split; [reflexivity|]. split; [apply as_is_refl|]. split; [exact I|]. split; [exact I'|]. split; [eauto|auto].
    - destruct Hi as [(D & Lv & Ln) ->]; [discriminate|].
      destruct (level_down _ _ _ _ _ _ _ I' Hc' Nm) as (d & Hd & _ & Up').
      destruct (IH b2 h' ch' par d cur' I' Hd Kc' Up') as [(h2 & ch2 & E2 & I2 & (D2 & Lv2 & Ln2) & C2)|
        (b' & h1 & ch1 & h2 & ch2 & d' & r & E2 & ((D2 & Lv2 & Ln2) & C2) & R)].
      + left. exists h2, ch2. split; [exact E2|]. split; [exact I2|]. repeat split; [intros; now rewrite D2|congruence|congruence|].
        intros a. rewrite C2. apply F1. discriminate.
      + right. exists b', h1, ch1, h2, ch2, d', r. split; [exact E2|]. split; [|exact R].
        repeat split; [intros; now rewrite D2|congruence|congruence|]. intros a. rewrite C2. apply F1. discriminate.
  Qed.

  (** Linking the new node [n] at level [i], if it is that high. *)
  Lemma link_level h ch par cur n t i c k : inv h ch par -> key_of h n = Some k -> n <> 0 ->
    (forall j, j <= i -> j <= t -> ch n j = Some n) -> (forall a j, j <= i -> ch a j = Some n -> a = n) ->
    ch cur i = Some c -> cmp (key_of h cur) (Some k) = Lt -> no_more h ch i c k ->
    (forall b, lk h cur i = Some (Some b) -> cmp (Some k) (key_of h b) = Lt) ->
    (forall d, ch n (S i) = Some d -> par c i = d) -> (t < i -> ch n i = None) ->
    exists h' ch' par', (if i <=? t then
                      let* p := get_link h cur i in
                      let* h := set_link h cur i (Some n) in
                      set_link h n i p
                    else Ok h) = Ok h' /\ inv h' ch' par' /\ same_data h h' /\ ch' cur i = Some c /\
      (forall a j, a <> n \/ j <> i -> ch' a j = ch a j) /\ (i <= t -> ch' n i = Some c) /\ (t < i -> ch' n i = None) /\
      (forall x j, x <> n \/ S j <> i -> par' x j = par x j).
  Proof.
    intros I Kn Nn Own Al Hc Kc Nm Nx Tr Ab.
    assert (Ncur : cur <> n) by (intros ->; rewrite Kn, cmp_refl in Kc; discriminate).
    assert (Nc : c <> n) by (intros ->; apply Ncur; eauto).
    destruct (Nat.leb_spec i t) as [Hi|Hi].
    2:{ exists h, ch, par. split; [reflexivity|]. split; [exact I|]. split; [repeat split; auto|]. repeat split; auto; intros; lia. }
    destruct (iv_link _ _ _ I _ _ _ Hc) as (_ & p & Lp). rewrite (lk_get _ _ _ _ Lp). cbn [bind].
    destruct (lk_set h cur i (Some n) _ Lp) as (h1 & E1 & L1 & L2 & D1 & Len1 & Liv1). rewrite E1. cbn [bind].
    destruct (iv_link _ _ _ I n i n (Own i (le_n i) Hi)) as (_ & q & Lq).
    destruct (lk_set h1 n i p q) as (h2 & E2 & L3 & L4 & D2 & Len2 & Liv2); [now rewrite L2 by auto|]. rewrite E2.
    exists h2, (put ch n i c), (put_par par n i c). split; [reflexivity|]. split; [|split; [|split; [|split; [|split; [|split]]]]].
    - apply (inv_link h h2 ch par cur n i c p); auto.
      + intros j Hj. apply Own; lia.
      + now rewrite Kn.
      + intros b ->. rewrite Kn. auto.
      + intros a Ha. rewrite Kn. auto.
      + now rewrite L4 by auto.
      + intros b j Hb. rewrite L4 by tauto. apply L2. tauto.
      + intros b. now rewrite D2.
      + congruence.
    - repeat split; [intros; now rewrite D2|congruence|congruence].
    - now rewrite put_other by auto.
    - intros a j Ha. now rewrite put_other by tauto.
    - intros _. apply put_same.
    - lia.
    - intros x j Hx. unfold put_par. destruct (Nat.eqb_spec x n), (Nat.eqb_spec (Datatypes.S j) i); cbn [andb]; tauto.
  Qed.

  Lemma same_trans h1 h2 h3 : same_data h1 h2 -> same_data h2 h3 -> same_data h1 h3.
  Proof. intros (A1 & A2 & A3) (B1 & B2 & B3). repeat split; [intros; now rewrite B1|congruence|congruence]. Qed.
  Lemma insert_loop_inv k n t : n <> 0 -> forall i b h ch par c cur, inv h ch par -> key_of h n = Some k -> ch cur i = Some c -> cmp (key_of h cur) (Some k) = Lt ->
    (forall y, ch y i = Some c -> cmp (key_of h y) (Some k) = Eq -> forall j, i < j -> ch y j = None) ->
    (forall j, j <= i -> j <= t -> ch n j = Some n) -> (forall a j, j <= i -> ch a j = Some n -> a = n) ->
    (forall d, ch n (S i) = Some d -> par c i = d) -> (forall j, t < j -> ch n j = None) ->
    (exists h' ch' par', insert_loop_u i b h cur n t k = Ok (Threw h') /\ inv h' ch' par' /\ left_as_is h ch h' ch') \/
    (exists b' h1 ch1 h2 ch2 h' ch' par' d r, insert_loop_u i b h cur n t k = Ok (Came b' h' r) /\ left_as_is h ch h1 ch1 /\
       (exists par1, inv h1 ch1 par1) /\ inv h' ch' par' /\ (exists a, ch1 a 0 = Some d) /\ d <> n /\ took h1 ch1 d k h2 ch2 r /\ same_data h2 h' /\
       ch' n 0 = Some d /\ forall a, a <> n -> ch' a 0 = ch2 a 0).
  Proof.
    intros Nn. induction i as [|i IH]; intros b h ch par c cur I Kn Hc Kc Up Own Al Tr Ab;
      destruct (level_inv h ch par _ c k cur I Hc Kc Up) as
        (cur' & nx & h' & ch' & r & W & U & I' & Hc' & Kc' & Nm & Nx & F1 & F2 & F3 & F4 & Hi & H0);
      assert (Ncur : cur <> n) by (intros ->; rewrite Kn, cmp_refl in Kc; discriminate);
      assert (Nc : c <> n) by (intros ->; apply Ncur; eauto);
      cbn [insert_loop_u]; unfold walk_all_u; destruct (walk_u_sim _ _ _ _ b _ _ W) as [E|[b1 E]]; rewrite E; cbn [bind];
      [now (left; exists h, ch, par; auto using as_is_refl)| |now (left; exists h, ch, par; auto using as_is_refl)| ];
      (destruct (unlink_u_sim b1 _ _ _ _ _ _ U) as [E1|[b2 E1]]; rewrite E1; cbn [bind]; [now (left; exists h, ch, par; auto using as_is_refl)|]).
    - assert (Kn' : key_of h' n = Some k).
      { specialize (H0 eq_refl). destruct r as [e|].
        - destruct H0 as (y & Hy & Ny0 & Dy & _ & _ & Da & _). rewrite <- Kn. apply same_key, Da. intros <-.
          rewrite Own in Hy by lia. congruence.
        - destruct H0 as (-> & _). exact Kn. }
      destruct (link_level h' ch' par cur' n t 0 c k I' Kn' Nn) as (h2 & ch2 & par2 & E2 & I2 & SD & Hc2 & G1 & G2 & G3 & G4); auto.
      { intros j Hj Hj'. assert (j = 0) as -> by lia. apply F4; auto. }
      { intros a j Hj Q. assert (j = 0) as -> by lia. eauto. }
      { intros d Q. rewrite F1 in Q by lia. auto. }
      { lia. }
      rewrite E2. cbn [bind]. right. exists b2, h, ch, h', ch', h2, ch2, par2, c, r. split; [reflexivity|]. split; [apply as_is_refl|].
      split; [eauto|]. split; [exact I2|]. split; [eauto|]. split; [exact Nc|]. split; [auto|]. split; [exact SD|]. split; [apply G2; lia|]. intros a Na. apply G1. auto.
    - destruct Hi as [SD ->]; [discriminate|].
      assert (Kn' : key_of h' n = Some k) by (rewrite <- Kn; apply same_key, SD).
      destruct (link_level h' ch' par cur' n t (Datatypes.S i) c k I' Kn' Nn) as (h2 & ch2 & par2 & E2 & I2 & SD2 & Hc2 & G1 & G2 & G3 & G4); auto.
      { intros j Hj Hj'. destruct (Nat.eq_dec j (Datatypes.S i)) as [->|Nj]; [apply F4; auto|]. rewrite F1 by auto. apply Own; lia. }
      { intros a j Hj Q. destruct (Nat.eq_dec j (Datatypes.S i)) as [->|Nj]; [eauto|]. rewrite F1 in Q by auto. eapply Al; [|exact Q]. lia. }
      { intros d Q. rewrite F1 in Q by lia. auto. }
      { intros Hj. rewrite F3; [|rewrite Ab by auto; discriminate]. auto. }
      rewrite E2. cbn [bind].
      assert (Kk : forall a, key_of h2 a = key_of h' a) by (intros; apply same_key, SD2).
      assert (Ncur' : cur' <> n) by (intros ->; rewrite Kn', cmp_refl in Kc'; discriminate).
      assert (Low : forall a j, j <= i -> ch2 a j = ch a j).
      { intros a j Hj. rewrite G1 by (right; lia). apply F1. lia. }
      assert (Nm2 : forall y, y <> n -> ch2 y (Datatypes.S i) = Some c -> cmp (key_of h2 y) (Some k) <> Eq).
      { intros y Ny Hy. rewrite Kk. apply Nm. now rewrite <- G1 by auto. }
      destruct (iv_down _ _ _ I2 cur' (Datatypes.S i) i c Hc2) as [d Hd]; [lia|].
      pose proof (iv_tree _ _ _ I2 _ _ _ _ Hd Hc2) as Pd.
      assert (Nd : d <> n) by (intros ->; apply Ncur'; rewrite Low in Hd by lia; eapply Al; [|exact Hd]; lia).
      assert (Up' : forall y, ch2 y i = Some d -> cmp (key_of h2 y) (Some k) = Eq -> forall j, i < j -> ch2 y j = None).
      { intros y Hy Ky j Hj. destruct (ch2 y j) as [e|] eqn:Ey; auto. exfalso.
        destruct (iv_down _ _ _ I2 y j (Datatypes.S i) e Ey) as [f Hf]; [lia|]. pose proof (iv_tree _ _ _ I2 _ _ _ _ Hy Hf) as Pf.
        assert (f = c) as -> by congruence. destruct (Nat.eq_dec y n) as [->|Ny]; [|exact (Nm2 y Ny Hf Ky)].
        rewrite Low in Hy by lia. destruct (Nat.leb_spec i t) as [Ht|Ht]; [rewrite Own in Hy by lia; congruence|].
        rewrite Ab in Hy by lia. discriminate. }
      destruct (IH b2 h2 ch2 par2 d cur' I2) as [(h3 & ch3 & par3 & E3 & I3 & SD3 & C3)|
        (b' & h1 & ch1 & hu & chu & h3 & ch3 & par3 & d' & r & E3 & (SD3 & C3) & R)]; auto.
      { now rewrite Kk. }
      { now rewrite Kk. }
      { intros j Hj Hj'. rewrite Low by auto. apply Own; lia. }
      { intros a j Hj Q. rewrite Low in Q by auto. eapply Al; [|exact Q]. lia. }
      { intros e He. destruct (Nat.leb_spec (Datatypes.S i) t) as [Ht|Ht].
        - rewrite G2 in He by lia. congruence.
        - rewrite G3 in He by lia. discriminate. }
      { intros j Hj. destruct (Nat.eq_dec j (Datatypes.S i)) as [->|Nj]; auto. rewrite G1, F1 by auto. auto. }
      + left. exists h3, ch3, par3. split; [exact E3|]. split; [exact I3|]. split; [eauto using same_trans|].
        intros a. rewrite C3. apply Low. lia.
      + right. exists b', h1, ch1, hu, chu, h3, ch3, par3, d', r. split; [exact E3|]. split; [|exact R].
        split; [eauto using same_trans|]. intros a. rewrite C3. apply Low. lia.
  Qed.
End Loops.
