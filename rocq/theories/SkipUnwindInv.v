(** SkipMap with panicking comparisons: the shape of the memory.  A node half linked by an insert that panicked is the start of chains of
    its own below the levels where it is linked.  [ch a i] names the chain of level [i] that node [a] is in, [par c i] the
    chain of level [i + 1] above the chain [c] of level [i]. *)
From Coq Require Import Permutation.
From Verif Require Export SkipUnwindModel SkipUnwindSpec ListLemmas OrdLemmas SkipHeapProofs.

(** Keys with a least element, the head. *)
Section Bottom.
  Context {K : Type} `{CmpLaws K}.
  Global Instance bottom_cmp : Cmp (option K) := fun x y =>
    match x, y with
    | None, None => Eq
    | None, Some _ => Lt
    | Some _, None => Gt
    | Some a, Some b => cmp a b
    end.
  Global Instance bottom_laws : CmpLaws (option K).
  Proof.
    split.
    - intros [x|] [y|]; try reflexivity. exact (cmp_sym x y).
    - intros [x|] [y|] [z|]; try discriminate; auto. exact (cmp_lt_trans x y z).
    - intros [x|] [y|] [z|]; try discriminate; auto. intros E. exact (cmp_eq_l x y z E).
  Qed.
End Bottom.

Section Cells.
  Context {K V : Type}.
  Notation hp := (heap (K * V) (option nat)).
  Implicit Types (h : hp).

  Definition lk h a i : option (option nat) :=
    match nth_error h a with Some (Some n) => nth_error (sn_links n) i | _ => None end.
  Definition da h a : option (K * V) := match nth_error h a with Some (Some n) => sn_data n | _ => None end.
  Definition key_of h a : option K := option_map fst (da h a).

  Lemma lk_get h a i l : lk h a i = Some l -> get_link h a i = Ok l.
  Proof. unfold lk, get_link, read. destruct (nth_error h a) as [[n|]|]; try discriminate. cbn [bind]. intros ->. reflexivity. Qed.
  Lemma lk_lt h a i l : lk h a i = Some l -> a < length h.
  Proof. unfold lk. intros E. apply nth_error_Some. destruct (nth_error h a); discriminate. Qed.
  Lemma da_get h a e : da h a = Some e -> get_data h a = Ok e.
  Proof. unfold da, get_data, read. destruct (nth_error h a) as [[n|]|]; try discriminate. cbn [bind]. intros ->. reflexivity. Qed.
  Lemma da_lt h a e : da h a = Some e -> a < length h.
  Proof. unfold da. intros E. apply nth_error_Some. destruct (nth_error h a); discriminate. Qed.

  Lemma live_set h : forall a n n', nth_error h a = Some (Some n) -> live_nodes (list_set h a (Some n')) = live_nodes h.
  Proof.
    induction h as [|c h IH]; intros [|a] n n' E; try discriminate; cbn [nth_error] in E.
    - injection E as ->. reflexivity.
    - specialize (IH a n n' E). unfold live_nodes in *. cbn [list_set filter]. destruct c; cbn [length]; congruence.
  Qed.
  Lemma live_app h n : live_nodes (h ++ [Some n]) = S (live_nodes h).
  Proof. unfold live_nodes. rewrite filter_app, app_length. cbn. lia. Qed.

  (** Writing a link. *)
  Lemma lk_set h a i l l0 : lk h a i = Some l0 -> exists h', set_link h a i l = Ok h' /\
    lk h' a i = Some l /\ (forall b j, b <> a \/ j <> i -> lk h' b j = lk h b j) /\ (forall b, da h' b = da h b) /\
    length h' = length h /\ live_nodes h' = live_nodes h.
  Proof.
    intros E. pose proof (lk_lt _ _ _ _ E) as Ha. apply Nat.ltb_lt in Ha.
    unfold lk in E. destruct (nth_error h a) as [[n|]|] eqn:En; try discriminate.
    assert (Hi : i < length (sn_links n)) by (apply nth_error_Some; congruence). apply Nat.ltb_lt in Hi.
    unfold set_link, read. rewrite En. cbn [bind]. rewrite Hi. eexists. split; [reflexivity|].
    split; [|split; [|split; [|split]]].
    - unfold lk. rewrite list_set_nth, Nat.eqb_refl, Ha. cbn [sn_links]. now rewrite list_set_nth, Nat.eqb_refl, Hi.
    - intros b j Hb. unfold lk. rewrite list_set_nth, Ha. destruct (Nat.eqb_spec a b) as [<-|N]; [|reflexivity].
      cbn [sn_links]. rewrite list_set_nth, En. destruct (Nat.eqb_spec i j) as [->|]; [destruct Hb; congruence|reflexivity].
    - intros b. unfold da. rewrite list_set_nth, Ha. destruct (Nat.eqb_spec a b) as [<-|N]; [|reflexivity]. now rewrite En.
    - apply list_set_length.
    - eapply live_set; eauto.
  Qed.
  Lemma da_set h a e e0 : da h a = Some e0 -> exists h', set_data h a e = Ok h' /\ da h' a = Some e /\
    (forall b, b <> a -> da h' b = da h b) /\ (forall b j, lk h' b j = lk h b j) /\ length h' = length h /\ live_nodes h' = live_nodes h.
  Proof.
    intros E. pose proof (da_lt _ _ _ E) as Ha. apply Nat.ltb_lt in Ha.
    unfold da in E. destruct (nth_error h a) as [[n|]|] eqn:En; try discriminate.
    unfold set_data, read. rewrite En. cbn [bind]. rewrite E. cbn [expect bind]. eexists. split; [reflexivity|].
    split; [|split; [|split; [|split]]].
    - unfold da. now rewrite list_set_nth, Nat.eqb_refl, Ha.
    - intros b Hb. unfold da. rewrite list_set_nth, (proj2 (Nat.eqb_neq a b)); auto.
    - intros b j. unfold lk. rewrite list_set_nth, Ha. destruct (Nat.eqb_spec a b) as [<-|N]; [|reflexivity]. now rewrite En.
    - apply list_set_length.
    - eapply live_set; eauto.
  Qed.
  Lemma da_free h a e : da h a = Some e -> exists h', dealloc h a = Ok h' /\
    (forall b, b <> a -> da h' b = da h b) /\ (forall b j, b <> a -> lk h' b j = lk h b j) /\ length h' = length h /\ live_nodes h = S (live_nodes h').
  Proof.
    intros E. unfold da in E. destruct (nth_error h a) as [[n|]|] eqn:En; try discriminate.
    unfold dealloc, read. rewrite En. cbn [bind]. eexists. split; [reflexivity|]. split; [|split; [|split]].
    - intros b Hb. unfold da. rewrite list_set_nth, (proj2 (Nat.eqb_neq a b)); auto.
    - intros b j Hb. unfold lk. rewrite list_set_nth, (proj2 (Nat.eqb_neq a b)); auto.
    - apply list_set_length.
    - eapply live_nodes_set_none; eauto.
  Qed.
  Lemma old_cell h n a : a < length h -> nth_error (h ++ [n]) a = nth_error h a.
  Proof. apply nth_error_app1. Qed.
  Lemma new_cell h n : nth_error (h ++ [n]) (length h) = Some n.
  Proof. rewrite nth_error_app2, Nat.sub_diag by lia. reflexivity. Qed.
End Cells.

Section Inv.
  Context {K V : Type} `{CmpLaws K}.
  Notation hp := (heap (K * V) (option nat)).
  Implicit Types (h : hp) (ch : nat -> nat -> option nat) (par : nat -> nat -> nat).

  Record inv h ch par : Prop := {
    iv_root : da h 0 = None;
    iv_head : forall i, i <= 32 -> ch 0 i = Some 0;
    iv_link : forall a i c, ch a i = Some c -> i <= 32 /\ exists l, lk h a i = Some l;
    iv_data : forall a i c, ch a i = Some c -> a <> 0 -> exists e, da h a = Some e;
    iv_next : forall a i c b, ch a i = Some c -> lk h a i = Some (Some b) -> ch b i = Some c /\ cmp (key_of h a) (key_of h b) = Lt;
    iv_full : forall a b i c, ch a i = Some c -> ch b i = Some c -> cmp (key_of h a) (key_of h b) = Lt ->
      exists n, lk h a i = Some (Some n) /\ cmp (key_of h n) (key_of h b) <> Gt;
    iv_uniq : forall a b i c, ch a i = Some c -> ch b i = Some c -> cmp (key_of h a) (key_of h b) = Eq -> a = b;
    iv_tree : forall a i c d, ch a i = Some c -> ch a (S i) = Some d -> par c i = d;
    iv_down : forall a i j c, ch a i = Some c -> j <= i -> exists d, ch a j = Some d;
    iv_name : forall a i c, ch a i = Some c -> c < length h }.

  Lemma iv_lt h ch par a i c : inv h ch par -> ch a i = Some c -> a < length h.
  Proof. intros I E. destruct (iv_link _ _ _ I _ _ _ E) as (_ & l & L). eapply lk_lt; eauto. Qed.
  Lemma iv_below h ch par a b i c : inv h ch par -> ch a i = Some c -> cmp (key_of h b) (key_of h a) = Lt -> a <> 0.
  Proof.
    intros I E L ->. unfold key_of in L at 2. rewrite (iv_root _ _ _ I) in L. cbn in L. destruct (key_of h b); discriminate.
  Qed.
  (** At most one node leads to [y]. *)
  Lemma iv_pred h ch par a b y i c : inv h ch par -> ch a i = Some c -> ch b i = Some c -> lk h a i = Some (Some y) -> lk h b i = Some (Some y) -> a = b.
  Proof.
    intros I Ha Hb La Lb. destruct (iv_next _ _ _ I _ _ _ _ Ha La) as [_ Ka]. destruct (iv_next _ _ _ I _ _ _ _ Hb Lb) as [_ Kb].
    destruct (cmp (key_of h a) (key_of h b)) eqn:E.
    - eapply iv_uniq; eauto.
    - exfalso. destruct (iv_full _ _ _ I _ _ _ _ Ha Hb E) as (n & Ln & N). rewrite La in Ln. injection Ln as <-.
      apply N. now apply cmp_lt_gt.
    - exfalso. apply cmp_gt_lt in E. destruct (iv_full _ _ _ I _ _ _ _ Hb Ha E) as (n & Ln & N). rewrite Lb in Ln. injection Ln as <-.
      apply N. now apply cmp_lt_gt.
  Qed.

  Definition clr ch y i : nat -> nat -> option nat := fun a j => if (a =? y) && (j =? i) then None else ch a j.
  Definition put ch y i c : nat -> nat -> option nat := fun a j => if (a =? y) && (j =? i) then Some c else ch a j.
  Lemma clr_some ch y i a j c : clr ch y i a j = Some c <-> ch a j = Some c /\ (a <> y \/ j <> i).
  Proof.
    unfold clr. destruct (Nat.eqb_spec a y), (Nat.eqb_spec j i); cbn [andb]; split; intros X; try tauto; try discriminate;
      destruct X as [X [Y|Y]]; congruence.
  Qed.
  Lemma put_cases ch y i c a j d : put ch y i c a j = Some d -> (a = y /\ j = i /\ d = c) \/ ((a <> y \/ j <> i) /\ ch a j = Some d).
  Proof. unfold put. destruct (Nat.eqb_spec a y), (Nat.eqb_spec j i); cbn [andb]; intros X; try tauto. left. repeat split; congruence. Qed.
  Lemma put_same ch y i c : put ch y i c y i = Some c.
  Proof. unfold put. now rewrite !Nat.eqb_refl. Qed.
  Lemma put_other ch y i c a j : a <> y \/ j <> i -> put ch y i c a j = ch a j.
  Proof. unfold put. destruct (Nat.eqb_spec a y), (Nat.eqb_spec j i); cbn [andb]; tauto. Qed.

  (** Two memories with the same keys. *)
  Lemma same_key h h' a : da h' a = da h a -> key_of h' a = key_of h a.
  Proof. unfold key_of. now intros ->. Qed.

  Lemma inv_unlink h h' ch par cur y i c nn : inv h ch par -> ch cur i = Some c -> lk h cur i = Some (Some y) -> lk h y i = Some nn ->
    (forall j, i < j -> ch y j = None) ->
    lk h' cur i = Some nn -> (forall b j, b <> cur \/ j <> i -> lk h' b j = lk h b j) -> (forall b, da h' b = da h b) -> length h' = length h ->
    inv h' (clr ch y i) par.
  Proof.
    intros I Hc Ly Lnn Up L1 L2 D Len.
    assert (Kk : forall b, key_of h' b = key_of h b) by (intros; apply same_key; auto).
    destruct (iv_next _ _ _ I _ _ _ _ Hc Ly) as [Hy Ky].
    assert (Ny : cur <> y) by (intros <-; rewrite cmp_refl in Ky; discriminate).
    split.
    - rewrite D. apply I.
    - intros j Hj. apply clr_some. split; [now apply I|]. left. intros <-. exact (iv_below _ _ _ _ _ _ _ I Hy Ky eq_refl).
    - intros a j d Q. apply clr_some in Q as [Q _]. destruct (iv_link _ _ _ I _ _ _ Q) as [Hj [l Hl]]. split; auto.
      destruct (Nat.eq_dec a cur) as [->|N1]; [destruct (Nat.eq_dec j i) as [->|N2]|]; [eauto| |]; rewrite L2 by auto; eauto.
    - intros a j d Q Na. apply clr_some in Q as [Q _]. rewrite D. eapply iv_data; eauto.
    - intros a j d b Q L. rewrite !Kk. apply clr_some in Q as [Q Nq].
      destruct (Nat.eq_dec a cur) as [->|N1]; [destruct (Nat.eq_dec j i) as [->|N2]|].
      + rewrite L1 in L. injection L as ->. assert (d = c) as -> by congruence.
        destruct (iv_next _ _ _ I _ _ _ _ Hy Lnn) as [Hb Kb]. split; [|korder].
        apply clr_some. split; auto. left. intros ->. rewrite cmp_refl in Kb. discriminate.
      + rewrite L2 in L by auto. destruct (iv_next _ _ _ I _ _ _ _ Q L). split; auto. apply clr_some. auto.
      + rewrite L2 in L by auto. destruct (iv_next _ _ _ I _ _ _ _ Q L) as [Hb Kb]. split; auto. apply clr_some. split; auto.
        destruct (Nat.eq_dec j i) as [->|]; auto. left. intros ->. apply N1.
        assert (d = c) as -> by congruence. eapply iv_pred; eauto.
    - intros a b j d Qa Qb. rewrite !Kk. intros L. apply clr_some in Qa as [Qa Na], Qb as [Qb Nb].
      destruct (iv_full _ _ _ I _ _ _ _ Qa Qb L) as (n & Ln & Kn).
      destruct (Nat.eq_dec a cur) as [->|N1]; [destruct (Nat.eq_dec j i) as [->|N2]|].
      + rewrite Ly in Ln. injection Ln as <-. assert (d = c) as -> by congruence.
        assert (K1 : cmp (key_of h y) (key_of h b) = Lt).
        { destruct (cmp (key_of h y) (key_of h b)) eqn:E; auto; [|congruence].
          pose proof (iv_uniq _ _ _ I _ _ _ _ Hy Qb E). destruct Nb; congruence. }
        destruct (iv_full _ _ _ I _ _ _ _ Hy Qb K1) as (n & Ln & Kn'). exists n. rewrite Kk. split; auto. congruence.
      + exists n. rewrite Kk, L2 by auto. auto.
      + exists n. rewrite Kk, L2 by auto. auto.
    - intros a b j d Qa Qb. rewrite !Kk. apply clr_some in Qa as [Qa Na], Qb as [Qb Nb]. eapply iv_uniq; eauto.
    - intros a j d e Qa Qb. apply clr_some in Qa as [Qa Na], Qb as [Qb Nb]. eapply iv_tree; eauto.
    - intros a j k d Q Hk. apply clr_some in Q as [Q Nq]. destruct (iv_down _ _ _ I _ _ _ _ Q Hk) as [e He]. exists e.
      apply clr_some. split; auto. destruct (Nat.eq_dec k i) as [->|]; auto. left. intros ->.
      destruct Nq as [|Nj]; [congruence|]. rewrite Up in Q by lia. discriminate.
    - intros a j d Q. apply clr_some in Q as [Q _]. rewrite Len. eapply iv_name; eauto.
  Qed.

  Lemma inv_free h h' ch par y : inv h ch par -> (forall j, ch y j = None) ->
    (forall b, b <> y -> da h' b = da h b) -> (forall b j, b <> y -> lk h' b j = lk h b j) -> length h' = length h -> inv h' ch par.
  Proof.
    intros I Ny D L Len.
    assert (N : forall a i c, ch a i = Some c -> a <> y) by (intros a i c Q ->; rewrite Ny in Q; discriminate).
    assert (N0 : 0 <> y) by (eapply N, (iv_head _ _ _ I 0); lia).
    assert (Kk : forall a i c, ch a i = Some c -> key_of h' a = key_of h a) by (intros; apply same_key; eauto).
    split.
    - rewrite D by auto. apply I.
    - apply I.
    - intros a i c Q. rewrite L by eauto. eapply iv_link; eauto.
    - intros a i c Q Na. rewrite D by eauto. eapply iv_data; eauto.
    - intros a i c b Q Lb. rewrite L in Lb by eauto. destruct (iv_next _ _ _ I _ _ _ _ Q Lb) as [Qb Kb]. split; auto.
      now rewrite (Kk _ _ _ Q), (Kk _ _ _ Qb).
    - intros a b i c Qa Qb. rewrite (Kk _ _ _ Qa), (Kk _ _ _ Qb). intros Q.
      destruct (iv_full _ _ _ I _ _ _ _ Qa Qb Q) as (n & Ln & Kn). exists n. rewrite L by eauto. split; auto.
      destruct (iv_next _ _ _ I _ _ _ _ Qa Ln) as [Qn _]. now rewrite (Kk _ _ _ Qn).
    - intros a b i c Qa Qb. rewrite (Kk _ _ _ Qa), (Kk _ _ _ Qb). eapply iv_uniq; eauto.
    - apply I.
    - apply I.
    - rewrite Len. apply I.
  Qed.

  (** The new node, with all its links null: it is alone in chains of its own. *)
  Definition add_ch ch n t : nat -> nat -> option nat := fun a j => if a =? n then (if j <=? t then Some n else None) else ch a j.
  Definition add_par par n : nat -> nat -> nat := fun c j => if c =? n then n else par c j.
  Lemma add_ch_old ch n t a j : a <> n -> add_ch ch n t a j = ch a j.
  Proof. intros N. unfold add_ch. now rewrite (proj2 (Nat.eqb_neq _ _)). Qed.
  Lemma add_ch_new ch n t j d : add_ch ch n t n j = Some d <-> j <= t /\ d = n.
  Proof.
    unfold add_ch. rewrite Nat.eqb_refl. destruct (Nat.leb_spec j t); split; try discriminate.
    - intros [= <-]. auto.
    - intros [_ ->]. reflexivity.
    - intros [? _]. lia.
  Qed.
  Lemma inv_alloc h ch par e t : inv h ch par -> t <= 32 ->
    inv (h ++ [Some (SN (Some e) (repeat None (S t)))]) (add_ch ch (length h) t) (add_par par (length h)).
  Proof.
    intros I Ht. set (n := length h). set (h' := h ++ _).
    assert (Old : forall a i c, ch a i = Some c -> a < n) by (intros; eapply iv_lt; eauto).
    assert (H0 : 0 < n) by (eapply Old, (iv_head _ _ _ I 0); lia).
    assert (Lo : forall a j, a < n -> lk h' a j = lk h a j) by (intros a j Ha; unfold lk, h'; now rewrite old_cell).
    assert (Do : forall a, a < n -> da h' a = da h a) by (intros a Ha; unfold da, h'; now rewrite old_cell).
    assert (Ln : forall j, lk h' n j = if j <=? t then Some None else None).
    { intros j. unfold lk, h', n. rewrite new_cell. cbn [sn_links]. destruct (Nat.leb_spec j t).
      - apply nth_error_repeat. lia.
      - apply nth_error_None. rewrite repeat_length. lia. }
    assert (Dn : da h' n = Some e) by (unfold da, h', n; now rewrite new_cell).
    assert (Kk : forall a, a < n -> key_of h' a = key_of h a) by (intros; apply same_key; auto).
    assert (Split : forall a j d, add_ch ch n t a j = Some d -> (a = n /\ j <= t /\ d = n) \/ (a < n /\ ch a j = Some d /\ d < n)).
    { intros a j d Q. destruct (Nat.eq_dec a n) as [->|Na].
      - apply add_ch_new in Q. tauto.
      - rewrite add_ch_old in Q by auto. right. split; [eauto|]. split; auto. unfold n. eapply iv_name; eauto. }
    assert (Le : length h' = S n) by (unfold h'; rewrite app_length; cbn [length]; fold n; lia).
    clearbody n h'. split.
    - rewrite Do by auto. apply I.
    - intros i Hi. rewrite add_ch_old by lia. now apply I.
    - intros a i c Q. destruct (Split _ _ _ Q) as [(-> & Hi & ->)|(Ha & Qa & _)].
      + split; [lia|]. exists None. rewrite Ln. apply Nat.leb_le in Hi. now rewrite Hi.
      + rewrite Lo by auto. eapply iv_link; eauto.
    - intros a i c Q Na. destruct (Split _ _ _ Q) as [(-> & Hi & ->)|(Ha & Qa & _)]; [eauto|]. rewrite Do by auto. eapply iv_data; eauto.
    - intros a i c b Q Lb. destruct (Split _ _ _ Q) as [(-> & Hi & ->)|(Ha & Qa & _)].
      + rewrite Ln in Lb. destruct (i <=? t); discriminate.
      + rewrite Lo in Lb by auto. destruct (iv_next _ _ _ I _ _ _ _ Qa Lb) as [Qb Kb]. rewrite !Kk by eauto. split; auto.
        rewrite add_ch_old; auto. apply Old in Qb. lia.
    - intros a b i c Q Qb L. destruct (Split _ _ _ Q) as [(-> & Hi & ->)|(Ha & Qa & Hc)]; destruct (Split _ _ _ Qb) as [(-> & Hi' & Ec)|(Hb & Qb' & Hc')]; try lia.
      + rewrite cmp_refl in L. discriminate.
      + rewrite !Kk in L by auto. destruct (iv_full _ _ _ I _ _ _ _ Qa Qb' L) as (m & Lm & Km). exists m. rewrite Lo by auto. split; auto.
        destruct (iv_next _ _ _ I _ _ _ _ Qa Lm) as [Qm _]. now rewrite !Kk by eauto.
    - intros a b i c Q Qb L. destruct (Split _ _ _ Q) as [(-> & Hi & ->)|(Ha & Qa & Hc)]; destruct (Split _ _ _ Qb) as [(-> & Hi' & Ec)|(Hb & Qb' & Hc')]; try lia; auto.
      rewrite !Kk in L by auto. eapply iv_uniq; eauto.
    - intros a i c d Q Qb. unfold add_par.
      destruct (Split _ _ _ Q) as [(-> & Hi & ->)|(Ha & Qa & Hc)]; destruct (Split _ _ _ Qb) as [(Q1 & Hi' & ->)|(Hb & Qb' & Hc')]; try lia.
      + now rewrite Nat.eqb_refl.
      + rewrite (proj2 (Nat.eqb_neq _ _)) by lia. eapply iv_tree; eauto.
    - intros a i j c Q Hj. destruct (Split _ _ _ Q) as [(-> & Hi & ->)|(Ha & Qa & Hc)].
      + exists n. apply add_ch_new. split; auto. lia.
      + destruct (iv_down _ _ _ I _ _ _ _ Qa Hj) as [d Hd]. exists d. rewrite add_ch_old; auto. lia.
    - intros a i c Q. rewrite Le. destruct (Split _ _ _ Q) as [(-> & Hi & ->)|(Ha & Qa & Hc)]; lia.
  Qed.

  (** Linking the new node at level [i]. *)
  Definition put_par par n i c : nat -> nat -> nat := fun x j => if (x =? n) && (S j =? i) then c else par x j.
  Lemma inv_link h h' ch par cur n i c p : inv h ch par -> (forall j, j <= i -> ch n j = Some n) -> (forall a j, j <= i -> ch a j = Some n -> a = n) -> n <> 0 ->
    ch cur i = Some c -> c <> n -> cmp (key_of h cur) (key_of h n) = Lt ->
    lk h cur i = Some p -> (forall b, p = Some b -> cmp (key_of h n) (key_of h b) = Lt) ->
    (forall a, ch a i = Some c -> cmp (key_of h a) (key_of h n) <> Eq) ->
    (forall d, ch n (S i) = Some d -> par c i = d) ->
    lk h' cur i = Some (Some n) -> lk h' n i = Some p -> (forall b j, (b <> cur /\ b <> n) \/ j <> i -> lk h' b j = lk h b j) ->
    (forall b, da h' b = da h b) -> length h' = length h ->
    inv h' (put ch n i c) (put_par par n i c).
  Proof.
    intros I Hns Al Nn Hc Ncn Kc Lc Kp Ne Tr L1 L2 L3 D Len.
    assert (Kk : forall b, key_of h' b = key_of h b) by (intros; apply same_key; auto).
    pose proof (Hns i (le_n i)) as Hn.
    assert (Nc : cur <> n) by (intros ->; congruence).
    assert (Lt_c : c < length h) by (eapply iv_name; eauto).
    split.
    - rewrite D. apply I.
    - intros j Hj. rewrite put_other by auto. now apply I.
    - intros a j d Q. apply put_cases in Q as [(-> & -> & ->)|(Na & Q)].
      + split; eauto. eapply iv_link; eauto.
      + destruct (iv_link _ _ _ I _ _ _ Q) as [Hj [l Hl]]. split; auto.
        destruct (Nat.eq_dec j i) as [->|Nj]; [|rewrite L3 by auto; eauto].
        destruct (Nat.eq_dec a cur) as [->|N1]; eauto. destruct (Nat.eq_dec a n) as [->|N2]; eauto. rewrite L3 by auto. eauto.
    - intros a j d Q Na. rewrite D. apply put_cases in Q as [(-> & -> & ->)|(_ & Q)]; eapply iv_data; eauto.
    - intros a j d b Q Lb. rewrite !Kk. apply put_cases in Q as [(-> & -> & ->)|(Na & Q)].
      + rewrite L2 in Lb. injection Lb as ->. destruct (iv_next _ _ _ I _ _ _ _ Hc Lc) as [Qb _]. split; [|now apply Kp].
        rewrite put_other; auto. left. intros ->. congruence.
      + destruct (Nat.eq_dec j i) as [->|Nj].
        2:{ rewrite L3 in Lb by auto. destruct (iv_next _ _ _ I _ _ _ _ Q Lb). split; auto. rewrite put_other; auto. }
        destruct (Nat.eq_dec a cur) as [->|N1].
        * rewrite L1 in Lb. injection Lb as <-. assert (d = c) as -> by congruence. split; auto. apply put_same.
        * destruct Na as [N2|]; [|congruence]. rewrite L3 in Lb by auto. destruct (iv_next _ _ _ I _ _ _ _ Q Lb) as [Qb Kb]. split; auto.
          rewrite put_other; auto. left. intros ->. rewrite Hn in Qb. injection Qb as <-. apply N2, (Al a i); auto.
    - intros a b j d Qa Qb. rewrite !Kk. intros L.
      apply put_cases in Qa as [(-> & -> & ->)|(Na & Qa)]; apply put_cases in Qb as [(-> & Q1 & Q2)|(Nb & Qb)].
      + rewrite cmp_refl in L. discriminate.
      + assert (L' : cmp (key_of h cur) (key_of h b) = Lt) by korder.
        destruct (iv_full _ _ _ I _ _ _ _ Hc Qb L') as (m & Lm & Km). exists m. rewrite Kk. split; auto. congruence.
      + subst j d. destruct (Nat.eq_dec a cur) as [->|N1].
        { exists n. rewrite L1, Kk. split; auto. rewrite cmp_refl. discriminate. }
        assert (N2 : a <> n) by (destruct Na; congruence).
        destruct (cmp (key_of h a) (key_of h cur)) eqn:E.
        * exfalso. apply N1. eapply iv_uniq; eauto.
        * destruct (iv_full _ _ _ I _ _ _ _ Qa Hc E) as (m & Lm & Km). exists m. rewrite L3, Kk by auto. split; auto.
          intros G. apply Km. korder.
        * exfalso. apply cmp_gt_lt in E. destruct (iv_full _ _ _ I _ _ _ _ Hc Qa E) as (m & Lm & Km).
          rewrite Lc in Lm. injection Lm as ->. specialize (Kp m eq_refl). apply Km. korder.
      + destruct (iv_full _ _ _ I _ _ _ _ Qa Qb L) as (m & Lm & Km).
        destruct (Nat.eq_dec j i) as [->|Nj]; [|exists m; rewrite L3, Kk by auto; auto].
        destruct (Nat.eq_dec a cur) as [->|N1].
        * assert (d = c) as -> by congruence. rewrite Lc in Lm. injection Lm as ->. specialize (Kp m eq_refl).
          exists n. rewrite L1, Kk. split; auto. intros G. apply Km. korder.
        * destruct Na as [N2|]; [|congruence]. exists m. rewrite L3, Kk by auto. auto.
    - intros a b j d Qa Qb. rewrite !Kk. intros L.
      apply put_cases in Qa as [(-> & -> & ->)|(Na & Qa)]; apply put_cases in Qb as [(-> & Q1 & Q2)|(Nb & Qb)]; auto.
      + exfalso. apply (Ne b Qb). now apply cmp_eq_sym.
      + subst j d. exfalso. exact (Ne a Qa L).
      + eapply iv_uniq; eauto.
    - intros a j d e Qa Qb. unfold put_par.
      apply put_cases in Qa as [(-> & -> & ->)|(Na & Qa)]; apply put_cases in Qb as [(Q0 & Q1 & Q2)|(Nb & Qb)].
      + lia.
      + rewrite (proj2 (Nat.eqb_neq c n)) by auto. cbn [andb]. auto.
      + subst a i e. rewrite Hns in Qa by lia. injection Qa as <-. now rewrite !Nat.eqb_refl.
      + destruct (Nat.eqb_spec d n) as [->|Nd]; cbn [andb]; [|eapply iv_tree; eauto].
        destruct (Nat.eqb_spec (S j) i) as [<-|Nj]; [|eapply iv_tree; eauto].
        assert (a = n) as -> by (apply (Al a j); auto). destruct Nb; congruence.
    - intros a j k d Q Hk. destruct (Nat.eq_dec a n) as [->|N]; [destruct (Nat.eq_dec k i) as [->|Nk]|].
      + exists c. apply put_same.
      + rewrite put_other by auto. apply put_cases in Q as [(_ & -> & ->)|(_ & Q)]; eapply iv_down; eauto.
      + rewrite put_other by auto. rewrite put_other in Q by auto. eapply iv_down; eauto.
    - intros a j d Q. rewrite Len. apply put_cases in Q as [(_ & _ & ->)|(_ & Q)]; auto. eapply iv_name; eauto.
  Qed.
End Inv.
