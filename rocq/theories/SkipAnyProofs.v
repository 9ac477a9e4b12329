(** SkipMap with an arbitrary comparison: the memory stays sound and no pair is lost. *)
From Coq Require Import Permutation.
From Verif Require Export AnyOrderSpec SkipMapProofs.

(** ** Memory, with heights that are only lower bounds: a node may have been unlinked at its top levels and
    still be linked further down. *)
Section Loose.
  Context {D : Type}.
  Notation hp := (heap D (option nat)).
  Notation item := (sitem D).
  Notation links := (nat -> nat -> option nat).
  Implicit Types (h : hp) (X Y A B P Q R : list item) (x y : item) (g : links).

  Definition low (x0 x : item) : Prop := ad x0 = ad x /\ dt x0 = dt x /\ ht x <= ht x0.
  Definition wrep h X g : Prop := exists X0, srep h X0 g /\ Forall2 low X0 X.

  Lemma low_refl x : low x x.
  Proof. repeat split; auto. Qed.
  Lemma lows_refl X : Forall2 low X X.
  Proof. induction X; constructor; auto using low_refl. Qed.
  Lemma lows_ad X0 X : Forall2 low X0 X -> map ad X0 = map ad X.
  Proof. induction 1 as [|x0 x X0 X (E & _) _ IH]; cbn [map]; congruence. Qed.
  Lemma lows_dt X0 X : Forall2 low X0 X -> map dt X0 = map dt X.
  Proof. induction 1 as [|x0 x X0 X (_ & E & _) _ IH]; cbn [map]; congruence. Qed.
  Lemma lows_in X0 X x : Forall2 low X0 X -> In x X -> exists x0, In x0 X0 /\ low x0 x.
  Proof.
    induction 1 as [|x0 y X0 X L _ IH]; intros I; [destruct I|]. destruct I as [->|I].
    - exists x0. split; [now left|auto].
    - destruct (IH I) as (z & Hz & Lz). exists z. split; [now right|auto].
  Qed.
  Lemma lows_app X0 A B : Forall2 low X0 (A ++ B) -> exists A0 B0, X0 = A0 ++ B0 /\ Forall2 low A0 A /\ Forall2 low B0 B.
  Proof. intros F. apply Forall2_app_inv_r in F as (A0 & B0 & FA & FB & ->). eauto. Qed.
  Lemma lows_cons X0 x B : Forall2 low X0 (x :: B) -> exists x0 B0, X0 = x0 :: B0 /\ low x0 x /\ Forall2 low B0 B.
  Proof. intros F. inversion F; subst; eauto. Qed.

  Lemma srep_wrep h X g : srep h X g -> wrep h X g.
  Proof. intros R. exists X. split; auto using lows_refl. Qed.
  Lemma wrep_onlevel X0 X a i : Forall2 low X0 X -> onlevel X a i -> onlevel X0 a i.
  Proof.
    intros F [Q|(x & Hx & E & Hi)]; [now left|]. right.
    destruct (lows_in _ _ _ F Hx) as (x0 & H0 & L1 & L2 & L3). exists x0. repeat split; auto; [congruence|lia].
  Qed.
  Lemma wrep_get_link h X g a i : wrep h X g -> onlevel X a i -> get_link h a i = Ok (g a i).
  Proof. intros (X0 & R & F) O. apply (get_link_ok h X0); auto. eapply wrep_onlevel; eauto. Qed.
  Lemma wrep_get_data h X g x : wrep h X g -> In x X -> get_data h (ad x) = Ok (dt x).
  Proof.
    intros (X0 & R & F) Hx. destruct (lows_in _ _ _ F Hx) as (x0 & H0 & L1 & L2 & L3).
    rewrite <- L1, <- L2. now apply (get_data_ok h X0 g).
  Qed.
  Lemma wrep_set_link h X g a i l : wrep h X g -> onlevel X a i ->
    exists h', set_link h a i l = Ok h' /\ wrep h' X (upd g a i l).
  Proof.
    intros (X0 & R & F) O. destruct (set_link_ok h X0 g a i l R) as (h' & E & R' & _); [eapply wrep_onlevel; eauto|].
    exists h'. split; auto. exists X0. auto.
  Qed.
  Lemma lows_flip X0 X : Forall2 low X0 X <-> Forall2 (fun x x0 => low x0 x) X X0.
  Proof. split; induction 1; constructor; auto. Qed.
  Lemma wrep_perm h X Y g : Permutation X Y -> wrep h X g -> wrep h Y g.
  Proof.
    intros P (X0 & R & F). apply lows_flip in F. destruct (Permutation_Forall2 P F) as (Y0 & P0 & F0).
    exists Y0. split; [now apply (srep_equiv h X0)|]. now apply lows_flip.
  Qed.
  Lemma wrep_lower h A x y B g : low x y -> wrep h (A ++ x :: B) g -> wrep h (A ++ y :: B) g.
  Proof.
    intros (L1 & L2 & L3) (X0 & R & F). exists X0. split; auto.
    apply lows_app in F as (A0 & B0 & -> & FA & FB). apply lows_cons in FB as (x0 & B1 & -> & (M1 & M2 & M3) & FB).
    apply Forall2_app; auto. constructor; auto. repeat split; [congruence|congruence|lia].
  Qed.
  Lemma wrep_dealloc h A x B g : wrep h (A ++ x :: B) g -> exists h', dealloc h (ad x) = Ok h' /\ wrep h' (A ++ B) g.
  Proof.
    intros (X0 & R & F).
    apply lows_app in F as (A0 & B0 & -> & FA & FB). apply lows_cons in FB as (x0 & B1 & -> & (M1 & M2 & M3) & FB).
    apply (srep_equiv _ _ (x0 :: A0 ++ B1)) in R; [|apply Permutation_sym, Permutation_middle].
    destruct (dealloc_ok _ _ _ _ R) as (h' & E & R' & _). exists h'. rewrite <- M1. split; auto.
    exists (A0 ++ B1). split; auto. now apply Forall2_app.
  Qed.
  Lemma wrep_nodup h X g : wrep h X g -> NoDup (0 :: map ad X).
  Proof. intros (X0 & R & F). rewrite <- (lows_ad _ _ F). apply R. Qed.
  Lemma wrep_ht h X g x : wrep h X g -> In x X -> ht x <= 32.
  Proof.
    intros (X0 & R & F) Hx. destruct (lows_in _ _ _ F Hx) as (x0 & H0 & L1 & L2 & L3).
    pose proof (sr_ht _ _ _ R _ H0). lia.
  Qed.
  Lemma wrep_length h X g : wrep h X g -> length X < length h.
  Proof. intros (X0 & R & F). rewrite <- (map_length ad X), <- (lows_ad _ _ F), map_length. now apply (srep_length h X0 g). Qed.

  (** A segment depends on addresses and on which items reach the level. *)
  Lemma seg_same f i X Y : Forall2 (fun x y => ad x = ad y /\ (i <=? ht x) = (i <=? ht y)) X Y ->
    forall a e, seg f i a X e -> seg f i a Y e.
  Proof.
    induction 1 as [|x y X Y (E1 & E2) _ IH]; intros a e; cbn [seg]; auto. rewrite <- E2, <- E1.
    destruct (i <=? ht x); [intros [S1 S2]; split; auto|auto].
  Qed.
  Lemma seg_zero f X Y : map ad X = map ad Y -> forall a e, seg f 0 a X e -> seg f 0 a Y e.
  Proof.
    intros E. apply seg_same. revert Y E. induction X as [|x X IH]; intros [|y Y] E; try discriminate; constructor.
    - injection E as E _. auto.
    - apply IH. now injection E.
  Qed.
  Lemma seg_replace f i A x y B : ad x = ad y -> (i <=? ht x) = (i <=? ht y) ->
    forall a e, seg f i a (A ++ x :: B) e -> seg f i a (A ++ y :: B) e.
  Proof.
    intros E1 E2. apply seg_same. assert (Refl : forall Z : list item, Forall2 (fun x y => ad x = ad y /\ (i <=? ht x) = (i <=? ht y)) Z Z).
    { induction Z; constructor; auto. }
    apply Forall2_app; auto.
  Qed.
  Lemma seg_move f i P A (n : item) R : (forall x, In x A -> ht x < i) -> forall a e,
    seg f i a (P ++ n :: A ++ R) e -> seg f i a (P ++ A ++ n :: R) e.
  Proof.
    intros HA a e S. apply (seg_skip f i P A (n :: R)); auto.
    replace (P ++ n :: A ++ R) with ((P ++ [n]) ++ A ++ R) in S by now rewrite <- app_assoc.
    apply seg_skip in S; auto. now rewrite <- app_assoc in S.
  Qed.

  (** [c] is the node at the end of [P], and it reaches level [i]. *)
  Definition at_end (i c : nat) P : Prop := (P = [] /\ c = 0 /\ i <= 32) \/ exists P' p, P = P' ++ [p] /\ c = ad p /\ i <= ht p.
  Lemma at_end_last i c P : at_end i c P -> last_at i 0 P = c.
  Proof.
    intros [(-> & -> & _)|(P' & p & -> & -> & Hi)]; [reflexivity|]. rewrite last_at_app. cbn [last_at].
    now rewrite (proj2 (Nat.leb_le _ _) Hi).
  Qed.
  Lemma at_end_le i j c P : j <= i -> at_end i c P -> at_end j c P.
  Proof. intros Hj [(-> & -> & Hi)|(P' & p & -> & -> & Hi)]; [left; repeat split; lia|right; exists P', p; repeat split; auto; lia]. Qed.
  Lemma at_end_onlevel i c P X : at_end i c P -> incl P X -> onlevel X c i.
  Proof.
    intros [(-> & -> & Hi)|(P' & p & -> & -> & Hi)] I; [now left|]. right. exists p. repeat split; auto.
    apply I, in_app_iff. right. now left.
  Qed.
  (** The node reached by walking over [A]. *)
  Lemma at_end_walk i c P A : at_end i c P ->
    exists A1 A2, A = A1 ++ A2 /\ (forall x, In x A2 -> ht x < i) /\ at_end i (last_at i c A) (P ++ A1).
  Proof.
    intros HP. induction A as [|x A IH] using rev_ind.
    - exists [], []. split; [reflexivity|]. split; [intros x []|]. now rewrite app_nil_r.
    - rewrite last_at_app. cbn [last_at]. destruct (Nat.leb_spec i (ht x)) as [Hx|Hx].
      + exists (A ++ [x]), []. split; [now rewrite app_nil_r|]. split; [intros y []|]. right. exists (P ++ A), x.
        rewrite app_assoc. auto.
      + destruct IH as (A1 & A2 & -> & HA & E). exists A1, (A2 ++ [x]). rewrite app_assoc. split; [reflexivity|].
        split; [|exact E]. intros y Hy. apply in_app_iff in Hy as [Hy|[<-|[]]]; auto.
  Qed.
End Loose.

Section SkipAny.
  Context {K V : Type} `{Cmp K}.
  Notation hp := (heap (K * V) (option nat)).
  Notation item := (sitem (K * V)).
  Notation links := (nat -> nat -> option nat).
  Implicit Types (h : hp) (X Y A B P Q R : list item) (x y : item) (f g : links) (k : K) (go : K -> bool).

  Definition stop go i R : Prop := R = [] \/ exists y R', R = y :: R' /\ i <= ht y /\ go (key y) = false.

  Lemma split_walk go i Q : exists A R, Q = A ++ R /\ (forall x, In x A -> i <= ht x -> go (key x) = true) /\ stop go i R.
  Proof.
    induction Q as [|x Q (A & R & -> & GA & GR)].
    - exists [], []. repeat split; [intros x []|now left].
    - destruct (Nat.leb_spec i (ht x)) as [Hx|Hx]; [destruct (go (key x)) eqn:G|].
      + exists (x :: A), R. repeat split; auto. intros y [<-|Hy]; auto.
      + exists [], (x :: A ++ R). repeat split; [intros y []|]. right. exists x, (A ++ R). auto.
      + exists (x :: A), R. repeat split; auto. intros y [<-|Hy]; auto. lia.
  Qed.

  Lemma walk_any h X g i go A R : wrep h X g -> incl (A ++ R) X ->
    (forall x, In x A -> i <= ht x -> go (key x) = true) -> stop go i R ->
    forall fuel c, length A < fuel -> onlevel X c i -> seg g i c (A ++ R) None ->
    walk fuel h c i go = Ok (last_at i c A, option_map ad (hd_error R)).
  Proof.
    intros Rp. induction A as [|x A IH]; intros I GA GR fuel c Hf Hc S.
    - destruct fuel as [|fuel]; [simpl in Hf; lia|]. cbn [walk app last_at] in *.
      rewrite (wrep_get_link _ _ _ _ _ Rp Hc). cbn [bind]. rewrite (seg_first _ _ _ _ _ S).
      destruct GR as [->|(y & R' & -> & Hy & G)]; [reflexivity|]. cbn [first_or hd_error option_map].
      rewrite (proj2 (Nat.leb_le _ _) Hy). rewrite (wrep_get_data _ _ _ y Rp) by (apply I; now left).
      cbn [bind]. fold (key y). now rewrite G.
    - cbn [app seg last_at] in *. destruct (Nat.leb_spec i (ht x)) as [Hi|Hi].
      + destruct S as [E S]. destruct fuel as [|fuel]; [simpl in Hf; lia|]. cbn [walk].
        rewrite (wrep_get_link _ _ _ _ _ Rp Hc), E. cbn [bind].
        assert (Hx : In x X) by (apply I; now left).
        rewrite (wrep_get_data _ _ _ x Rp Hx). cbn [bind]. fold (key x). rewrite GA by (auto; now left).
        apply IH; auto; [intros y Hy; apply I; now right|intros; apply GA; auto; now right|simpl in Hf; lia|].
        right. exists x. auto.
      + apply IH; auto; [intros y Hy; apply I; now right|intros; apply GA; auto; now right|simpl in Hf; lia].
  Qed.

  (** One level of any search, from the node at the end of [P]. *)
  Lemma walk_from h E g i go P A R c : wrep h (E ++ P ++ A ++ R) g -> at_end i c P ->
    (forall x, In x A -> i <= ht x -> go (key x) = true) -> stop go i R ->
    seg g i 0 (P ++ A ++ R) None ->
    walk_all h c i go = Ok (last_at i c A, option_map ad (hd_error R)).
  Proof.
    intros Rp Pc GA GR S. unfold walk_all. pose proof (wrep_length _ _ _ Rp) as L. rewrite !app_length in L.
    apply (walk_any h (E ++ P ++ A ++ R) g); auto.
    - intros x Hx. rewrite in_app_iff. right. apply in_app_iff. auto.
    - lia.
    - apply (at_end_onlevel i c P); auto. intros x Hx. rewrite !in_app_iff. auto.
    - apply seg_app in S as [_ S]. now rewrite (at_end_last _ _ _ Pc) in S.
  Qed.

  (** What the search at level [i + 1] says about the rest of the list: it goes down to a node that is not
      below [k] at level [i], before which no item reaches level [i + 1]. *)
  Definition barrier k i Q : Prop := exists A R, Q = A ++ R /\ (forall x, In x A -> ht x <= i) /\
    (R = [] \/ exists y R', R = y :: R' /\ is_lt (cmp (key y) k) = false /\
       (ht y = i \/ (i < ht y /\ is_eq (cmp (key y) k) = false))).

  Lemma split_barrier k i Q : barrier k i Q -> exists A R, Q = A ++ R /\
    (forall x, In x A -> ht x <= i /\ (i <= ht x -> is_lt (cmp (key x) k) = true)) /\
    (R = [] \/ exists y R', R = y :: R' /\ i <= ht y /\ is_lt (cmp (key y) k) = false /\
       (is_eq (cmp (key y) k) = true -> ht y = i)).
  Proof.
    intros (A & R & -> & HA & HR). induction A as [|x A IH].
    - exists [], R. split; [reflexivity|]. split; [intros x []|]. destruct HR as [->|(y & R' & -> & Ly & [Hy|[Hy Ey]])]; auto.
      + right. exists y, R'. repeat split; auto. lia.
      + right. exists y, R'. repeat split; auto; [lia|congruence].
    - destruct IH as (A1 & R1 & E & HA1 & HR1); [intros; apply HA; now right|]. cbn [app]. rewrite E.
      assert (Hx : ht x <= i) by (apply HA; now left).
      destruct (Nat.leb_spec i (ht x)) as [Hi|Hi]; [destruct (is_lt (cmp (key x) k)) eqn:L|].
      + exists (x :: A1), R1. split; [reflexivity|]. split; [|auto]. intros y [<-|Hy]; auto.
      + exists [], (x :: A1 ++ R1). split; [reflexivity|]. split; [intros y []|]. right. exists x, (A1 ++ R1).
        repeat split; auto. intros _. lia.
      + exists (x :: A1), R1. split; [reflexivity|]. split; [|auto]. intros y [<-|Hy]; auto. split; [auto|lia].
  Qed.

  Lemma barrier_top h X g k : wrep h X g -> barrier k 32 X.
  Proof.
    intros Rp. exists X, []. rewrite app_nil_r. split; auto. split; [|now left]. intros x Hx.
    eapply wrep_ht; eauto.
  Qed.

  Lemma nodup_part E Z : NoDup (0 :: map ad (E ++ Z : list item)) -> NoDup (0 :: map ad Z).
  Proof.
    rewrite map_app. intros N. inversion N as [|? ? N0 N1]; subst. constructor.
    - intros I. apply N0, in_app_iff. now right.
    - clear -N1. induction (map ad E) as [|a l IH]; auto. inversion N1; auto.
  Qed.

  (** Unlinking at level [i], after the walk. *)
  Lemma unlink_any h E P A2 R g i c k : wrep h (E ++ P ++ A2 ++ R) g -> at_end i c P -> i <= 32 ->
    (forall x, In x A2 -> ht x < i) ->
    (R = [] \/ exists y R', R = y :: R' /\ i <= ht y /\ is_lt (cmp (key y) k) = false /\ (is_eq (cmp (key y) k) = true -> ht y = i)) ->
    (forall j, j <= i -> seg g j 0 (P ++ A2 ++ R) None) ->
    exists h' g' R1 M, unlink h c i (option_map ad (hd_error R)) k = Ok (h', hd_error M)
      /\ wrep h' (E ++ P ++ A2 ++ R1) g'
      /\ (forall j, j <= i -> seg g' j 0 (P ++ A2 ++ R1) None) /\ (forall a j, j <> i -> g' a j = g a j)
      /\ map dt R = M ++ map dt R1 /\ (i <> 0 -> M = []) /\ found _ k M
      /\ (forall j, i < j -> forall f a e Z, seg f j a (Z ++ R) e -> seg f j a (Z ++ R1) e)
      /\ forall j, i = S j -> barrier k j (A2 ++ R1).
  Proof.
    intros Rp Pc Hi HA HR S.
    assert (Same : (forall j, i = Datatypes.S j -> barrier k j (A2 ++ R)) ->
       unlink h c i (option_map ad (hd_error R)) k = Ok (h, None) ->
       exists h' g' R1 M, unlink h c i (option_map ad (hd_error R)) k = Ok (h', hd_error M)
      /\ wrep h' (E ++ P ++ A2 ++ R1) g'
      /\ (forall j, j <= i -> seg g' j 0 (P ++ A2 ++ R1) None) /\ (forall a j, j <> i -> g' a j = g a j)
      /\ map dt R = M ++ map dt R1 /\ (i <> 0 -> M = []) /\ found _ k M
      /\ (forall j, i < j -> forall f a e Z, seg f j a (Z ++ R) e -> seg f j a (Z ++ R1) e)
      /\ forall j, i = Datatypes.S j -> barrier k j (A2 ++ R1)).
    { intros Bar Un. exists h, g, R, []. rewrite Un. cbn [hd_error app found]. repeat split; auto. }
    destruct HR as [->|(y & R' & -> & Hy & Ly & Ey)].
    { apply Same; [|reflexivity]. intros j ->. exists A2, []. split; auto. split; [|now left].
      intros x Hx. apply HA in Hx. lia. }
    cbn [hd_error option_map] in *.
    assert (Iy : In y (E ++ P ++ A2 ++ y :: R')) by (rewrite !in_app_iff; simpl; auto).
    destruct (is_eq (cmp (key y) k)) eqn:Qy.
    2:{ apply Same.
        - intros j ->. exists A2, (y :: R'). split; auto. split; [intros x Hx; apply HA in Hx; lia|].
          right. exists y, R'. repeat split; auto.
        - unfold unlink. rewrite (wrep_get_data _ _ _ y Rp Iy). cbn [bind]. fold (key y). now rewrite Qy. }
    clear Same. specialize (Ey eq_refl).
    unfold unlink. rewrite (wrep_get_data _ _ _ y Rp Iy). cbn [bind]. fold (key y). rewrite Qy.
    rewrite (wrep_get_link _ _ _ (ad y) i Rp) by (right; exists y; auto). cbn [bind].
    assert (Oc : onlevel (E ++ P ++ A2 ++ y :: R') c i).
    { apply (at_end_onlevel i c P); auto. intros x Hx. rewrite !in_app_iff. auto. }
    destruct (wrep_set_link h _ g c i (g (ad y) i) Rp Oc) as (h1 & E1 & R1). rewrite E1. cbn [bind].
    assert (Lc : last_at i 0 (P ++ A2) = c).
    { rewrite last_at_app, (at_end_last _ _ _ Pc). now apply last_at_none. }
    assert (Si : seg (upd g c i (g (ad y) i)) i 0 (P ++ A2 ++ R') None).
    { pose proof (seg_unlink g i (P ++ A2) y R') as U. rewrite Lc, <- !app_assoc in U. apply U; auto.
      apply (nodup_part E). now apply (wrep_nodup h _ g). }
    assert (Fd : found (@cmp K _) k [dt y]).
    { left. change (cmp (key y) k = Eq). destruct (cmp (key y) k); auto; discriminate. }
    destruct i as [|i].
    - replace (E ++ P ++ A2 ++ y :: R') with ((E ++ P ++ A2) ++ y :: R') in R1 by now rewrite <- !app_assoc.
      destruct (wrep_dealloc _ _ _ _ _ R1) as (h2 & E2 & R2). rewrite E2. cbn [bind].
      exists h2, (upd g c 0 (g (ad y) 0)), R', [dt y]. split; [reflexivity|].
      rewrite <- !app_assoc in R2. split; [exact R2|]. split; [intros j Hj; assert (j = 0) as -> by lia; exact Si|].
      split; [intros; apply upd_other; auto|]. split; [reflexivity|]. split; [tauto|]. split; [exact Fd|].
      split; [|discriminate]. intros j Hj f a e Z. rewrite (seg_skip f j Z [y] R' e); auto.
      intros x [<-|[]]. lia.
    - set (y' := It (ad y) i (dt y)).
      exists h1, (upd g c (Datatypes.S i) (g (ad y) (Datatypes.S i))), (y' :: R'), []. split; [reflexivity|].
      split; [|split; [|split; [|split; [|split; [|split; [|split]]]]]].
      + replace (E ++ P ++ A2 ++ y' :: R') with ((E ++ P ++ A2) ++ y' :: R') by now rewrite <- !app_assoc.
        apply (wrep_lower _ _ y); [repeat split; cbn [ht y']; lia|]. now rewrite <- !app_assoc.
      + intros j Hj. destruct (Nat.eq_dec j (Datatypes.S i)) as [->|Nj].
        * replace (P ++ A2 ++ y' :: R') with ((P ++ A2) ++ [y'] ++ R') by now rewrite <- !app_assoc.
          apply seg_skip; [intros x [<-|[]]; cbn [ht y']; lia|]. now rewrite <- app_assoc.
        * apply (seg_level _ g); [intros a; apply upd_other; auto|].
          replace (P ++ A2 ++ y' :: R') with ((P ++ A2) ++ y' :: R') by now rewrite <- !app_assoc.
          apply (seg_replace _ _ _ y); [reflexivity| |rewrite <- app_assoc; now apply S].
          cbn [ht y']. rewrite Ey, !(proj2 (Nat.leb_le _ _)); auto; lia.
      + intros. apply upd_other. auto.
      + reflexivity.
      + reflexivity.
      + exact I.
      + intros j Hj f a e Z. apply seg_replace; [reflexivity|]. cbn [ht y'].
        rewrite !(proj2 (Nat.leb_gt _ _)); auto; lia.
      + intros j Q. injection Q as <-. exists A2, (y' :: R'). split; [reflexivity|].
        split; [intros x Hx; apply HA in Hx; lia|]. right. exists y', R'. repeat split; auto.
  Qed.

  (** ** The loops. *)
  Definition chains g X : Prop := forall j, j <= 32 -> seg g j 0 X None.

  Lemma remove_loop_any k : forall i h P Q g c, i <= 32 -> wrep h (P ++ Q) g -> at_end i c P -> barrier k i Q ->
    chains g (P ++ Q) ->
    exists h' g' X Lo M Hi, remove_loop i h c k = Ok (h', hd_error M) /\ wrep h' X g' /\ chains g' X
      /\ map dt (P ++ Q) = Lo ++ M ++ Hi /\ map dt X = Lo ++ Hi /\ found _ k M.
  Proof.
    assert (Level : forall i h P Q g c, i <= 32 -> wrep h (P ++ Q) g -> at_end i c P -> barrier k i Q ->
      chains g (P ++ Q) ->
      exists nx c' h' g' A1 A2 R R1 M, walk_all h c i (fun z => is_lt (cmp z k)) = Ok (c', nx)
        /\ unlink h c' i nx k = Ok (h', hd_error M) /\ Q = A1 ++ A2 ++ R /\ at_end i c' (P ++ A1)
        /\ wrep h' ((P ++ A1) ++ A2 ++ R1) g' /\ chains g' ((P ++ A1) ++ A2 ++ R1)
        /\ map dt R = M ++ map dt R1 /\ (i <> 0 -> M = []) /\ found _ k M
        /\ forall j, i = S j -> barrier k j (A2 ++ R1)).
    { intros i h P Q g c Hi Rp Pc B Ch. destruct (split_barrier _ _ _ B) as (A & R & -> & HA & HR).
      destruct (at_end_walk i c P A Pc) as (A1 & A2 & -> & HA2 & Pc').
      assert (W : walk_all h c i (fun z => is_lt (cmp z k)) = Ok (last_at i c (A1 ++ A2), option_map ad (hd_error R))).
      { apply (walk_from h [] g i _ P (A1 ++ A2) R c); auto.
        - intros x Hx. now apply HA.
        - destruct HR as [->|(y & R' & -> & Hy & Ly & _)]; [now left|]. right. exists y, R'. auto. }
      set (c' := last_at i c (A1 ++ A2)) in *. clearbody c'.
      replace (P ++ (A1 ++ A2) ++ R) with ((P ++ A1) ++ A2 ++ R) in * by now rewrite <- !app_assoc.
      destruct (unlink_any h [] (P ++ A1) A2 R g i c' k Rp Pc' Hi HA2 HR) as
        (h' & g' & R1 & M & U & Rp' & S' & F & EM & M0 & Fd & Up & Bar).
      { intros j Hj. apply Ch. lia. }
      exists (option_map ad (hd_error R)), c', h', g', A1, A2, R, R1, M.
      split; [exact W|]. split; [exact U|]. split; [now rewrite <- app_assoc|]. split; [exact Pc'|].
      split; [exact Rp'|]. split; [|auto].
      intros j Hj. destruct (Nat.leb_spec j i) as [Hji|Hji]; [now apply S'|].
      rewrite app_assoc. apply Up; auto. rewrite <- app_assoc. apply (seg_level _ g); [intros a; apply F; lia|]. now apply Ch. }
    induction i as [|i IH]; intros h P Q g c Hi Rp Pc B Ch;
      destruct (Level _ h P Q g c Hi Rp Pc B Ch) as
        (nx & c' & h' & g' & A1 & A2 & R & R1 & M & W & U & -> & Pc' & Rp' & Ch' & EM & M0 & Fd & Bar);
      cbn [remove_loop]; rewrite W; cbn [bind]; rewrite U; cbn [bind].
    - exists h', g', ((P ++ A1) ++ A2 ++ R1), (map dt (P ++ A1 ++ A2)), M, (map dt R1).
      split; [reflexivity|]. split; [exact Rp'|]. split; [exact Ch'|]. rewrite !map_app, EM, <- !app_assoc. auto.
    - specialize (Bar i eq_refl). specialize (M0 (Nat.neq_succ_0 i)). subst M. cbn [app] in EM.
      destruct (IH h' (P ++ A1) (A2 ++ R1) g' c') as (h2 & g2 & X & Lo & M & Hi' & E2 & Rp2 & Ch2 & D1 & D2 & Fd2); auto; [lia| |].
      { eapply at_end_le; [|exact Pc']. lia. }
      exists h2, g2, X, Lo, M, Hi'. split; [exact E2|]. split; [exact Rp2|]. split; [exact Ch2|]. split; [|auto].
      rewrite <- D1, !map_app, EM, <- !app_assoc. reflexivity.
  Qed.

  Lemma insert_loop_any k (n : item) : forall i h P Q g c, i <= 32 -> wrep h (n :: P ++ Q) g -> at_end i c P -> barrier k i Q ->
    (forall j, i < j <= 32 -> seg g j 0 (P ++ n :: Q) None) -> (forall j, j <= i -> seg g j 0 (P ++ Q) None) ->
    exists h' g' A B Lo M Hi, insert_loop i h c (ad n) (ht n) k = Ok (h', hd_error M) /\ wrep h' (A ++ n :: B) g'
      /\ chains g' (A ++ n :: B)
      /\ map dt (P ++ Q) = Lo ++ M ++ Hi /\ map dt A = Lo /\ map dt B = Hi /\ found _ k M.
  Proof.
    assert (Level : forall i h P Q g c, i <= 32 -> wrep h (n :: P ++ Q) g -> at_end i c P -> barrier k i Q ->
      (forall j, i < j <= 32 -> seg g j 0 (P ++ n :: Q) None) -> (forall j, j <= i -> seg g j 0 (P ++ Q) None) ->
      exists nx c' h1 h' g' A1 A2 R R1 M, walk_all h c i (fun z => is_lt (cmp z k)) = Ok (c', nx)
        /\ unlink h c' i nx k = Ok (h1, hd_error M)
        /\ (if i <=? ht n then
              let* p := get_link h1 c' i in
              let* h := set_link h1 c' i (Some (ad n)) in
              set_link h (ad n) i p
            else Ok h1) = Ok h'
        /\ Q = A1 ++ A2 ++ R /\ at_end i c' (P ++ A1)
        /\ wrep h' (n :: (P ++ A1) ++ A2 ++ R1) g'
        /\ (forall j, i <= j <= 32 -> seg g' j 0 ((P ++ A1) ++ n :: A2 ++ R1) None)
        /\ (forall j, j < i -> seg g' j 0 ((P ++ A1) ++ A2 ++ R1) None)
        /\ map dt R = M ++ map dt R1 /\ (i <> 0 -> M = []) /\ found _ k M
        /\ (i = 0 -> A2 = [])
        /\ forall j, i = S j -> barrier k j (A2 ++ R1)).
    { intros i h P Q g c Hi Rp Pc B SA SB. destruct (split_barrier _ _ _ B) as (A & R & -> & HA & HR).
      destruct (at_end_walk i c P A Pc) as (A1 & A2 & -> & HA2 & Pc').
      assert (W : walk_all h c i (fun z => is_lt (cmp z k)) = Ok (last_at i c (A1 ++ A2), option_map ad (hd_error R))).
      { apply (walk_from h [n] g i _ P (A1 ++ A2) R c); auto.
        - intros x Hx. now apply HA.
        - destruct HR as [->|(y & R' & -> & Hy & Ly & _)]; [now left|]. right. exists y, R'. auto. }
      set (c' := last_at i c (A1 ++ A2)) in *. clearbody c'.
      replace (P ++ (A1 ++ A2) ++ R) with ((P ++ A1) ++ A2 ++ R) in * by now rewrite <- !app_assoc.
      destruct (unlink_any h [n] (P ++ A1) A2 R g i c' k Rp Pc' Hi HA2 HR) as
        (h1 & g1 & R1 & M & U & Rp1 & S1 & F & EM & M0 & Fd & Up & Bar).
      { intros j Hj. apply SB. lia. }
      cbn [app] in Rp1.
      assert (SA1 : forall j, i < j <= 32 -> seg g1 j 0 ((P ++ A1) ++ n :: A2 ++ R1) None).
      { intros j Hj. specialize (SA j Hj). apply (seg_level g1 g) in SA; [|intros a; apply F; lia].
        rewrite <- app_assoc in SA.
        apply seg_move in SA; [|intros x Hx; assert (ht x <= i) by (apply HA, in_app_iff; auto); lia].
        replace ((P ++ A1) ++ n :: A2 ++ R1) with ((P ++ A1 ++ n :: A2) ++ R1) by (rewrite <- !app_assoc; cbn [app]; rewrite <- ?app_assoc; reflexivity).
        apply Up; [lia|]. replace ((P ++ A1 ++ n :: A2) ++ R) with (P ++ A1 ++ n :: A2 ++ R); auto.
        rewrite <- !app_assoc. cbn [app]. now rewrite <- ?app_assoc. }
      assert (Link : exists h2 g2,
        (if i <=? ht n then
           let* p := get_link h1 c' i in
           let* h := set_link h1 c' i (Some (ad n)) in
           set_link h (ad n) i p
         else Ok h1) = Ok h2 /\ wrep h2 (n :: (P ++ A1) ++ A2 ++ R1) g2 /\ seg g2 i 0 ((P ++ A1) ++ n :: A2 ++ R1) None
         /\ forall a j, j <> i -> g2 a j = g1 a j).
      { destruct (Nat.leb_spec i (ht n)) as [Hn|Hn].
        - assert (OV : onlevel (n :: (P ++ A1) ++ A2 ++ R1) c' i).
          { apply (at_end_onlevel i c' (P ++ A1)); auto. intros x Hx. right. apply in_app_iff. auto. }
          rewrite (wrep_get_link _ _ _ _ _ Rp1 OV). cbn [bind].
          destruct (wrep_set_link _ _ _ _ _ (Some (ad n)) Rp1 OV) as (h2 & E2 & R2). rewrite E2. cbn [bind].
          destruct (wrep_set_link _ _ _ (ad n) i (g1 c' i) R2) as (h3 & E3 & R3).
          { right. exists n. repeat split; auto. now left. }
          rewrite E3. eexists h3, _. split; [reflexivity|]. split; [exact R3|]. split.
          + pose proof (seg_link g1 i (P ++ A1) n (A2 ++ R1)) as L. cbn zeta in L. rewrite (at_end_last _ _ _ Pc') in L.
            apply L; auto. pose proof (wrep_nodup _ _ _ Rp1) as Nd.
            eapply Permutation_NoDup; [|exact Nd]. apply perm_skip.
            apply (Permutation_map ad (l := n :: (P ++ A1) ++ A2 ++ R1)), Permutation_middle.
          + intros. now rewrite !upd_other by auto.
        - exists h1, g1. split; [reflexivity|]. split; [exact Rp1|]. split; [|auto].
          apply (seg_skip g1 i (P ++ A1) [n] (A2 ++ R1) None); auto. intros x [<-|[]]. auto. }
      destruct Link as (h2 & g2 & E2 & Rp2 & S2 & F2).
      exists (option_map ad (hd_error R)), c', h1, h2, g2, A1, A2, R, R1, M.
      split; [exact W|]. split; [exact U|]. split; [exact E2|]. split; [now rewrite <- app_assoc|]. split; [exact Pc'|].
      split; [exact Rp2|]. split; [|split; [|split; [exact EM|split; [exact M0|split; [exact Fd|split; [|exact Bar]]]]]].
      - intros j Hj. destruct (Nat.eq_dec j i) as [->|Nj]; auto.
        apply (seg_level _ g1); [intros a; now apply F2|]. apply SA1. lia.
      - intros j Hj. apply (seg_level _ g1); [intros a; apply F2; lia|]. apply S1. lia.
      - intros ->. destruct A2 as [|z A2]; auto. specialize (HA2 z (or_introl eq_refl)). lia. }
    induction i as [|i IH]; intros h P Q g c Hi Rp Pc B SA SB;
      destruct (Level _ h P Q g c Hi Rp Pc B SA SB) as
        (nx & c' & h1 & h' & g' & A1 & A2 & R & R1 & M & W & U & L & -> & Pc' & Rp' & SA' & SB' & EM & M0 & Fd & Z & Bar);
      cbn [insert_loop]; rewrite W; cbn [bind]; rewrite U; cbn [bind]; rewrite L; cbn [bind].
    - exists h', g', (P ++ A1), (A2 ++ R1), (map dt (P ++ A1)), M, (map dt R1).
      split; [reflexivity|]. split; [eapply wrep_perm; [|exact Rp']; apply Permutation_middle|].
      split; [intros j Hj; apply SA'; lia|]. rewrite (Z eq_refl). cbn [app]. rewrite !map_app, EM, <- !app_assoc. auto.
    - specialize (Bar i eq_refl). specialize (M0 (Nat.neq_succ_0 i)). subst M. cbn [app] in EM.
      destruct (IH h' (P ++ A1) (A2 ++ R1) g' c') as (h2 & g2 & A & B2 & Lo & M & Hi' & E2 & Rp2 & Ch2 & D1 & D2 & D3 & Fd2); auto.
      { lia. }
      { eapply at_end_le; [|exact Pc']. lia. }
      { intros j Hj. apply SB'. lia. }
      exists h2, g2, A, B2, Lo, M, Hi'. split; [exact E2|]. split; [exact Rp2|]. split; [exact Ch2|]. split; [|auto].
      rewrite <- D1, !map_app, EM, <- !app_assoc. reflexivity.
  Qed.

  (** Searches only read. *)
  Lemma descend_any h X g go : wrep h X g -> chains g X -> forall i c P Q, X = P ++ Q -> i <= 32 -> at_end i c P ->
    exists c' P' Q', descend i h c go = Ok (c', option_map ad (hd_error Q')) /\ X = P' ++ Q' /\ at_end 0 c' P'
      /\ ((forall k, go k = true) -> Q' = []).
  Proof.
    intros Rp Ch. induction i as [|i IH]; intros c P Q -> Hi Pc; cbn [descend];
      match goal with |- context [walk_all h c ?l go] => destruct (split_walk go l Q) as (A & R & -> & GA & GR);
        rewrite (walk_from h [] g l go P A R c Rp Pc GA GR (Ch l Hi)); cbn [bind];
        destruct (at_end_walk l c P A Pc) as (A1 & A2 & -> & HA & Pc') end.
    - exists (last_at 0 c (A1 ++ A2)), (P ++ A1), R. assert (A2 = []) as ->.
      { destruct A2 as [|z A2]; auto. specialize (HA z (or_introl eq_refl)). lia. }
      rewrite app_nil_r in *. split; [reflexivity|]. split; [now rewrite <- app_assoc|]. split; [exact Pc'|].
      intros T. destruct GR as [->|(y & R' & _ & _ & G)]; auto. rewrite T in G. discriminate.
    - apply (IH _ (P ++ A1) (A2 ++ R)); [now rewrite <- !app_assoc|lia|]. eapply at_end_le; [|exact Pc']. lia.
  Qed.

  Lemma find_loop_any h X g k : wrep h X g -> chains g X -> forall i c P Q, X = P ++ Q -> i <= 32 -> at_end i c P ->
    exists Lo M Hi, find_loop i h c k = Ok (option_map ad (hd_error M)) /\ X = Lo ++ M ++ Hi /\ found _ k (map dt M).
  Proof.
    intros Rp Ch.
    assert (Found : forall i R, stop (fun z => is_lt (cmp z k)) i R -> incl R X ->
      match option_map ad (hd_error R) with
      | None => Ok None
      | Some y => let* e := get_data h y in Ok (if is_eq (cmp (fst e) k) then Some y else None)
      end = Ok None \/ exists y R', R = y :: R' /\ found _ k (map dt [y]) /\
      match option_map ad (hd_error R) with
      | None => Ok None
      | Some y => let* e := get_data h y in Ok (if is_eq (cmp (fst e) k) then Some y else None)
      end = Ok (Some (ad y))).
    { intros i R [->|(y & R' & -> & Hy & G)] I; [now left|]. cbn [hd_error option_map].
      rewrite (wrep_get_data _ _ _ y Rp) by (apply I; now left). cbn [bind]. fold (key y).
      destruct (is_eq (cmp (key y) k)) eqn:E; [|now left]. right. exists y, R'. split; [reflexivity|]. split; [|reflexivity].
      cbn [map found]. left. change (cmp (key y) k = Eq). destruct (cmp (key y) k); auto; discriminate. }
    induction i as [|i IH]; intros c P Q -> Hi Pc; cbn [find_loop];
      match goal with |- context [walk_all h c ?l _] => destruct (split_walk (fun z => is_lt (cmp z k)) l Q) as (A & R & -> & GA & GR);
        rewrite (walk_from h [] g l _ P A R c Rp Pc GA GR (Ch l Hi)); cbn [bind];
        destruct (at_end_walk l c P A Pc) as (A1 & A2 & -> & HA & Pc');
        destruct (Found l R GR) as [->|(y & R' & -> & Fy & ->)];
        [intros z Hz; rewrite !in_app_iff; auto|..]; cbn [bind] end.
    - exists (P ++ A1 ++ A2 ++ R), [], []. split; [reflexivity|]. rewrite !app_nil_r. split; [now rewrite <- !app_assoc|exact I].
    - exists (P ++ A1 ++ A2), [y], R'. split; [reflexivity|]. split; [now rewrite <- !app_assoc|exact Fy].
    - apply (IH _ (P ++ A1) (A2 ++ R)); [now rewrite <- !app_assoc|lia|]. eapply at_end_le; [|exact Pc']. lia.
    - exists (P ++ A1 ++ A2), [y], R'. split; [reflexivity|]. split; [now rewrite <- !app_assoc|exact Fy].
  Qed.

  (** ** The abstraction relation: no order is required. *)
  Definition wk_rel (m : skip_map K V) (l : list (K * V)) : Prop :=
    exists X g, wrep (sk_heap m) X g /\ chains g X /\ map dt X = l /\ sk_len m = length l.

  Lemma wk_rel_new : wk_rel skip_new [].
  Proof.
    exists [], (fun _ _ => None). split; [|split; [|auto]].
    - apply srep_wrep, (srep_new (D := K * V) (L := option nat) None).
    - intros i _. reflexivity.
  Qed.

  Lemma found_len (c : Cmp K) k (M : list (K * V)) : found c k M -> length M = match hd_error M with Some _ => 1 | None => 0 end.
  Proof. destruct M as [|p [|q M]]; simpl; tauto. Qed.

  Lemma skip_insert_any m l k v d : wk_rel m l ->
    exists m' (P M Q : list (K * V)), skip_insert m k v d = Ok (m', hd_error M) /\ l = P ++ M ++ Q /\ found _ k M /\ wk_rel m' (P ++ (k, v) :: Q).
  Proof.
    intros (X & g & Rp & Ch & El & Ln). subst l. unfold skip_insert. destruct Rp as (X0 & R0 & F0).
    pose proof (alloc_ok (sk_heap m) X0 g (k, v) (height_of d) None R0 (height_of_le d)) as Al.
    destruct (alloc (sk_heap m) (Some (k, v)) (S (height_of d)) None) as [h1 a] eqn:Ea.
    destruct Al as (R1 & _ & Fr). set (n := It a (height_of d) (k, v)) in *.
    set (g1 := fun b j => if b =? a then None else g b j) in *. rewrite (lows_ad _ _ F0) in Fr.
    assert (W1 : wrep h1 (n :: X) g1) by (exists (n :: X0); split; auto; constructor; auto using low_refl).
    assert (Ch1 : forall j, j <= 32 -> seg g1 j 0 X None).
    { intros j Hj. eapply seg_frame; [|apply (Ch j Hj)]. intros b Hb. unfold g1.
      rewrite (proj2 (Nat.eqb_neq b a)); auto. intros ->. apply Fr. destruct Hb as [->|Hb]; [now left|now right]. }
    destruct (insert_loop_any k n 32 h1 [] X g1 0) as (h2 & g2 & A & B & Lo & M & Hi & E & R2 & C2 & D1 & D2 & D3 & Fd); auto.
    { left. auto. }
    { exists X, []. rewrite app_nil_r. split; auto. split; [|now left]. intros x Hx.
      apply (wrep_ht _ _ _ _ W1). now right. }
    { intros j Hj. lia. }
    cbn [ad ht n] in E. unfold max_height. rewrite E. cbn [bind app] in *. pose proof (found_len _ _ _ Fd) as Lm.
    assert (Q : match hd_error M with Some _ => checked_pred (S (sk_len m)) | None => Ok (S (sk_len m)) end = Ok (length (Lo ++ (k, v) :: Hi))).
    { rewrite Ln, D1, !app_length. cbn [length]. destruct (hd_error M); cbn [checked_pred]; f_equal; lia. }
    rewrite Q. cbn [bind]. eexists. exists Lo, M, Hi. split; [reflexivity|]. split; [exact D1|]. split; [exact Fd|].
    exists (A ++ n :: B), g2. split; [exact R2|]. split; [exact C2|]. rewrite map_app. cbn [map dt n]. rewrite D2, D3. auto.
  Qed.

  Lemma skip_remove_any m l k : wk_rel m l ->
    exists m' (P M Q : list (K * V)), skip_remove m k = Ok (m', hd_error M) /\ l = P ++ M ++ Q /\ found _ k M /\ wk_rel m' (P ++ Q).
  Proof.
    intros (X & g & Rp & Ch & El & Ln). subst l. unfold skip_remove.
    destruct (remove_loop_any k 32 (sk_heap m) [] X g 0) as (h2 & g2 & Y & Lo & M & Hi & E & R2 & C2 & D1 & D2 & Fd); auto.
    { left. auto. }
    { eapply barrier_top; eauto. }
    unfold max_height. rewrite E. cbn [bind app] in *. pose proof (found_len _ _ _ Fd) as Lm.
    assert (Q : match hd_error M with Some _ => checked_pred (sk_len m) | None => Ok (sk_len m) end = Ok (length (Lo ++ Hi))).
    { rewrite Ln, D1, !app_length. destruct (hd_error M); [|f_equal; lia]. rewrite Lm.
      replace (length Lo + (1 + length Hi)) with (S (length Lo + length Hi)) by lia. reflexivity. }
    rewrite Q. cbn [bind]. eexists. exists Lo, M, Hi. split; [reflexivity|]. split; [exact D1|]. split; [exact Fd|].
    exists Y, g2. auto.
  Qed.

  Lemma skip_find_any m X g k : wrep (sk_heap m) X g -> chains g X ->
    exists Lo M Hi, skip_find m k = Ok (option_map ad (hd_error M)) /\ X = Lo ++ M ++ Hi /\ found _ k (map dt M).
  Proof.
    intros Rp Ch. apply (find_loop_any _ X g k Rp Ch _ 0 [] X); auto; [apply starting_height_le|].
    left. repeat split. apply starting_height_le.
  Qed.
  Lemma skip_get_any m l k : wk_rel m l ->
    exists (P M Q : list (K * V)), skip_get m k = Ok (option_map snd (hd_error M)) /\ l = P ++ M ++ Q /\ found _ k M.
  Proof.
    intros (X & g & Rp & Ch & El & Ln). subst l. destruct (skip_find_any m X g k Rp Ch) as (Lo & M & Hi & E & -> & Fd).
    exists (map dt Lo), (map dt M), (map dt Hi). rewrite !map_app. split; [|auto]. unfold skip_get. rewrite E. cbn [bind].
    destruct M as [|x M]; [reflexivity|]. cbn [hd_error option_map map].
    rewrite (wrep_get_data _ _ _ x Rp); [reflexivity|]. rewrite !in_app_iff. simpl. auto.
  Qed.

  Lemma lows_shape X0 X Y0 : Forall2 low X0 X -> map ishape Y0 = map ishape X0 ->
    exists Y, Forall2 low Y0 Y /\ map ishape Y = map ishape X /\ map dt Y = map dt Y0.
  Proof.
    intros F. revert Y0. induction F as [|x0 x X0 X (L1 & L2 & L3) F IH]; intros [|y0 Y0] E; try discriminate.
    - exists []. auto.
    - cbn [map] in E. injection E as E1 E2 E3. destruct (IH Y0 E3) as (Y & FY & S & Dt).
      exists (It (ad x) (ht x) (dt y0) :: Y). split; [|split].
      + constructor; auto. repeat split; cbn [ad ht dt]; [congruence|lia].
      + cbn [map]. rewrite S. reflexivity.
      + cbn [map dt]. now rewrite Dt.
  Qed.

  Lemma skip_get_mut_any m l k v : wk_rel m l ->
    exists m' (P M Q : list (K * V)), skip_get_mut m k v = Ok (m', option_map snd (hd_error M)) /\ l = P ++ M ++ Q /\ found _ k M
      /\ wk_rel m' (P ++ map (fun p => (fst p, v)) M ++ Q).
  Proof.
    intros (X & g & Rp & Ch & El & Ln). subst l. destruct (skip_find_any m X g k Rp Ch) as (Lo & M & Hi & E & -> & Fd).
    unfold skip_get_mut. rewrite E. cbn [bind]. destruct M as [|x [|x' M]]; [| |cbn in Fd; tauto].
    - exists m, (map dt Lo), [], (map dt Hi). cbn [hd_error option_map map app]. split; [reflexivity|].
      rewrite map_app. split; [reflexivity|]. split; [exact I|]. exists (Lo ++ Hi), g. rewrite <- map_app. auto.
    - cbn [hd_error option_map app] in *. rewrite (wrep_get_data _ _ _ x Rp) by (rewrite !in_app_iff; simpl; auto). cbn [bind].
      destruct Rp as (X0 & R0 & F0). pose proof F0 as F1. apply lows_app in F1 as (A0 & B0 & -> & FA & FB).
      apply lows_cons in FB as (x0 & B1 & -> & (M1 & M2 & M3) & FB). rewrite <- M1.
      destruct (set_data_ok _ _ _ _ _ (fst (dt x), v) R0) as (h' & Eh & Rh & _). rewrite Eh. cbn [bind].
      eexists. exists (map dt Lo), [dt x], (map dt Hi). split; [reflexivity|]. split; [now rewrite map_app|].
      split; [exact Fd|]. cbn [map app]. exists (Lo ++ It (ad x) (ht x) (fst (dt x), v) :: Hi), g. cbn [sk_heap sk_len].
      split; [|split; [|split]].
      + eexists. split; [exact Rh|]. apply Forall2_app; auto. constructor; auto. repeat split; auto.
      + intros j Hj. apply (seg_replace _ _ _ x); [reflexivity|reflexivity|]. now apply Ch.
      + now rewrite map_app.
      + rewrite Ln, map_app, !app_length. reflexivity.
  Qed.

  Lemma key_at_end m l X g c P Q : wrep (sk_heap m) X g -> map dt X = l -> X = P ++ Q -> at_end 0 c P ->
    key_at (sk_heap m) (not_head c) = Ok (option_map fst (last_error (map dt P))).
  Proof.
    intros Rp <- -> [(-> & -> & _)|(P' & p & -> & -> & _)]; [reflexivity|].
    pose proof (wrep_nodup _ _ _ Rp) as Nd. assert (Ip : In p ((P' ++ [p]) ++ Q)) by (rewrite !in_app_iff; simpl; auto).
    destruct (ad p) as [|a] eqn:Ea.
    { inversion Nd as [|? ? N0 _]. destruct N0. rewrite <- Ea. now apply in_map. }
    cbn [not_head key_at]. rewrite <- Ea, (wrep_get_data _ _ _ p Rp Ip). cbn [bind].
    rewrite map_app. cbn [map]. now rewrite last_error_app.
  Qed.
  Lemma key_at_next m l X g P Q : wrep (sk_heap m) X g -> map dt X = l -> X = P ++ Q ->
    key_at (sk_heap m) (option_map ad (hd_error Q)) = Ok (option_map fst (hd_error (map dt Q))).
  Proof.
    intros Rp <- ->. destruct Q as [|q Q]; [reflexivity|]. cbn [hd_error option_map key_at map].
    rewrite (wrep_get_data _ _ _ q Rp) by (rewrite !in_app_iff; simpl; auto). reflexivity.
  Qed.

  Lemma skip_floor_any m l k : wk_rel m l -> exists o, skip_floor m k = Ok o /\ forall a, o = Some a -> In a (map fst l).
  Proof.
    intros (X & g & Rp & Ch & El & Ln). unfold skip_floor.
    destruct (descend_any _ X g (fun z => negb (is_gt (cmp z k))) Rp Ch (starting_height (sk_len m)) 0 [] X) as (c & P & Q & E & EX & Pc & _);
      auto; [apply starting_height_le|left; repeat split; apply starting_height_le|].
    rewrite E. cbn [bind]. rewrite (key_at_end m l X g c P Q); auto. eexists. split; [reflexivity|].
    intros a Ha. destruct (last_error (map dt P)) as [p|] eqn:Lp; [|discriminate]. injection Ha as <-. apply in_map.
    apply last_error_in in Lp. subst l. rewrite EX, map_app, in_app_iff. auto.
  Qed.
  Lemma skip_ceil_any m l k : wk_rel m l -> exists o, skip_ceil m k = Ok o /\ forall a, o = Some a -> In a (map fst l).
  Proof.
    intros (X & g & Rp & Ch & El & Ln). unfold skip_ceil.
    destruct (descend_any _ X g (fun z => is_lt (cmp z k)) Rp Ch (starting_height (sk_len m)) 0 [] X) as (c & P & Q & E & EX & Pc & _);
      auto; [apply starting_height_le|left; repeat split; apply starting_height_le|].
    rewrite E. cbn [bind]. rewrite (key_at_next m l X g P Q); auto. eexists. split; [reflexivity|].
    intros a Ha. subst l. rewrite EX. destruct Q as [|q Q]; [discriminate|]. injection Ha as <-. apply in_map.
    rewrite map_app, in_app_iff. right. now left.
  Qed.
  Lemma skip_max_any m l : wk_rel m l -> skip_max m = Ok (option_map fst (last_error l)).
  Proof.
    intros (X & g & Rp & Ch & El & Ln). unfold skip_max.
    destruct (descend_any _ X g (fun _ => true) Rp Ch (starting_height (sk_len m)) 0 [] X) as (c & P & Q & E & EX & Pc & T);
      auto; [apply starting_height_le|left; repeat split; apply starting_height_le|].
    rewrite E. cbn [bind]. rewrite (key_at_end m l X g c P Q); auto. rewrite (T ltac:(auto)), app_nil_r in EX. now subst.
  Qed.

  (** Level 0, with the true heights. *)
  Lemma wk_ground m l : wk_rel m l -> exists X g, srep (sk_heap m) X g /\ seg g 0 0 X None /\ map dt X = l /\ sk_len m = length l.
  Proof.
    intros (X & g & (X0 & R0 & F0) & Ch & El & Ln). exists X0, g. split; [exact R0|]. split; [|split; [|exact Ln]].
    - apply (seg_zero g X X0); [symmetry; now apply lows_ad|]. apply Ch. lia.
    - rewrite (lows_dt _ _ F0). exact El.
  Qed.
  Lemma first_link_ground h X g : srep h X g -> seg g 0 0 X None -> get_link h 0 0 = Ok (option_map ad (hd_error X)).
  Proof.
    intros Rp Sg. rewrite (get_link_ok _ _ _ _ _ Rp) by (left; lia). f_equal.
    rewrite (seg_first _ _ _ _ _ Sg). apply first_or_0.
  Qed.
  Lemma skip_min_any m l : wk_rel m l -> skip_min m = Ok (option_map fst (hd_error l)).
  Proof.
    intros W. destruct (wk_ground _ _ W) as (X & g & Rp & Sg & El & Ln). unfold skip_min.
    rewrite (first_link_ground _ _ _ Rp Sg). cbn [bind].
    rewrite <- El. now apply (key_at_next m l X g [] X); [apply srep_wrep|..].
  Qed.
  Lemma skip_iter_any m l : wk_rel m l -> skip_iter m = Ok l.
  Proof.
    intros W. destruct (wk_ground _ _ W) as (X & g & Rp & Sg & <- & Ln). unfold skip_iter.
    rewrite (first_link_ground _ _ _ Rp Sg). cbn [bind]. pose proof (srep_length _ _ _ Rp).
    apply (iter_from_ok _ X g X Rp 0); [apply incl_refl|lia|exact Sg].
  Qed.
  Lemma skip_iter_mut_any m l vs : wk_rel m l ->
    exists m', skip_iter_mut m vs = Ok (m', firstn (length vs) l) /\ wk_rel m' (write_vals l vs).
  Proof.
    intros (X & g & (X0 & R0 & F0) & Ch & El & Ln). unfold skip_iter_mut.
    assert (S0 : seg g 0 0 X0 None) by (apply (seg_zero g X X0); [symmetry; now apply lows_ad|apply Ch; lia]).
    rewrite (first_link_ground _ _ _ R0 S0). cbn [bind].
    destruct (itermut_from_ok X0 (sk_heap m) [] g 0 vs R0 S0) as (h' & Y0 & E & R' & Sh & D'). cbn [app] in R'.
    rewrite E. cbn [bind]. rewrite (lows_dt _ _ F0), El. rewrite (lows_dt _ _ F0), El in D'.
    destruct (lows_shape _ _ _ F0 Sh) as (Y & FY & SY & DY).
    eexists. split; [reflexivity|]. exists Y, g. cbn [sk_heap sk_len]. split; [exists Y0; auto|]. split; [|split; [congruence|]].
    - intros j Hj. eapply seg_shape; [|apply (Ch j Hj)]. exact (eq_sym SY).
    - rewrite <- D', Ln, <- El, <- DY, !map_length, <- (map_length ishape Y), SY. now rewrite map_length.
  Qed.
  Lemma skip_clear_any m l : wk_rel m l -> exists m', skip_clear m = Ok (m', l) /\ wk_rel m' [].
  Proof.
    intros W. destruct (wk_ground _ _ W) as (X & g & Rp & Sg & <- & Ln). unfold skip_clear.
    rewrite (first_link_ground _ _ _ Rp Sg). cbn [bind]. pose proof (srep_length _ _ _ Rp) as Hl.
    destruct (free_from_ok X _ g (length (sk_heap m)) (srep_nodes _ _ _ Rp) (seg_chain _ _ _ Sg) ltac:(lia)) as (h1 & E1 & L1 & F1).
    rewrite E1. cbn [bind].
    assert (R1 : srep h1 [] g).
    { assert (N0 : ~ In 0 (map ad X)) by (pose proof (sr_nodup _ _ _ Rp) as Nd; now inversion Nd).
      split; try (intros x []; fail).
      - rewrite F1. destruct (in_dec _ _ _); [contradiction|]. apply Rp.
      - constructor; [intros []|constructor].
      - intros a n E. rewrite F1 in E. destruct (in_dec _ _ _); [discriminate|].
        apply (sr_dead _ _ _ Rp) in E as [E|E]; [now left|contradiction]. }
    destruct (zero_links_ok _ _ _ None R1) as (h2 & E2 & R2 & _). rewrite E2. cbn [bind].
    eexists. split; [reflexivity|]. eexists [], _. split; [apply srep_wrep; exact R2|]. split; [|auto].
    intros i _. reflexivity.
  Qed.
  Lemma skip_drop_any m l : wk_rel m l -> exists h', skip_drop m = Ok (h', l) /\ live_nodes h' = 0.
  Proof.
    intros W. destruct (wk_ground _ _ W) as (X & g & Rp & Sg & <- & Ln). unfold skip_drop.
    rewrite (first_link_ground _ _ _ Rp Sg). cbn [bind]. pose proof (srep_length _ _ _ Rp) as Hl.
    destruct (dealloc_head _ _ _ Rp) as (E1 & N1 & A1). rewrite E1. cbn [bind]. rewrite list_set_length.
    destruct (free_from_ok X _ g (length (sk_heap m)) N1 (seg_chain _ _ _ Sg) ltac:(lia)) as (h1 & E2 & F).
    rewrite E2. eexists. split; [reflexivity|]. eapply freed_all; eauto.
  Qed.
  Lemma skip_live_any m l : wk_rel m l -> live_nodes (sk_heap m) = S (length l).
  Proof.
    intros W. destruct (wk_ground _ _ W) as (X & g & Rp & Sg & <- & Ln). rewrite (srep_live _ _ _ Rp). now rewrite map_length.
  Qed.
  Lemma skip_into_iter_any m l n : wk_rel m l -> length l <= n ->
    exists h', skip_into_iter m n = Ok (h', l, []) /\ live_nodes h' = 0.
  Proof.
    intros W Hn. destruct (wk_ground _ _ W) as (X & g & Rp & Sg & <- & Ln). rewrite map_length in Hn.
    unfold skip_into_iter, into_iter_new. rewrite (first_link_ground _ _ _ Rp Sg). cbn [bind].
    pose proof (srep_length _ _ _ Rp) as Hl.
    destruct (zero_links_ok _ _ _ None Rp) as (h1 & E1 & R1 & L1). rewrite E1. cbn [bind].
    set (g1 := fun b j => if b =? 0 then None else g b j) in *.
    rewrite (drop_zeroed _ _ _ _ R1) by reflexivity. cbn [bind].
    destruct (dealloc_head _ _ _ R1) as (_ & N1 & A1).
    assert (C1 : chain g1 X) by (apply (chain_zeroed (sk_heap m)); auto; now apply (seg_chain _ _ 0)).
    destruct (into_iter_take_ok X n _ g1 N1 C1) as (h2 & E2 & F2 & N2 & C2). rewrite E2. cbn [bind].
    rewrite (skipn_all2 X Hn), firstn_all2 by (rewrite map_length; auto). cbn [hd_error option_map].
    destruct (length h2) eqn:Lh; cbn [into_iter_drop bind]; exists h2; (split; [reflexivity|]);
      (eapply freed_all; [exact A1|]; rewrite firstn_all2 in F2 by auto; exact F2).
  Qed.

  Lemma skip_step_any m l (o : map_op K V) (d : N) : wk_rel m l ->
    exists m' r l', skip_step m (o, d) = Ok (m', r) /\ loose_step _ l o l' r /\ wk_rel m' l'.
  Proof.
    intros Rm. destruct o; cbn [skip_step].
    - destruct (skip_insert_any m l k v d Rm) as (m' & P & M & Q & -> & -> & Fd & R'). do 3 eexists. split; [reflexivity|].
      split; [|exact R']. now constructor.
    - destruct (skip_remove_any m l k Rm) as (m' & P & M & Q & -> & -> & Fd & R'). do 3 eexists. split; [reflexivity|].
      split; [|exact R']. now constructor.
    - destruct (skip_get_any m l k Rm) as (P & M & Q & -> & -> & Fd). do 3 eexists. split; [reflexivity|].
      split; [|exact Rm]. now constructor.
    - destruct (skip_get_mut_any m l k v Rm) as (m' & P & M & Q & -> & -> & Fd & R'). do 3 eexists. split; [reflexivity|].
      split; [|exact R']. now constructor.
    - destruct (skip_get_any m l k Rm) as (P & M & Q & -> & -> & Fd). do 3 eexists. split; [reflexivity|].
      split; [|exact Rm]. now constructor.
    - destruct (skip_get_any m l k Rm) as (P & M & Q & -> & -> & Fd). cbn [bind]. do 3 eexists. split; [reflexivity|].
      split; [|exact Rm].
      replace (match option_map snd (hd_error M) with Some _ => true | None => false end)
        with (match M with [] => false | _ => true end) by now destruct M.
      now constructor.
    - destruct (skip_floor_any m l k Rm) as (x & -> & Ix). do 3 eexists. split; [reflexivity|]. split; [|exact Rm]. now constructor.
    - destruct (skip_ceil_any m l k Rm) as (x & -> & Ix). do 3 eexists. split; [reflexivity|]. split; [|exact Rm]. now constructor.
    - rewrite (skip_min_any _ _ Rm). do 3 eexists. split; [reflexivity|]. split; [|exact Rm]. constructor.
    - rewrite (skip_max_any _ _ Rm). do 3 eexists. split; [reflexivity|]. split; [|exact Rm]. constructor.
    - do 3 eexists. split; [reflexivity|]. split; [|exact Rm]. destruct Rm as (X & g & _ & _ & _ & ->). constructor.
    - do 3 eexists. split; [reflexivity|]. split; [|exact Rm]. destruct Rm as (X & g & _ & _ & _ & ->). constructor.
    - destruct (skip_clear_any _ _ Rm) as (m' & -> & R'). do 3 eexists. split; [reflexivity|]. split; [|exact R']. constructor.
    - rewrite (skip_iter_any _ _ Rm). do 3 eexists. split; [reflexivity|]. split; [|exact Rm]. constructor.
    - destruct (skip_iter_mut_any m l vs Rm) as (m' & -> & R'). do 3 eexists. split; [reflexivity|]. split; [|exact R']. constructor.
    - destruct (skip_into_iter_any m l (length (sk_heap m)) Rm) as (h' & E & _).
      { destruct Rm as (X & g & Rp & _ & <- & _). rewrite map_length. pose proof (wrep_length _ _ _ Rp). lia. }
      rewrite E. cbn [bind]. do 3 eexists. split; [reflexivity|]. split; [constructor|apply wk_rel_new].
  Qed.
End SkipAny.
