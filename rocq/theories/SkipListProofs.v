(** Proofs about SkipListModel.v. *)
From Coq Require Import Permutation.
From Verif Require Export SkipListModel SkipHeapProofs BstProofs.

Section Links.
  Context {T : Type}.
  Notation link := (option nat * nat)%type.
  Notation item := (sitem T).
  Notation links := (nat -> nat -> link).
  Implicit Types (X Y Lo Hi A B R : list item) (x y : item) (g : links).

  Definition low i X := forall x, In x X -> ht x < i.
  Definition has_tall i X := existsb (fun x => i <=? ht x) X.
  Lemma has_tall_false i X : has_tall i X = false -> low i X.
  Proof.
    intros E x Hx. destruct (Nat.leb_spec i (ht x)) as [L|L]; auto. exfalso.
    assert (existsb (fun x => i <=? ht x) X = true); [|unfold has_tall in E; congruence].
    apply existsb_exists. exists x. split; auto. now apply Nat.leb_le.
  Qed.
  Lemma low_has_tall i X : low i X -> has_tall i X = false.
  Proof.
    induction X as [|x X IH]; intros L; auto. unfold has_tall in *. cbn [existsb].
    rewrite (proj2 (Nat.leb_gt i (ht x))) by (apply L; now left). apply IH. intros y Hy. apply L. now right.
  Qed.

  (** The link over [X] at level [i]: the first node of [X] that reaches it and its distance.  Past the end
      the distance is the number of nodes left plus an excess [e]. *)
  Fixpoint first i e X : link :=
    match X with
    | [] => (None, e)
    | x :: X' => if i <=? ht x then (Some (ad x), 1) else let (p, d) := first i e X' in (p, S d)
    end.
  Lemma first_cons_low i e x X : ht x < i -> first i e (x :: X) = (fst (first i e X), S (snd (first i e X))).
  Proof. intros L. cbn [first]. rewrite (proj2 (Nat.leb_gt _ _)) by auto. now destruct (first i e X). Qed.
  Lemma first_cons_tall i e x X : i <= ht x -> first i e (x :: X) = (Some (ad x), 1).
  Proof. intros L. cbn [first]. now rewrite (proj2 (Nat.leb_le _ _)) by auto. Qed.
  Lemma first_low_app i e R X : low i R -> first i e (R ++ X) = (fst (first i e X), length R + snd (first i e X)).
  Proof.
    induction R as [|x R IH]; intros L; cbn [app length].
    - now destruct (first i e X).
    - rewrite first_cons_low by (apply L; now left). rewrite IH by (intros y Hy; apply L; now right). reflexivity.
  Qed.
  Lemma first_low i e R : low i R -> first i e R = (None, length R + e).
  Proof. intros L. rewrite <- (app_nil_r R) at 1. now rewrite first_low_app. Qed.
  Lemma first_cases i X : low i X \/ exists R y B, X = R ++ y :: B /\ low i R /\ i <= ht y.
  Proof.
    induction X as [|x X IH]; [left; intros x []|].
    destruct (Nat.leb_spec i (ht x)) as [L|L].
    - right. exists [], x, X. repeat split; auto. intros y [].
    - destruct IH as [IH|(R & y & B & -> & HR & Hy)].
      + left. intros y [<-|Hy]; auto.
      + right. exists (x :: R), y, B. repeat split; auto. intros z [<-|Hz]; auto.
  Qed.
  Lemma first_tall i e R y B : low i R -> i <= ht y -> first i e (R ++ y :: B) = (Some (ad y), S (length R)).
  Proof. intros L Hy. rewrite first_low_app, first_cons_tall by auto. cbn [fst snd]. f_equal. lia. Qed.
  (** What follows a node that reaches the level does not matter. *)
  Lemma first_stop i e e' B y C C' : i <= ht y -> first i e (B ++ y :: C) = first i e' (B ++ y :: C').
  Proof.
    intros Hy. induction B as [|b B IH]; cbn [app].
    - now rewrite !first_cons_tall.
    - cbn [first]. destruct (i <=? ht b); auto. now rewrite IH.
  Qed.
  Lemma first_shape i e X : forall X', map ishape X = map ishape X' -> first i e X = first i e X'.
  Proof.
    induction X as [|x X IH]; intros [|x' X'] E; try discriminate; auto. cbn [map] in E. injection E as E1 E2.
    cbn [first]. rewrite (IH X' H). unfold ishape in *. now rewrite E1, E2.
  Qed.
  Lemma first_pos i e X p d : first i e X = (Some p, d) -> 1 <= d.
  Proof.
    destruct (first_cases i X) as [L|(R & y & B & -> & HR & Hy)].
    - rewrite first_low by auto. discriminate.
    - rewrite first_tall by auto. intros E; injection E as <- <-. lia.
  Qed.

  (** All the links of the nodes of [X] at level [i], with [Y] behind [X]. *)
  Fixpoint tall_ok g i e X Y : Prop :=
    match X with
    | [] => True
    | x :: X' => (i <= ht x -> g (ad x) i = first i e (X' ++ Y)) /\ tall_ok g i e X' Y
    end.
  Lemma tall_ok_app g i e A B Y : tall_ok g i e (A ++ B) Y <-> tall_ok g i e A (B ++ Y) /\ tall_ok g i e B Y.
  Proof. induction A as [|x A IH]; cbn [tall_ok app]; [tauto|]. rewrite IH, app_assoc. tauto. Qed.
  Definition links_ok g i e a X : Prop := g a i = first i e X /\ tall_ok g i e X [].

  Lemma links_shape g i e a X X' : map ishape X = map ishape X' -> links_ok g i e a X -> links_ok g i e a X'.
  Proof.
    intros E [L0 L1]. split; [now rewrite L0; apply first_shape|]. clear L0. revert X' E.
    induction X as [|x X IH]; intros [|x' X'] E; try discriminate; auto. cbn [map] in E. injection E as E1 E2.
    cbn [tall_ok] in *. destruct L1 as [L1 L2]. split; auto. rewrite !app_nil_r in *. rewrite <- E1, <- E2.
    rewrite <- (first_shape i e X X' H). auto.
  Qed.
  Lemma links_skip g i e a R y B : i <= ht y -> links_ok g i e a (R ++ y :: B) -> links_ok g i e (ad y) B.
  Proof.
    intros Hy [_ L]. apply tall_ok_app in L as [_ L]. cbn [tall_ok] in L. destruct L as [L1 L2]. split; auto.
    rewrite L1 by auto. now rewrite app_nil_r.
  Qed.
  Lemma tall_frame g g' i e X Y : (forall x, In x X -> g' (ad x) i = g (ad x) i) -> tall_ok g i e X Y -> tall_ok g' i e X Y.
  Proof.
    induction X as [|x X IH]; cbn [tall_ok]; auto. intros E [L1 L2]. split.
    - intros L. rewrite E; auto. now left.
    - apply IH; auto. intros y Hy. apply E. now right.
  Qed.
  Lemma links_frame g g' i e a X : (forall b, b = a \/ In b (map ad X) -> g' b i = g b i) -> links_ok g i e a X -> links_ok g' i e a X.
  Proof.
    intros E [L1 L2]. split; [rewrite E; auto|]. eapply tall_frame; [|exact L2]. intros x Hx. apply E. right. now apply in_map.
  Qed.

  (** The number of nodes after the last one that reaches level [i]. *)
  Fixpoint gap_at (i n : nat) X : nat := match X with [] => n | x :: X' => gap_at i (if i <=? ht x then 0 else S n) X' end.
  Lemma gap_at_app i X Y : forall n, gap_at i n (X ++ Y) = gap_at i (gap_at i n X) Y.
  Proof. induction X as [|x X IH]; intros n; simpl; auto. Qed.
  Lemma gap_low i X : forall n, low i X -> gap_at i n X = n + length X.
  Proof.
    induction X as [|x X IH]; intros n L; cbn [gap_at length]; [lia|].
    rewrite (proj2 (Nat.leb_gt i (ht x))) by (apply L; now left). rewrite IH by (intros y Hy; apply L; now right). lia.
  Qed.
  Lemma gap_mono i X : forall n m, n <= m -> gap_at i n X <= gap_at (S i) m X.
  Proof.
    induction X as [|x X IH]; intros n m L; cbn [gap_at]; auto. apply IH.
    destruct (Nat.leb_spec i (ht x)), (Nat.leb_spec (S i) (ht x)); lia.
  Qed.
  Lemma gap_zero X : gap_at 0 0 X = 0.
  Proof. induction X as [|x X IH]; simpl; auto. Qed.

  (** The last node of the level, and the nodes after it. *)
  Lemma split_at i a X : exists A R, X = A ++ R /\ low i R /\ gap_at i 0 X = length R /\
    ((A = [] /\ last_at i a X = a) \/ exists A' x, A = A' ++ [x] /\ i <= ht x /\ last_at i a X = ad x).
  Proof.
    induction X as [|x X IH] using rev_ind.
    - exists [], []. repeat split; auto. intros x [].
    - rewrite last_at_app, gap_at_app. cbn [last_at gap_at].
      destruct (Nat.leb_spec i (ht x)) as [L|L].
      + exists (X ++ [x]), []. rewrite app_nil_r. repeat split; auto; [intros y []|]. right. exists X, x. auto.
      + destruct IH as (A & R & -> & HR & E & D). exists A, (R ++ [x]). rewrite app_assoc, app_length, E. cbn [length].
        repeat split; auto; [|lia]. intros y Hy. apply in_app_iff in Hy as [Hy|[<-|[]]]; auto.
  Qed.
  Lemma links_last g i e X Y : links_ok g i e 0 (X ++ Y) ->
    g (last_at i 0 X) i = (fst (first i e Y), gap_at i 0 X + snd (first i e Y)).
  Proof.
    intros L. destruct (split_at i 0 X) as (A & R & -> & HR & -> & [[-> ->]|(A' & x & -> & Hx & ->)]).
    - cbn [app] in L. destruct L as [-> _]. now apply first_low_app.
    - rewrite <- !app_assoc in L. cbn [app] in L. apply links_skip in L as [-> _]; auto. now apply first_low_app.
  Qed.

  (** Replacing what follows [X]. *)
  Lemma links_splice g g' i e e' X Y Y' : NoDup (0 :: map ad X) -> links_ok g i e 0 (X ++ Y) ->
    (forall b, b <> last_at i 0 X -> b = 0 \/ In b (map ad X) -> g' b i = g b i) ->
    g' (last_at i 0 X) i = (fst (first i e' Y'), gap_at i 0 X + snd (first i e' Y')) ->
    tall_ok g' i e' Y' [] -> links_ok g' i e' 0 (X ++ Y').
  Proof.
    intros Nd L E El TY. destruct (split_at i 0 X) as (A & R & -> & HR & Eg & D). rewrite Eg in El.
    assert (RT : forall h c Z, tall_ok h i c R Z).
    { intros h c Z. clear -HR. induction R as [|x R IH]; cbn [tall_ok]; auto.
      split; [|apply IH; intros y Hy; apply HR; now right].
      intros L. specialize (HR x (or_introl eq_refl)). lia. }
    destruct D as [[-> Q]|(A' & x & -> & Hx & Q)]; rewrite Q in *.
    - cbn [app] in *. split.
      + rewrite El. symmetry. now apply first_low_app.
      + apply tall_ok_app. auto.
    - rewrite <- !app_assoc in *. cbn [app] in *. rewrite map_app in Nd. cbn [map] in Nd.
      assert (Nx : ad x <> 0 /\ ~ In (ad x) (map ad A')).
      { inversion Nd as [|? ? N0 N1]; subst. apply NoDup_remove_2 in N1. rewrite in_app_iff in *. cbn [In] in N0. intuition. }
      destruct L as [L0 L1]. apply tall_ok_app in L1 as [L1 _]. split.
      + rewrite E; [|intuition|now left]. rewrite L0. now apply first_stop.
      + apply tall_ok_app. split.
        * assert (E' : forall b, In b (map ad A') -> g' b i = g b i).
          { intros b Hb. apply E; [intros ->; tauto|]. right. rewrite map_app, in_app_iff. auto. }
          clear -L1 E' Hx. induction A' as [|z A' IH]; cbn [tall_ok] in *; auto. destruct L1 as [L1 L2]. split.
          -- intros L. rewrite E' by now left. rewrite L1 by auto. rewrite !app_nil_r. now apply first_stop.
          -- apply IH; auto. intros b Hb. apply E'. now right.
        * cbn [tall_ok]. split; [|apply tall_ok_app; auto]. intros _. rewrite El, app_nil_r. symmetry. now apply first_low_app.
  Qed.
End Links.

Section SkipListProofs.
  Context {T : Type}.
  Notation link := (option nat * nat)%type.
  Notation hp := (heap T link).
  Notation item := (sitem T).
  Notation links := (nat -> nat -> link).
  Implicit Types (h : hp) (X Y Lo Hi A B R All : list item) (x y n : item) (g : links) (m : skip_list T).

  (** ** Walking. *)
  Lemma lwalk_ok h All g i e : srep h All g -> forall fuel P Y q a moved,
    onlevel All a i -> incl (P ++ Y) All -> links_ok g i e a (P ++ Y) -> q = 0 \/ Y = [] -> length P < fuel ->
    lwalk fuel h a i (length P + q) moved
    = Ok (last_at i a P, g (last_at i a P) i, gap_at i 0 P + q, moved + (length P - gap_at i 0 P)).
  Proof.
    intros Rp. induction fuel as [|fuel IH]; intros P Y q a moved Oa I L Q Hf; [lia|].
    cbn [lwalk]. rewrite (get_link_ok _ _ _ _ _ Rp Oa). cbn [bind]. pose proof (proj1 L) as E.
    destruct (first_cases i P) as [LP|(R & y & B & -> & HR & Hy)].
    - rewrite (last_at_none _ _ _ LP), (gap_low _ _ _ LP), E. rewrite first_low_app by auto. cbn [fst snd].
      replace (moved + (length P - (0 + length P))) with moved by lia.
      destruct (fst (first i e Y)) as [p|] eqn:F; auto.
      rewrite (proj2 (Nat.leb_gt _ _)); auto. destruct Q as [-> | ->]; [|discriminate F].
      destruct (first i e Y) as [p' d] eqn:F1. cbn [fst snd] in *. subst p'. apply first_pos in F1. lia.
    - rewrite E. rewrite <- app_assoc. cbn [app]. rewrite first_tall by auto. cbn [fst snd].
      rewrite app_length. cbn [length]. rewrite (proj2 (Nat.leb_le _ _)) by lia.
      replace (length R + S (length B) + q - S (length R)) with (length B + q) by lia.
      rewrite <- app_assoc in L. cbn [app] in L. rewrite <- app_assoc in I. cbn [app] in I.
      assert (Iy : In y All) by (apply I, in_app_iff; right; now left).
      rewrite (IH B Y q (ad y)); auto.
      + rewrite last_at_app, gap_at_app. cbn [last_at gap_at]. rewrite (proj2 (Nat.leb_le _ _)) by auto.
        f_equal. f_equal. assert (gap_at i 0 B <= length B); [|lia].
        destruct (split_at i 0 B) as (A1 & R1 & -> & _ & -> & _). rewrite app_length. lia.
      + right. exists y. auto.
      + intros z Hz. apply I, in_app_iff. right. now right.
      + eapply links_skip; eauto.
      + rewrite app_length in Hf. cbn [length] in Hf. lia.
  Qed.

  (** From the position reached one level above. *)
  Lemma lwalk_level h X g i e P Y q : i <= 32 -> srep h X g -> incl (P ++ Y) X -> length P < length h ->
    links_ok g i e 0 (P ++ Y) -> q = 0 \/ Y = [] ->
    lwalk_all h (last_at (S i) 0 P) i (gap_at (S i) 0 P + q)
    = Ok (last_at i 0 P, g (last_at i 0 P) i, gap_at i 0 P + q, gap_at (S i) 0 P - gap_at i 0 P).
  Proof.
    intros Hi Rp I Hl L Q. unfold lwalk_all.
    destruct (split_at (S i) 0 P) as (A & R & -> & HR & E & D). rewrite E. rewrite <- app_assoc in L, I. rewrite app_length in Hl.
    assert (W : forall a, onlevel X a i -> links_ok g i e a (R ++ Y) -> last_at i 0 (A ++ R) = last_at i a R ->
              gap_at i 0 (A ++ R) = gap_at i 0 R -> lwalk (S (length h)) h a i (length R + q) 0
       = Ok (last_at i 0 (A ++ R), g (last_at i 0 (A ++ R)) i, gap_at i 0 (A ++ R) + q, length R - gap_at i 0 (A ++ R))).
    { intros a O La E1 E2. rewrite (lwalk_ok h X g i e Rp (S (length h)) R Y q a 0); auto; [now rewrite E1, E2| |lia].
      intros z Hz. apply I, in_app_iff. auto. }
    destruct D as [[-> ->]|(A' & x & -> & Hx & ->)].
    - apply W; auto. left. lia.
    - assert (x_in : In x X) by (apply I; rewrite !in_app_iff; simpl; auto).
      apply W.
      + right. exists x. repeat split; auto. lia.
      + rewrite <- app_assoc in L. cbn [app] in L. eapply links_skip; eauto. lia.
      + rewrite !last_at_app. cbn [last_at]. now rewrite (proj2 (Nat.leb_le i (ht x))) by lia.
      + rewrite !gap_at_app. cbn [gap_at]. now rewrite (proj2 (Nat.leb_le i (ht x))) by lia.
  Qed.

  Lemma nodup_left Lo Hi : NoDup (0 :: map ad (Lo ++ Hi)) -> NoDup (0 :: map ad Lo).
  Proof. rewrite map_app. apply (NoDup_left (0 :: map ad Lo)). Qed.
  Lemma last_not_right Lo Hi i x : NoDup (0 :: map ad (Lo ++ Hi)) -> In x Hi -> ad x <> last_at i 0 Lo.
  Proof.
    intros Nd Hx Q. rewrite map_app in Nd. apply (in_map ad) in Hx. rewrite Q in Hx.
    destruct (last_at_in i Lo 0) as [E|(y & Hy & E & _)]; rewrite E in Hx.
    - inversion Nd as [|? ? N0 _]; subst. apply N0, in_app_iff. auto.
    - inversion Nd as [|? ? _ N1]; subst. apply in_split in Hx as (B1 & B2 & EB). rewrite EB in N1.
      rewrite app_assoc in N1. apply NoDup_remove_2 in N1. apply N1. rewrite !in_app_iff. left. left. now apply in_map.
  Qed.

  Lemma set_dist_ok h X g a i d : srep h X g -> onlevel X a i ->
    exists h', set_dist h a i d = Ok h' /\ srep h' X (upd g a i (fst (g a i), d)) /\ length h' = length h.
  Proof.
    intros Rp O. unfold set_dist. rewrite (get_link_ok _ _ _ _ _ Rp O). cbn [bind]. now apply set_link_ok.
  Qed.

  (** ** Insertion. *)
  Section Insert.
    Variables (n : item) (Lo Hi : list item) (e : nat -> nat).
    Hypothesis Fresh : ~ In (ad n) (0 :: map ad (Lo ++ Hi)).
    Notation la j := (last_at j 0 Lo).
    Notation X := (n :: Lo ++ Hi).

    Lemma la_onlevel i : i <= 32 -> onlevel X (la i) i.
    Proof. intros Hi32. apply last_at_onlevel; auto. intros x Hx. right. apply in_app_iff. auto. Qed.
    Lemma la_neq i : la i <> ad n.
    Proof.
      intros Q. apply Fresh. rewrite <- Q. destruct (last_at_in i Lo 0) as [->|(x & Hx & -> & _)]; [now left|].
      right. apply in_map, in_app_iff. auto.
    Qed.
    Lemma n_onlevel i : i <= ht n -> onlevel X (ad n) i.
    Proof. intros. right. exists n. split; auto. now left. Qed.

    Definition phase1 (i : nat) g : links := fun a j =>
      if (j <=? i) && (j <=? ht n) then
        if a =? la j then (Some (ad n), 1) else if a =? ad n then g (la j) j else g a j
      else g a j.

    Lemma linsert_level_ok i h g : i <= 32 -> srep h X g -> links_ok g i (e i) 0 (Lo ++ Hi) ->
      lwalk_all h (la (S i)) i (gap_at (S i) 0 Lo) = Ok (la i, g (la i) i, gap_at i 0 Lo, gap_at (S i) 0 Lo - gap_at i 0 Lo)
      /\ exists h1 g1, (if i <=? ht n then
                 let* h := set_link h (la i) i (Some (ad n), 1) in set_link h (ad n) i (g (la i) i) else Ok h) = Ok h1
               /\ srep h1 X g1 /\ (forall a j, g1 a j = if j =? i then phase1 i g a i else g a j).
    Proof.
      intros Hi32 Rp HL. split.
      - assert (Hle : length Lo < length h).
        { pose proof (srep_length _ _ _ Rp) as Q. cbn [length] in Q. rewrite app_length in Q. lia. }
        pose proof (lwalk_level h X g i (e i) Lo Hi 0 Hi32 Rp) as W. rewrite !Nat.add_0_r in W.
        exact (W ltac:(intros z Hz; now right) Hle HL (or_introl eq_refl)).
      - destruct (Nat.leb_spec i (ht n)) as [Hn|Hn].
        + destruct (set_link_ok _ _ _ (la i) i (Some (ad n), 1) Rp (la_onlevel i Hi32)) as (h1 & E1 & R1 & _). rewrite E1. cbn [bind].
          destruct (set_link_ok _ _ _ (ad n) i (g (la i) i) R1 (n_onlevel i Hn)) as (h2 & E2 & R2 & _). rewrite E2.
          eexists _, _. split; [reflexivity|]. split; [exact R2|]. intros a j. unfold phase1, upd.
          destruct (Nat.eqb_spec j i) as [->|Nj]; [|now rewrite !andb_false_r].
          rewrite !andb_true_r, Nat.leb_refl. rewrite (proj2 (Nat.leb_le i (ht n))) by auto. cbn [andb].
          destruct (Nat.eqb_spec a (ad n)) as [Q|Na], (Nat.eqb_spec a (la i)) as [Q'|Nl]; auto.
          pose proof (la_neq i). congruence.
        + exists h, g. split; auto. split; auto. intros a j. unfold phase1.
          destruct (Nat.eqb_spec j i) as [->|Nj]; auto. rewrite (proj2 (Nat.leb_gt i (ht n))) by auto. now rewrite andb_false_r.
    Qed.
    Lemma linsert_frame i g g1 : (forall a j, g1 a j = if j =? i then phase1 i g a i else g a j) ->
      (forall j, j <= i -> links_ok g j (e j) 0 (Lo ++ Hi)) -> forall j, j < i -> links_ok g1 j (e j) 0 (Lo ++ Hi).
    Proof.
      intros G1 HL j Hj. eapply links_frame; [|apply (HL j); lia]. intros b _. rewrite G1. now rewrite (proj2 (Nat.eqb_neq j i)) by lia.
    Qed.

    Lemma linsert_loop_ok : forall i h g last, i <= 32 -> srep h X g -> length last = 33 ->
      (forall j, j <= i -> links_ok g j (e j) 0 (Lo ++ Hi)) ->
      exists h' last', linsert_loop i h (la (S i)) (gap_at (S i) 0 Lo) (ad n) (ht n) last = Ok (h', last')
        /\ srep h' X (phase1 i g) /\ length last' = 33
        /\ (forall j, j <= i -> nth_error last' j = Some (la j, gap_at (S j) 0 Lo - gap_at j 0 Lo))
        /\ (forall j, i < j -> nth_error last' j = nth_error last j).
    Proof.
      intros i. induction i as [i IH] using (well_founded_induction lt_wf). intros h g last Hi32 Rp Ll HL.
      destruct (linsert_level_ok i h g Hi32 Rp (HL i (le_n i))) as (W & h1 & g1 & E1 & R1 & G1).
      destruct i as [|i]; cbn [linsert_loop]; rewrite W; cbn [bind]; rewrite E1; cbn [bind].
      - eexists _, _. split; [reflexivity|]. split; [|split; [now rewrite list_set_length|split]].
        + eapply srep_ext; [|exact R1]. intros a j _. rewrite G1. unfold phase1.
          destruct (Nat.eqb_spec j 0) as [->|Nj]; auto. rewrite (proj2 (Nat.leb_gt j 0)) by lia. reflexivity.
        + intros j Hj. assert (j = 0) as -> by lia. rewrite list_set_nth, Nat.eqb_refl, Ll. reflexivity.
        + intros j Hj. rewrite list_set_nth, (proj2 (Nat.eqb_neq _ _)); auto. lia.
      - destruct (IH i (le_n (S i)) h1 g1 (list_set last (S i) (la (S i), gap_at (S (S i)) 0 Lo - gap_at (S i) 0 Lo))) as (h2 & last2 & E2 & R2 & L2 & P2 & Q2).
        + lia.
        + auto.
        + now rewrite list_set_length.
        + intros j Hj. apply (linsert_frame (S i) g); auto. lia.
        + rewrite E2. eexists _, _. split; [reflexivity|]. split; [|split; [auto|split]].
          * eapply srep_ext; [|exact R2]. intros a j _. unfold phase1 at 1. rewrite !G1. unfold phase1.
            destruct (Nat.leb_spec j i) as [L|L]; cbn [andb].
            -- rewrite (proj2 (Nat.eqb_neq j (S i))) by lia. rewrite (proj2 (Nat.leb_le j (S i))) by lia. reflexivity.
            -- destruct (Nat.eqb_spec j (S i)) as [->|Nj]; auto. rewrite (proj2 (Nat.leb_gt j (S i))) by lia. reflexivity.
          * intros j Hj. destruct (Nat.eq_dec j (S i)) as [->|Nj]; [|apply P2; lia].
            rewrite Q2, list_set_nth, Nat.eqb_refl, Ll by lia. rewrite (proj2 (Nat.ltb_lt _ _)) by lia. reflexivity.
          * intros j Hj. rewrite Q2, list_set_nth, (proj2 (Nat.eqb_neq _ _)) by lia. reflexivity.
    Qed.

    Definition phase2 (i : nat) g : links := fun a j =>
      if (i <=? j) && (j <=? 32) then
        if j <=? ht n then
          if a =? la j then (fst (g a j), gap_at j 0 Lo + 1)
          else if a =? ad n then (fst (g a j), snd (g a j) - gap_at j 0 Lo) else g a j
        else if a =? la j then (fst (g a j), snd (g a j) + 1) else g a j
      else g a j.

    Lemma ldist_loop_ok last :
      (forall j, j <= 32 -> nth_error last j = Some (la j, gap_at (S j) 0 Lo - gap_at j 0 Lo)) ->
      forall k i h g, k + i = 33 -> srep h X g ->
      (forall j, i <= j <= ht n -> gap_at j 0 Lo <= snd (g (ad n) j)) ->
      exists h', ldist_loop k i (gap_at i 0 Lo) h (ad n) (ht n) last = Ok h' /\ srep h' X (phase2 i g).
    Proof.
      intros HL. induction k as [|k IH]; intros i h g Ek Rp Hd.
      - exists h. split; [reflexivity|]. eapply srep_ext; [|exact Rp]. intros a j _. unfold phase2.
        destruct (Nat.leb_spec i j); auto. cbn [andb]. rewrite (proj2 (Nat.leb_gt j 32)) by lia. reflexivity.
      - cbn [ldist_loop]. rewrite HL by lia. cbn [expect bind].
        replace (gap_at (S i) 0 Lo - gap_at i 0 Lo + gap_at i 0 Lo) with (gap_at (S i) 0 Lo)
          by (pose proof (gap_mono i Lo 0 0 (le_n 0)); lia).
        assert (Step : exists h1 g1, (if i <=? ht n then
                     let* h := set_dist h (la i) i (gap_at i 0 Lo + 1) in
                     let* l := get_link h (ad n) i in
                     let* d' := checked_sub (snd l) (gap_at i 0 Lo) in
                     set_dist h (ad n) i d'
                   else
                     let* l := get_link h (la i) i in
                     set_dist h (la i) i (snd l + 1)) = Ok h1
               /\ srep h1 X g1 /\ (forall a j, g1 a j = if j =? i then phase2 i g a i else g a j)).
        { destruct (Nat.leb_spec i (ht n)) as [Hn|Hn].
          - destruct (set_dist_ok _ _ _ (la i) i (gap_at i 0 Lo + 1) Rp (la_onlevel i ltac:(lia))) as (h1 & E1 & R1 & _). rewrite E1. cbn [bind].
            rewrite (get_link_ok _ _ _ _ _ R1 (n_onlevel i Hn)). cbn [bind].
            rewrite upd_other by (left; apply not_eq_sym, la_neq). unfold checked_sub.
            rewrite (proj2 (Nat.leb_le _ _)) by (apply Hd; lia). cbn [bind].
            destruct (set_dist_ok _ _ _ (ad n) i (snd (g (ad n) i) - gap_at i 0 Lo) R1 (n_onlevel i Hn)) as (h2 & E2 & R2 & _). rewrite E2.
            eexists _, _. split; [reflexivity|]. split; [exact R2|]. intros a j. unfold phase2, upd.
            destruct (Nat.eqb_spec j i) as [->|Nj]; [|now rewrite !andb_false_r].
            rewrite !Nat.leb_refl, Nat.eqb_refl, !andb_true_r. rewrite (proj2 (Nat.leb_le i (ht n))) by auto.
            rewrite (proj2 (Nat.leb_le i 32)) by lia. cbn [andb].
            pose proof (la_neq i) as Nl.
            destruct (Nat.eqb_spec a (ad n)) as [Q|Na], (Nat.eqb_spec a (la i)) as [Q'|Nl']; auto; try congruence; subst a; auto.
            rewrite (proj2 (Nat.eqb_neq _ _)) by auto. reflexivity.
          - rewrite (get_link_ok _ _ _ _ _ Rp (la_onlevel i ltac:(lia))). cbn [bind].
            destruct (set_dist_ok _ _ _ (la i) i (snd (g (la i) i) + 1) Rp (la_onlevel i ltac:(lia))) as (h1 & E1 & R1 & _). rewrite E1.
            eexists _, _. split; [reflexivity|]. split; [exact R1|]. intros a j. unfold phase2, upd.
            destruct (Nat.eqb_spec j i) as [->|Nj]; [|now rewrite !andb_false_r].
            rewrite !Nat.leb_refl, !andb_true_r. rewrite (proj2 (Nat.leb_gt i (ht n))) by auto.
            rewrite (proj2 (Nat.leb_le i 32)) by lia. cbn [andb].
            destruct (Nat.eqb_spec a (la i)) as [->|Nl]; auto. }
        destruct Step as (h1 & g1 & E1 & R1 & G1). rewrite E1. cbn [bind].
        destruct (IH (S i) h1 g1 ltac:(lia) R1) as (h2 & E2 & R2).
        { intros j Hj. rewrite G1, (proj2 (Nat.eqb_neq j i)) by lia. apply Hd. lia. }
        rewrite E2. eexists. split; [reflexivity|]. eapply srep_ext; [|exact R2]. intros a j _. unfold phase2 at 1. rewrite !G1.
        destruct (Nat.eqb_spec j i) as [->|Nj].
        + rewrite (proj2 (Nat.leb_gt (S i) i)) by lia. reflexivity.
        + unfold phase2. destruct (Nat.leb_spec i j), (Nat.leb_spec (S i) j); auto; lia.
    Qed.

    Lemma inserted_links g i : NoDup (0 :: map ad (Lo ++ Hi)) -> i <= 32 -> links_ok g i (e i) 0 (Lo ++ Hi) ->
      links_ok (phase2 1 (phase1 32 g)) i (e i) 0 (Lo ++ n :: Hi).
    Proof.
      intros Nd Hi32 L. pose proof (links_last _ _ _ _ _ L) as EL.
      assert (TH : tall_ok g i (e i) Hi []) by (destruct L as [_ L]; now apply tall_ok_app in L).
      eapply links_splice; [exact (nodup_left _ _ Nd)|exact L| | |].
      - intros b Nb Hb. assert (Nn : b <> ad n).
        { intros ->. apply Fresh. destruct Hb as [Hb|Hb]; [now left|right]. rewrite map_app, in_app_iff. auto. }
        unfold phase2, phase1. rewrite !(proj2 (Nat.eqb_neq _ _)) by auto.
        now destruct ((1 <=? i) && (i <=? 32)), (i <=? ht n), ((i <=? 32) && _).
      - unfold phase2, phase1. rewrite Nat.eqb_refl. rewrite (proj2 (Nat.leb_le i 32)) by lia. rewrite andb_true_r. cbn [andb].
        destruct (Nat.leb_spec i (ht n)) as [Hn|Hn].
        + rewrite first_cons_tall by auto. cbn [fst snd]. destruct (Nat.leb_spec 1 i); auto.
          assert (i = 0) as -> by lia. now rewrite gap_zero.
        + rewrite first_cons_low by auto. rewrite (proj2 (Nat.leb_le 1 i)) by lia. rewrite EL. cbn [fst snd].
          f_equal. lia.
      - cbn [tall_ok]. rewrite app_nil_r. split.
        + intros Hn. unfold phase2, phase1. rewrite Nat.eqb_refl.
          rewrite (proj2 (Nat.leb_le i (ht n))) by auto. rewrite (proj2 (Nat.leb_le i 32)) by lia. rewrite andb_true_r. cbn [andb].
          rewrite (proj2 (Nat.eqb_neq (ad n) (la i))) by (apply not_eq_sym, la_neq). rewrite EL. cbn [fst snd].
          destruct (first i (e i) Hi) as [p d] eqn:F. cbn [fst snd]. destruct (Nat.leb_spec 1 i).
          * f_equal. lia.
          * assert (i = 0) as -> by lia. now rewrite gap_zero.
        + eapply tall_frame; [|exact TH]. intros x Hx.
          assert (Nn : ad x <> ad n) by (intros Q; apply Fresh; rewrite <- Q; right; apply in_map, in_app_iff; auto).
          assert (Nl : ad x <> la i) by (eapply last_not_right; eauto).
          unfold phase2, phase1. rewrite !(proj2 (Nat.eqb_neq _ _)) by auto.
          now destruct ((1 <=? i) && (i <=? 32)), (i <=? ht n), ((i <=? 32) && _).
    Qed.
  End Insert.

  Definition sl_ok h X g (e : nat -> nat) : Prop :=
    srep h X g /\ e 0 = 0 /\ forall i, i <= 32 -> links_ok g i (e i) 0 X.
  (** [w]: something may have been removed. *)
  Definition sl_rel (w : bool) m (l : list T) : Prop := exists X g e,
    sl_ok (sl_heap m) X g e /\ map dt X = l /\ sl_len m = length l /\ (w = false -> forall i, e i = 0).

  (** The same, with the nodes *)
  Definition sl_at (w : bool) m X : Prop := exists g e,
    sl_ok (sl_heap m) X g e /\ sl_len m = length X /\ (w = false -> forall i, e i = 0).
  Lemma sl_at_rel w m X : sl_at w m X -> sl_rel w m (map dt X).
  Proof. intros (g & e & HO & Ln & He). exists X, g, e. rewrite map_length. auto. Qed.
  Lemma sl_rel_at w m l : sl_rel w m l -> exists X, sl_at w m X /\ map dt X = l.
  Proof. intros (X & g & e & HO & <- & Ln & He). exists X. split; auto. exists g, e. rewrite map_length in Ln. auto. Qed.

  Lemma sl_rel_new : sl_rel false slist_new [].
  Proof.
    exists [], (fun _ _ => null_link), (fun _ => 0). split; [|auto]. split; [apply srep_new|]. split; auto.
    intros i _. split; [reflexivity|exact I].
  Qed.

  Lemma low33 h X g : srep h X g -> low 33 X.
  Proof. intros Rp x Hx. pose proof (sr_ht _ _ _ Rp x Hx). lia. Qed.
  Lemma top_start h X g P k : srep h X g -> incl P X -> k = length P -> last_at 33 0 P = 0 /\ gap_at 33 0 P = k.
  Proof.
    intros Rp I ->. assert (low 33 P) by (intros x Hx; apply I in Hx; eapply low33; eauto).
    split; [now apply last_at_none|]. now rewrite gap_low.
  Qed.

  Lemma skip_split {U} (l : list U) i : i <= length l -> exists l1 l2, l = l1 ++ l2 /\ length l1 = i.
  Proof. intros Hi. exists (firstn i l), (skipn i l). split; [now rewrite firstn_skipn|]. rewrite firstn_length. lia. Qed.

  Lemma map_insert_nth {U W} (f : U -> W) i (u : U) l : map f (insert_nth i u l) = insert_nth i (f u) (map f l).
  Proof. unfold insert_nth. now rewrite map_app, firstn_map, skipn_map. Qed.
  Lemma map_remove_nth {U W} (f : U -> W) i l : map f (remove_nth i l) = remove_nth i (map f l).
  Proof. unfold remove_nth. now rewrite map_app, firstn_map, skipn_map. Qed.

  Lemma slist_insert_at w m X i v d : sl_at w m X -> i <= length X ->
    exists m' a, slist_insert m i v d = Ok (m', QDone (Ok tt)) /\ sl_at w m' (insert_nth i (It a (height_of d) v) X).
  Proof.
    intros (g & e & (Rp & E0 & HL) & Ln & He) Hi. unfold slist_insert.
    rewrite (proj2 (Nat.leb_le _ _)) by (rewrite Ln; auto).
    destruct (skip_split X i Hi) as (Lo & Hi' & -> & Hlo).
    pose proof (alloc_ok _ _ _ v (height_of d) null_link Rp (height_of_le d)) as Al.
    destruct (alloc (sl_heap m) (Some v) (S (height_of d)) null_link) as [h1 a]. destruct Al as (R1 & L1 & Fr).
    set (n := It a (height_of d) v) in *.
    set (g1 := fun b j => if b =? a then null_link else g b j) in *.
    assert (HL1 : forall j, j <= 32 -> links_ok g1 j (e j) 0 (Lo ++ Hi')).
    { intros j Hj. eapply links_frame; [|apply (HL j Hj)]. intros b Hb. unfold g1.
      rewrite (proj2 (Nat.eqb_neq b a)); auto. intros ->. apply Fr. destruct Hb as [->|Hb]; [now left|now right]. }
    destruct (top_start _ _ _ Lo i R1) as [T1 T2]; [intros x Hx; right; apply in_app_iff; auto|auto|].
    destruct (linsert_loop_ok n Lo Hi' e Fr 32 h1 g1 (repeat (0, 0) 33) (le_n 32) R1 eq_refl HL1)
      as (h2 & last & E2 & R2 & Ll & P2 & _).
    unfold max_height. rewrite T1, T2 in E2. change (ad n) with a in E2. change (ht n) with (height_of d) in E2.
    rewrite E2. cbn [bind]. rewrite (P2 0 ltac:(lia)). cbn [expect bind]. rewrite gap_zero, Nat.sub_0_r.
    destruct (ldist_loop_ok n Lo Hi' Fr last P2 32 1 h2 _ eq_refl R2) as (h3 & E3 & R3).
    { intros j Hj. unfold phase1. rewrite (proj2 (Nat.leb_le j 32)), (proj2 (Nat.leb_le j (ht n))) by (pose proof (height_of_le d); cbn [n ht] in *; lia).
      cbn [andb]. rewrite (proj2 (Nat.eqb_neq (ad n) _)) by (apply not_eq_sym, (la_neq n Lo Hi' Fr)). rewrite Nat.eqb_refl.
      rewrite (links_last _ _ (e j) Lo Hi'); [cbn [snd]; lia|]. apply HL1. pose proof (height_of_le d). cbn [n ht] in *; lia. }
    change (ad n) with a in E3. change (ht n) with (height_of d) in E3. rewrite E3. cbn [bind].
    eexists. exists a. split; [reflexivity|].
    assert (EX : insert_nth i n (Lo ++ Hi') = Lo ++ n :: Hi').
    { unfold insert_nth. rewrite <- Hlo, firstn_app, skipn_app, Nat.sub_diag. rewrite firstn_all2, skipn_all2 by lia.
      cbn [firstn skipn app]. now rewrite app_nil_r. }
    fold n. rewrite EX.
    exists (phase2 n Lo 1 (phase1 n Lo 32 g1)), e. cbn [sl_heap sl_len]. split; [split; [|split; [auto|]]|split; [|auto]].
    - eapply srep_equiv; [apply Permutation_middle|exact R3].
    - intros j Hj. apply (inserted_links n Lo Hi' e Fr g1 j); auto. apply Rp.
    - rewrite Ln, !app_length. cbn [length]. lia.
  Qed.
  Lemma slist_insert_ok w m l i v d : sl_rel w m l -> i <= length l ->
    exists m', slist_insert m i v d = Ok (m', QDone (Ok tt)) /\ sl_rel w m' (insert_nth i v l).
  Proof.
    intros R Hi. apply sl_rel_at in R as (X & A & <-). rewrite map_length in Hi.
    destruct (slist_insert_at w m X i v d A Hi) as (m' & a & E & A'). exists m'. split; [exact E|].
    apply sl_at_rel in A'. now rewrite map_insert_nth in A'.
  Qed.

  (** ** Removal. *)
  Section Remove.
    Variables (y : item) (Lo Hi : list item) (e : nat -> nat).
    Notation la j := (last_at j 0 Lo).
    Notation X := (Lo ++ y :: Hi).

    (** Past-the-end links keep counting the removed node. *)
    Definition worn j := if has_tall j (y :: Hi) then e j else S (e j).

    Lemma removed_links g g' i : NoDup (0 :: map ad X) -> links_ok g i (e i) 0 X ->
      (forall a, a <> la i -> a <> ad y -> g' a i = g a i) ->
      g' (la i) i = (fst (first i (worn i) Hi), gap_at i 0 Lo + snd (first i (worn i) Hi)) ->
      links_ok g' i (worn i) 0 (Lo ++ Hi).
    Proof.
      intros Nd L E El. assert (TH : tall_ok g i (e i) Hi []) by (destruct L as [_ L]; apply tall_ok_app in L as [_ [_ L]]; exact L).
      assert (Ny : ~ In (ad y) (0 :: map ad Lo ++ map ad Hi)).
      { rewrite map_app in Nd. cbn [map] in Nd. apply (NoDup_remove_2 (0 :: map ad Lo)) in Nd. exact Nd. }
      eapply links_splice; [exact (nodup_left _ _ Nd)|exact L| |exact El|].
      - intros b Nb Hb. apply E; auto. intros ->. apply Ny. destruct Hb as [->|Hb]; [now left|right; apply in_app_iff; auto].
      - assert (TH' : tall_ok g i (worn i) Hi []).
        { unfold worn. destruct (has_tall i (y :: Hi)) eqn:HT; auto. apply has_tall_false in HT. clear -HT.
          induction Hi as [|x Hi' IH]; cbn [tall_ok]; auto. split.
          - intros L. specialize (HT x (or_intror (or_introl eq_refl))). lia.
          - apply IH. intros z [<-|Hz]; apply HT; [now left|right; now right]. }
        eapply tall_frame; [|exact TH']. intros x Hx. apply E.
        + eapply last_not_right; eauto. now right.
        + intros Q. apply Ny. rewrite <- Q. right. apply in_app_iff. right. now apply in_map.
    Qed.

    Lemma lremove_level_ok i h g : i <= 32 -> srep h X g -> links_ok g i (e i) 0 X ->
      lwalk_all h (la (S i)) i (gap_at (S i) 0 Lo) = Ok (la i, g (la i) i, gap_at i 0 Lo, gap_at (S i) 0 Lo - gap_at i 0 Lo)
      /\ exists h1 g1, (match fst (g (la i) i) with
                  | None => Ok (h, None)
                  | Some z =>
                      if snd (g (la i) i) =? gap_at i 0 Lo + 1 then
                        let* ly := get_link h z i in
                        let* h := set_link h (la i) i ly in
                        let* h := set_link h z i (g (la i) i) in
                        let* d := checked_sub (snd (g (la i) i)) 1 in
                        let* h := set_dist h (la i) i (snd ly + d) in
                        Ok (h, Some z)
                      else
                        let* d := checked_sub (snd (g (la i) i)) 1 in
                        let* h := set_dist h (la i) i d in
                        Ok (h, None)
                  end) = Ok (h1, if i <=? ht y then Some (ad y) else None) /\ srep h1 X g1
            /\ (forall a j, j <> i -> g1 a j = g a j) /\ (forall a, a <> la i -> a <> ad y -> g1 a i = g a i)
            /\ g1 (la i) i = (fst (first i (worn i) Hi), gap_at i 0 Lo + snd (first i (worn i) Hi)).
    Proof.
      intros Hi32 Rp HL.
      assert (Hle : length Lo < length h).
      { pose proof (srep_length _ _ _ Rp) as Q. rewrite app_length in Q. cbn [length] in Q. lia. }
      pose proof (lwalk_level h X g i (e i) Lo (y :: Hi) 0 Hi32 Rp (incl_refl _) Hle HL (or_introl eq_refl)) as W.
      rewrite !Nat.add_0_r in W. pose proof (links_last _ _ _ _ _ HL) as EL.
      pose proof (sr_nodup _ _ _ Rp) as Nd.
      assert (Oy : forall j, j <= ht y -> onlevel X (ad y) j).
      { intros j Hj. right. exists y. repeat split; auto. apply in_app_iff. right. now left. }
      assert (Oa : onlevel X (la i) i) by (apply last_at_onlevel; auto; intros z Hz; apply in_app_iff; auto).
      assert (Ny : ad y <> la i) by (eapply last_not_right; eauto; now left).
      split; [exact W|].
      rewrite EL. unfold worn. destruct (Nat.leb_spec i (ht y)) as [Hy|Hy].
        - rewrite first_cons_tall by auto. cbn [fst snd]. rewrite Nat.eqb_refl.
          rewrite (get_link_ok _ _ _ _ _ Rp (Oy i Hy)). cbn [bind].
          assert (Ely : g (ad y) i = first i (e i) Hi).
          { destruct HL as [_ L]. apply tall_ok_app in L as [_ L]. cbn [tall_ok] in L. rewrite app_nil_r in L. tauto. }
          destruct (set_link_ok _ _ _ _ _ (g (ad y) i) Rp Oa) as (h1 & E1 & R1 & _). rewrite E1. cbn [bind].
          destruct (set_link_ok _ _ _ _ _ (Some (ad y), gap_at i 0 Lo + 1) R1 (Oy i Hy)) as (h2 & E2 & R2 & _). rewrite E2. cbn [bind].
          unfold checked_sub. rewrite (proj2 (Nat.leb_le 1 _)) by lia. cbn [bind].
          destruct (set_dist_ok _ _ _ _ _ (snd (g (ad y) i) + (gap_at i 0 Lo + 1 - 1)) R2 Oa) as (h3 & E3 & R3 & _). rewrite E3. cbn [bind].
          eexists _, _. split; [reflexivity|]. split; [exact R3|]. split; [|split].
          + intros a j Nj. rewrite !upd_other; auto.
          + intros a Na Na'. rewrite !upd_other; auto.
          + rewrite upd_same, upd_other, upd_same by auto. cbn [has_tall existsb]. rewrite (proj2 (Nat.leb_le _ _)) by auto. cbn [orb].
            rewrite Ely. f_equal. lia.
        - rewrite first_cons_low by auto. cbn [fst snd]. cbn [has_tall existsb]. rewrite (proj2 (Nat.leb_gt _ _)) by auto. cbn [orb].
          fold (has_tall i Hi).
          destruct (first_cases i Hi) as [LH|(R & z & B & EH & HR & Hz)].
          + rewrite (low_has_tall _ _ LH), !(first_low _ _ _ LH). cbn [fst snd]. exists h, g. split; [reflexivity|]. split; auto. split; auto. split; auto.
            rewrite EL, first_cons_low, (first_low _ _ _ LH) by auto. cbn [fst snd]. f_equal. lia.
          + assert (HT : has_tall i Hi = true).
            { apply existsb_exists. exists z. rewrite EH, in_app_iff. split; [right; now left|now apply Nat.leb_le]. }
            rewrite HT. rewrite EH, (first_tall _ _ _ _ _ HR Hz). cbn [fst snd].
            rewrite (proj2 (Nat.eqb_neq _ _)) by lia.
            unfold checked_sub. rewrite (proj2 (Nat.leb_le 1 _)) by lia. cbn [bind].
            destruct (set_dist_ok _ _ _ _ _ (gap_at i 0 Lo + S (S (length R)) - 1) Rp Oa) as (h3 & E3 & R3 & _). rewrite E3. cbn [bind].
            eexists _, _. split; [reflexivity|]. split; [rewrite <- EH; exact R3|]. split; [|split].
            * intros a j Nj. rewrite !upd_other; auto.
            * intros a Na Na'. rewrite !upd_other; auto.
            * rewrite upd_same, EL, first_cons_low by auto. cbn [fst snd]. rewrite EH, (first_tall _ _ _ _ _ HR Hz). cbn [fst snd]. f_equal. lia.
    Qed.

    Lemma lremove_loop_ok : forall i h g, i <= 32 -> srep h X g ->
      (forall j, j <= i -> links_ok g j (e j) 0 X) -> (forall j, i < j <= 32 -> links_ok g j (worn j) 0 (Lo ++ Hi)) ->
      exists h' g', lremove_loop i h (la (S i)) (gap_at (S i) 0 Lo) = Ok (h', dt y)
        /\ srep h' (Lo ++ Hi) g' /\ forall j, j <= 32 -> links_ok g' j (worn j) 0 (Lo ++ Hi).
    Proof.
      intros i. induction i as [i IH] using (well_founded_induction lt_wf). intros h g Hi32 Rp HL HD.
      destruct (lremove_level_ok i h g Hi32 Rp (HL i (le_n i))) as (W & h1 & g1 & E1 & R1 & G1 & G2 & G3).
      pose proof (sr_nodup _ _ _ Rp) as Nd.
      assert (HD1 : forall j, i <= j <= 32 -> links_ok g1 j (worn j) 0 (Lo ++ Hi)).
      { intros j Hj. destruct (Nat.eq_dec j i) as [->|Nj].
        - eapply removed_links; eauto.
        - eapply links_frame; [|apply HD; lia]. intros b _. now apply G1. }
      destruct i as [|i]; cbn [lremove_loop]; rewrite W; cbn [bind]; rewrite E1; cbn [bind].
      - cbn [Nat.leb]. assert (R1' : srep h1 (y :: Lo ++ Hi) g1) by (eapply srep_equiv; [apply Permutation_sym, Permutation_middle|exact R1]).
        rewrite (get_data_ok _ _ _ y R1') by now left. cbn [bind].
        destruct (dealloc_ok _ _ _ _ R1') as (h2 & E2 & R2 & _). rewrite E2. cbn [bind].
        exists h2, g1. split; [reflexivity|]. split; auto. intros j Hj. apply HD1. lia.
      - destruct (IH i (le_n (S i)) h1 g1 ltac:(lia) R1) as (h2 & g2 & E2 & R2 & L2).
        + intros j Hj. eapply links_frame; [|apply (HL j); lia]. intros b _. apply G1. lia.
        + intros j Hj. apply HD1. lia.
        + exists h2, g2. split; [|auto]. destruct (S i <=? ht y); exact E2.
    Qed.
  End Remove.

  Lemma nth_split' {U} (l : list U) i v : nth_error l i = Some v -> exists l1 l2, l = l1 ++ v :: l2 /\ length l1 = i.
  Proof. intros E. apply nth_error_split in E as (l1 & l2 & -> & L). eauto. Qed.

  Lemma slist_remove_at w m X i y : sl_at w m X -> nth_error X i = Some y ->
    exists m', slist_remove m i = Ok (m', QVal (Ok (dt y))) /\ sl_at true m' (remove_nth i X).
  Proof.
    intros (g & e & (Rp & E0 & HL) & Ln & He) Ey.
    assert (Hi : i < length X) by (apply nth_error_Some; congruence).
    unfold slist_remove. rewrite (proj2 (Nat.ltb_lt _ _)) by (rewrite Ln; auto).
    destruct (nth_split' _ _ _ Ey) as (Lo & Hi' & -> & Hlo).
    destruct (top_start _ _ _ Lo i Rp) as [T1 T2]; [intros x Hx; apply in_app_iff; auto|auto|].
    destruct (lremove_loop_ok y Lo Hi' e 32 (sl_heap m) g (le_n 32) Rp HL) as (h2 & g2 & E2 & R2 & L2); [intros; lia|].
    rewrite T1, T2 in E2. unfold max_height. rewrite E2. cbn [bind]. rewrite Ln, app_length. cbn [length].
    rewrite Nat.add_succ_r. cbn [checked_pred bind]. eexists. split; [reflexivity|].
    assert (EX : remove_nth i (Lo ++ y :: Hi') = Lo ++ Hi').
    { unfold remove_nth. rewrite <- Hlo, firstn_app, skipn_app, Nat.sub_diag. replace (S (length Lo) - length Lo) with 1 by lia.
      rewrite firstn_all2, skipn_all2 by lia. cbn [firstn skipn app]. now rewrite app_nil_r. }
    rewrite EX. exists g2, (worn y Hi' e). cbn [sl_heap sl_len]. split; [split; [auto|split; [|auto]]|split; [|discriminate]].
    - unfold worn. cbn. exact E0.
    - now rewrite app_length.
  Qed.
  Lemma slist_remove_ok w m l i v : sl_rel w m l -> nth_error l i = Some v ->
    exists m', slist_remove m i = Ok (m', QVal (Ok v)) /\ sl_rel true m' (remove_nth i l).
  Proof.
    intros R Ev. apply sl_rel_at in R as (X & A & <-). rewrite nth_error_map in Ev.
    destruct (nth_error X i) as [y|] eqn:Ey; [|discriminate]. injection Ev as <-.
    destruct (slist_remove_at w m X i y A Ey) as (m' & E & A'). exists m'. split; [exact E|].
    apply sl_at_rel in A'. now rewrite map_remove_nth in A'.
  Qed.

  (** ** Lookup. *)
  Lemma lfind_ok h X g e P Y q : srep h X g -> (forall j, j <= 32 -> links_ok g j (e j) 0 X) -> X = P ++ Y -> q = 0 \/ Y = [] ->
    forall i, i <= 32 -> lfind_loop i h (last_at (S i) 0 P) (gap_at (S i) 0 P + q) = Ok (option_map ad (hd_error Y)).
  Proof.
    intros Rp HL -> Q. pose proof (srep_length _ _ _ Rp) as Hl. rewrite app_length in Hl.
    induction i as [|i IH]; intros Hi; cbn [lfind_loop];
      rewrite (lwalk_level h (P ++ Y) g _ (e _) P Y q Hi Rp (incl_refl _) ltac:(lia) (HL _ Hi) Q); cbn [bind];
      rewrite (links_last _ _ _ _ _ (HL _ Hi)); cbn [fst snd].
    - destruct Y as [|y Y]; [reflexivity|]. destruct Q as [-> | Q]; [|discriminate]. rewrite first_cons_tall by lia.
      cbn [fst snd hd_error option_map]. rewrite Nat.add_0_r, Nat.eqb_refl. reflexivity.
    - rewrite (IH ltac:(lia)). destruct Y as [|y Y]; [reflexivity|]. destruct Q as [-> | Q]; [|discriminate].
      cbn [hd_error option_map].
      destruct (Nat.leb_spec (S i) (ht y)) as [Hy|Hy].
      + rewrite first_cons_tall by lia. cbn [fst snd]. now rewrite Nat.add_0_r, Nat.eqb_refl.
      + rewrite first_cons_low by lia. cbn [fst snd]. destruct (first (S i) (e (S i)) Y) as [[p|] d] eqn:F; cbn [fst snd]; auto.
        apply first_pos in F. rewrite (proj2 (Nat.eqb_neq _ _)) by lia. reflexivity.
  Qed.
  Lemma slist_find_ok m X g e k : sl_ok (sl_heap m) X g e -> slist_find m k = Ok (option_map ad (nth_error X k)).
  Proof.
    intros (Rp & _ & HL). unfold slist_find, max_height.
    assert (Sp : exists P Y q, X = P ++ Y /\ k = length P + q /\ (q = 0 \/ Y = []) /\ hd_error Y = nth_error X k).
    { destruct (Nat.le_gt_cases k (length X)) as [L|L].
      - destruct (skip_split X k L) as (P & Y & -> & <-). exists P, Y, 0. repeat split; auto.
        rewrite nth_error_app2, Nat.sub_diag by lia. now destruct Y.
      - exists X, [], (k - length X). rewrite app_nil_r. repeat split; auto; [lia|]. symmetry. apply nth_error_None. lia. }
    destruct Sp as (P & Y & q & -> & -> & Q & <-).
    destruct (top_start _ _ _ P (length P) Rp) as [T1 T2]; [intros x Hx; apply in_app_iff; auto|auto|].
    pose proof (lfind_ok _ _ _ _ P Y q Rp HL eq_refl Q 32 (le_n 32)) as W. rewrite T1, T2 in W. exact W.
  Qed.
  Lemma slist_get_ok w m l k : sl_rel w m l -> slist_get m k = Ok (nth_error l k).
  Proof.
    intros (X & g & e & Ok' & <- & Ln & _). unfold slist_get. rewrite (slist_find_ok _ _ _ _ _ Ok'). cbn [bind].
    rewrite nth_error_map. destruct (nth_error X k) as [y|] eqn:Ey; cbn [option_map]; auto.
    rewrite (get_data_ok _ _ _ y (proj1 Ok')); auto. now apply nth_error_In in Ey.
  Qed.
  Lemma slist_get_mut_at w m X k v : sl_at w m X ->
    exists m' X', slist_get_mut m k v = Ok (m', nth_error (map dt X) k) /\ sl_at w m' X' /\ map ishape X' = map ishape X
      /\ map dt X' = set_nth k v (map dt X).
  Proof.
    intros (g & e & Ok' & Ln & He). unfold slist_get_mut. rewrite (slist_find_ok _ _ _ _ _ Ok'). cbn [bind].
    rewrite nth_error_map. unfold set_nth. destruct (nth_error X k) as [y|] eqn:Ey; cbn [option_map].
    - rewrite (get_data_ok _ _ _ y (proj1 Ok')) by (now apply nth_error_In in Ey). cbn [bind].
      assert (Hk : k < length X) by (apply nth_error_Some; congruence).
      destruct (nth_split' _ _ _ Ey) as (Lo & Hi & -> & Hlo). destruct Ok' as (Rp & E0 & HL).
      destruct (set_data_ok _ _ _ _ _ v Rp) as (h' & E & R' & _). rewrite E. cbn [bind].
      eexists. exists (Lo ++ It (ad y) (ht y) v :: Hi). split; [reflexivity|].
      rewrite map_length, (proj2 (Nat.ltb_lt _ _)) by auto.
      split; [exists g, e; cbn [sl_heap sl_len]; split; [split; [auto|split; [auto|]]|split; [|auto]]|split].
      + intros i Hi32. eapply links_shape; [|apply (HL i Hi32)]. rewrite !map_app. reflexivity.
      + rewrite Ln, !app_length. reflexivity.
      + rewrite !map_app. reflexivity.
      + rewrite <- Hlo, !map_app. cbn [map dt]. rewrite firstn_app, skipn_app, !map_length, Nat.sub_diag.
        replace (S (length Lo) - length Lo) with 1 by lia.
        rewrite firstn_all2, skipn_all2 by (rewrite map_length; lia). cbn [firstn skipn app]. now rewrite app_nil_r.
    - exists m, X. split; [reflexivity|]. rewrite map_length. rewrite (proj2 (Nat.ltb_ge _ _)) by now apply nth_error_None.
      split; [exists g, e; auto|auto].
  Qed.
  Lemma slist_get_mut_ok w m l k v : sl_rel w m l ->
    exists m', slist_get_mut m k v = Ok (m', nth_error l k) /\ sl_rel w m' (set_nth k v l).
  Proof.
    intros R. apply sl_rel_at in R as (X & A & <-). destruct (slist_get_mut_at w m X k v A) as (m' & X' & E & A' & _ & D).
    exists m'. split; [exact E|]. rewrite <- D. now apply sl_at_rel.
  Qed.

  (** ** Traversals at level 0. *)
  Fixpoint lchain g X : Prop :=
    match X with [] => True | x :: X' => fst (g (ad x) 0) = option_map ad (hd_error X') /\ lchain g X' end.
  Lemma first_0 e X : fst (first 0 e X) = option_map ad (hd_error X).
  Proof. destruct X; auto. Qed.
  Lemma links_chain g e a X : links_ok g 0 e a X -> lchain g X.
  Proof.
    intros [_ L]. induction X as [|x X IH]; cbn [lchain]; auto. cbn [tall_ok] in L. destruct L as [L1 L].
    split; auto. rewrite L1 by lia. rewrite app_nil_r. apply first_0.
  Qed.
  Lemma lchain_frame f g X : (forall a, In a (map ad X) -> f a 0 = g a 0) -> lchain g X -> lchain f X.
  Proof.
    induction X as [|x X IH]; cbn [lchain]; auto. intros E [S1 S2]. split.
    - rewrite E; auto. now left.
    - apply IH; auto. intros. apply E. now right.
  Qed.
  Lemma lchain_zeroed h X g : srep h X g -> lchain g X -> lchain (fun b j => if b =? 0 then null_link else g b j) X.
  Proof.
    intros Rp. apply lchain_frame. intros a Ha. rewrite (proj2 (Nat.eqb_neq _ _)); auto. intros ->.
    pose proof (sr_nodup _ _ _ Rp) as Nd. now inversion Nd.
  Qed.
  Lemma lhead h X g e : sl_ok h X g e -> get_link h 0 0 = Ok (g 0 0) /\ fst (g 0 0) = option_map ad (hd_error X).
  Proof.
    intros (Rp & _ & HL). split; [apply (get_link_ok _ _ _ _ _ Rp); left; lia|].
    rewrite (proj1 (HL 0 ltac:(lia))). apply first_0.
  Qed.
  Lemma sl_chain h X g e : sl_ok h X g e -> lchain g X.
  Proof. intros (_ & _ & HL). eapply links_chain, (HL 0). lia. Qed.

  Lemma liter_from_ok h All g X : srep h All g -> forall fuel, incl X All -> length X <= fuel -> lchain g X ->
    liter_from fuel h (option_map ad (hd_error X)) = Ok (map dt X).
  Proof.
    intros Rp. induction X as [|x X IH]; intros fuel I Hf S1; cbn [hd_error option_map map].
    - now destruct fuel.
    - destruct fuel as [|fuel]; [simpl in Hf; lia|]. cbn [liter_from lchain] in *. destruct S1 as [S0 S1].
      assert (Hx : In x All) by (apply I; now left).
      rewrite (get_data_ok _ _ _ x Rp Hx). cbn [bind].
      rewrite (get_link_ok _ _ _ (ad x) 0 Rp) by (right; exists x; repeat split; auto; lia). cbn [bind].
      rewrite S0, IH; auto; [intros y Hy; apply I; now right|simpl in Hf; lia].
  Qed.
  Lemma slist_iter_ok w m l : sl_rel w m l -> slist_iter m = Ok l.
  Proof.
    intros (X & g & e & HO & El & Ln & He). subst l. unfold slist_iter. destruct (lhead _ _ _ _ HO) as [-> E]. cbn [bind].
    rewrite E. pose proof (srep_length _ _ _ (proj1 HO)).
    apply (liter_from_ok _ X g X (proj1 HO)); [apply incl_refl|lia|eapply sl_chain; eauto].
  Qed.

  Definition written (l vs : list T) := firstn (length l) vs ++ skipn (length vs) l.
  Lemma litermut_from_ok X : forall h P g vs, srep h (P ++ X) g -> lchain g X ->
    exists h' X', litermut_from h (option_map ad (hd_error X)) vs = Ok (h', firstn (length vs) (map dt X))
      /\ srep h' (P ++ X') g /\ map ishape X' = map ishape X /\ map dt X' = written (map dt X) vs.
  Proof.
    induction X as [|x X IH]; intros h P g vs Rp S1; cbn [hd_error option_map map].
    - exists h, []. destruct vs; auto.
    - destruct vs as [|v vs].
      + exists h, (x :: X). cbn [litermut_from length firstn]. split; auto.
      + cbn [litermut_from length firstn]. cbn [lchain] in S1. destruct S1 as [S0 S1].
        assert (Hx : In x (P ++ x :: X)) by (apply in_app_iff; right; now left).
        rewrite (get_data_ok _ _ _ x Rp Hx). cbn [bind].
        rewrite (get_link_ok _ _ _ (ad x) 0 Rp) by (right; exists x; repeat split; auto; lia). cbn [bind].
        rewrite S0.
        destruct (set_data_ok _ _ _ _ _ v Rp) as (h1 & E1 & R1 & _). rewrite E1. cbn [bind].
        set (x1 := It (ad x) (ht x) v) in *.
        replace (P ++ x1 :: X) with ((P ++ [x1]) ++ X) in R1 by (now rewrite <- app_assoc).
        destruct (IH _ _ _ vs R1 S1) as (h2 & X' & E2 & R2 & Sh & D2). rewrite E2. cbn [bind].
        exists h2, (x1 :: X'). split; [reflexivity|]. split; [now rewrite <- app_assoc in R2|].
        cbn [map]. rewrite Sh, D2. split; [reflexivity|]. unfold written. cbn [x1 dt]. reflexivity.
  Qed.
  Lemma slist_iter_mut_at w m X vs : sl_at w m X ->
    exists m' X', slist_iter_mut m vs = Ok (m', firstn (length vs) (map dt X)) /\ sl_at w m' X' /\ map ishape X' = map ishape X
      /\ map dt X' = written (map dt X) vs.
  Proof.
    intros (g & e & HO & Ln & He). unfold slist_iter_mut. destruct (lhead _ _ _ _ HO) as [-> E]. cbn [bind].
    rewrite E. pose proof (sl_chain _ _ _ _ HO) as Ch. destruct HO as (Rp & E0 & HL).
    destruct (litermut_from_ok X (sl_heap m) [] g vs Rp Ch) as (h' & X' & E' & R' & Sh & D').
    rewrite E'. cbn [bind]. eexists. exists X'. split; [reflexivity|]. split; [|auto]. exists g, e. cbn [sl_heap sl_len].
    split; [split; [exact R'|split; auto]|split; [|auto]].
    - intros i Hi. eapply links_shape; [|apply (HL i Hi)]. exact (eq_sym Sh).
    - rewrite Ln. now rewrite <- (map_length ishape X'), Sh, map_length.
  Qed.
  Lemma slist_iter_mut_ok w m l vs : sl_rel w m l ->
    exists m', slist_iter_mut m vs = Ok (m', firstn (length vs) l) /\ sl_rel w m' (written l vs).
  Proof.
    intros R. apply sl_rel_at in R as (X & A & <-). destruct (slist_iter_mut_at w m X vs A) as (m' & X' & E & A' & _ & D).
    exists m'. split; [exact E|]. rewrite <- D. now apply sl_at_rel.
  Qed.

  Lemma lfree_from_ok X : forall h g fuel, nodes h X g -> lchain g X -> length X <= fuel ->
    exists h', lfree_from fuel h (option_map ad (hd_error X)) = Ok (h', map dt X) /\ freed h (map ad X) h'.
  Proof.
    induction X as [|x X IH]; intros h g fuel Nn Ch Hf; cbn [hd_error option_map].
    - exists h. split; [now destruct fuel|]. split; auto.
    - destruct fuel as [|fuel]; [simpl in Hf; lia|]. cbn [lchain] in Ch. destruct Ch as [S1 Ch].
      destruct (nodes_head _ _ _ _ Nn) as (E1 & E2 & _ & E3 & N'). cbn [lfree_from]. rewrite E2. cbn [bind].
      rewrite E1. cbn [bind]. rewrite E3. cbn [bind]. rewrite S1.
      destruct (IH _ g fuel N' Ch) as (h' & E & F); [simpl in Hf; lia|]. rewrite E. cbn [bind map].
      exists h'. split; [reflexivity|]. eapply freed_step; eauto.
  Qed.
  Lemma linto_iter_drop_ok X : forall h g fuel, nodes h X g -> lchain g X -> length X <= fuel ->
    exists h', linto_iter_drop fuel h (option_map ad (hd_error X)) = Ok (h', flat_map (fun x => [dt x; dt x]) X) /\ freed h (map ad X) h'.
  Proof.
    induction X as [|x X IH]; intros h g fuel Nn Ch Hf; cbn [hd_error option_map].
    - exists h. split; [now destruct fuel|]. split; auto.
    - destruct fuel as [|fuel]; [simpl in Hf; lia|]. cbn [lchain] in Ch. destruct Ch as [S1 Ch].
      destruct (nodes_head _ _ _ _ Nn) as (E1 & E2 & _ & E3 & N'). cbn [linto_iter_drop]. rewrite E1. cbn [bind].
      rewrite E2. cbn [bind]. rewrite E3. cbn [bind]. rewrite S1.
      destruct (IH _ g fuel N' Ch) as (h' & E & F); [simpl in Hf; lia|]. rewrite E. cbn [bind map flat_map app].
      exists h'. split; [reflexivity|]. eapply freed_step; eauto.
  Qed.
  Lemma linto_iter_take_ok X : forall (n : nat) h g, nodes h X g -> lchain g X ->
    exists h', linto_iter_take n h (option_map ad (hd_error X)) = Ok (h', option_map ad (hd_error (skipn n X)), firstn n (map dt X))
      /\ freed h (map ad (firstn n X)) h' /\ nodes h' (skipn n X) g /\ lchain g (skipn n X).
  Proof.
    induction X as [|x X IH]; intros n h g Nn Ch.
    - exists h. rewrite skipn_nil, !firstn_nil. split; [now destruct n|]. split; [split; auto|auto].
    - destruct n as [|n]; [exists h; split; [reflexivity|split; [split; auto|auto]]|].
      cbn [linto_iter_take hd_error option_map skipn firstn map]. cbn [lchain] in Ch. destruct Ch as [S1 Ch].
      destruct (nodes_head _ _ _ _ Nn) as (E1 & E2 & _ & E3 & N'). rewrite E1. cbn [bind].
      rewrite E2. cbn [bind]. rewrite E3. cbn [bind]. rewrite S1.
      destruct (IH n _ g N' Ch) as (h' & E & F & Nn' & Sn). rewrite E. cbn [bind].
      exists h'. split; [reflexivity|]. split; [|auto]. apply (freed_step h h' x (firstn n X) g); auto.
      destruct Nn as [Nd Nx]. split.
      + cbn [map] in *. inversion Nd as [|? ? N1 N2]; subst. rewrite <- (firstn_skipn n X), map_app in N1, N2.
        constructor; [intros I; apply N1, in_app_iff; auto|]. now apply NoDup_left in N2.
      + intros y [<-|Hy]; apply Nx; [now left|right]. rewrite <- (firstn_skipn n X). apply in_app_iff. auto.
  Qed.

  Lemma slist_clear_ok w m l : sl_rel w m l -> exists m', slist_clear m = Ok (m', l) /\ sl_rel false m' [].
  Proof.
    intros (X & g & e & HO & El & Ln & He). subst l. unfold slist_clear. destruct (lhead _ _ _ _ HO) as [-> E]. cbn [bind].
    rewrite E. pose proof (sl_chain _ _ _ _ HO) as Ch. destruct HO as (Rp & _ & _). pose proof (srep_length _ _ _ Rp) as Hl.
    destruct (lfree_from_ok X _ g (length (sl_heap m)) (srep_nodes _ _ _ Rp) Ch ltac:(lia)) as (h1 & E1 & L1 & F1).
    rewrite E1. cbn [bind].
    assert (R1 : srep h1 [] g).
    { assert (N0 : ~ In 0 (map ad X)) by (pose proof (sr_nodup _ _ _ Rp) as Nd; now inversion Nd).
      split; try (intros x []; fail).
      - rewrite F1. destruct (in_dec _ _ _); [contradiction|]. apply Rp.
      - constructor; [intros []|constructor].
      - intros a n Q. rewrite F1 in Q. destruct (in_dec _ _ _); [discriminate|].
        apply (sr_dead _ _ _ Rp) in Q as [Q|Q]; [now left|contradiction]. }
    destruct (zero_links_ok _ _ _ null_link R1) as (h2 & E2 & R2 & _). rewrite E2. cbn [bind].
    eexists. split; [reflexivity|]. eexists [], _, (fun _ => 0). split; [split; [exact R2|]|auto].
    split; auto. intros i _. split; [reflexivity|exact I].
  Qed.

  Lemma slist_drop_ok w m l : sl_rel w m l -> exists h', slist_drop m = Ok (h', l) /\ live_nodes h' = 0.
  Proof.
    intros (X & g & e & HO & El & Ln & He). subst l. unfold slist_drop, ldrop. destruct (lhead _ _ _ _ HO) as [-> E]. cbn [bind].
    pose proof (sl_chain _ _ _ _ HO) as Ch. destruct HO as (Rp & _ & _). pose proof (srep_length _ _ _ Rp) as Hl.
    destruct (dealloc_head _ _ _ Rp) as (E1 & N1 & A1). rewrite E1. cbn [bind]. rewrite list_set_length, E.
    destruct (lfree_from_ok X _ g (length (sl_heap m)) N1 Ch ltac:(lia)) as (h1 & E2 & F).
    rewrite E2. eexists. split; [reflexivity|]. eapply freed_all; eauto.
  Qed.

  (** A list whose head has been zeroed is dropped: only the head is freed. *)
  Lemma ldrop_zeroed h X g : srep h X g -> fst (g 0 0) = None -> ldrop h 0 = Ok (list_set h 0 None, []).
  Proof.
    intros Rp E. unfold ldrop. rewrite (get_link_ok _ _ _ 0 0 Rp) by (left; lia). cbn [bind].
    rewrite (proj1 (dealloc_head _ _ _ Rp)). cbn [bind]. rewrite E. now destruct (length _).
  Qed.

  Lemma slist_into_iter_ok w m l (n : nat) : sl_rel w m l ->
    exists h', slist_into_iter m n = Ok (h', firstn n l, flat_map (fun p => [p; p]) (skipn n l)) /\ live_nodes h' = 0.
  Proof.
    intros (X & g & e & HO & El & Ln & He). subst l. unfold slist_into_iter, linto_iter_new.
    destruct (lhead _ _ _ _ HO) as [-> E]. cbn [bind].
    pose proof (sl_chain _ _ _ _ HO) as Ch. destruct HO as (Rp & _ & _). pose proof (srep_length _ _ _ Rp) as Hl.
    destruct (zero_links_ok _ _ _ null_link Rp) as (h1 & E1 & R1 & L1). rewrite E1. cbn [bind].
    set (g1 := fun b j => if b =? 0 then null_link else g b j) in *.
    rewrite (ldrop_zeroed _ _ _ R1) by reflexivity. cbn [bind].
    destruct (dealloc_head _ _ _ R1) as (_ & N1 & A1).
    assert (C1 : lchain g1 X) by (apply (lchain_zeroed (sl_heap m)); auto).
    rewrite E. destruct (linto_iter_take_ok X n _ g1 N1 C1) as (h2 & E2 & F2 & N2 & C2). rewrite E2. cbn [bind].
    destruct (linto_iter_drop_ok (skipn n X) h2 g1 (length h2) N2 C2) as (h3 & E3 & F3).
    { rewrite (proj1 F2), list_set_length, L1, skipn_length. lia. }
    rewrite E3. cbn [bind]. exists h3. split.
    - rewrite skipn_map. do 2 f_equal. generalize (skipn n X). intros Z. induction Z; simpl; congruence.
    - apply live_none. intros a nd Q. destruct F2 as [_ F2], F3 as [_ F3]. rewrite F3 in Q.
      destruct (in_dec _ _ _) as [I|I]; [discriminate|]. rewrite F2 in Q.
      destruct (in_dec _ _ _) as [J|J]; [discriminate|]. apply A1 in Q.
      rewrite <- (firstn_skipn n X), map_app, in_app_iff in Q. tauto.
  Qed.

  Lemma sl_rel_len w m l : sl_rel w m l -> sl_len m = length l.
  Proof. intros (X & g & e & HO & El & Ln & He). auto. Qed.
  Lemma sl_rel_heap w m l : sl_rel w m l -> length l < length (sl_heap m).
  Proof.
    intros (X & g & e & HO & El & Ln & He). subst l. rewrite map_length. exact (srep_length _ _ _ (proj1 HO)).
  Qed.
  Lemma sl_rel_live w m l : sl_rel w m l -> live_nodes (sl_heap m) = S (length l).
  Proof.
    intros (X & g & e & HO & El & Ln & He). subst l. rewrite map_length. exact (srep_live _ _ _ (proj1 HO)).
  Qed.
  Lemma sl_rel_weaken w w' m l : sl_rel w m l -> (w' = false -> w = false) -> sl_rel w' m l.
  Proof. intros (X & g & e & HO & El & Ln & He) Q. exists X, g, e. split; [exact HO|split; [auto|split; auto]]. Qed.
End SkipListProofs.
