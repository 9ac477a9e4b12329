(** SkipMap refines the ordered-map specification. *)
From Coq Require Import Permutation.
From Verif Require Export SkipMapModel SkipHeapProofs OrdLemmas SetAlgLemmas BstProofs.

Section SkipMapProofs.
  Context {K V : Type} `{CmpLaws K}.
  Notation hp := (heap (K * V) (option nat)).
  Notation item := (sitem (K * V)).
  Notation links := (nat -> nat -> option nat).
  Implicit Types (h : hp) (X Y A B Lo M R Hi All : list item) (x y : item) (f g : links) (k : K) (go : K -> bool).

  Definition key x : K := fst (dt x).

  Lemma walk_ok h All g i go A R : srep h All g -> incl (A ++ R) All ->
    (forall x, In x A -> go (key x) = true) -> (forall x, In x R -> go (key x) = false) ->
    forall fuel c, length A < fuel -> onlevel All c i -> seg g i c (A ++ R) None ->
    walk fuel h c i go = Ok (last_at i c A, first_or i R None).
  Proof.
    intros Rp. induction A as [|x A IH]; intros I GA GR fuel c Hf Hc S.
    - destruct fuel as [|fuel]; [simpl in Hf; lia|]. cbn [walk app last_at] in *.
      rewrite (get_link_ok _ _ _ _ _ Rp Hc). cbn [bind]. rewrite (seg_first _ _ _ _ _ S).
      destruct (first_or_in i R None) as [->|(y & Hy & -> & _)]; auto.
      rewrite (get_data_ok _ _ _ y Rp) by (apply I; auto). cbn [bind]. fold (key y). now rewrite GR.
    - cbn [app seg last_at] in *. destruct (Nat.leb_spec i (ht x)) as [Hi|Hi].
      + destruct S as [E S]. destruct fuel as [|fuel]; [simpl in Hf; lia|]. cbn [walk].
        rewrite (get_link_ok _ _ _ _ _ Rp Hc), E. cbn [bind].
        assert (Hx : In x All) by (apply I; now left).
        rewrite (get_data_ok _ _ _ x Rp Hx). cbn [bind]. fold (key x). rewrite GA by now left.
        apply IH; auto; [intros y Hy; apply I; now right|intros; apply GA; now right|simpl in Hf; lia|].
        right. exists x. auto.
      + apply IH; auto; [intros y Hy; apply I; now right|intros; apply GA; now right|simpl in Hf; lia].
  Qed.

  (** One level of a search: [Lo] is the part to walk over. *)
  Lemma walk_level h All g i go Lo R : srep h All g -> incl (Lo ++ R) All -> length (Lo ++ R) <= length All -> i <= 32 ->
    (forall x, In x Lo -> go (key x) = true) -> (forall x, In x R -> go (key x) = false) ->
    seg g i 0 (Lo ++ R) None ->
    walk_all h (last_at (S i) 0 Lo) i go = Ok (last_at i 0 Lo, first_or i R None).
  Proof.
    intros Rp I Ln Hi GL GR S. destruct (seg_from_above _ _ _ _ S) as (A & B & -> & SB & E).
    rewrite <- E. unfold walk_all. pose proof (srep_length _ _ _ Rp). rewrite !app_length in Ln.
    apply (walk_ok _ All g); auto.
    - intros x Hx. apply I. rewrite <- app_assoc. apply in_app_iff. now right.
    - intros x Hx. apply GL. apply in_app_iff. now right.
    - lia.
    - destruct (last_at_in (Datatypes.S i) (A ++ B) 0) as [->|(x & Hx & -> & Q)]; [now left|].
      right. exists x. repeat split; auto; [|lia]. apply I, in_app_iff. now left.
  Qed.

  (** ** Changing one level. *)
  Lemma disj_last i Lo Y (P : NoDup (0 :: map ad (Lo ++ Y))) b : In b (map ad Y) -> b <> last_at i 0 Lo.
  Proof.
    rewrite map_app in P. inversion P as [|? ? N0 N1]; subst. intros Hb E.
    destruct (last_at_in i Lo 0) as [Q|(x & Hx & Q & _)]; rewrite Q in E; subst b.
    - apply N0, in_app_iff. now right.
    - apply in_split in Hb as (l1 & l2 & W). rewrite W in N1.
      assert (In (ad x) (map ad Lo)) by now apply in_map.
      rewrite app_assoc in N1. apply NoDup_remove_2 in N1. apply N1. rewrite !in_app_iff. auto.
  Qed.
  Lemma nodup_head Lo Y : NoDup (0 :: map ad (Lo ++ Y)) -> NoDup (0 :: map ad Lo).
  Proof.
    rewrite map_app. intros P. inversion P as [|? ? N0 N1]; subst. constructor.
    - intros I. apply N0, in_app_iff. now left.
    - clear -N1. induction (map ad Lo) as [|a l IH]; [constructor|]. inversion N1 as [|? ? N2 N3]; subst. constructor; auto.
      intros I. apply N2, in_app_iff. now left.
  Qed.

  Lemma seg_tail g i Lo R : seg g i 0 (Lo ++ R) None -> seg g i (last_at i 0 Lo) R None.
  Proof. intros S. now apply seg_app in S. Qed.

  (** Unlinking the middle item at level [i]. *)
  Lemma seg_unlink g i Lo x Hi : NoDup (0 :: map ad (Lo ++ x :: Hi)) -> i <= ht x ->
    seg g i 0 (Lo ++ x :: Hi) None -> seg (upd g (last_at i 0 Lo) i (g (ad x) i)) i 0 (Lo ++ Hi) None.
  Proof.
    intros Nd Hx S. eapply seg_splice; [now apply nodup_head in Nd| |exact S|].
    - intros b Nb _. apply upd_other. auto.
    - apply seg_tail in S. cbn [seg] in S. rewrite (proj2 (Nat.leb_le _ _) Hx) in S. destruct S as [_ S].
      assert (D : forall b, In b (map ad (x :: Hi)) -> b <> last_at i 0 Lo) by now apply disj_last.
      set (c := last_at i 0 Lo) in *. clearbody c.
      assert (E : forall b, In b (map ad Hi) -> upd g c i (g (ad x) i) b i = g b i).
      { intros b Hb. apply upd_other. left. apply D. now right. }
        assert (G : forall (l : list item) a, (forall b, In b (map ad l) -> upd g c i (g (ad x) i) b i = g b i) ->
                   g a i = g (ad x) i -> seg g i a l None -> seg (upd g c i (g (ad x) i)) i c l None).
        { induction l as [|z l IH]; intros a E0 Ea Sl; cbn [seg] in *.
          - rewrite upd_same. congruence.
          - destruct (i <=? ht z).
            + destruct Sl as [S1 S2]. split; [rewrite upd_same; congruence|].
              eapply seg_frame; [|exact S2]. intros b [->|Hb]; apply E0; [now left|now right].
            + eapply IH; eauto. intros b Hb. apply E0. now right. }
        apply (G Hi (ad x)); auto.
  Qed.

  (** Linking a new item at level [i]. *)
  Lemma seg_link g i Lo n Hi : NoDup (0 :: map ad (Lo ++ n :: Hi)) -> i <= ht n -> 
    seg g i 0 (Lo ++ Hi) None ->
    let c := last_at i 0 Lo in
    seg (upd (upd g c i (Some (ad n))) (ad n) i (g c i)) i 0 (Lo ++ n :: Hi) None.
  Proof.
    intros Nd Hn S c.
    assert (D : forall b, In b (map ad (n :: Hi)) -> b <> c) by (subst c; now apply disj_last).
    assert (DH : ~ In (ad n) (map ad Hi)).
    { rewrite map_app in Nd. inversion Nd as [|? ? _ N1]; subst. cbn [map] in N1. apply NoDup_remove_2 in N1.
      intros I. apply N1, in_app_iff. now right. }
    assert (DL : ~ In (ad n) (0 :: map ad Lo)).
    { rewrite map_app in Nd. intros I. inversion Nd as [|? ? N0 N1]; subst. cbn [map] in *. destruct I as [I|I].
      - apply N0, in_app_iff. right. rewrite I. now left.
      - apply NoDup_remove_2 in N1. apply N1, in_app_iff. now left. }
    eapply seg_splice; [now apply nodup_head in Nd| |exact S|].
    - intros b Nb Hb. fold c in Nb. rewrite !upd_other; auto.
      left. intros ->. apply DL. destruct Hb as [<-|Hb]; [now left|now right].
    - fold c. cbn [seg]. rewrite (proj2 (Nat.leb_le _ _) Hn). split.
      + rewrite upd_other, upd_same; auto. left. intros Q. apply (D (ad n)); [now left|auto].
      + apply seg_tail in S. fold c in S.
        assert (G : forall (l : list item) a, ~ In (ad n) (map ad l) -> ~ In c (map ad l) -> g a i = g c i -> seg g i a l None ->
                    seg (upd (upd g c i (Some (ad n))) (ad n) i (g c i)) i (ad n) l None).
        { induction l as [|z l IH]; intros a E0 E1 Ea Sl; cbn [seg] in *.
          - rewrite upd_same. congruence.
          - destruct (i <=? ht z).
            + destruct Sl as [S1 S2]. split; [rewrite upd_same; congruence|].
              eapply seg_frame; [|exact S2]. intros b Hb. rewrite !upd_other; auto; left; intros Q; rewrite Q in Hb; simpl in *; intuition congruence.
            + simpl in *. eapply IH; eauto. }
        apply (G Hi c); auto. intros I. apply (D c); auto. now right.
  Qed.

  Lemma unlink_ok h E Lo M Hi g i k : srep h (E ++ Lo ++ M ++ Hi) g -> i <= 32 ->
    (M = [] \/ exists e, M = [e] /\ cmp (key e) k = Eq) -> (forall y, In y Hi -> cmp (key y) k = Gt) ->
    seg g i 0 (Lo ++ M ++ Hi) None ->
    exists h' g', unlink h (last_at i 0 Lo) i (first_or i (M ++ Hi) None) k
                  = Ok (h', if i =? 0 then hd_error (map dt M) else None)
      /\ srep h' (E ++ Lo ++ (if i =? 0 then [] else M) ++ Hi) g'
      /\ seg g' i 0 (Lo ++ Hi) None /\ (forall a j, j <> i -> g' a j = g a j).
  Proof.
    intros Rp Hi32 HM HH S.
    assert (Skip : (forall x, In x M -> ht x < i) -> (i =? 0) = false \/ M = [] ->
       exists h' g', unlink h (last_at i 0 Lo) i (first_or i (M ++ Hi) None) k
                  = Ok (h', if i =? 0 then hd_error (map dt M) else None)
      /\ srep h' (E ++ Lo ++ (if i =? 0 then [] else M) ++ Hi) g'
      /\ seg g' i 0 (Lo ++ Hi) None /\ (forall a j, j <> i -> g' a j = g a j)).
    { intros Low Z. exists h, g. apply seg_skip in S; auto.
      assert (EF : first_or i (M ++ Hi) None = first_or i Hi None).
      { rewrite first_or_app. destruct (first_or_in i M (first_or i Hi None)) as [->|(x & Hx & _ & Q)]; auto.
        apply Low in Hx. lia. }
      rewrite EF.
      assert (EM : (if i =? 0 then [] else M) = M) by (destruct Z as [->| ->]; auto; now destruct (i =? 0)).
      assert (EO : (if i =? 0 then hd_error (map dt M) else None) = None) by (destruct Z as [->| ->]; auto; now destruct (i =? 0)).
      rewrite EM, EO. split; [|auto].
      destruct (first_or_in i Hi None) as [->|(y & Hy & -> & _)]; [reflexivity|].
      unfold unlink. rewrite (get_data_ok _ _ _ y Rp) by (rewrite !in_app_iff; auto). cbn [bind]. fold (key y).
      rewrite HH; auto. }
    destruct HM as [->|(e & -> & Ce)].
    { apply Skip; auto. intros x []. }
    destruct (Nat.leb_spec i (ht e)) as [He|He].
    2:{ apply Skip. intros x [<-|[]]. auto. left. apply Nat.eqb_neq. lia. }
    clear Skip. cbn [app] in *. cbn [first_or]. rewrite (proj2 (Nat.leb_le _ _) He).
    assert (Ie : In e (E ++ Lo ++ e :: Hi)) by (rewrite !in_app_iff; simpl; auto).
    unfold unlink. rewrite (get_data_ok _ _ _ e Rp Ie). cbn [bind]. fold (key e). rewrite Ce. cbn [is_eq].
    rewrite (get_link_ok _ _ _ (ad e) i Rp) by (right; exists e; auto). cbn [bind].
    destruct (set_link_ok h _ g (last_at i 0 Lo) i (g (ad e) i) Rp) as (h' & E' & R' & L').
    { apply last_at_onlevel; auto. intros x Hx. rewrite !in_app_iff. auto. }
    rewrite E'. cbn [bind].
    assert (Nd : NoDup (0 :: map ad (Lo ++ e :: Hi))).
    { pose proof (sr_nodup _ _ _ Rp) as Nd. rewrite map_app in Nd. inversion Nd as [|? ? N0 N1]; subst.
      constructor; [intros I; apply N0, in_app_iff; auto|]. clear -N1. induction (map ad E) as [|a l IH]; auto.
      inversion N1; auto. }
    pose proof (seg_unlink g i Lo e Hi Nd He S) as S'.
    destruct i as [|i].
    - cbn [Nat.eqb]. eapply srep_equiv in R'.
      2:{ rewrite app_assoc. apply Permutation_sym, Permutation_middle. }
      destruct (dealloc_ok _ _ _ _ R') as (h2 & E2 & R2 & L2). rewrite E2. cbn [bind].
      exists h2, (upd g (last_at 0 0 Lo) 0 (g (ad e) 0)). split; [reflexivity|].
      rewrite <- app_assoc in R2. split; [exact R2|]. split; auto. intros. apply upd_other. auto.
    - cbn [Nat.eqb]. eexists h', _. split; [reflexivity|]. split; [exact R'|]. split; [exact S'|].
      intros. apply upd_other. auto.
  Qed.

  Lemma seg_level f g i Lo : (forall a, f a i = g a i) -> forall a e, seg g i a Lo e -> seg f i a Lo e.
  Proof. intros E a e. apply seg_frame. auto. Qed.

  Definition lt_all k Lo := forall x, In x Lo -> is_lt (cmp (key x) k) = true.
  Definition eq_opt k M := M = [] \/ exists e, M = [e] /\ cmp (key e) k = Eq.
  Definition gt_all k Hi := forall y, In y Hi -> cmp (key y) k = Gt.

  Lemma not_lt_rest k M Hi : eq_opt k M -> gt_all k Hi -> forall x, In x (M ++ Hi) -> is_lt (cmp (key x) k) = false.
  Proof.
    intros HM HH x Hx. apply in_app_iff in Hx as [Hx|Hx].
    - destruct HM as [->|(e & -> & E)]; [destruct Hx|]. destruct Hx as [<-|[]]. now rewrite E.
    - now rewrite HH.
  Qed.

  (** One level of insert *)
  Lemma insert_level_ok (n : item) Lo M Hi k i h g : lt_all k Lo -> eq_opt k M -> gt_all k Hi ->
    i <= 32 -> srep h (n :: Lo ++ M ++ Hi) g ->
    (forall j, i < j <= 32 -> seg g j 0 (Lo ++ n :: Hi) None) ->
    (forall j, j <= i -> seg g j 0 (Lo ++ M ++ Hi) None) ->
    exists h1 h' g', walk_all h (last_at (S i) 0 Lo) i (fun z => is_lt (cmp z k)) = Ok (last_at i 0 Lo, first_or i (M ++ Hi) None)
      /\ unlink h (last_at i 0 Lo) i (first_or i (M ++ Hi) None) k = Ok (h1, if i =? 0 then hd_error (map dt M) else None)
      /\ (if i <=? ht n then
            let* p := get_link h1 (last_at i 0 Lo) i in
            let* h := set_link h1 (last_at i 0 Lo) i (Some (ad n)) in
            set_link h (ad n) i p
          else Ok h1) = Ok h'
      /\ srep h' (n :: Lo ++ (if i =? 0 then [] else M) ++ Hi) g'
      /\ (forall j, i <= j <= 32 -> seg g' j 0 (Lo ++ n :: Hi) None)
      /\ (forall j, j < i -> seg g' j 0 (Lo ++ M ++ Hi) None).
  Proof.
    intros HL HM HH Hi32 Rp HA HB.
      assert (W : walk_all h (last_at (S i) 0 Lo) i (fun z => is_lt (cmp z k))
                  = Ok (last_at i 0 Lo, first_or i (M ++ Hi) None)).
      { apply (walk_level h (n :: Lo ++ M ++ Hi) g); auto.
        - intros x Hx. now right.
        - cbn [length]. lia.
        - now apply not_lt_rest. }
      destruct (unlink_ok h [n] Lo M Hi g i k Rp Hi32 HM HH (HB i (Nat.le_refl i))) as (h1 & g1 & E1 & R1 & S1 & F1).
      cbn [app] in R1. set (M' := if i =? 0 then [] else M) in *.
      assert (B1 : forall j, j < i -> seg g1 j 0 (Lo ++ M ++ Hi) None).
      { intros j Hj. eapply seg_level; [|apply HB; lia]. intros a. apply F1. lia. }
      assert (A1 : forall j, i < j <= 32 -> seg g1 j 0 (Lo ++ n :: Hi) None).
      { intros j Hj. eapply seg_level; [|apply HA; lia]. intros a. apply F1. lia. }
      assert (L1 : exists h2 g2,
        (if i <=? ht n then
           let* p := get_link h1 (last_at i 0 Lo) i in
           let* h := set_link h1 (last_at i 0 Lo) i (Some (ad n)) in
           set_link h (ad n) i p
         else Ok h1) = Ok h2 /\ srep h2 (n :: Lo ++ M' ++ Hi) g2 /\ seg g2 i 0 (Lo ++ n :: Hi) None
         /\ forall a j, j <> i -> g2 a j = g1 a j).
      { destruct (Nat.leb_spec i (ht n)) as [Hn|Hn].
        - assert (OV : onlevel (n :: Lo ++ M' ++ Hi) (last_at i 0 Lo) i).
          { apply last_at_onlevel; auto. intros x Hx. right. apply in_app_iff. auto. }
          rewrite (get_link_ok _ _ _ _ _ R1 OV). cbn [bind].
          destruct (set_link_ok _ _ _ _ _ (Some (ad n)) R1 OV) as (h2 & E2 & R2 & _). rewrite E2. cbn [bind].
          destruct (set_link_ok _ _ _ (ad n) i (g1 (last_at i 0 Lo) i) R2) as (h3 & E3 & R3 & _).
          { right. exists n. repeat split; auto. now left. }
          rewrite E3. eexists h3, _. split; [reflexivity|]. split; [exact R3|]. split.
          + apply seg_link; auto. pose proof (sr_nodup _ _ _ R1) as Nd.
            cbn [map] in Nd. rewrite !map_app in Nd. apply (NoDup_mid (0 :: ad n :: map ad Lo)) in Nd.
            eapply Permutation_NoDup; [|exact Nd]. cbn [app]. rewrite <- map_app.
            apply perm_skip. apply (Permutation_map ad (l := n :: Lo ++ Hi)), Permutation_middle.
          + intros. now rewrite !upd_other by auto.
        - exists h1, g1. split; [reflexivity|]. split; [exact R1|]. split; [|auto]. apply (seg_skip g1 i Lo [n] Hi None); auto.
          intros x [<-|[]]. auto. }
      destruct L1 as (h2 & g2 & E2 & R2 & S2 & F2). exists h1, h2, g2. split; [exact W|]. split; [exact E1|]. split; [exact E2|]. split; [exact R2|]. split.
      - intros j Hj. destruct (Nat.eq_dec j i) as [->|Nj]; auto.
        eapply seg_level; [|apply A1; lia]. intros a. now apply F2.
      - intros j Hj. eapply seg_level; [|apply B1; lia]. intros a. apply F2. lia.
  Qed.
  Lemma insert_loop_ok (n : item) Lo M Hi k : lt_all k Lo -> eq_opt k M -> gt_all k Hi ->
    forall i h g, i <= 32 -> srep h (n :: Lo ++ M ++ Hi) g ->
    (forall j, i < j <= 32 -> seg g j 0 (Lo ++ n :: Hi) None) ->
    (forall j, j <= i -> seg g j 0 (Lo ++ M ++ Hi) None) ->
    exists h' g', insert_loop i h (last_at (S i) 0 Lo) (ad n) (ht n) k = Ok (h', hd_error (map dt M))
      /\ srep h' (n :: Lo ++ Hi) g' /\ (forall j, j <= 32 -> seg g' j 0 (Lo ++ n :: Hi) None).
  Proof.
    intros HL HM HH.
    induction i as [|i IH]; intros h g Hi32 Rp HA HB;
      destruct (insert_level_ok n Lo M Hi k _ h g HL HM HH Hi32 Rp HA HB) as (h1 & h' & g' & W & E1 & E2 & R' & SA & SB);
      cbn [insert_loop]; rewrite W; cbn [bind]; rewrite E1; cbn [bind]; rewrite E2; cbn [bind]; cbn [Nat.eqb] in *.
    - exists h', g'. split; [reflexivity|]. split; [exact R'|]. intros j Hj. apply SA. lia.
    - apply (IH h' g'); [lia|exact R'|intros; apply SA; lia|intros; apply SB; lia].
  Qed.

  (** One level of remove *)
  Lemma remove_level_ok Lo M Hi k i h g : lt_all k Lo -> eq_opt k M -> gt_all k Hi ->
    i <= 32 -> srep h (Lo ++ M ++ Hi) g ->
    (forall j, i < j <= 32 -> seg g j 0 (Lo ++ Hi) None) ->
    (forall j, j <= i -> seg g j 0 (Lo ++ M ++ Hi) None) ->
    exists h' g', walk_all h (last_at (S i) 0 Lo) i (fun z => is_lt (cmp z k)) = Ok (last_at i 0 Lo, first_or i (M ++ Hi) None)
      /\ unlink h (last_at i 0 Lo) i (first_or i (M ++ Hi) None) k = Ok (h', if i =? 0 then hd_error (map dt M) else None)
      /\ srep h' (Lo ++ (if i =? 0 then [] else M) ++ Hi) g'
      /\ (forall j, i <= j <= 32 -> seg g' j 0 (Lo ++ Hi) None)
      /\ (forall j, j < i -> seg g' j 0 (Lo ++ M ++ Hi) None).
  Proof.
    intros HL HM HH Hi32 Rp HA HB.
      assert (W : walk_all h (last_at (S i) 0 Lo) i (fun z => is_lt (cmp z k))
                  = Ok (last_at i 0 Lo, first_or i (M ++ Hi) None)).
      { apply (walk_level h (Lo ++ M ++ Hi) g); auto.
        - intros x Hx. auto.
        - now apply not_lt_rest. }
      destruct (unlink_ok h [] Lo M Hi g i k Rp Hi32 HM HH (HB i (Nat.le_refl i))) as (h1 & g1 & E1 & R1 & S1 & F1).
      cbn [app] in R1. exists h1, g1. split; [exact W|]. split; [exact E1|]. split; [exact R1|]. split.
      - intros j Hj. destruct (Nat.eq_dec j i) as [->|Nj]; auto.
        eapply seg_level; [|apply HA; lia]. intros a. apply F1. lia.
      - intros j Hj. eapply seg_level; [|apply HB; lia]. intros a. apply F1. lia.
  Qed.
  Lemma remove_loop_ok Lo M Hi k : lt_all k Lo -> eq_opt k M -> gt_all k Hi ->
    forall i h g, i <= 32 -> srep h (Lo ++ M ++ Hi) g ->
    (forall j, i < j <= 32 -> seg g j 0 (Lo ++ Hi) None) ->
    (forall j, j <= i -> seg g j 0 (Lo ++ M ++ Hi) None) ->
    exists h' g', remove_loop i h (last_at (S i) 0 Lo) k = Ok (h', hd_error (map dt M))
      /\ srep h' (Lo ++ Hi) g' /\ (forall j, j <= 32 -> seg g' j 0 (Lo ++ Hi) None).
  Proof.
    intros HL HM HH.
    induction i as [|i IH]; intros h g Hi32 Rp HA HB;
      destruct (remove_level_ok Lo M Hi k _ h g HL HM HH Hi32 Rp HA HB) as (h' & g' & W & E1 & R' & SA & SB);
      cbn [remove_loop]; rewrite W; cbn [bind]; rewrite E1; cbn [bind]; cbn [Nat.eqb] in *.
    - exists h', g'. split; [reflexivity|]. split; [exact R'|]. intros j Hj. apply SA. lia.
    - apply (IH h' g'); [lia|exact R'|intros; apply SA; lia|intros; apply SB; lia].
  Qed.

  (** ** The abstraction relation. *)
  Definition sk_ok h X g : Prop := srep h X g /\ forall i, i <= 32 -> seg g i 0 X None.
  Definition sk_rel (m : skip_map K V) (l : list (K * V)) : Prop :=
    exists X g, sk_ok (sk_heap m) X g /\ map dt X = l /\ sorted l /\ sk_len m = length l.

  (** The same with the nodes visible, in the order of level 0 *)
  Definition sk_at (m : skip_map K V) X : Prop := exists g, sk_ok (sk_heap m) X g /\ sorted (map dt X) /\ sk_len m = length X.
  Lemma sk_at_rel m X : sk_at m X -> sk_rel m (map dt X).
  Proof. intros (g & HO & S & L). exists X, g. now rewrite map_length. Qed.
  Lemma sk_rel_at m l : sk_rel m l -> exists X, sk_at m X /\ map dt X = l.
  Proof. intros (X & g & HO & <- & S & L). exists X. split; [|auto]. exists g. now rewrite map_length in L. Qed.

  Lemma last_at_top h X g Lo R : srep h X g -> incl (Lo ++ R) X -> last_at 33 0 Lo = 0.
  Proof.
    intros Rp I. apply last_at_none. intros x Hx. assert (ht x <= 32); [|lia].
    apply (sr_ht _ _ _ Rp), I, in_app_iff. auto.
  Qed.

  (** Split the items around a key. *)
  Lemma split_items X k : sorted (map dt X) -> exists Lo M Hi, X = Lo ++ M ++ Hi
    /\ map dt Lo = below k (map dt X) /\ map dt M = at_key k (map dt X) /\ map dt Hi = above k (map dt X)
    /\ lt_all k Lo /\ eq_opt k M /\ gt_all k Hi.
  Proof.
    intros S. pose proof (sorted_split _ k S) as E.
    apply map_eq_app in E as (Lo & X1 & -> & E1 & E). apply map_eq_app in E as (M & Hi & -> & E2 & E3).
    exists Lo, M, Hi. rewrite E1, E2, E3. repeat split; auto.
    - intros x Hx. pose proof (below_lt (map dt (Lo ++ M ++ Hi)) k) as B. rewrite <- E1 in B.
      unfold all_lt in B. rewrite Forall_forall in B. unfold key. rewrite B; auto. now apply in_map.
    - destruct (at_key_cases _ k S) as [Q|(e & Q & Ce)]; rewrite Q in E2.
      + left. now apply map_eq_nil in E2.
      + right. destruct M as [|y [|]]; try discriminate. injection E2 as <-. exists y. split; auto.
        now apply cmp_eq_sym.
    - intros x Hx. pose proof (above_gt (map dt (Lo ++ M ++ Hi)) k) as B. rewrite <- E3 in B.
      unfold all_gt in B. rewrite Forall_forall in B. apply cmp_lt_gt. unfold key. apply B. now apply in_map.
  Qed.

  Lemma split_length (l : list (K * V)) k : sorted l ->
    length l = length (below k l) + length (at_key k l) + length (above k l).
  Proof. intros S. rewrite (sorted_split l k S) at 1. rewrite !app_length. lia. Qed.

  Lemma skip_rel_new : sk_rel skip_new [].
  Proof.
    exists [], (fun _ _ => None). split; [|repeat split; constructor].
    split; [apply (srep_new (D := K * V) (L := option nat) None)|]. intros i _. reflexivity.
  Qed.

  Lemma skip_insert_ok m l k v d : sk_rel m l ->
    exists m', skip_insert m k v d = Ok (m', hd_error (at_key k l)) /\ sk_rel m' (below k l ++ (k, v) :: above k l).
  Proof.
    intros (X & g & (Rp & Sg) & El & Sl & Ln). subst l.
    destruct (split_items X k Sl) as (Lo & M & Hi & EX & E1 & E2 & E3 & HL & HM & HH).
    unfold skip_insert.
    pose proof (alloc_ok (sk_heap m) X g (k, v) (height_of d) None Rp (height_of_le d)) as Al.
    destruct (alloc (sk_heap m) (Some (k, v)) (S (height_of d)) None) as [h1 a] eqn:Ea.
    destruct Al as (R1 & _ & Fr). set (n := It a (height_of d) (k, v)) in *.
    set (g1 := fun b j => if b =? a then None else g b j) in *.
    assert (Sg1 : forall j, j <= 32 -> seg g1 j 0 X None).
    { intros j Hj. eapply seg_frame; [|apply (Sg j Hj)]. intros b Hb. unfold g1.
      rewrite (proj2 (Nat.eqb_neq b a)); auto. intros ->. apply Fr. destruct Hb as [->|Hb]; [now left|now right]. }
    rewrite EX in R1, Sg1.
    destruct (insert_loop_ok n Lo M Hi k HL HM HH 32 h1 g1) as (h2 & g2 & E & R2 & S2); auto; [lia|].
    rewrite (last_at_top _ _ _ Lo (M ++ Hi) R1) in E by (intros x Hx; now right).
    cbn [ad ht n] in E. unfold max_height. rewrite E. cbn [bind].
    rewrite E2.
    assert (Q : exists len, match hd_error (at_key k (map dt X)) with Some _ => checked_pred (S (sk_len m)) | None => Ok (S (sk_len m)) end = Ok len
            /\ len = length (below k (map dt X) ++ (k, v) :: above k (map dt X))).
    { rewrite Ln, (split_length _ k Sl), !app_length. cbn [length].
      destruct (at_key_cases _ k Sl) as [-> |(e & -> & _)]; cbn [hd_error length checked_pred];
        eexists; (split; [reflexivity|lia]). }
    destruct Q as (len & Q & El). rewrite Q. cbn [bind]. eexists. split; [reflexivity|].
    exists (Lo ++ n :: Hi), g2. split; [split|]; cbn [sk_heap sk_len].
    - eapply srep_equiv; [apply Permutation_middle|exact R2].
    - exact S2.
    - rewrite map_app. cbn [map dt n]. rewrite E1, E3. repeat split; auto. now apply sorted_insert.
  Qed.

  Lemma skip_remove_ok m l k : sk_rel m l ->
    exists m', skip_remove m k = Ok (m', hd_error (at_key k l)) /\ sk_rel m' (below k l ++ above k l).
  Proof.
    intros (X & g & (Rp & Sg) & El & Sl & Ln). subst l.
    destruct (split_items X k Sl) as (Lo & M & Hi & EX & E1 & E2 & E3 & HL & HM & HH).
    unfold skip_remove. rewrite EX in Rp, Sg.
    destruct (remove_loop_ok Lo M Hi k HL HM HH 32 (sk_heap m) g) as (h2 & g2 & E & R2 & S2); auto; [lia|].
    rewrite (last_at_top _ _ _ Lo (M ++ Hi) Rp) in E by (intros x Hx; auto).
    unfold max_height. rewrite E. cbn [bind]. rewrite E2.
    assert (Q : exists len, match hd_error (at_key k (map dt X)) with Some _ => checked_pred (sk_len m) | None => Ok (sk_len m) end = Ok len
            /\ len = length (below k (map dt X) ++ above k (map dt X))).
    { rewrite Ln, (split_length _ k Sl), !app_length.
      destruct (at_key_cases _ k Sl) as [-> |(e & -> & _)]; cbn [hd_error length].
      - eexists. split; [reflexivity|lia].
      - rewrite Nat.add_1_r. cbn [checked_pred Nat.add]. eexists. split; [reflexivity|lia]. }
    destruct Q as (len & Q & El). rewrite Q. cbn [bind]. eexists. split; [reflexivity|].
    exists (Lo ++ Hi), g2. split; [split|]; cbn [sk_heap sk_len]; auto.
    rewrite map_app, E1, E3. repeat split; auto. now apply sorted_delete.
  Qed.

  (** ** Searches. *)
  Lemma starting_height_le n : starting_height n <= 32.
  Proof.
    unfold starting_height. assert (Q : (N.of_nat n mod two32 < 2 ^ 32)%N) by (apply N.mod_lt; discriminate).
    generalize dependent (N.of_nat n mod two32)%N. intros x Q.
    destruct (N.eq_dec x 0) as [->|Nz]; [cbn; lia|].
    rewrite N.size_log2 by auto. apply N.log2_lt_pow2 in Q; lia.
  Qed.

  (** From level [i] of the head: the walk starts at the head, which is where the search of a list whose
      items are all lower than [i + 1] starts.  The general start for [walk] is therefore restated. *)
  Lemma walk_start h All g i go Lo R : srep h All g -> incl (Lo ++ R) All -> length (Lo ++ R) <= length All -> i <= 32 ->
    (forall x, In x Lo -> go (key x) = true) -> (forall x, In x R -> go (key x) = false) ->
    seg g i 0 (Lo ++ R) None ->
    walk_all h 0 i go = Ok (last_at i 0 Lo, first_or i R None).
  Proof.
    intros Rp I Ln Hi GL GR S. unfold walk_all. pose proof (srep_length _ _ _ Rp). rewrite app_length in Ln.
    apply (walk_ok _ All g); auto; [lia|now left].
  Qed.

  Definition good_start i (c : nat) Lo : Prop := c = 0 \/ c = last_at (S i) 0 Lo.
  Lemma walk_good h X g i go Lo R c : sk_ok h X g -> X = Lo ++ R -> i <= 32 -> good_start i c Lo ->
    (forall x, In x Lo -> go (key x) = true) -> (forall x, In x R -> go (key x) = false) ->
    walk_all h c i go = Ok (last_at i 0 Lo, first_or i R None).
  Proof.
    intros [Rp Sg] -> Hi [->| ->] GL GR.
    - apply (walk_start _ (Lo ++ R) g); auto. apply incl_refl.
    - apply (walk_level _ (Lo ++ R) g); auto. apply incl_refl.
  Qed.

  Lemma descend_ok h X g go Lo R : sk_ok h X g -> X = Lo ++ R ->
    (forall x, In x Lo -> go (key x) = true) -> (forall x, In x R -> go (key x) = false) ->
    forall i c, i <= 32 -> good_start i c Lo -> descend i h c go = Ok (last_at 0 0 Lo, option_map ad (hd_error R)).
  Proof.
    intros HO EX GL GR. induction i as [|i IH]; intros c Hi Gc; cbn [descend];
      rewrite (walk_good h X g _ go Lo R c HO EX Hi Gc GL GR); cbn [bind].
    - now rewrite first_or_0.
    - apply IH; [lia|now right].
  Qed.

  Lemma find_loop_ok h X g Lo M Hi k : sk_ok h X g -> X = Lo ++ M ++ Hi -> lt_all k Lo -> eq_opt k M -> gt_all k Hi ->
    forall i c, i <= 32 -> good_start i c Lo -> find_loop i h c k = Ok (option_map ad (hd_error M)).
  Proof.
    intros HO EX HL HM HH.
    assert (Found : forall i, match first_or i (M ++ Hi) None with
                  | None => Ok None
                  | Some y => let* e := get_data h y in Ok (if is_eq (cmp (fst e) k) then Some y else None)
                  end = Ok (match M with e :: _ => if i <=? ht e then Some (ad e) else None | [] => None end)).
    { intros i. 
      assert (HHi : forall y, In y Hi -> get_data h (ad y) = Ok (dt y) /\ is_eq (cmp (fst (dt y)) k) = false).
      { intros y Hy. split; [|fold (key y); now rewrite HH].
        apply (get_data_ok _ X g); [apply HO|]. rewrite EX, !in_app_iff. auto. }
      destruct HM as [->|(e & -> & Ce)]; cbn [app first_or].
      - destruct (first_or_in i Hi None) as [->|(y & Hy & -> & _)]; auto.
        destruct (HHi y Hy) as [-> E]. cbn [bind]. now rewrite E.
      - destruct (i <=? ht e).
        + rewrite (get_data_ok h X g e); [|apply HO|rewrite EX, !in_app_iff; simpl; auto]. cbn [bind].
          fold (key e). now rewrite Ce.
        + destruct (first_or_in i Hi None) as [->|(y & Hy & -> & _)]; auto.
          destruct (HHi y Hy) as [-> E]. cbn [bind]. now rewrite E. }
    induction i as [|i IH]; intros c Hi32 Gc; cbn [find_loop].
    - rewrite (walk_good h X g _ (fun z => is_lt (cmp z k)) Lo (M ++ Hi) c HO EX Hi32 Gc HL (not_lt_rest k M Hi HM HH)).
      cbn [bind]. rewrite Found. cbn [bind]. destruct M; reflexivity.
    - rewrite (walk_good h X g _ (fun z => is_lt (cmp z k)) Lo (M ++ Hi) c HO EX Hi32 Gc HL (not_lt_rest k M Hi HM HH)).
      cbn [bind]. rewrite Found. cbn [bind].
      assert (N : find_loop i h (last_at (S i) 0 Lo) k = Ok (option_map ad (hd_error M))) by (apply IH; [lia|now right]).
      destruct M as [|e M]; auto. destruct (S i <=? ht e); auto.
  Qed.

  Lemma last_at_0 Lo : last_at 0 0 Lo = match last_error Lo with Some x => ad x | None => 0 end.
  Proof.
    induction Lo as [|x Lo IH] using rev_ind; auto. rewrite last_at_app, last_error_app. reflexivity.
  Qed.
  Lemma ad_pos h X g x : srep h X g -> In x X -> exists a, ad x = S a.
  Proof.
    intros Rp Hx. destruct (ad x) as [|a] eqn:E; [|eauto]. pose proof (sr_nodup _ _ _ Rp) as Nd.
    inversion Nd as [|? ? N0 _]. destruct N0. rewrite <- E. now apply in_map.
  Qed.
  Lemma last_error_in {T} (l : list T) (x : T) : last_error l = Some x -> In x l.
  Proof.
    induction l as [|y l IH] using rev_ind; [discriminate|]. rewrite last_error_app. intros E. injection E as ->.
    apply in_app_iff. right. now left.
  Qed.
  Lemma last_error_map {T U} (f : T -> U) l : last_error (map f l) = option_map f (last_error l).
  Proof.
    induction l as [|y l IH] using rev_ind; [reflexivity|]. rewrite map_app. cbn [map]. now rewrite !last_error_app.
  Qed.
  Lemma hd_error_map {T U} (f : T -> U) l : hd_error (map f l) = option_map f (hd_error l).
  Proof. destruct l; reflexivity. Qed.

  Lemma key_at_last h X g Lo : srep h X g -> incl Lo X ->
    key_at h (not_head (last_at 0 0 Lo)) = Ok (option_map fst (last_error (map dt Lo))).
  Proof.
    intros Rp I. rewrite last_at_0, last_error_map. destruct (last_error Lo) as [x|] eqn:E; [|reflexivity].
    apply last_error_in in E. destruct (ad_pos _ _ _ x Rp (I _ E)) as [a Ea]. rewrite Ea. cbn [not_head key_at].
    rewrite <- Ea, (get_data_ok _ _ _ x Rp (I _ E)). reflexivity.
  Qed.
  Lemma key_at_hd h X g R : srep h X g -> incl R X ->
    key_at h (option_map ad (hd_error R)) = Ok (option_map fst (hd_error (map dt R))).
  Proof.
    intros Rp I. destruct R as [|x R]; [reflexivity|]. cbn [hd_error option_map key_at map].
    rewrite (get_data_ok _ _ _ x Rp); [reflexivity|]. apply I. now left.
  Qed.

  Lemma skip_floor_ok m l k : sk_rel m l ->
    skip_floor m k = Ok (option_map fst (last_error (below k l ++ at_key k l))).
  Proof.
    intros (X & g & HO & El & Sl & Ln). subst l.
    destruct (split_items X k Sl) as (Lo & M & Hi & EX & E1 & E2 & E3 & HL & HM & HH).
    unfold skip_floor. rewrite (descend_ok (sk_heap m) X g _ (Lo ++ M) Hi HO).
    - cbn [bind]. rewrite (key_at_last _ X g); [|apply HO|].
      + now rewrite map_app, E1, E2.
      + intros x Hx. rewrite EX. apply in_app_iff in Hx. rewrite !in_app_iff. tauto.
    - now rewrite <- app_assoc.
    - intros x Hx. apply in_app_iff in Hx as [Hx|Hx].
      + apply HL in Hx. destruct (cmp (key x) k); auto; discriminate.
      + destruct HM as [->|(e & -> & Ce)]; [destruct Hx|]. destruct Hx as [<-|[]]. now rewrite Ce.
    - intros x Hx. now rewrite HH.
    - apply starting_height_le.
    - now left.
  Qed.
  Lemma skip_ceil_ok m l k : sk_rel m l ->
    skip_ceil m k = Ok (option_map fst (hd_error (at_key k l ++ above k l))).
  Proof.
    intros (X & g & HO & El & Sl & Ln). subst l.
    destruct (split_items X k Sl) as (Lo & M & Hi & EX & E1 & E2 & E3 & HL & HM & HH).
    unfold skip_ceil. rewrite (descend_ok (sk_heap m) X g _ Lo (M ++ Hi) HO).
    - cbn [bind]. rewrite (key_at_hd _ X g); [|apply HO|].
      + now rewrite map_app, E2, E3.
      + intros x Hx. rewrite EX. apply in_app_iff in Hx. rewrite !in_app_iff. tauto.
    - auto.
    - exact HL.
    - now apply not_lt_rest.
    - apply starting_height_le.
    - now left.
  Qed.
  Lemma skip_max_ok m l : sk_rel m l -> skip_max m = Ok (option_map fst (last_error l)).
  Proof.
    intros (X & g & HO & El & Sl & Ln). subst l.
    unfold skip_max. rewrite (descend_ok (sk_heap m) X g _ X [] HO).
    - cbn [bind]. rewrite (key_at_last _ X g); [reflexivity|apply HO|apply incl_refl].
    - now rewrite app_nil_r.
    - auto.
    - intros x [].
    - apply starting_height_le.
    - now left.
  Qed.
  Lemma first_link h X g : sk_ok h X g -> get_link h 0 0 = Ok (option_map ad (hd_error X)).
  Proof.
    intros [Rp Sg]. rewrite (get_link_ok _ _ _ _ _ Rp) by (left; lia). f_equal.
    rewrite (seg_first _ _ _ _ _ (Sg 0 ltac:(lia))). apply first_or_0.
  Qed.
  Lemma skip_min_ok m l : sk_rel m l -> skip_min m = Ok (option_map fst (hd_error l)).
  Proof.
    intros (X & g & HO & El & Sl & Ln). subst l. unfold skip_min. rewrite (first_link _ _ _ HO). cbn [bind].
    apply (key_at_hd _ X g); [apply HO|apply incl_refl].
  Qed.

  Lemma skip_find_ok m X g k : sk_ok (sk_heap m) X g -> forall Lo M Hi, X = Lo ++ M ++ Hi -> lt_all k Lo -> eq_opt k M -> gt_all k Hi ->
    skip_find m k = Ok (option_map ad (hd_error M)).
  Proof.
    intros HO Lo M Hi EX HL HM HH. unfold skip_find. eapply find_loop_ok; eauto.
    - apply starting_height_le.
    - now left.
  Qed.
  Lemma skip_get_ok m l k : sk_rel m l -> skip_get m k = Ok (option_map snd (hd_error (at_key k l))).
  Proof.
    intros (X & g & HO & El & Sl & Ln). subst l.
    destruct (split_items X k Sl) as (Lo & M & Hi & EX & E1 & E2 & E3 & HL & HM & HH).
    unfold skip_get. rewrite (skip_find_ok m X g k HO Lo M Hi EX HL HM HH). cbn [bind]. rewrite <- E2, hd_error_map.
    destruct M as [|e M]; [reflexivity|]. cbn [hd_error option_map].
    rewrite (get_data_ok _ X g); [reflexivity|apply HO|]. rewrite EX, !in_app_iff. simpl. auto.
  Qed.

  (** Changing data only. *)
  Lemma seg_shape f i X : forall Y, map (fun x => (ad x, ht x)) X = map (fun x => (ad x, ht x)) Y ->
    forall a e, seg f i a X e -> seg f i a Y e.
  Proof.
    induction X as [|x X IH]; intros [|y Y] E a e; try discriminate; auto.
    cbn [map] in E. injection E as E1 E2 E3. cbn [seg]. rewrite E1, E2. destruct (_ <=? _).
    - intros [S1 S2]. split; [exact S1|]. eapply IH; eauto.
    - apply IH; auto.
  Qed.

  Lemma skip_get_mut_at m X k v : sk_at m X ->
    exists m' X', skip_get_mut m k v = Ok (m', option_map snd (hd_error (at_key k (map dt X))))
      /\ sk_at m' X' /\ map ishape X' = map ishape X
      /\ map dt X' = below k (map dt X) ++ map (fun p => (fst p, v)) (at_key k (map dt X)) ++ above k (map dt X).
  Proof.
    intros (g & HO & Sl & Ln).
    destruct (split_items X k Sl) as (Lo & M & Hi & EX & E1 & E2 & E3 & HL & HM & HH).
    unfold skip_get_mut. rewrite (skip_find_ok m X g k HO Lo M Hi EX HL HM HH). cbn [bind].
    pose proof (sorted_update _ k v Sl) as SU. rewrite <- E1, <- E2, <- E3 in *. rewrite hd_error_map.
    destruct M as [|e M]; cbn [hd_error option_map map app] in *.
    - exists m, X. split; [reflexivity|]. split; [exists g; auto|]. split; [reflexivity|]. rewrite <- map_app. now subst X.
    - rewrite (get_data_ok _ X g); [|apply HO|rewrite EX, !in_app_iff; simpl; auto]. cbn [bind].
      destruct HM as [Q|(e' & Q & _)]; [discriminate|]. injection Q as -> ->. rename e' into e.
      destruct HO as [Rp Sg]. rewrite EX in Rp. cbn [app] in Rp.
      destruct (set_data_ok _ _ _ _ _ (fst (dt e), v) Rp) as (h' & Eh & Rh & _). rewrite Eh. cbn [bind].
      eexists. exists (Lo ++ It (ad e) (ht e) (fst (dt e), v) :: Hi). split; [reflexivity|].
      assert (Sh : map ishape (Lo ++ It (ad e) (ht e) (fst (dt e), v) :: Hi) = map ishape X) by (rewrite EX, !map_app; reflexivity).
      assert (Sd : map dt (Lo ++ It (ad e) (ht e) (fst (dt e), v) :: Hi) = map dt Lo ++ (fst (dt e), v) :: map dt Hi) by now rewrite map_app.
      split; [|auto]. exists g. cbn [sk_heap sk_len]. split; [split; [exact Rh|]|].
      + intros i Hi32. eapply seg_shape; [|apply (Sg i Hi32)]. now symmetry.
      + rewrite Sd. split; [exact SU|]. rewrite Ln, EX, !app_length. reflexivity.
  Qed.
  Lemma skip_get_mut_ok m l k v : sk_rel m l ->
    exists m', skip_get_mut m k v = Ok (m', option_map snd (hd_error (at_key k l)))
      /\ sk_rel m' (below k l ++ map (fun p => (fst p, v)) (at_key k l) ++ above k l).
  Proof.
    intros Rl. apply sk_rel_at in Rl as (X & A & <-). destruct (skip_get_mut_at m X k v A) as (m' & X' & E & A' & _ & D).
    exists m'. split; [exact E|]. rewrite <- D. now apply sk_at_rel.
  Qed.

  (** ** Traversals at level 0. *)
  Lemma iter_from_ok h All g X : srep h All g -> forall a fuel, incl X All -> length X <= fuel -> seg g 0 a X None ->
    iter_from fuel h (option_map ad (hd_error X)) = Ok (map dt X).
  Proof.
    intros Rp. induction X as [|x X IH]; intros a fuel I Hf S; cbn [hd_error option_map map].
    - now destruct fuel.
    - destruct fuel as [|fuel]; [simpl in Hf; lia|]. cbn [iter_from seg] in *. cbn [Nat.leb] in S. destruct S as [_ S].
      assert (Hx : In x All) by (apply I; now left).
      rewrite (get_data_ok _ _ _ x Rp Hx). cbn [bind].
      rewrite (get_link_ok _ _ _ (ad x) 0 Rp) by (right; exists x; repeat split; auto; lia). cbn [bind].
      rewrite (seg_first _ _ _ _ _ S), first_or_0, (IH (ad x)); auto; [intros y Hy; apply I; now right|simpl in Hf; lia].
  Qed.
  Lemma skip_iter_ok m l : sk_rel m l -> skip_iter m = Ok l.
  Proof.
    intros (X & g & HO & El & Sl & Ln). subst l. unfold skip_iter. rewrite (first_link _ _ _ HO). cbn [bind].
    destruct HO as [Rp Sg]. pose proof (srep_length _ _ _ Rp).
    apply (iter_from_ok _ X g X Rp 0); [apply incl_refl|lia|apply Sg; lia].
  Qed.

  Lemma itermut_from_ok X : forall h P g a vs, srep h (P ++ X) g -> seg g 0 a X None ->
    exists h' X', itermut_from h (option_map ad (hd_error X)) vs = Ok (h', firstn (length vs) (map dt X))
      /\ srep h' (P ++ X') g /\ map ishape X' = map ishape X /\ map dt X' = write_vals (map dt X) vs.
  Proof.
    induction X as [|x X IH]; intros h P g a vs Rp S; cbn [hd_error option_map map].
    - exists h, []. destruct vs; auto.
    - destruct vs as [|v vs].
      + exists h, (x :: X). cbn [itermut_from length firstn write_vals]. split; auto. split; auto. split; auto.
        cbn [map]. destruct (dt x); reflexivity.
      + cbn [itermut_from length firstn write_vals]. cbn [seg Nat.leb] in S. destruct S as [_ S].
        assert (Hx : In x (P ++ x :: X)) by (apply in_app_iff; right; now left).
        rewrite (get_data_ok _ _ _ x Rp Hx). cbn [bind].
        rewrite (get_link_ok _ _ _ (ad x) 0 Rp) by (right; exists x; repeat split; auto; lia). cbn [bind].
        rewrite (seg_first _ _ _ _ _ S), first_or_0.
        destruct (set_data_ok _ _ _ _ _ (fst (dt x), v) Rp) as (h1 & E1 & R1 & _). rewrite E1. cbn [bind].
        set (x1 := It (ad x) (ht x) (fst (dt x), v)) in *.
        replace (P ++ x1 :: X) with ((P ++ [x1]) ++ X) in R1 by (now rewrite <- app_assoc).
        destruct (IH _ _ _ (ad x) vs R1 S) as (h2 & X' & E2 & R2 & Sh & D2). rewrite E2. cbn [bind].
        exists h2, (x1 :: X'). split; [reflexivity|]. split; [now rewrite <- app_assoc in R2|].
        cbn [map]. rewrite Sh, D2. split; [reflexivity|]. cbn [x1 dt]. now destruct (dt x).
  Qed.
  Lemma skip_iter_mut_at m X vs : sk_at m X ->
    exists m' X', skip_iter_mut m vs = Ok (m', firstn (length vs) (map dt X)) /\ sk_at m' X' /\ map ishape X' = map ishape X
      /\ map dt X' = write_vals (map dt X) vs.
  Proof.
    intros (g & HO & Sl & Ln). unfold skip_iter_mut. rewrite (first_link _ _ _ HO). cbn [bind].
    destruct HO as [Rp Sg].
    destruct (itermut_from_ok X (sk_heap m) [] g 0 vs Rp (Sg 0 ltac:(lia))) as (h' & X' & E & R' & Sh & D').
    rewrite E. cbn [bind]. eexists. exists X'. split; [reflexivity|]. split; [|auto]. exists g. cbn [sk_heap sk_len].
    split; [split; [exact R'|]|].
    - intros i Hi. eapply seg_shape; [|apply (Sg i Hi)]. exact (eq_sym Sh).
    - split; [rewrite D'; now apply sorted_write_vals|]. now rewrite Ln, <- (map_length ishape X'), Sh, map_length.
  Qed.
  Lemma skip_iter_mut_ok m l vs : sk_rel m l ->
    exists m', skip_iter_mut m vs = Ok (m', firstn (length vs) l) /\ sk_rel m' (write_vals l vs).
  Proof.
    intros Rl. apply sk_rel_at in Rl as (X & A & <-). destruct (skip_iter_mut_at m X vs A) as (m' & X' & E & A' & _ & D).
    exists m'. split; [exact E|]. rewrite <- D. now apply sk_at_rel.
  Qed.

  (** Level 0 runs through [X]. *)
  Fixpoint chain g X : Prop :=
    match X with [] => True | x :: X' => g (ad x) 0 = option_map ad (hd_error X') /\ chain g X' end.
  Lemma seg_chain g X : forall a, seg g 0 a X None -> chain g X.
  Proof.
    induction X as [|x X IH]; intros a; cbn [chain]; auto. cbn [seg Nat.leb]. intros [_ S]. split; eauto.
    rewrite (seg_first _ _ _ _ _ S). apply first_or_0.
  Qed.
  Lemma chain_frame f g X : (forall a, In a (map ad X) -> f a 0 = g a 0) -> chain g X -> chain f X.
  Proof.
    induction X as [|x X IH]; cbn [chain]; auto. intros E [S1 S]. split.
    - rewrite E; auto. now left.
    - apply IH; auto. intros. apply E. now right.
  Qed.

  Lemma free_from_ok X : forall h g fuel, nodes h X g -> chain g X -> length X <= fuel ->
    exists h', free_from fuel h (option_map ad (hd_error X)) = Ok (h', map dt X) /\ freed h (map ad X) h'.
  Proof.
    induction X as [|x X IH]; intros h g fuel N S Hf; cbn [hd_error option_map].
    - exists h. split; [now destruct fuel|]. split; auto.
    - destruct fuel as [|fuel]; [simpl in Hf; lia|]. cbn [chain] in S. destruct S as [S1 S].
      destruct (nodes_head _ _ _ _ N) as (E1 & E2 & _ & E3 & N'). cbn [free_from]. rewrite E2. cbn [bind].
      rewrite E1. cbn [bind]. rewrite E3. cbn [bind]. rewrite S1.
      destruct (IH _ g fuel N' S) as (h' & E & F); [simpl in Hf; lia|]. rewrite E. cbn [bind map].
      exists h'. split; [reflexivity|]. eapply freed_step; eauto.
  Qed.
  Lemma into_iter_drop_ok X : forall h g fuel, nodes h X g -> chain g X -> length X <= fuel ->
    exists h', into_iter_drop fuel h (option_map ad (hd_error X)) = Ok (h', flat_map (fun x => [dt x; dt x]) X) /\ freed h (map ad X) h'.
  Proof.
    induction X as [|x X IH]; intros h g fuel N S Hf; cbn [hd_error option_map].
    - exists h. split; [now destruct fuel|]. split; auto.
    - destruct fuel as [|fuel]; [simpl in Hf; lia|]. cbn [chain] in S. destruct S as [S1 S].
      destruct (nodes_head _ _ _ _ N) as (E1 & E2 & _ & E3 & N'). cbn [into_iter_drop]. rewrite E1. cbn [bind].
      rewrite E2. cbn [bind]. rewrite E3. cbn [bind]. rewrite S1.
      destruct (IH _ g fuel N' S) as (h' & E & F); [simpl in Hf; lia|]. rewrite E. cbn [bind map flat_map app].
      exists h'. split; [reflexivity|]. eapply freed_step; eauto.
  Qed.
  Lemma into_iter_take_ok X : forall n h g, nodes h X g -> chain g X ->
    exists h', into_iter_take n h (option_map ad (hd_error X)) = Ok (h', option_map ad (hd_error (skipn n X)), firstn n (map dt X))
      /\ freed h (map ad (firstn n X)) h' /\ nodes h' (skipn n X) g /\ chain g (skipn n X).
  Proof.
    induction X as [|x X IH]; intros n h g N S.
    - exists h. rewrite skipn_nil, !firstn_nil. split; [now destruct n|]. split; [split; auto|auto].
    - destruct n as [|n]; [exists h; split; [reflexivity|split; [split; auto|auto]]|].
      cbn [into_iter_take hd_error option_map skipn firstn map]. pose proof S as S0. cbn [chain] in S. destruct S as [S1 S].
      destruct (nodes_head _ _ _ _ N) as (E1 & E2 & _ & E3 & N'). rewrite E1. cbn [bind].
      rewrite E2. cbn [bind]. rewrite E3. cbn [bind]. rewrite S1.
      destruct (IH n _ g N' S) as (h' & E & F & Nn & Sn). rewrite E. cbn [bind].
      exists h'. split; [reflexivity|]. split; [|auto]. apply (freed_step h h' x (firstn n X) g); auto.
      destruct N as [Nd Nx]. split.
      + cbn [map] in *. inversion Nd as [|? ? N1 N2]; subst. rewrite <- (firstn_skipn n X), map_app in N1, N2.
        constructor; [intros I; apply N1, in_app_iff; auto|]. now apply NoDup_left in N2.
      + intros y [<-|Hy]; apply Nx; [now left|right]. rewrite <- (firstn_skipn n X). apply in_app_iff. auto.
  Qed.

  Lemma chain_zeroed h X g : srep h X g -> chain g X -> chain (fun b j => if b =? 0 then None else g b j) X.
  Proof.
    intros Rp. apply chain_frame. intros a Ha. rewrite (proj2 (Nat.eqb_neq _ _)); auto. intros ->.
    pose proof (sr_nodup _ _ _ Rp) as Nd. now inversion Nd.
  Qed.

  Lemma skip_clear_ok m l : sk_rel m l -> exists m', skip_clear m = Ok (m', l) /\ sk_rel m' [].
  Proof.
    intros (X & g & HO & El & Sl & Ln). subst l. unfold skip_clear. rewrite (first_link _ _ _ HO). cbn [bind].
    destruct HO as [Rp Sg]. pose proof (srep_length _ _ _ Rp) as Hl.
    destruct (free_from_ok X _ g (length (sk_heap m)) (srep_nodes _ _ _ Rp) (seg_chain _ _ _ (Sg 0 ltac:(lia))) ltac:(lia)) as (h1 & E1 & L1 & F1).
    rewrite E1. cbn [bind].
    assert (R1 : srep h1 [] g).
    { assert (N0 : ~ In 0 (map ad X)) by (pose proof (sr_nodup _ _ _ Rp) as Nd; now inversion Nd).
      split; try (intros x []; fail).
      - rewrite F1. destruct (in_dec _ _ _); [contradiction|]. apply Rp.
      - constructor; [intros []|constructor].
      - intros a n E. rewrite F1 in E. destruct (in_dec _ _ _); [discriminate|].
        apply (sr_dead _ _ _ Rp) in E as [E|E]; [now left|contradiction]. }
    destruct (zero_links_ok _ _ _ None R1) as (h2 & E2 & R2 & _). rewrite E2. cbn [bind].
    eexists. split; [reflexivity|]. eexists [], _. split; [split; [exact R2|]|repeat split; constructor].
    intros i _. reflexivity.
  Qed.

  Lemma skip_drop_ok m l : sk_rel m l -> exists h', skip_drop m = Ok (h', l) /\ live_nodes h' = 0.
  Proof.
    intros (X & g & HO & El & Sl & Ln). subst l. unfold skip_drop. rewrite (first_link _ _ _ HO). cbn [bind].
    destruct HO as [Rp Sg]. pose proof (srep_length _ _ _ Rp) as Hl.
    destruct (dealloc_head _ _ _ Rp) as (E1 & N1 & A1). rewrite E1. cbn [bind]. rewrite list_set_length.
    destruct (free_from_ok X _ g (length (sk_heap m)) N1 (seg_chain _ _ _ (Sg 0 ltac:(lia))) ltac:(lia)) as (h1 & E2 & F).
    rewrite E2. eexists. split; [reflexivity|]. eapply freed_all; eauto.
  Qed.

  (** A map whose head has been zeroed is dropped: only the head is freed. *)
  Lemma drop_zeroed h X g len : srep h X g -> g 0 0 = None ->
    skip_drop (SkipMap h len) = Ok (list_set h 0 None, []).
  Proof.
    intros Rp E. unfold skip_drop. cbn [sk_heap]. rewrite (get_link_ok _ _ _ 0 0 Rp) by (left; lia). rewrite E. cbn [bind].
    rewrite (proj1 (dealloc_head _ _ _ Rp)). cbn [bind]. now destruct (length _).
  Qed.

  Lemma skip_into_iter_ok m l n : sk_rel m l ->
    exists h', skip_into_iter m n = Ok (h', firstn n l, flat_map (fun p => [p; p]) (skipn n l)) /\ live_nodes h' = 0.
  Proof.
    intros (X & g & HO & El & Sl & Ln). subst l. unfold skip_into_iter, into_iter_new. rewrite (first_link _ _ _ HO). cbn [bind].
    destruct HO as [Rp Sg]. pose proof (srep_length _ _ _ Rp) as Hl.
    destruct (zero_links_ok _ _ _ None Rp) as (h1 & E1 & R1 & L1). rewrite E1. cbn [bind].
    set (g1 := fun b j => if b =? 0 then None else g b j) in *.
    rewrite (drop_zeroed _ _ _ _ R1) by reflexivity. cbn [bind].
    destruct (dealloc_head _ _ _ R1) as (_ & N1 & A1).
    assert (C1 : chain g1 X) by (apply (chain_zeroed (sk_heap m)); auto; apply (seg_chain _ _ 0), Sg; lia).
    destruct (into_iter_take_ok X n _ g1 N1 C1) as (h2 & E2 & F2 & N2 & C2). rewrite E2. cbn [bind].
    destruct (into_iter_drop_ok (skipn n X) h2 g1 (length h2) N2 C2) as (h3 & E3 & F3).
    { rewrite (proj1 F2), list_set_length, L1, skipn_length. lia. }
    rewrite E3. cbn [bind]. exists h3. split.
    - rewrite skipn_map. do 2 f_equal. generalize (skipn n X). intros Z. induction Z; simpl; congruence.
    - apply live_none. intros a nd E. destruct F2 as [_ F2], F3 as [_ F3]. rewrite F3 in E.
      destruct (in_dec _ _ _) as [I|I]; [discriminate|]. rewrite F2 in E.
      destruct (in_dec _ _ _) as [J|J]; [discriminate|]. apply A1 in E.
      rewrite <- (firstn_skipn n X), map_app, in_app_iff in E. tauto.
  Qed.

  (** ** The step machine. *)
  Lemma skip_step_ok m l (o : map_op K V * N) : sk_rel m l ->
    exists m', skip_step m o = Ok (m', snd (map_spec_step l (fst o))) /\ sk_rel m' (fst (map_spec_step l (fst o))).
  Proof.
    intros Rm. destruct o as [o d]. destruct o; cbn [skip_step fst snd map_spec_step].
    - destruct (skip_insert_ok m l k v d Rm) as (m' & -> & R'). exists m'. auto.
    - destruct (skip_remove_ok m l k Rm) as (m' & -> & R'). exists m'. auto.
    - rewrite (skip_get_ok _ _ _ Rm). exists m. auto.
    - destruct (skip_get_mut_ok m l k v Rm) as (m' & -> & R'). exists m'. auto.
    - rewrite (skip_get_ok _ _ _ Rm). exists m. auto.
    - rewrite (skip_get_ok _ _ _ Rm). cbn [bind]. exists m. split; auto. do 2 f_equal. now destruct (at_key k l).
    - rewrite (skip_floor_ok _ _ _ Rm). exists m. auto.
    - rewrite (skip_ceil_ok _ _ _ Rm). exists m. auto.
    - rewrite (skip_min_ok _ _ Rm). exists m. auto.
    - rewrite (skip_max_ok _ _ Rm). exists m. auto.
    - exists m. destruct Rm as (X & g & HO & El & Sl & Ln). rewrite Ln. split; auto. exists X, g. auto.
    - exists m. destruct Rm as (X & g & HO & El & Sl & Ln). rewrite Ln. split; auto. exists X, g. auto.
    - destruct (skip_clear_ok _ _ Rm) as (m' & -> & R'). exists m'. auto.
    - rewrite (skip_iter_ok _ _ Rm). exists m. auto.
    - destruct (skip_iter_mut_ok m l vs Rm) as (m' & -> & R'). exists m'. auto.
    - destruct (skip_into_iter_ok m l (length (sk_heap m)) Rm) as (h' & E & _). rewrite E. cbn [bind].
      exists skip_new. split; [|apply skip_rel_new]. rewrite firstn_all2; auto.
      destruct Rm as (X & g & (Rp & _) & <- & _). rewrite map_length. pose proof (srep_length _ _ _ Rp). lia.
  Qed.

  Theorem skip_refines (ops : list (map_op K V * N)) :
    outputs skip_step skip_new ops = Ok (map_spec_outputs (map fst ops)).
  Proof.
    unfold map_spec_outputs, spec_outputs. rewrite <- spec_run_map.
    apply (outputs_sim skip_step (fun s o => map_spec_step s (fst o)) sk_rel); [|apply skip_rel_new].
    intros. now apply skip_step_ok.
  Qed.

  (** Memory: no node is leaked; dropping the map drops every entry once. *)
  Theorem skip_memory (ops : list (map_op K V * N)) m outs : run skip_step skip_new ops = Ok (m, outs) ->
    exists l h, live_nodes (sk_heap m) = S (length l) /\ skip_iter m = Ok l
      /\ skip_drop m = Ok (h, l) /\ live_nodes h = 0.
  Proof.
    intros E. destruct (run_sim skip_step (fun s o => map_spec_step s (fst o)) sk_rel (fun s a o => skip_step_ok s a o) ops skip_new [] skip_rel_new)
      as (m' & E' & HR). rewrite E in E'. injection E' as <- _.
    destruct (skip_drop_ok _ _ HR) as (h & Eh & Lh).
    exists (fst (spec_run (fun s o => map_spec_step s (fst o)) [] ops)), h.
    split; [|split; [now apply skip_iter_ok|auto]].
    destruct HR as (X & g & (Rp & _) & El & _). rewrite (srep_live _ _ _ Rp), <- El. now rewrite map_length.
  Qed.

  (** into_iter, dropped after [n] items. *)
  Theorem skip_into_iter_drops (ops : list (map_op K V * N)) m outs n : run skip_step skip_new ops = Ok (m, outs) ->
    exists l h, skip_iter m = Ok l /\ live_nodes h = 0
      /\ skip_into_iter m n = Ok (h, firstn n l, flat_map (fun p => [p; p]) (skipn n l)).
  Proof.
    intros E. destruct (run_sim skip_step (fun s o => map_spec_step s (fst o)) sk_rel (fun s a o => skip_step_ok s a o) ops skip_new [] skip_rel_new)
      as (m' & E' & HR). rewrite E in E'. injection E' as <- _.
    destruct (skip_into_iter_ok _ _ n HR) as (h & Eh & Lh). eexists _, h. split; [apply skip_iter_ok, HR|]. auto.
  Qed.
End SkipMapProofs.
