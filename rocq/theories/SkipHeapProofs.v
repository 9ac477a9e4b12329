(** Memory and level structure of the skip lists. *)
From Coq Require Import Permutation.
From Verif Require Export SkipHeap ListLemmas.

(** An entry of a skip list: its address, its height (one less than its number of links), its data. *)
Record sitem (D : Type) := It { ad : nat; ht : nat; dt : D }.
Arguments It {D}. Arguments ad {D}. Arguments ht {D}. Arguments dt {D}.

Lemma height_of_le d : height_of d <= 32.
Proof. unfold height_of, max_height. lia. Qed.

Section Heap.
  Context {D L : Type}.
  Notation hp := (heap D L).
  Notation item := (sitem D).
  Implicit Types (h : hp) (X Y A B : list item) (x y : item) (g : nat -> nat -> L).

  (** [g a i] is link [i] of node [a]. *)
  Definition upd (g : nat -> nat -> L) (a i : nat) (l : L) : nat -> nat -> L :=
    fun b j => if (b =? a) && (j =? i) then l else g b j.
  Lemma upd_same g a i l : upd g a i l a i = l.
  Proof. unfold upd. now rewrite !Nat.eqb_refl. Qed.
  Lemma upd_other g a i l b j : b <> a \/ j <> i -> upd g a i l b j = g b j.
  Proof. intros [N|N]; unfold upd; apply Nat.eqb_neq in N; rewrite N; auto. now rewrite andb_false_r. Qed.

  Definition nlinks (g : nat -> nat -> L) (a n : nat) : list L := map (g a) (seq 0 n).
  Lemma nlinks_length g a n : length (nlinks g a n) = n.
  Proof. unfold nlinks. now rewrite map_length, seq_length. Qed.
  Lemma nlinks_nth g a n i : i < n -> nth_error (nlinks g a n) i = Some (g a i).
  Proof.
    intros Hi. unfold nlinks. rewrite nth_error_map.
    rewrite (nth_error_nth' _ 0) by now rewrite seq_length. now rewrite seq_nth.
  Qed.
  Lemma nlinks_ext g g' a n : (forall i, i < n -> g a i = g' a i) -> nlinks g a n = nlinks g' a n.
  Proof. intros E. apply map_ext_in. intros i Hi. apply in_seq in Hi. apply E. lia. Qed.
  Lemma nlinks_set g a n i l : i < n -> list_set (nlinks g a n) i l = nlinks (upd g a i l) a n.
  Proof.
    intros Hi. apply nth_error_ext'. intros j.
    rewrite list_set_nth, nlinks_length. destruct (Nat.eqb_spec i j) as [<-|N].
    - apply Nat.ltb_lt in Hi as Hi'. rewrite Hi', nlinks_nth, upd_same; auto.
    - destruct (Nat.lt_ge_cases j n).
      + rewrite !nlinks_nth, upd_other; auto.
      + rewrite !(proj2 (nth_error_None _ _)); auto; now rewrite nlinks_length.
  Qed.
  Lemma nlinks_const g a n z : (forall i, i < n -> g a i = z) -> nlinks g a n = repeat z n.
  Proof.
    intros E. apply nth_error_ext'. intros j. destruct (Nat.lt_ge_cases j n) as [Hj|Hj].
    - rewrite nlinks_nth, E, nth_error_repeat; auto.
    - rewrite !(proj2 (nth_error_None _ _)); auto; rewrite ?nlinks_length, ?repeat_length; auto.
  Qed.

  (** The memory holds the head node, the nodes of [X] and nothing else. *)
  Record srep (h : hp) (X : list item) (g : nat -> nat -> L) : Prop := {
    sr_head : nth_error h 0 = Some (Some (SN None (nlinks g 0 33)));
    sr_node : forall x, In x X -> nth_error h (ad x) = Some (Some (SN (Some (dt x)) (nlinks g (ad x) (S (ht x)))));
    sr_nodup : NoDup (0 :: map ad X);
    sr_ht : forall x, In x X -> ht x <= 32;
    sr_dead : forall a n, nth_error h a = Some (Some n) -> In a (0 :: map ad X)
  }.

  (** [a] is the head or a node of [X], with a link of level [i]. *)
  Definition onlevel X (a i : nat) : Prop := (a = 0 /\ i <= 32) \/ exists x, In x X /\ ad x = a /\ i <= ht x.

  Lemma onlevel_links h X g a i : srep h X g -> onlevel X a i ->
    exists d n, nth_error h a = Some (Some (SN d (nlinks g a n))) /\ i < n.
  Proof.
    intros R [[-> Hi]|(x & Hx & <- & Hi)].
    - exists None, 33. split; [apply (sr_head _ _ _ R)|lia].
    - exists (Some (dt x)), (S (ht x)). split; [now apply (sr_node _ _ _ R)|lia].
  Qed.

  Lemma get_link_ok h X g a i : srep h X g -> onlevel X a i -> get_link h a i = Ok (g a i).
  Proof.
    intros R V. destruct (onlevel_links _ _ _ _ _ R V) as (d & n & E & Hi).
    unfold get_link, read. rewrite E. simpl. now rewrite nlinks_nth.
  Qed.

  Lemma get_data_ok h X g x : srep h X g -> In x X -> get_data h (ad x) = Ok (dt x).
  Proof. intros R Hx. unfold get_data, read. now rewrite (sr_node _ _ _ R _ Hx). Qed.

  Lemma nodup_ad X x y : NoDup (map ad X) -> In x X -> In y X -> ad x = ad y -> x = y.
  Proof.
    induction X as [|z X IH]; simpl; [tauto|]. intros Nd. inversion Nd as [|? ? Nin Nd']; subst.
    intros [->|Hx] [->|Hy] E; auto.
    - destruct Nin. rewrite E. now apply in_map.
    - destruct Nin. rewrite <- E. now apply in_map.
  Qed.

  Lemma set_link_ok h X g a i l : srep h X g -> onlevel X a i ->
    exists h', set_link h a i l = Ok h' /\ srep h' X (upd g a i l) /\ length h' = length h.
  Proof.
    intros R V. destruct (onlevel_links _ _ _ _ _ R V) as (d & n & E & Hi).
    assert (Ha : a < length h) by (apply nth_error_Some; rewrite E; discriminate).
    apply Nat.ltb_lt in Ha as Ha'.
    unfold set_link, read. rewrite E. cbn [bind sn_links sn_data]. rewrite nlinks_length.
    apply Nat.ltb_lt in Hi as Hi'. rewrite Hi'. eexists. split; [reflexivity|]. split; [|apply list_set_length].
    rewrite nlinks_set by auto.
    split; try (now apply R).
    - rewrite list_set_nth, Ha'. destruct (Nat.eqb_spec a 0) as [Q|N].
      + subst a. pose proof (sr_head _ _ _ R) as E0. rewrite E in E0. injection E0 as -> E1.
        assert (n = 33) as -> by (rewrite <- (nlinks_length g 0 n), E1; apply nlinks_length). reflexivity.
      + rewrite (sr_head _ _ _ R). do 3 f_equal. apply nlinks_ext. intros. rewrite upd_other; auto.
    - intros x Hx. rewrite list_set_nth, Ha'. destruct (Nat.eqb_spec a (ad x)) as [Q|N].
      + subst a. pose proof (sr_node _ _ _ R _ Hx) as E0. rewrite E in E0. injection E0 as -> E1.
        assert (n = S (ht x)) as -> by (rewrite <- (nlinks_length g (ad x) n), E1; apply nlinks_length). reflexivity.
      + rewrite (sr_node _ _ _ R _ Hx). do 3 f_equal. apply nlinks_ext. intros. rewrite upd_other; auto.
    - intros b m Hb. rewrite list_set_nth, Ha' in Hb. destruct (Nat.eqb_spec a b) as [<-|N].
      + now apply (sr_dead _ _ _ R) in E.
      + now apply (sr_dead _ _ _ R) in Hb.
  Qed.

  Lemma srep_equiv h X X' g : Permutation X X' -> srep h X g -> srep h X' g.
  Proof.
    intros P R. assert (I : forall x, In x X' -> In x X) by (intros x; now apply Permutation_in, Permutation_sym).
    split; intros.
    - apply R.
    - apply R; auto.
    - eapply Permutation_NoDup; [|apply R]. now apply perm_skip, Permutation_map.
    - apply (sr_ht _ _ _ R); auto.
    - eapply Permutation_in; [|eapply R; eauto]. now apply perm_skip, Permutation_map.
  Qed.
  (** Links of levels that do not exist are irrelevant. *)
  Lemma srep_ext h X g g' : (forall a i, onlevel X a i -> g a i = g' a i) -> srep h X g -> srep h X g'.
  Proof.
    intros E R. split; try now apply R.
    - rewrite (sr_head _ _ _ R). do 3 f_equal. apply nlinks_ext. intros. apply E. left. lia.
    - intros x Hx. rewrite (sr_node _ _ _ R _ Hx). do 3 f_equal. apply nlinks_ext. intros. apply E.
      right. exists x. repeat split; auto; lia.
  Qed.

  Lemma srep_new z : srep (fst (alloc [] None (S max_height) z)) [] (fun _ _ => z).
  Proof.
    split; cbn [alloc fst app length map]; try (intros x []; fail).
    - reflexivity.
    - repeat constructor. intros [].
    - intros [|[|a]] n E; cbn in E; try discriminate. now left.
  Qed.

  Lemma alloc_ok h X g d hgt z : srep h X g -> hgt <= 32 ->
    let (h', a) := alloc h (Some d) (S hgt) z in
    srep h' (It a hgt d :: X) (fun b j => if b =? a then z else g b j) /\ length h' = S (length h)
    /\ ~ In a (0 :: map ad X).
  Proof.
    intros R Hh. unfold alloc.
    assert (F : forall b, In b (0 :: map ad X) -> b < length h).
    { intros b [<-|Hb]; apply nth_error_Some.
      - rewrite (sr_head _ _ _ R). discriminate.
      - apply in_map_iff in Hb as (x & <- & Hx). rewrite (sr_node _ _ _ R _ Hx). discriminate. }
    assert (Fr : ~ In (length h) (0 :: map ad X)) by (intros I; apply F in I; lia).
    split; [|split; [rewrite app_length; simpl; lia|auto]].
    split.
    - rewrite nth_error_app1 by (apply F; now left). rewrite (sr_head _ _ _ R). do 3 f_equal.
      apply nlinks_ext. intros. assert (0 < length h) by (apply F; now left).
      rewrite (proj2 (Nat.eqb_neq 0 (length h))); auto; lia.
    - intros x [<-|Hx]; cbn [ad ht dt].
      + rewrite nth_error_app2, Nat.sub_diag by lia. cbn [nth_error]. do 3 f_equal. symmetry.
        apply nlinks_const. intros. now rewrite Nat.eqb_refl.
      + assert (ad x < length h) by (apply F; right; now apply in_map).
        rewrite nth_error_app1 by auto. rewrite (sr_node _ _ _ R _ Hx). do 3 f_equal.
        apply nlinks_ext. intros. rewrite (proj2 (Nat.eqb_neq _ _)); auto; lia.
    - cbn [map ad]. eapply Permutation_NoDup; [apply perm_swap|]. constructor; auto. apply R.
    - intros x [<-|Hx]; auto. now apply (sr_ht _ _ _ R).
    - intros b n E. destruct (Nat.lt_ge_cases b (length h)).
      + rewrite nth_error_app1 in E by auto. apply (sr_dead _ _ _ R) in E as [->|E]; [now left|].
        right. now right.
      + destruct (Nat.eq_dec b (length h)) as [->|N]; [now right; left|].
        rewrite nth_error_app2 in E by auto. destruct (b - length h) as [|[|m]] eqn:Q; cbn in E; try discriminate. lia.
  Qed.

  Lemma dealloc_ok h X g x : srep h (x :: X) g ->
    exists h', dealloc h (ad x) = Ok h' /\ srep h' X g /\ length h' = length h.
  Proof.
    intros R. pose proof (sr_node _ _ _ R x (or_introl eq_refl)) as E.
    assert (Ha : ad x < length h) by (apply nth_error_Some; rewrite E; discriminate).
    apply Nat.ltb_lt in Ha. pose proof (sr_nodup _ _ _ R) as Nd. cbn [map] in Nd.
    inversion Nd as [|? ? N0 Nd']; subst. inversion Nd' as [|? ? N1 Nd'']; subst.
    unfold dealloc, read. rewrite E. eexists. split; [reflexivity|]. split; [|apply list_set_length].
    assert (O : forall a, a <> ad x -> nth_error (list_set h (ad x) None) a = nth_error h a).
    { intros a Na. rewrite list_set_nth. rewrite (proj2 (Nat.eqb_neq _ _)); auto. }
    split.
    - rewrite O by (intros Q; apply N0; now left). apply R.
    - intros y Hy. rewrite O. apply R; now right. intros Q. apply N1. rewrite <- Q. now apply in_map.
    - constructor; auto. intros I. apply N0. now right.
    - intros y Hy. apply (sr_ht _ _ _ R). now right.
    - intros a n Q. rewrite list_set_nth, Ha in Q. destruct (Nat.eqb_spec (ad x) a); [discriminate|].
      apply (sr_dead _ _ _ R) in Q as [Q|[Q|Q]]; [now left|contradiction|now right].
  Qed.

  Lemma set_data_ok h X Y g x d : srep h (X ++ x :: Y) g ->
    exists h', set_data h (ad x) d = Ok h' /\ srep h' (X ++ It (ad x) (ht x) d :: Y) g /\ length h' = length h.
  Proof.
    intros R. assert (Hx : In x (X ++ x :: Y)) by (apply in_app_iff; right; now left).
    pose proof (sr_node _ _ _ R x Hx) as E.
    assert (Ha : ad x < length h) by (apply nth_error_Some; rewrite E; discriminate).
    apply Nat.ltb_lt in Ha.
    assert (M : map ad (X ++ It (ad x) (ht x) d :: Y) = map ad (X ++ x :: Y)) by (rewrite !map_app; reflexivity).
    pose proof (sr_nodup _ _ _ R) as Nd. inversion Nd as [|? ? N0 Nd']; subst.
    assert (O : forall y, In y (X ++ It (ad x) (ht x) d :: Y) ->
                y = It (ad x) (ht x) d \/ (In y (X ++ x :: Y) /\ ad y <> ad x)).
    { rewrite map_app in Nd'. cbn [map] in Nd'. apply NoDup_remove_2 in Nd'.
      intros y Hy. apply in_app_iff in Hy as [Hy|[Hy|Hy]]; auto; right; split;
        try (apply in_app_iff; simpl; tauto); intros Q; apply Nd'; rewrite <- Q; apply in_app_iff; rewrite <- ?map_app;
        [left|right]; now apply in_map. }
    unfold set_data, read. rewrite E. eexists. split; [reflexivity|]. split; [|apply list_set_length].
    split.
    - rewrite list_set_nth. rewrite (proj2 (Nat.eqb_neq _ _)).
      + apply R.
      + intros Q. apply N0. rewrite <- Q. now apply in_map.
    - intros y Hy. apply O in Hy as [->|[Hy Ny]].
      + cbn [ad ht dt sn_links]. now rewrite list_set_nth, Nat.eqb_refl, Ha.
      + rewrite list_set_nth, (proj2 (Nat.eqb_neq _ _)) by auto. now apply R.
    - rewrite M. apply R.
    - intros y Hy. apply O in Hy as [->|[Hy Ny]]; [apply (sr_ht _ _ _ R x Hx)|now apply (sr_ht _ _ _ R)].
    - rewrite M. intros a n Q. rewrite list_set_nth, Ha in Q. destruct (Nat.eqb_spec (ad x) a) as [<-|].
      + now apply (sr_dead _ _ _ R) in E.
      + now apply (sr_dead _ _ _ R) in Q.
  Qed.

  (** The head alone. *)
  Lemma zero_links_ok h X g z : srep h X g ->
    exists h', zero_links h 0 z = Ok h' /\ srep h' X (fun b j => if b =? 0 then z else g b j) /\ length h' = length h.
  Proof.
    intros R. pose proof (sr_head _ _ _ R) as E.
    assert (Ha : 0 < length h) by (apply nth_error_Some; rewrite E; discriminate). apply Nat.ltb_lt in Ha.
    pose proof (sr_nodup _ _ _ R) as Nd. inversion Nd as [|? ? N0 Nd']; subst.
    unfold zero_links, read. rewrite E. eexists. split; [reflexivity|]. split; [|apply list_set_length].
    cbn [sn_links sn_data]. rewrite nlinks_length.
    split; try now apply R.
    - rewrite list_set_nth, Nat.eqb_refl, Ha. reflexivity.
    - intros x Hx. assert (N : ad x <> 0) by (intros Q; apply N0; rewrite <- Q; now apply in_map).
      rewrite list_set_nth, (proj2 (Nat.eqb_neq 0 (ad x))) by auto. rewrite (sr_node _ _ _ R _ Hx). do 3 f_equal.
      apply nlinks_ext. intros. now rewrite (proj2 (Nat.eqb_neq (ad x) 0)).
    - intros a n Q. rewrite list_set_nth, Ha in Q. destruct (Nat.eqb_spec 0 a) as [<-|]; [now left|].
      now apply (sr_dead _ _ _ R) in Q.
  Qed.

  (** Enough fuel. *)
  Lemma srep_length h X g : srep h X g -> length X < length h.
  Proof.
    intros R. assert (I : incl (0 :: map ad X) (seq 0 (length h))).
    { intros b Hb. apply in_seq. split; [lia|]. apply nth_error_Some. destruct Hb as [<-|Hb].
      - rewrite (sr_head _ _ _ R). discriminate.
      - apply in_map_iff in Hb as (x & <- & Hx). rewrite (sr_node _ _ _ R _ Hx). discriminate. }
    apply NoDup_incl_length in I; [|apply R]. rewrite seq_length in I. cbn [length] in I. rewrite map_length in I. lia.
  Qed.

  (** The number of live nodes. *)
  Lemma live_nodes_set_none (h : hp) : forall a n, nth_error h a = Some (Some n) ->
    live_nodes h = S (live_nodes (list_set h a None)).
  Proof.
    induction h as [|c h IH]; intros [|a] n E; try discriminate.
    - injection E as ->. reflexivity.
    - cbn [list_set]. unfold live_nodes in *. cbn [filter]. destruct c; cbn [length]; now rewrite (IH _ _ E).
  Qed.
  Lemma live_none (h : hp) : (forall a n, nth_error h a = Some (Some n) -> False) -> live_nodes h = 0.
  Proof.
    induction h as [|c h IH]; intros E; auto. unfold live_nodes. cbn [filter]. destruct c as [n|].
    - now destruct (E 0 n).
    - apply IH. intros a n. apply (E (S a) n).
  Qed.
  Lemma live_nodes_by (as_ : list nat) : NoDup as_ -> forall h,
    (forall a, In a as_ <-> exists n, nth_error h a = Some (Some n)) -> live_nodes h = length as_.
  Proof.
    induction 1 as [|a as_ Na Nd IH]; intros h E.
    - apply live_none. intros a n Q. apply (E a). eauto.
    - destruct (proj1 (E a) (or_introl eq_refl)) as [n Q]. rewrite (live_nodes_set_none _ _ _ Q).
      cbn [length]. f_equal. apply IH. intros b. rewrite list_set_nth.
      destruct (Nat.eqb_spec a b) as [<-|Nb].
      + split; [contradiction|]. intros [m M]. destruct (_ <? _); discriminate.
      + rewrite <- E. cbn [In]. intuition congruence.
  Qed.
  Lemma srep_live h X g : srep h X g -> live_nodes h = S (length X).
  Proof.
    intros R. rewrite (live_nodes_by (0 :: map ad X)); [cbn [length]; now rewrite map_length|apply R|].
    intros a. split.
    - intros [<-|Ha]; [exists (SN None (nlinks g 0 33)); apply R|].
      apply in_map_iff in Ha as (x & <- & Hx). eexists. now apply R.
    - intros [n E]. eapply R; eauto.
  Qed.

  Definition ishape x := (ad x, ht x).
  Lemma shape_ad X Y : map ishape X = map ishape Y -> map ad X = map ad Y.
  Proof.
    intros E. assert (Q : forall Z, map ad Z = map fst (map ishape Z)) by (intros Z; now rewrite map_map). now rewrite !Q, E.
  Qed.

  (** Freeing.  [nodes h X g]: the nodes of [X] are in memory. *)
  Definition nodes h X g : Prop :=
    NoDup (map ad X) /\ forall x, In x X -> nth_error h (ad x) = Some (Some (SN (Some (dt x)) (nlinks g (ad x) (S (ht x))))).
  Lemma nodes_head h x X g : nodes h (x :: X) g ->
    get_data h (ad x) = Ok (dt x) /\ get_link h (ad x) 0 = Ok (g (ad x) 0)
    /\ (exists n, read h (ad x) = Ok n /\ length (sn_links n) = S (ht x))
    /\ dealloc h (ad x) = Ok (list_set h (ad x) None) /\ nodes (list_set h (ad x) None) X g.
  Proof.
    intros [Nd N]. pose proof (N x (or_introl eq_refl)) as E. cbn [map] in Nd. inversion Nd as [|? ? N0 N1]; subst.
    unfold get_data, get_link, dealloc, read. rewrite E. cbn [bind sn_data sn_links].
    split; [reflexivity|]. split; [now rewrite nlinks_nth by lia|].
    split; [eexists; split; [reflexivity|apply nlinks_length]|]. split; [reflexivity|]. split; auto.
    intros y Hy. rewrite list_set_nth, (proj2 (Nat.eqb_neq _ _)); [apply N; now right|].
    intros Q. apply N0. rewrite Q. now apply in_map.
  Qed.
  Lemma srep_nodes h X g : srep h X g -> nodes h X g.
  Proof. intros R. split; [|apply R]. pose proof (sr_nodup _ _ _ R) as Nd. now inversion Nd. Qed.

  (** The memory after freeing the nodes at [l]. *)
  Definition freed h (l : list nat) h' : Prop :=
    length h' = length h /\ forall a, nth_error h' a = if in_dec Nat.eq_dec a l then Some None else nth_error h a.
  Lemma freed_step h h' x X g : nodes h (x :: X) g -> freed (list_set h (ad x) None) (map ad X) h' -> freed h (map ad (x :: X)) h'.
  Proof.
    intros N [Lh F]. split; [now rewrite Lh, list_set_length|]. intros a. rewrite F, list_set_nth. cbn [map].
    destruct (in_dec Nat.eq_dec a (map ad X)) as [I|I], (in_dec Nat.eq_dec a (ad x :: map ad X)) as [J|J]; auto.
    - destruct J. now right.
    - destruct J as [<-|J]; [|contradiction]. rewrite Nat.eqb_refl.
      assert (ad x < length h) as W by (apply nth_error_Some; rewrite (proj2 N x (or_introl eq_refl)); discriminate).
      apply Nat.ltb_lt in W. now rewrite W.
    - rewrite (proj2 (Nat.eqb_neq _ _)); auto. intros Q. destruct J. left. auto.
  Qed.

  Lemma dealloc_head h X g : srep h X g ->
    dealloc h 0 = Ok (list_set h 0 None) /\ nodes (list_set h 0 None) X g
    /\ forall a n, nth_error (list_set h 0 None) a = Some (Some n) -> In a (map ad X).
  Proof.
    intros Rp. pose proof (sr_head _ _ _ Rp) as E0. unfold dealloc, read. rewrite E0. split; [reflexivity|].
    pose proof (sr_nodup _ _ _ Rp) as Nd. inversion Nd as [|? ? N0 N1]; subst. split.
    - split; auto. intros x Hx. rewrite list_set_nth, (proj2 (Nat.eqb_neq _ _)); [now apply Rp|].
      intros Q. apply N0. rewrite Q. now apply in_map.
    - intros a n E. rewrite list_set_nth in E. destruct (Nat.eqb_spec 0 a) as [<-|Na].
      + destruct (_ <? _); discriminate.
      + apply (sr_dead _ _ _ Rp) in E as [E|E]; [contradiction|exact E].
  Qed.

  Lemma freed_all h h' (l : list nat) : (forall a n, nth_error h a = Some (Some n) -> In a l) -> freed h l h' -> live_nodes h' = 0.
  Proof.
    intros A [_ F]. apply live_none. intros a n E. rewrite F in E. destruct (in_dec _ _ _); [discriminate|]. eauto.
  Qed.
End Heap.

(** ** Levels.  [f a i] is the node that link [i] of [a] points to. *)
Section Levels.
  Context {D : Type}.
  Notation item := (sitem D).
  Implicit Types (X Y A B : list item) (x y : item) (f : nat -> nat -> option nat).

  (** Level [i], from node [a], runs through the items of [X] that reach level [i], and then points to [e]. *)
  Fixpoint seg f (i a : nat) X (e : option nat) : Prop :=
    match X with
    | [] => f a i = e
    | x :: X' => if i <=? ht x then f a i = Some (ad x) /\ seg f i (ad x) X' e else seg f i a X' e
    end.
  (** The last node of level [i]. *)
  Fixpoint last_at (i a : nat) X : nat :=
    match X with [] => a | x :: X' => last_at i (if i <=? ht x then ad x else a) X' end.
  Fixpoint first_or (i : nat) X (e : option nat) : option nat :=
    match X with [] => e | x :: X' => if i <=? ht x then Some (ad x) else first_or i X' e end.

  Lemma seg_first f i X : forall a e, seg f i a X e -> f a i = first_or i X e.
  Proof. induction X as [|x X IH]; simpl; intros a e; auto. destruct (_ <=? _); [tauto|auto]. Qed.
  Lemma seg_app f i X Y : forall a e, seg f i a (X ++ Y) e <-> seg f i a X (first_or i Y e) /\ seg f i (last_at i a X) Y e.
  Proof.
    induction X as [|x X IH]; intros a e; simpl.
    - split; [|tauto]. intros S. split; auto. now apply seg_first.
    - destruct (_ <=? _); rewrite IH; tauto.
  Qed.
  Lemma last_at_app i X Y : forall a, last_at i a (X ++ Y) = last_at i (last_at i a X) Y.
  Proof. induction X as [|x X IH]; intros a; simpl; auto. Qed.
  Lemma first_or_app i X Y e : first_or i (X ++ Y) e = first_or i X (first_or i Y e).
  Proof. induction X as [|x X IH]; simpl; auto. now destruct (_ <=? _). Qed.
  Lemma last_at_in i X : forall a, last_at i a X = a \/ exists x, In x X /\ last_at i a X = ad x /\ i <= ht x.
  Proof.
    induction X as [|x X IH]; intros a; simpl; auto. destruct (Nat.leb_spec i (ht x)).
    - destruct (IH (ad x)) as [E|(y & Hy & E & Q)]; right; [exists x|exists y]; auto.
    - destruct (IH a) as [E|(y & Hy & E & Q)]; auto. right. exists y. auto.
  Qed.
  Lemma last_at_onlevel i X Y : i <= 32 -> incl X Y -> onlevel Y (last_at i 0 X) i.
  Proof.
    intros Hi I. destruct (last_at_in i X 0) as [->|(x & Hx & -> & Q)]; [left; auto|].
    right. exists x. auto.
  Qed.
  Lemma first_or_in i X e : first_or i X e = e \/ exists x, In x X /\ first_or i X e = Some (ad x) /\ i <= ht x.
  Proof.
    induction X as [|x X IH]; simpl; auto. destruct (Nat.leb_spec i (ht x)).
    - right. exists x. auto.
    - destruct IH as [E|(y & Hy & E & Q)]; auto. right. exists y. auto.
  Qed.
  Lemma first_or_0 X : first_or 0 X None = option_map ad (hd_error X).
  Proof. destruct X; reflexivity. Qed.
  Lemma last_at_none i X a : (forall x, In x X -> ht x < i) -> last_at i a X = a.
  Proof.
    induction X as [|x X IH]; intros E; simpl; auto. destruct (Nat.leb_spec i (ht x)).
    - specialize (E x (or_introl eq_refl)). lia.
    - apply IH. intros. apply E. now right.
  Qed.

  Lemma seg_frame f f' i X : forall a e, (forall b, b = a \/ In b (map ad X) -> f' b i = f b i) ->
    seg f i a X e -> seg f' i a X e.
  Proof.
    induction X as [|x X IH]; simpl; intros a e E.
    - intros <-. auto.
    - destruct (_ <=? _).
      + intros [Q S]. split; [rewrite E; auto|]. apply IH; auto. intros b [->|Hb]; auto.
      + apply IH. intros b [->|Hb]; auto.
  Qed.

  (** Changing the last link of a stretch. *)
  Lemma seg_end f f' i X : forall a e e', NoDup (a :: map ad X) ->
    (forall b, b <> last_at i a X -> b = a \/ In b (map ad X) -> f' b i = f b i) ->
    f' (last_at i a X) i = e' -> seg f i a X e -> seg f' i a X e'.
  Proof.
    induction X as [|x X IH]; simpl; intros a e e' Nd E Q; auto.
    inversion Nd as [|? ? N0 Nd']; subst. inversion Nd' as [|? ? N1 Nd'']; subst. simpl in N0.
    destruct (Nat.leb_spec i (ht x)) as [Hi|Hi].
    - intros [S0 S]. split.
      + rewrite E; auto. intros W.
        destruct (last_at_in i X (ad x)) as [E1|(y & Hy & E1 & _)].
        * apply N0. left. congruence.
        * apply N0. right. rewrite W, E1. now apply in_map.
      + eapply IH; eauto. intros b Nb [->|Hb]; apply E; auto.
    - intros S. eapply IH; eauto.
      + constructor; auto.
      + intros b Nb [->|Hb]; apply E; auto.
  Qed.

  (** Replacing what follows a stretch. *)
  Lemma seg_splice f f' i Lo R R' : NoDup (0 :: map ad Lo) ->
    (forall b, b <> last_at i 0 Lo -> b = 0 \/ In b (map ad Lo) -> f' b i = f b i) ->
    seg f i 0 (Lo ++ R) None -> seg f' i (last_at i 0 Lo) R' None -> seg f' i 0 (Lo ++ R') None.
  Proof.
    intros Nd E S S'. apply seg_app in S as [S _]. apply seg_app. split; auto.
    eapply seg_end; eauto. now apply seg_first.
  Qed.

  (** The position reached at level [i + 1] is a good start for level [i]. *)
  Lemma last_split i X : forall a, exists A B, X = A ++ B /\ (forall x, In x B -> ht x < S i)
    /\ last_at (S i) a X = last_at i a A.
  Proof.
    induction X as [|x X IH] using rev_ind; intros a.
    - exists [], []. repeat split; auto. intros x [].
    - rewrite last_at_app. cbn [last_at]. destruct (Nat.leb_spec (S i) (ht x)) as [Hi|Hi].
      + exists (X ++ [x]), []. rewrite app_nil_r. repeat split; [intros y []|].
        rewrite last_at_app. cbn [last_at]. rewrite (proj2 (Nat.leb_le i (ht x))); auto. lia.
      + destruct (IH a) as (A & B & -> & HB & E). exists A, (B ++ [x]). rewrite app_assoc. repeat split; auto.
        intros y Hy. apply in_app_iff in Hy as [Hy|[<-|[]]]; auto.
  Qed.
  Lemma seg_from_above f i Lo R : seg f i 0 (Lo ++ R) None ->
    exists A B, Lo = A ++ B /\ seg f i (last_at (S i) 0 Lo) (B ++ R) None /\ last_at i (last_at (S i) 0 Lo) B = last_at i 0 Lo.
  Proof.
    intros S. destruct (last_split i Lo 0) as (A & B & -> & HB & E). exists A, B. rewrite E.
    rewrite <- app_assoc in S. apply seg_app in S as [_ S].
    split; auto. split; auto. now rewrite last_at_app.
  Qed.

  Lemma seg_skip f i Lo M R e : (forall x, In x M -> ht x < i) -> forall a,
    seg f i a (Lo ++ M ++ R) e <-> seg f i a (Lo ++ R) e.
  Proof.
    intros HM a. rewrite !seg_app.
    assert (E : first_or i M (first_or i R e) = first_or i R e).
    { destruct (first_or_in i M (first_or i R e)) as [->|(x & Hx & _ & Q)]; auto. apply HM in Hx. lia. }
    rewrite first_or_app, E, (last_at_none i M) by auto. split; [|intros [S S']]; [tauto|].
    split; auto. split; auto.
    clear -HM S'. induction M as [|x M IH]; simpl.
    - now apply seg_first.
    - destruct (Nat.leb_spec i (ht x)); [|apply IH; intros; apply HM; now right].
      specialize (HM x (or_introl eq_refl)). lia.
  Qed.
End Levels.
