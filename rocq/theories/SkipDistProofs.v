(** Proofs about the distances in SkipListModel.v. *)
From Coq Require Import Permutation.
From Verif Require Export SkipListProofs SkipListAddProofs SkipDistSpec.

Section Dist.
  Context {T : Type}.
  Notation link := (option nat * nat)%type.
  Notation item := (sitem T).
  Notation links := (nat -> nat -> link).
  Implicit Types (X Y Lo Hi : list item) (x y : item) (g : links) (m : skip_list T).

  (** [sl_at] with the excess *)
  Definition sl_in (e : nat -> nat) m X : Prop := exists g, sl_ok (sl_heap m) X g e /\ sl_len m = length X.

  Lemma insert_in e m X i v d : sl_in e m X -> i <= length X ->
    exists m' a, slist_insert m i v d = Ok (m', QDone (Ok tt)) /\ sl_in e m' (insert_nth i (It a (height_of d) v) X).
  Proof.
    intros (g & (Rp & E0 & HL) & Ln) Hi. unfold slist_insert.
    rewrite (proj2 (Nat.leb_le _ _)) by (rewrite Ln; auto).
    destruct (skip_split X i Hi) as (Lo & Hi' & -> & Hlo).
    pose proof (alloc_ok _ _ _ v (height_of d) null_link Rp (height_of_le d)) as Al.
    destruct (alloc (sl_heap m) (Some v) (S (height_of d)) null_link) as [h1 a]. destruct Al as (R1 & L1 & Fr).
    set (n := It a (height_of d) v) in *.
    set (g1 := fun b j => if b =? a then null_link else g b j) in *.
    assert (HL1 : forall j, j <= 32 -> links_ok g1 j (e j) 0 (Lo ++ Hi')).
    { intros j Hj. eapply links_frame; [|apply (HL j Hj)]. intros b Hb. unfold g1.
      rewrite (proj2 (Nat.eqb_neq b a)); auto. intros ->. apply Fr. destruct Hb as [->|Hb]; [now left|now right]. }
    destruct (top_start _ _ _ Lo i R1) as [T1 T2]; [intros x Hx; right; apply in_app_iff; auto|auto|].
    destruct (linsert_loop_ok n Lo Hi' e Fr 32 h1 g1 (repeat (0, 0) 33) (le_n 32) R1 eq_refl HL1)
      as (h2 & last & E2 & R2 & Ll & P2 & _).
    unfold max_height. rewrite T1, T2 in E2. change (ad n) with a in E2. change (ht n) with (height_of d) in E2.
    rewrite E2. cbn [bind]. rewrite (P2 0 ltac:(lia)). cbn [expect bind]. rewrite gap_zero, Nat.sub_0_r.
    destruct (ldist_loop_ok n Lo Hi' Fr last P2 32 1 h2 _ eq_refl R2) as (h3 & E3 & R3).
    { intros j Hj. unfold phase1. rewrite (proj2 (Nat.leb_le j 32)), (proj2 (Nat.leb_le j (ht n))) by (pose proof (height_of_le d); cbn [n ht] in *; lia).
      cbn [andb]. rewrite (proj2 (Nat.eqb_neq (ad n) _)) by (apply not_eq_sym, (la_neq n Lo Hi' Fr)). rewrite Nat.eqb_refl.
      rewrite (links_last _ _ (e j) Lo Hi'); [cbn [snd]; lia|]. apply HL1. pose proof (height_of_le d). cbn [n ht] in *; lia. }
    change (ad n) with a in E3. change (ht n) with (height_of d) in E3. rewrite E3. cbn [bind].
    eexists. exists a. split; [reflexivity|].
    assert (EX : insert_nth i n (Lo ++ Hi') = Lo ++ n :: Hi').
    { unfold insert_nth. rewrite <- Hlo, firstn_app, skipn_app, Nat.sub_diag. rewrite firstn_all2, skipn_all2 by lia.
      cbn [firstn skipn app]. now rewrite app_nil_r. }
    fold n. rewrite EX.
    exists (phase2 n Lo 1 (phase1 n Lo 32 g1)). cbn [sl_heap sl_len]. split; [split; [|split; [auto|]]|].
    - eapply srep_equiv; [apply Permutation_middle|exact R3].
    - intros j Hj. apply (inserted_links n Lo Hi' e Fr g1 j); auto. apply Rp.
    - rewrite Ln, !app_length. cbn [length]. lia.
  Qed.
  Lemma remove_in e m X i y : sl_in e m X -> nth_error X i = Some y ->
    exists m', slist_remove m i = Ok (m', QVal (Ok (dt y))) /\ sl_in (worn y (skipn (S i) X) e) m' (remove_nth i X).
  Proof.
    intros (g & (Rp & E0 & HL) & Ln) Ey.
    assert (Hi : i < length X) by (apply nth_error_Some; congruence).
    unfold slist_remove. rewrite (proj2 (Nat.ltb_lt _ _)) by (rewrite Ln; auto).
    destruct (nth_split' _ _ _ Ey) as (Lo & Hi' & -> & Hlo).
    destruct (top_start _ _ _ Lo i Rp) as [T1 T2]; [intros x Hx; apply in_app_iff; auto|auto|].
    destruct (lremove_loop_ok y Lo Hi' e 32 (sl_heap m) g (le_n 32) Rp HL) as (h2 & g2 & E2 & R2 & L2); [intros; lia|].
    rewrite T1, T2 in E2. unfold max_height. rewrite E2. cbn [bind]. rewrite Ln, app_length. cbn [length].
    rewrite Nat.add_succ_r. cbn [checked_pred bind]. eexists. split; [reflexivity|].
    assert (EX : remove_nth i (Lo ++ y :: Hi') = Lo ++ Hi').
    { unfold remove_nth. rewrite <- Hlo, firstn_app, skipn_app, Nat.sub_diag. replace (S (length Lo) - length Lo) with 1 by lia.
      rewrite firstn_all2, skipn_all2 by lia. cbn [firstn skipn app]. now rewrite app_nil_r. }
    assert (ES : skipn (S i) (Lo ++ y :: Hi') = Hi').
    { rewrite <- Hlo, skipn_app. replace (S (length Lo) - length Lo) with 1 by lia. now rewrite skipn_all2 by lia. }
    rewrite ES, EX. exists g2. cbn [sl_heap sl_len]. split; [split; [auto|split; [|auto]]|].
    - unfold worn. cbn. exact E0.
    - now rewrite app_length.
  Qed.
  Lemma get_mut_in e m X k v : sl_in e m X ->
    exists m' X', slist_get_mut m k v = Ok (m', nth_error (map dt X) k) /\ sl_in e m' X' /\ map ishape X' = map ishape X
      /\ map dt X' = set_nth k v (map dt X).
  Proof.
    intros (g & Ok' & Ln). unfold slist_get_mut. rewrite (slist_find_ok _ _ _ _ _ Ok'). cbn [bind].
    rewrite nth_error_map. unfold set_nth. destruct (nth_error X k) as [y|] eqn:Ey; cbn [option_map].
    - rewrite (get_data_ok _ _ _ y (proj1 Ok')) by (now apply nth_error_In in Ey). cbn [bind].
      assert (Hk : k < length X) by (apply nth_error_Some; congruence).
      destruct (nth_split' _ _ _ Ey) as (Lo & Hi & -> & Hlo). destruct Ok' as (Rp & E0 & HL).
      destruct (set_data_ok _ _ _ _ _ v Rp) as (h' & E & R' & _). rewrite E. cbn [bind].
      eexists. exists (Lo ++ It (ad y) (ht y) v :: Hi). split; [reflexivity|].
      rewrite map_length, (proj2 (Nat.ltb_lt _ _)) by auto.
      split; [exists g; cbn [sl_heap sl_len]; split; [split; [auto|split; [auto|]]|]|split].
      + intros i Hi32. eapply links_shape; [|apply (HL i Hi32)]. rewrite !map_app. reflexivity.
      + rewrite Ln, !app_length. reflexivity.
      + rewrite !map_app. reflexivity.
      + rewrite <- Hlo, !map_app. cbn [map dt]. rewrite firstn_app, skipn_app, !map_length, Nat.sub_diag.
        replace (S (length Lo) - length Lo) with 1 by lia.
        rewrite firstn_all2, skipn_all2 by (rewrite map_length; lia). cbn [firstn skipn app]. now rewrite app_nil_r.
    - exists m, X. split; [reflexivity|]. rewrite map_length. rewrite (proj2 (Nat.ltb_ge _ _)) by now apply nth_error_None.
      split; [exists g; auto|auto].
  Qed.
  Lemma iter_mut_in e m X vs : sl_in e m X ->
    exists m' X', slist_iter_mut m vs = Ok (m', firstn (length vs) (map dt X)) /\ sl_in e m' X' /\ map ishape X' = map ishape X
      /\ map dt X' = written (map dt X) vs.
  Proof.
    intros (g & HO & Ln). unfold slist_iter_mut. destruct (lhead _ _ _ _ HO) as [-> E]. cbn [bind].
    rewrite E. pose proof (sl_chain _ _ _ _ HO) as Ch. destruct HO as (Rp & E0 & HL).
    destruct (litermut_from_ok X (sl_heap m) [] g vs Rp Ch) as (h' & X' & E' & R' & Sh & D').
    rewrite E'. cbn [bind]. eexists. exists X'. split; [reflexivity|]. split; [|auto]. exists g. cbn [sl_heap sl_len].
    split; [split; [exact R'|split; auto]|].
    - intros i Hi. eapply links_shape; [|apply (HL i Hi)]. exact (eq_sym Sh).
    - rewrite Ln. now rewrite <- (map_length ishape X'), Sh, map_length.
  Qed.

  Lemma first_le i e X : snd (first i e X) <= length X + e.
  Proof.
    induction X as [|x X IH]; cbn [first length]; [cbn; lia|]. destruct (i <=? ht x); [cbn; lia|]. destruct (first i e X). cbn [snd] in *. lia.
  Qed.
  Lemma tall_le g i e x : forall X, In x X -> i <= ht x -> tall_ok g i e X [] -> snd (g (ad x) i) <= length X + e.
  Proof.
    induction X as [|y X IH]; intros Hx Hi TL; [destruct Hx|]. cbn [tall_ok length] in *. destruct TL as [Q TL]. destruct Hx as [->|Hx].
    - rewrite Q, app_nil_r by auto. pose proof (first_le i e X). lia.
    - specialize (IH Hx Hi TL). lia.
  Qed.
  Lemma stored_le e m X a i l : sl_in e m X -> get_link (sl_heap m) a i = Ok l -> i <= 32 /\ snd l <= length X + e i.
  Proof.
    intros (g & (Rp & _ & HL) & _) E.
    assert (On : onlevel X a i).
    { unfold get_link, read in E. destruct (nth_error (sl_heap m) a) as [[n|]|] eqn:Ea; try discriminate. cbn [bind] in E.
      pose proof (sr_dead _ _ _ Rp _ _ Ea) as [<-|Ha].
      - left. rewrite (sr_head _ _ _ Rp) in Ea. injection Ea as <-. cbn [sn_links] in E. split; auto.
        destruct (Nat.le_gt_cases i 32); auto. rewrite (proj2 (nth_error_None _ _)) in E; [discriminate|]. rewrite nlinks_length. lia.
      - right. apply in_map_iff in Ha as (x & <- & Hx). exists x. rewrite (sr_node _ _ _ Rp x Hx) in Ea. injection Ea as <-. cbn [sn_links] in E.
        repeat split; auto. destruct (Nat.le_gt_cases i (ht x)); auto. rewrite (proj2 (nth_error_None _ _)) in E; [discriminate|]. rewrite nlinks_length. lia. }
    rewrite (get_link_ok _ _ _ _ _ Rp On) in E. injection E as <-. destruct On as [[-> Hi]|(x & Hx & <- & Hi)].
    - split; auto. rewrite (proj1 (HL i Hi)). apply first_le.
    - pose proof (sr_ht _ _ _ Rp x Hx). split; [lia|]. apply tall_le; auto. apply HL. lia.
  Qed.

  (** ** All distances are at most [b]. *)
  Definition dist_ok (b : nat) m (l : list T) : Prop := exists X e, sl_in e m X /\ map dt X = l /\ forall i, length X + e i <= b.
  Lemma dist_rel b m l : dist_ok b m l -> sl_rel true m l.
  Proof.
    intros (X & e & (g & HO & Ln) & <- & _). exists X, g, e. rewrite map_length. split; [auto|]. split; [auto|]. split; [auto|discriminate].
  Qed.
  Lemma dist_more b b' m l : b <= b' -> dist_ok b m l -> dist_ok b' m l.
  Proof. intros Hb (X & e & A & D & B). exists X, e. split; [auto|]. split; [auto|]. intros i. specialize (B i). lia. Qed.
  Lemma fresh_dist b m : sl_rel false m [] -> dist_ok b m [].
  Proof.
    intros (X & g & e & HO & D & Ln & He). destruct X; [|discriminate]. exists [], e. split; [exists g; auto|]. split; [auto|].
    intros i. rewrite (He eq_refl). cbn. lia.
  Qed.
  Lemma dist_stored b m l a i k : dist_ok b m l -> get_link (sl_heap m) a i = Ok k -> snd k <= b.
  Proof. intros (X & e & A & _ & B) E. destruct (stored_le _ _ _ _ _ _ A E) as [_ Q]. specialize (B i). lia. Qed.

  Lemma dist_insert b m l i v d : dist_ok b m l ->
    exists m', slist_insert m i v d = Ok (m', snd (seq_insert l i v)) /\ dist_ok (b + 1) m' (fst (seq_insert l i v)).
  Proof.
    intros (X & e & A & <- & B). unfold seq_insert. rewrite map_length. destruct (Nat.leb_spec i (length X)) as [Hi|Hi].
    - destruct (insert_in e m X i v d A Hi) as (m' & a & E & A'). exists m'. split; [exact E|]. exists (insert_nth i (It a (height_of d) v) X), e.
      split; [exact A'|]. cbn [fst]. rewrite map_insert_nth. split; [reflexivity|]. intros j. specialize (B j).
      unfold insert_nth. rewrite app_length. cbn [length]. rewrite firstn_length, skipn_length. lia.
    - destruct A as (g & HO & Ln). exists m. unfold slist_insert. rewrite Ln, (proj2 (Nat.leb_gt _ _)) by auto. split; [reflexivity|].
      exists X, e. split; [exists g; auto|]. split; [auto|]. intros j. specialize (B j). lia.
  Qed.
  Lemma worn_le y Hi' e j : worn y Hi' e j <= S (e j).
  Proof. unfold worn. destruct (has_tall _ _); lia. Qed.
  Lemma dist_remove b m l i : dist_ok b m l ->
    exists m', slist_remove m i = Ok (m', snd (seq_remove l i)) /\ dist_ok b m' (fst (seq_remove l i)).
  Proof.
    intros (X & e & A & <- & B). unfold seq_remove. rewrite nth_error_map. destruct (nth_error X i) as [y|] eqn:Ey; cbn [option_map].
    - destruct (remove_in e m X i y A Ey) as (m' & E & A'). exists m'. split; [exact E|]. eexists _, _. split; [exact A'|]. cbn [fst].
      rewrite map_remove_nth. split; [reflexivity|]. intros j. specialize (B j). pose proof (worn_le y (skipn (S i) X) e j).
      assert (i < length X) by (apply nth_error_Some; congruence).
      unfold remove_nth. rewrite app_length, firstn_length, skipn_length. lia.
    - apply nth_error_None in Ey. destruct A as (g & HO & Ln). exists m. unfold slist_remove. rewrite Ln, (proj2 (Nat.ltb_ge _ _)) by auto.
      split; [reflexivity|]. exists X, e. split; [exists g; auto|]. auto.
  Qed.

  Lemma same_length X X' : map ishape X' = map ishape X -> length X' = length X.
  Proof. intros Q. now rewrite <- (map_length ishape X'), Q, map_length. Qed.
  Lemma dist_get_mut b m l k v : dist_ok b m l -> exists m', slist_get_mut m k v = Ok (m', nth_error l k) /\ dist_ok b m' (set_nth k v l).
  Proof.
    intros (X & e & A & <- & B). destruct (get_mut_in e m X k v A) as (m' & X' & E & A' & Sh & D). exists m'. split; [exact E|].
    exists X', e. split; [auto|]. split; [auto|]. rewrite (same_length _ _ Sh). auto.
  Qed.
  Lemma dist_iter_mut b m l vs : dist_ok b m l -> exists m', slist_iter_mut m vs = Ok (m', firstn (length vs) l) /\ dist_ok b m' (written l vs).
  Proof.
    intros (X & e & A & <- & B). destruct (iter_mut_in e m X vs A) as (m' & X' & E & A' & Sh & D). exists m'. split; [exact E|].
    exists X', e. split; [auto|]. split; [auto|]. rewrite (same_length _ _ Sh). auto.
  Qed.

  Lemma dist_step b m l (o : seq_op T) d : dist_ok b m l ->
    exists m', slist_step m (o, d) = Ok (m', snd (seq_spec_step l o)) /\ dist_ok (b + if inserts o then 1 else 0) m' (fst (seq_spec_step l o)).
  Proof.
    intros A. pose proof (dist_rel _ _ _ A) as R. pose proof (sl_rel_len _ _ _ R) as Ln.
    destruct o; cbn [slist_step seq_spec_step inserts]; rewrite ?Nat.add_0_r.
    - now apply dist_insert.
    - now apply dist_remove.
    - destruct (dist_insert b m l 0 v d A) as (m' & E & R'). exists m'. rewrite E. split; auto.
    - destruct (dist_insert b m l (length l) v d A) as (m' & E & R'). exists m'. rewrite Ln, E. unfold seq_insert in *.
      rewrite Nat.leb_refl in *. cbn [fst snd] in *. rewrite insert_nth_length in R'. auto.
    - destruct (dist_remove b m l 0 A) as (m' & E & R'). exists m'. rewrite E. unfold seq_remove in *. destruct l; auto.
    - destruct l as [|x l].
      + exists m. rewrite Ln. cbn. auto.
      + rewrite Ln. unfold checked_sub. cbn [length Nat.leb]. destruct (dist_remove b m (x :: l) (S (length l) - 1) A) as (m' & E & R').
        exists m'. rewrite E. unfold seq_remove in *. destruct (remove_nth_last (x :: l)) as [Q1 Q2]; [discriminate|].
        cbn [length] in *. rewrite Q1, Q2 in *.
        destruct (last_error (x :: l)) as [y|] eqn:El; [|now apply last_error_none in El]. auto.
    - rewrite (slist_get_ok _ _ _ _ R). exists m. auto.
    - destruct (dist_get_mut _ _ _ i v A) as (m' & E & R'). rewrite E. exists m'. auto.
    - rewrite (slist_get_ok _ _ _ _ R). exists m. auto.
    - destruct (dist_get_mut _ _ _ i v A) as (m' & E & R'). rewrite E. exists m'. auto.
    - rewrite Ln. exists m. auto.
    - rewrite Ln. exists m. auto.
    - destruct (slist_clear_ok _ _ _ R) as (m' & E & R'). rewrite E. exists m'. split; auto. now apply fresh_dist.
    - rewrite (slist_iter_ok _ _ _ R). exists m. auto.
    - destruct (dist_iter_mut _ _ _ vs A) as (m' & E & R'). rewrite E. exists m'. auto.
    - destruct (slist_into_iter_ok _ _ _ (length (sl_heap m)) R) as (h & E & _). rewrite E. cbn [bind].
      pose proof (sl_rel_heap _ _ _ R). rewrite firstn_all2 by lia. exists slist_new. split; auto. apply fresh_dist, sl_rel_new.
  Qed.
  Lemma dist_run : forall (ops : list (seq_op T * N)) b m l, dist_ok b m l ->
    exists m' outs, run slist_step m ops = Ok (m', outs) /\ dist_ok (b + insertions (map fst ops)) m' (fst (spec_run seq_spec_step l (map fst ops))).
  Proof.
    induction ops as [|[o d] ops IH]; intros b m l A; cbn [run map fst].
    - exists m, []. split; [reflexivity|]. unfold insertions. cbn. now rewrite Nat.add_0_r.
    - destruct (dist_step b m l o d A) as (m1 & E & A1). rewrite E. cbn [bind].
      destruct (IH _ _ _ A1) as (m2 & outs & E2 & A2). rewrite E2. cbn [bind]. eexists m2, _. split; [reflexivity|].
      cbn [spec_run]. destruct (seq_spec_step l o) as [l1 r]. cbn [fst] in *. destruct (spec_run seq_spec_step l1 (map fst ops)) as [l2 rs]. cbn [fst] in *.
      eapply dist_more; [|exact A2]. unfold insertions. cbn [filter]. destruct (inserts o); cbn [length]; lia.
  Qed.
  Lemma distances_bounded (ops : list (seq_op T * N)) m outs : run slist_step slist_new ops = Ok (m, outs) ->
    forall a i l, get_link (sl_heap m) a i = Ok l -> snd l <= insertions (map fst ops).
  Proof.
    intros E a i l El. destruct (dist_run ops 0 slist_new [] (fresh_dist _ _ sl_rel_new)) as (m' & outs' & E' & A).
    rewrite E in E'. injection E' as <- <-. exact (dist_stored _ _ _ _ _ _ A El).
  Qed.

  (** ** Distances grow though the list does not. *)
  Lemma pairs_in v d : height_of d = 0 -> forall n e m, sl_in e m [] ->
    exists m', run slist_step m (concat (repeat [(QPushBack v, d); (QPopBack, d)] n)) = Ok (m', concat (repeat [QDone (Ok tt); QVal (Ok v)] n))
      /\ exists e', sl_in e' m' [] /\ forall i, 1 <= i -> e' i = e i + n.
  Proof.
    intros Hd. induction n as [|n IH]; intros e m A.
    - exists m. split; [reflexivity|]. exists e. split; auto.
    - cbn [repeat concat app run slist_step]. assert (L0 : sl_len m = 0) by (destruct A as (g & _ & Ln); exact Ln).
      rewrite L0. destruct (insert_in e m [] 0 v d A (le_n 0)) as (m1 & a & E1 & A1). rewrite E1. cbn [bind].
      set (X := insert_nth 0 (It a (height_of d) v) []) in *. change X with [It a (height_of d) v] in *.
      assert (L1 : sl_len m1 = 1) by (destruct A1 as (g & _ & Ln); exact Ln). rewrite L1. change (checked_sub 1 1) with (Ok 0).
      destruct (remove_in e m1 _ 0 _ A1 eq_refl) as (m2 & E2 & A2). rewrite E2. cbn [bind dt].
      destruct (IH _ _ A2) as (m3 & E3 & e3 & A3 & W). exists m3. rewrite E3. cbn [bind]. split; [reflexivity|]. exists e3. split; [exact A3|].
      intros i Hi. rewrite W by auto. unfold worn. cbn [skipn has_tall existsb ht]. rewrite Hd, (proj2 (Nat.leb_gt i 0)) by lia. cbn [orb]. lia.
  Qed.
  Lemma distance_grows (v : T) n : exists m,
    run slist_step slist_new (concat (repeat [(QPushBack v, 4294967295%N); (QPopBack, 4294967295%N)] n)) = Ok (m, concat (repeat [QDone (Ok tt); QVal (Ok v)] n))
    /\ slist_iter m = Ok [] /\ get_link (sl_heap m) 0 1 = Ok (None, n).
  Proof.
    assert (A : sl_in (fun _ => 0) slist_new ([] : list item)).
    { exists (fun _ _ => null_link). split; [|reflexivity]. split; [apply srep_new|]. split; [reflexivity|]. intros i _. split; [reflexivity|exact I]. }
    destruct (pairs_in v 4294967295%N eq_refl n _ _ A) as (m & E & e & (g & HO & Ln) & W). exists m. split; [exact E|]. split.
    - apply (slist_iter_ok true). exists [], g, e. split; [exact HO|]. split; [reflexivity|]. split; [exact Ln|discriminate].
    - destruct HO as (Rp & _ & HL). rewrite (get_link_ok _ _ _ 0 1 Rp) by (left; lia). rewrite (proj1 (HL 1 ltac:(lia))). cbn [first]. now rewrite W by lia.
  Qed.
  Lemma distance_stays (v : T) n : exists m outs,
    run slist_step slist_new (concat (repeat [(QPushBack v, 4294967295%N); (QPopBack, 4294967295%N)] n)) = Ok (m, outs)
    /\ slist_iter m = Ok [] /\ get_link (sl_heap m) 0 1 = Ok (None, n).
  Proof. destruct (distance_grows v n) as (m & E & P). exists m. eauto. Qed.
End Dist.
