(** Average running time of [SkipList]. *)
From Coq Require Import Permutation.
From Verif Require Export SkipListCostModel SkipListAddProofs CostSpec HeightLemmas TreapListCostProofs.

Section SkipListCostProofs.
  Context {T : Type}.
  Notation link := (option nat * nat)%type.
  Notation hp := (heap T link).
  Notation item := (sitem T).
  Notation links := (nat -> nat -> link).
  Implicit Types (h : hp) (X Y Lo Hi A B R All : list item) (x y n : item) (g : links) (m : skip_list T).

  (** ** Leaving out the counts *)
  Lemma lwalk_c_fst fuel : forall h cur i index moved, rmap fst (lwalk_c fuel h cur i index moved) = lwalk fuel h cur i index moved.
  Proof.
    induction fuel as [|fuel IH]; intros h cur i index moved; [reflexivity|]. cbn [lwalk_c lwalk].
    destruct (get_link h cur i) as [[[y|] d]| |]; [|reflexivity..]. cbn [bind fst snd].
    destruct (d <=? index); [|reflexivity]. rewrite <- IH. now destruct (lwalk_c fuel h y i _ _) as [[? ?]| |].
  Qed.
  Lemma lwalk_all_c_fst h cur i index : rmap fst (lwalk_all_c h cur i index) = lwalk_all h cur i index.
  Proof. apply lwalk_c_fst. Qed.
  Lemma linsert_loop_c_fst : forall i h cur index new nh last,
    rmap fst (linsert_loop_c i h cur index new nh last) = linsert_loop i h cur index new nh last.
  Proof.
    induction i as [|i IH]; intros h cur index new nh last; cbn [linsert_loop_c linsert_loop]; rewrite <- lwalk_all_c_fst;
      destruct (lwalk_all_c h cur _ _) as [[[[[c' l] ix] mv] c]| |]; try reflexivity; cbn [bind rmap fst];
      match goal with |- context [bind (if ?b then ?x else ?y)] => destruct (if b then x else y) as [h2| |] end; try reflexivity; cbn [bind rmap fst].
    rewrite <- IH. now destruct (linsert_loop_c i h2 c' ix new nh _) as [[? ?]| |].
  Qed.
  Lemma lremove_loop_c_fst : forall i h cur index, rmap fst (lremove_loop_c i h cur index) = lremove_loop i h cur index.
  Proof.
    induction i as [|i IH]; intros h cur index; cbn [lremove_loop_c lremove_loop]; rewrite <- lwalk_all_c_fst;
      destruct (lwalk_all_c h cur _ _) as [[[[[c' l] ix] mv] c]| |]; try reflexivity; cbn [bind rmap fst];
      match goal with |- context [bind (match fst l with Some _ => _ | None => _ end)] =>
        destruct (match fst l with Some _ => _ | None => _ end) as [[h2 f]| |] end; try reflexivity; cbn [bind rmap fst].
    - destruct f as [y|]; [|reflexivity]. destruct (get_data h2 y) as [v| |]; try reflexivity. cbn [bind]. now destruct (dealloc h2 y).
    - rewrite <- IH. now destruct (lremove_loop_c i h2 c' ix) as [[? ?]| |].
  Qed.
  Lemma lfind_loop_c_fst : forall i h cur index, rmap fst (lfind_loop_c i h cur index) = lfind_loop i h cur index.
  Proof.
    induction i as [|i IH]; intros h cur index; cbn [lfind_loop_c lfind_loop]; rewrite <- lwalk_all_c_fst;
      destruct (lwalk_all_c h cur _ _) as [[[[[c' l] ix] mv] c]| |]; try reflexivity; cbn [bind rmap fst].
    - destruct (fst l); [|reflexivity]. now destruct (_ =? _).
    - rewrite <- IH. destruct (lfind_loop_c i h c' ix) as [[? ?]| |]; destruct (fst l); try reflexivity; now destruct (_ =? _).
  Qed.
  Lemma slist_insert_c_fst m i v d : rmap (fun r => (fst r, fst (snd r))) (slist_insert_c m i v d) = slist_insert m i v d.
  Proof.
    unfold slist_insert_c, slist_insert. destruct (i <=? sl_len m); [|reflexivity]. destruct (alloc _ _ _ _) as [h a]. rewrite <- linsert_loop_c_fst.
    destruct (linsert_loop_c _ _ _ _ _ _ _) as [[[h2 last] c]| |]; try reflexivity. cbn [bind rmap fst].
    destruct (nth_error last 0) as [[? d0]|]; [|reflexivity]. cbn [expect bind]. now destruct (ldist_loop _ _ _ _ _ _ _).
  Qed.
  Lemma slist_remove_c_fst m i : rmap (fun r => (fst r, fst (snd r))) (slist_remove_c m i) = slist_remove m i.
  Proof.
    unfold slist_remove_c, slist_remove. destruct (i <? sl_len m); [|reflexivity]. rewrite <- lremove_loop_c_fst.
    destruct (lremove_loop_c _ _ _ _) as [[[h2 v] c]| |]; try reflexivity. cbn [bind rmap fst]. now destruct (checked_pred (sl_len m)).
  Qed.
  Lemma slist_find_c_fst m i : rmap fst (slist_find_c m i) = slist_find m i.
  Proof. apply lfind_loop_c_fst. Qed.
  Lemma slist_step_c_fst m op : rmap (fun r => (fst r, fst (snd r))) (slist_step_c m op) = slist_step m op.
  Proof.
    destruct op as [o d]. unfold slist_step_c. cbn [fst snd].
    destruct o; cbn [slist_step]; auto using slist_insert_c_fst, slist_remove_c_fst.
    - destruct (checked_sub (sl_len m) 1); auto using slist_remove_c_fst.
    - unfold slist_get. rewrite <- slist_find_c_fst. destruct (slist_find_c m i) as [[[y|] c]| |]; try reflexivity. cbn [bind rmap fst].
      now destruct (get_data _ _).
    - unfold slist_get_mut. rewrite <- slist_find_c_fst. destruct (slist_find_c m i) as [[[y|] c]| |]; try reflexivity. cbn [bind rmap fst].
      destruct (get_data _ _); try reflexivity. cbn [bind]. now destruct (set_data _ _ _).
    - unfold slist_get. rewrite <- slist_find_c_fst. destruct (slist_find_c m i) as [[[y|] c]| |]; try reflexivity. cbn [bind rmap fst].
      now destruct (get_data _ _).
    - unfold slist_get_mut. rewrite <- slist_find_c_fst. destruct (slist_find_c m i) as [[[y|] c]| |]; try reflexivity. cbn [bind rmap fst].
      destruct (get_data _ _); try reflexivity. cbn [bind]. now destruct (set_data _ _ _).
    - destruct (slist_clear m) as [[? ?]| |]; reflexivity.
    - destruct (slist_iter m); reflexivity.
    - destruct (slist_iter_mut m vs) as [[? ?]| |]; reflexivity.
    - destruct (slist_into_iter m _) as [[[? ?] ?]| |]; reflexivity.
  Qed.

  (** ** One level *)
  Definition hs X : list nat := map ht X.
  Lemma tall_low i X : low i X -> tall i (hs X) = 0.
  Proof.
    induction X as [|x X IH]; intros L; [reflexivity|]. unfold hs in *. cbn [map]. rewrite tall_cons, IH by (intros z Hz; apply L; now right).
    now rewrite (proj2 (Nat.leb_gt i (ht x))) by (apply L; now left).
  Qed.
  Lemma lwalk_c_count h All g i e : srep h All g -> forall fuel P Y q a moved,
    onlevel All a i -> incl (P ++ Y) All -> links_ok g i e a (P ++ Y) -> q = 0 \/ Y = [] -> length P < fuel ->
    rmap snd (lwalk_c fuel h a i (length P + q) moved) = Ok (tall i (hs P)).
  Proof.
    intros Rp. induction fuel as [|fuel IH]; intros P Y q a moved Oa I L Q Hf; [lia|].
    cbn [lwalk_c]. rewrite (get_link_ok _ _ _ _ _ Rp Oa). cbn [bind]. pose proof (proj1 L) as E.
    destruct (first_cases i P) as [LP|(R & y & B & -> & HR & Hy)].
    - rewrite tall_low by auto. rewrite E. rewrite first_low_app by auto. cbn [fst snd].
      destruct (fst (first i e Y)) as [p|] eqn:F; [|reflexivity].
      rewrite (proj2 (Nat.leb_gt _ _)); [reflexivity|]. destruct Q as [-> | ->]; [|discriminate F].
      destruct (first i e Y) as [p' d] eqn:F1. cbn [fst snd] in *. subst p'. apply first_pos in F1. lia.
    - rewrite E. rewrite <- app_assoc. cbn [app]. rewrite first_tall by auto. cbn [fst snd].
      rewrite app_length. cbn [length]. rewrite (proj2 (Nat.leb_le _ _)) by lia.
      replace (length R + S (length B) + q - S (length R)) with (length B + q) by lia.
      rewrite <- app_assoc in L. cbn [app] in L. rewrite <- app_assoc in I. cbn [app] in I.
      assert (Iy : In y All) by (apply I, in_app_iff; right; now left).
      specialize (IH B Y q (ad y) (moved + S (length R))).
      assert (C : rmap snd (lwalk_c fuel h (ad y) i (length B + q) (moved + S (length R))) = Ok (tall i (hs B))).
      { apply IH; auto.
        + right. exists y. auto.
        + intros z Hz. apply I, in_app_iff. right. now right.
        + eapply links_skip; eauto.
        + rewrite app_length in Hf. cbn [length] in Hf. lia. }
      destruct (lwalk_c fuel h (ad y) i (length B + q) (moved + S (length R))) as [[r c]| |]; try discriminate.
      cbn [rmap bind snd] in *. injection C as ->. unfold hs at 2. rewrite map_app, tall_app. fold (hs R). rewrite (tall_low i R HR).
      cbn [map]. rewrite tall_cons, (proj2 (Nat.leb_le _ _)) by auto. reflexivity.
  Qed.

  Lemma run_cut i X : forall A R, X = A ++ R -> low (S i) R -> A = [] \/ (exists A' x, A = A' ++ [x] /\ S i <= ht x) ->
    run_at i (rev (hs X)) = tall i (hs R).
  Proof.
    intros A R -> LR D. unfold hs. rewrite map_app, rev_app_distr.
    assert (G : forall l, (forall z, In z R -> ht z < S i) -> run_at i (rev (map ht R) ++ l) = tall i (map ht R) + run_at i l).
    { clear. induction R as [|x R IH] using rev_ind; intros l L; [reflexivity|].
      rewrite map_app, rev_app_distr, tall_app. cbn [map rev app run_at].
      assert (Lx : ht x < S i) by (apply L, in_app_iff; right; now left).
      rewrite (proj2 (Nat.ltb_ge i (ht x))) by lia. rewrite IH by (intros z Hz; apply L, in_app_iff; auto).
      rewrite tall_cons. change (tall i []) with 0. destruct (Nat.eqb_spec (ht x) i), (Nat.leb_spec i (ht x)); simpl; lia. }
    rewrite G by exact LR. destruct D as [-> | (A' & x & -> & Hx)]; [simpl; lia|].
    rewrite map_app, rev_app_distr. cbn [map rev app run_at]. rewrite (proj2 (Nat.ltb_lt i (ht x))) by lia. lia.
  Qed.
  Lemma lwalk_c_level h X g i e P Y q : i <= 32 -> srep h X g -> incl (P ++ Y) X -> length P < length h ->
    links_ok g i e 0 (P ++ Y) -> q = 0 \/ Y = [] ->
    lwalk_all_c h (last_at (S i) 0 P) i (gap_at (S i) 0 P + q)
    = Ok ((last_at i 0 P, g (last_at i 0 P) i, gap_at i 0 P + q, gap_at (S i) 0 P - gap_at i 0 P), run_at i (rev (hs P))).
  Proof.
    intros Hi Rp I Hl L Q. pose proof (lwalk_level h X g i e P Y q Hi Rp I Hl L Q) as W. rewrite <- lwalk_all_c_fst in W.
    assert (C : rmap snd (lwalk_all_c h (last_at (S i) 0 P) i (gap_at (S i) 0 P + q)) = Ok (run_at i (rev (hs P)))).
    { clear W. unfold lwalk_all_c. destruct (split_at (S i) 0 P) as (A & R & -> & HR & E & D). rewrite E.
      rewrite <- app_assoc in L, I. rewrite app_length in Hl.
      rewrite (run_cut i (A ++ R) A R eq_refl HR) by (destruct D as [[-> _]|(A' & x & -> & Hx & _)]; eauto).
      assert (W : forall a, onlevel X a i -> links_ok g i e a (R ++ Y) -> rmap snd (lwalk_c (S (length h)) h a i (length R + q) 0) = Ok (tall i (hs R))).
      { intros a O La. apply (lwalk_c_count h X g i e Rp _ R Y); auto; [|lia]. intros z Hz. apply I, in_app_iff. auto. }
      destruct D as [[-> ->]|(A' & x & -> & Hx & ->)].
      - apply W; auto. left. lia.
      - assert (x_in : In x X) by (apply I; rewrite !in_app_iff; simpl; auto). apply W.
        + right. exists x. repeat split; auto. lia.
        + rewrite <- app_assoc in L. cbn [app] in L. eapply links_skip; eauto. lia. }
    destruct (lwalk_all_c _ _ _ _) as [[r c]| |]; try discriminate. cbn [rmap bind fst snd] in *. congruence.
  Qed.

  Definition down (i : nat) X : nat := S i + total (fun j => run_at j (rev (hs X))) (seq 0 (S i)).
  Lemma down_step i X : 1 + run_at (S i) (rev (hs X)) + down i X = down (S i) X.
  Proof. unfold down. rewrite (total_seq _ (S i)). lia. Qed.
  Lemma down_zero X : 1 + run_at 0 (rev (hs X)) = down 0 X.
  Proof. unfold down, total. simpl. lia. Qed.

  (** ** The loops *)
  Lemma linsert_loop_c_count n Lo Hi e : ~ In (ad n) (0 :: map ad (Lo ++ Hi)) -> forall i h g last, i <= 32 -> srep h (n :: Lo ++ Hi) g ->
    (forall j, j <= i -> links_ok g j (e j) 0 (Lo ++ Hi)) ->
    rmap snd (linsert_loop_c i h (last_at (S i) 0 Lo) (gap_at (S i) 0 Lo) (ad n) (ht n) last) = Ok (down i Lo).
  Proof.
    intros Fr. induction i as [|i IH]; intros h g last Hi32 Rp HL; cbn [linsert_loop_c];
      destruct (linsert_level_ok n Lo Hi e Fr _ h g Hi32 Rp (HL _ (le_n _))) as (_ & h1 & g1 & E1 & R1 & G1);
      (assert (Hle : length Lo < length h) by (pose proof (srep_length _ _ _ Rp) as Q; cbn [length] in Q; rewrite app_length in Q; lia));
      match goal with |- context [lwalk_all_c h (last_at (S ?j) 0 Lo) ?j _] =>
        pose proof (lwalk_c_level h (n :: Lo ++ Hi) g j (e j) Lo Hi 0 Hi32 Rp ltac:(intros z Hz; now right) Hle (HL _ (le_n _)) (or_introl eq_refl)) as W end;
      rewrite !Nat.add_0_r in W; rewrite W; cbn [bind]; rewrite E1; cbn [bind].
    - cbn [rmap bind snd]. now rewrite <- down_zero.
    - rewrite <- down_step. specialize (IH h1 g1 (list_set last (S i) (last_at (S i) 0 Lo, gap_at (S (S i)) 0 Lo - gap_at (S i) 0 Lo)) ltac:(lia) R1).
      assert (HL1 : forall j, j <= i -> links_ok g1 j (e j) 0 (Lo ++ Hi)) by (intros j Hj; apply (linsert_frame n Lo Hi e (S i) g); auto; lia).
      specialize (IH HL1). destruct (linsert_loop_c i h1 _ _ _ _ _) as [[r c]| |]; try discriminate. cbn [rmap bind snd] in *.
      injection IH as ->. reflexivity.
  Qed.
  Lemma lremove_loop_c_count y Lo Hi e : forall i h g, i <= 32 -> srep h (Lo ++ y :: Hi) g ->
    (forall j, j <= i -> links_ok g j (e j) 0 (Lo ++ y :: Hi)) ->
    rmap snd (lremove_loop_c i h (last_at (S i) 0 Lo) (gap_at (S i) 0 Lo)) = Ok (down i Lo).
  Proof.
    induction i as [|i IH]; intros h g Hi32 Rp HL; cbn [lremove_loop_c];
      destruct (lremove_level_ok y Lo Hi e _ h g Hi32 Rp (HL _ (le_n _))) as (_ & h1 & g1 & E1 & R1 & G1 & _);
      (assert (Hle : length Lo < length h) by (pose proof (srep_length _ _ _ Rp) as Q; rewrite app_length in Q; cbn [length] in Q; lia));
      match goal with |- context [lwalk_all_c h (last_at (S ?j) 0 Lo) ?j _] =>
        pose proof (lwalk_c_level h (Lo ++ y :: Hi) g j (e j) Lo (y :: Hi) 0 Hi32 Rp (incl_refl _) Hle (HL _ (le_n _)) (or_introl eq_refl)) as W end;
      rewrite !Nat.add_0_r in W; rewrite W; cbn [bind]; rewrite E1; cbn [bind].
    - cbn [Nat.leb]. assert (R1' : srep h1 (y :: Lo ++ Hi) g1) by (eapply srep_equiv; [apply Permutation_sym, Permutation_middle|exact R1]).
      rewrite (get_data_ok _ _ _ y R1') by now left. cbn [bind].
      destruct (dealloc_ok _ _ _ _ R1') as (h2 & E2 & R2 & _). rewrite E2. cbn [bind rmap snd]. now rewrite <- down_zero.
    - rewrite <- down_step. specialize (IH h1 g1 ltac:(lia) R1).
      assert (HL1 : forall j, j <= i -> links_ok g1 j (e j) 0 (Lo ++ y :: Hi)).
      { intros j Hj. eapply links_frame; [|apply (HL j); lia]. intros b _. apply G1. lia. }
      specialize (IH HL1). destruct (S i <=? ht y);
        destruct (lremove_loop_c i h1 _ _) as [[r c]| |]; try discriminate; cbn [rmap bind snd] in *; injection IH as ->; reflexivity.
  Qed.
  Lemma lfind_loop_c_count h X g e P Y q : srep h X g -> (forall j, j <= 32 -> links_ok g j (e j) 0 X) -> X = P ++ Y -> q = 0 \/ Y = [] ->
    forall i, i <= 32 -> exists c, rmap snd (lfind_loop_c i h (last_at (S i) 0 P) (gap_at (S i) 0 P + q)) = Ok c /\
      1 + run_at i (rev (hs P)) <= c <= down i P.
  Proof.
    intros Rp HL -> Q. pose proof (srep_length _ _ _ Rp) as Hl. rewrite app_length in Hl.
    induction i as [|i IH]; intros Hi; cbn [lfind_loop_c];
      rewrite (lwalk_c_level h (P ++ Y) g _ (e _) P Y q Hi Rp (incl_refl _) ltac:(lia) (HL _ Hi) Q); cbn [bind];
      match goal with |- context [fst (g ?a ?j)] => destruct (g a j) as [[p|] d] end; cbn [fst snd].
    - rewrite <- down_zero. destruct (_ =? _); cbn [rmap bind snd]; eexists; (split; [reflexivity|lia]).
    - rewrite <- down_zero. cbn [rmap bind snd]. eexists; (split; [reflexivity|lia]).
    - destruct (IH ltac:(lia)) as (c & E & Lc). destruct (lfind_loop_c i h _ _) as [[r c']| |]; try discriminate.
      cbn [rmap bind snd] in *. injection E as ->. rewrite <- down_step. destruct (_ =? _); cbn [rmap bind snd]; eexists; (split; [reflexivity|lia]).
    - destruct (IH ltac:(lia)) as (c & E & Lc). destruct (lfind_loop_c i h _ _) as [[r c']| |]; try discriminate.
      cbn [rmap bind snd] in *. injection E as ->. rewrite <- down_step. eexists; (split; [reflexivity|lia]).
  Qed.

  (** ** The calls *)
  Lemma down_passes P : down 32 P <= 33 + passes 32 (rev (hs P)).
  Proof. unfold down, passes. rewrite (total_seq _ 32). pose proof (run_at_tall 32 (rev (hs P))). lia. Qed.
  Lemma hs_insert i n X : hs (insert_nth i n X) = insert_nth i (ht n) (hs X).
  Proof. apply map_insert_nth. Qed.
  Lemma hs_remove i X : hs (remove_nth i X) = remove_nth i (hs X).
  Proof. apply map_remove_nth. Qed.
  Lemma hs_shape X X' : map ishape X = map ishape X' -> hs X = hs X'.
  Proof. intros E. apply (f_equal (map snd)) in E. rewrite !map_map in E. exact E. Qed.
  Lemma hs_firstn i X : hs (firstn i X) = firstn i (hs X).
  Proof. unfold hs. now rewrite firstn_map. Qed.
  Lemma hs_length X : length (hs X) = length X.
  Proof. apply map_length. Qed.

  Lemma slist_insert_c_ok w m X i v d : sl_at w m X -> i <= length X ->
    exists m' a, slist_insert_c m i v d = Ok (m', (QDone (Ok tt), down 32 (firstn i X) + 32)) /\ sl_at w m' (insert_nth i (It a (height_of d) v) X).
  Proof.
    intros A Hi. destruct (slist_insert_at w m X i v d A Hi) as (m' & a & E & A'). exists m', a. split; [|exact A'].
    rewrite <- slist_insert_c_fst in E. destruct A as (g & e & (Rp & E0 & HL) & Ln & He).
    unfold slist_insert_c in *. rewrite (proj2 (Nat.leb_le _ _)) in * by (rewrite Ln; auto).
    destruct (skip_split X i Hi) as (Lo & Hi' & -> & Hlo).
    pose proof (alloc_ok _ _ _ v (height_of d) null_link Rp (height_of_le d)) as Al.
    destruct (alloc (sl_heap m) (Some v) (S (height_of d)) null_link) as [h1 b]. destruct Al as (R1 & L1 & Fr).
    set (n := It b (height_of d) v) in *.
    assert (HL1 : forall j, j <= 32 -> links_ok (fun b' j => if b' =? b then null_link else g b' j) j (e j) 0 (Lo ++ Hi')).
    { intros j Hj. eapply links_frame; [|apply (HL j Hj)]. intros b' Hb. cbv beta.
      rewrite (proj2 (Nat.eqb_neq b' b)); auto. intros ->. apply Fr. destruct Hb as [->|Hb]; [now left|now right]. }
    destruct (top_start _ _ _ Lo i R1) as [T1 T2]; [intros x Hx; right; apply in_app_iff; auto|auto|].
    pose proof (linsert_loop_c_count n Lo Hi' e Fr 32 h1 _ (repeat (0, 0) 33) (le_n 32) R1 HL1) as C.
    rewrite T1, T2 in C. change (ad n) with b in C. change (ht n) with (height_of d) in C. change max_height with 32 in *.
    rewrite <- Hlo, firstn_app, Nat.sub_diag, firstn_all2, app_nil_r by lia. rewrite Hlo.
    destruct (linsert_loop_c 32 h1 0 i b (height_of d) (repeat (0, 0) 33)) as [[[h2 last] c]| |]; try discriminate.
    cbn [rmap bind snd] in C. injection C as ->. cbn [bind] in *.
    destruct (expect (nth_error last 0)) as [[? d0]| |]; try discriminate. cbn [bind] in *.
    destruct (ldist_loop 32 1 d0 h2 b (height_of d) last) as [h3| |]; try discriminate. cbn [bind rmap fst snd] in *. now injection E as <-.
  Qed.
  Lemma slist_remove_c_ok w m X i y : sl_at w m X -> nth_error X i = Some y ->
    exists m', slist_remove_c m i = Ok (m', (QVal (Ok (dt y)), down 32 (firstn i X))) /\ sl_at true m' (remove_nth i X).
  Proof.
    intros A Ey. destruct (slist_remove_at w m X i y A Ey) as (m' & E & A'). exists m'. split; [|exact A'].
    rewrite <- slist_remove_c_fst in E. destruct A as (g & e & (Rp & E0 & HL) & Ln & He).
    assert (Hi : i < length X) by (apply nth_error_Some; congruence).
    unfold slist_remove_c in *. rewrite (proj2 (Nat.ltb_lt _ _)) in * by (rewrite Ln; auto).
    destruct (nth_split' _ _ _ Ey) as (Lo & Hi' & -> & Hlo).
    destruct (top_start _ _ _ Lo i Rp) as [T1 T2]; [intros x Hx; apply in_app_iff; auto|auto|].
    pose proof (lremove_loop_c_count y Lo Hi' e 32 (sl_heap m) g (le_n 32) Rp HL) as C. rewrite T1, T2 in C. change max_height with 32 in *.
    rewrite <- Hlo, firstn_app, Nat.sub_diag, firstn_all2, app_nil_r by lia. rewrite Hlo.
    destruct (lremove_loop_c 32 (sl_heap m) 0 i) as [[[h2 v] c]| |]; try discriminate.
    cbn [rmap bind snd] in C. injection C as ->. cbn [bind] in *.
    destruct (checked_pred (sl_len m)); try discriminate. cbn [bind rmap fst snd] in *. injection E as <- ->. reflexivity.
  Qed.
  Lemma slist_find_c_ok w m X k : sl_at w m X -> exists r c, slist_find_c m k = Ok (r, c) /\
    1 + run_at 32 (rev (hs (firstn k X))) <= c <= down 32 (firstn k X).
  Proof.
    intros (g & e & (Rp & E0 & HL) & Ln & He). unfold slist_find_c. change max_height with 32.
    assert (Sp : exists Y q, X = firstn k X ++ Y /\ k = length (firstn k X) + q /\ (q = 0 \/ Y = [])).
    { destruct (Nat.le_gt_cases k (length X)) as [L|L].
      - exists (skipn k X), 0. rewrite firstn_skipn, firstn_length. repeat split; auto. lia.
      - exists [], (k - length X). rewrite firstn_all2, app_nil_r by lia. repeat split; auto. lia. }
    destruct Sp as (Y & q & EX & Ek & Q). set (P := firstn k X) in *.
    assert (IP : incl P X) by (rewrite EX; intros x Hx; apply in_app_iff; auto).
    destruct (top_start _ _ _ P (length P) Rp IP eq_refl) as [T1 T2].
    destruct (lfind_loop_c_count _ X _ _ P Y q Rp HL EX Q 32 (le_n 32)) as (c & E & Lc). rewrite T1, T2, <- Ek in E.
    destruct (lfind_loop_c 32 (sl_heap m) 0 k) as [[r c']| |]; try discriminate. injection E as ->. exists r, c. auto.
  Qed.

  Definition cost_bound (o : seq_op T) (l : list nat) : nat := 65 + passes 32 (rev (firstn (fst (place o (length l))) l)).
  Lemma slist_step_c_ok w m X o d : sl_at w m X ->
    exists m' X' c, slist_step_c m (o, d) = Ok (m', (snd (seq_spec_step (map dt X) o), c)) /\ sl_at (worn_after o (map dt X) w) m' X'
      /\ map dt X' = fst (seq_spec_step (map dt X) o) /\ hs X' = fst (seq_spec_step (hs X) (retag (height_of d) o))
      /\ (seeks o = true -> c <= cost_bound o (hs X))
      /\ (forall i, o = QGet i -> run_at 32 (rev (firstn i (hs X))) <= c).
  Proof.
    intros A. pose proof (sl_at_rel _ _ _ A) as Rl. destruct (slist_step_ok w m _ o d Rl) as (m1 & E1 & R1).
    assert (Ln : sl_len m = length X) by (destruct A as (g & e & _ & Ln & _); exact Ln).
    assert (B : forall i, i <= length X -> down 32 (firstn i X) <= 33 + passes 32 (rev (firstn i (hs X)))).
    { intros i _. rewrite <- hs_firstn. apply down_passes. }
    assert (B' : forall i, down 32 (firstn i X) <= 33 + passes 32 (rev (firstn i (hs X)))) by (intros i; rewrite <- hs_firstn; apply down_passes).
    assert (Ins : forall i v o', fst (place o' (length X)) = i -> exists m' X' c,
      slist_insert_c m i v d = Ok (m', (snd (seq_insert (map dt X) i v), c)) /\ sl_at w m' X'
      /\ map dt X' = fst (seq_insert (map dt X) i v) /\ hs X' = fst (seq_insert (hs X) i (height_of d)) /\ c <= cost_bound o' (hs X)).
    { intros i v o' Ep. unfold seq_insert, cost_bound. rewrite map_length, hs_length, Ep. destruct (Nat.leb_spec i (length X)) as [Hi|Hi].
      - destruct (slist_insert_c_ok w m X i v d A Hi) as (m' & a & E & A'). exists m'. eexists _, _. split; [exact E|]. split; [exact A'|].
        cbn [fst]. rewrite map_insert_nth, hs_insert. split; [reflexivity|]. split; [reflexivity|]. specialize (B' i). lia.
      - exists m, X, 0. unfold slist_insert_c. rewrite Ln, (proj2 (Nat.leb_gt _ _)) by auto. repeat split; auto. lia. }
    assert (Rem : forall i o', fst (place o' (length X)) = i -> exists m' X' c,
      slist_remove_c m i = Ok (m', (snd (seq_remove (map dt X) i), c)) /\ sl_at (w || (i <? length X)) m' X'
      /\ map dt X' = fst (seq_remove (map dt X) i) /\ hs X' = fst (seq_remove (hs X) i) /\ c <= cost_bound o' (hs X)).
    { intros i o' Ep. unfold seq_remove, cost_bound. unfold hs at 2. rewrite !nth_error_map, hs_length, Ep. destruct (nth_error X i) as [y|] eqn:Ey; cbn [option_map fst snd].
      - destruct (slist_remove_c_ok w m X i y A Ey) as (m' & E & A'). exists m'. eexists _, _. split; [exact E|]. assert (Lt : i < length X) by (apply nth_error_Some; congruence).
        rewrite (proj2 (Nat.ltb_lt _ _) Lt), orb_true_r. split; [exact A'|].
        rewrite map_remove_nth, hs_remove. split; [reflexivity|]. split; [reflexivity|]. specialize (B' i). lia.
      - apply nth_error_None in Ey. exists m, X, 0. unfold slist_remove_c. rewrite Ln, (proj2 (Nat.ltb_ge _ _)), orb_false_r by auto. repeat split; auto. lia. }
    assert (Fnd : forall i o', fst (place o' (length X)) = i -> exists r c, slist_find_c m i = Ok (r, c) /\ c <= cost_bound o' (hs X) /\
      run_at 32 (rev (firstn i (hs X))) <= c).
    { intros i o' Ep. destruct (slist_find_c_ok w m X i A) as (r & c & E & L1 & L2). exists r, c. split; [exact E|].
      unfold cost_bound. rewrite hs_length, Ep. rewrite hs_firstn in L1. specialize (B' i). lia. }
    unfold slist_step_c. cbn [fst snd].
    destruct o as [i v|i|v|v| | |i|i v|i|i v| | | | |vs|]; cbn [seq_spec_step retag worn_after] in *.
    - destruct (Ins i v (QInsert i v) eq_refl) as (m' & X' & c & F1 & F2 & F3 & F4 & F5). exists m', X', c. repeat (split; auto); discriminate.
    - destruct (Rem i (QRemove i) eq_refl) as (m' & X' & c & F1 & F2 & F3 & F4 & F5). rewrite map_length. exists m', X', c. repeat (split; auto); discriminate.
    - destruct (Ins 0 v (QPushFront v) eq_refl) as (m' & X' & c & F1 & F2 & F3 & F4 & F5). exists m', X', c.
      unfold seq_insert in *. cbn [Nat.leb fst snd] in *. repeat (split; auto); discriminate.
    - destruct (Ins (length X) v (QPushBack v) eq_refl) as (m' & X' & c & F1 & F2 & F3 & F4 & F5). exists m', X', c.
      unfold seq_insert in *. rewrite hs_length in F4. rewrite map_length in *. rewrite Nat.leb_refl in *. cbn [fst snd] in *. rewrite Ln.
      rewrite <- (map_length dt X), insert_nth_length in F3. rewrite <- (hs_length X), insert_nth_length in F4.
      repeat (split; auto); discriminate.
    - destruct (Rem 0 QPopFront eq_refl) as (m' & X' & c & F1 & F2 & F3 & F4 & F5). exists m', X', c. rewrite map_length.
      replace (negb (length X =? 0)) with (0 <? length X) by (now destruct X). unfold seq_remove in *. destruct X as [|x X]; cbn [map hs nth_error fst snd] in *; repeat (split; auto); discriminate.
    - destruct X as [|x X].
      + exists m, [], 0. rewrite Ln. cbn. rewrite orb_false_r. repeat (split; auto); try discriminate. intros; unfold cost_bound; lia.
      + rewrite Ln. unfold checked_sub. cbn [length Nat.leb].
        destruct (Rem (S (length X) - 1) QPopBack) as (m' & X' & c & F1 & F2 & F3 & F4 & F5); [cbn [place fst length]; lia|].
        exists m', X', c. replace (negb (length (map dt (x :: X)) =? 0)) with (S (length X) - 1 <? length (x :: X)) by (rewrite map_length; apply Nat.ltb_lt; cbn [length]; lia).
        unfold seq_remove in *.
        destruct (remove_nth_last (map dt (x :: X))) as [Q1 Q2]; [discriminate|].
        destruct (remove_nth_last (hs (x :: X))) as [Q3 Q4]; [discriminate|]. rewrite map_length in Q1, Q2. rewrite hs_length in Q3, Q4.
        cbn [length] in *. rewrite Q1, Q2 in *. rewrite Q3, Q4 in *.
        destruct (last_error (map dt (x :: X))) as [y|] eqn:El; [|now apply last_error_none in El].
        destruct (last_error (hs (x :: X))) as [y'|] eqn:El'; [|now apply last_error_none in El'].
        repeat (split; auto); discriminate.
    - destruct (Fnd i (QGet i) eq_refl) as (r & c & E & Lc & Lw). rewrite E. cbn [bind slist_step]. rewrite (slist_get_ok _ _ _ _ Rl).
      exists m, X, c. cbn [bind fst snd]. repeat (split; auto). intros i' Ei. injection Ei as <-. exact Lw.
    - destruct (Fnd i (QGetMut i v) eq_refl) as (r & c & E & Lc & _). rewrite E. cbn [bind slist_step].
      destruct (slist_get_mut_at w m X i v A) as (m' & X' & E2 & A' & Sh & D). rewrite E2. exists m', X', c. cbn [bind fst snd].
      split; [reflexivity|]. split; [exact A'|]. split; [exact D|]. split; [now apply hs_shape|]. split; [auto|discriminate].
    - destruct (Fnd i (QIndex i) eq_refl) as (r & c & E & Lc & _). rewrite E. cbn [bind slist_step]. rewrite (slist_get_ok _ _ _ _ Rl).
      exists m, X, c. cbn [bind fst snd]. repeat (split; auto); discriminate.
    - destruct (Fnd i (QIndexMut i v) eq_refl) as (r & c & E & Lc & _). rewrite E. cbn [bind slist_step].
      destruct (slist_get_mut_at w m X i v A) as (m' & X' & E2 & A' & Sh & D). rewrite E2. exists m', X', c. cbn [bind fst snd].
      split; [reflexivity|]. split; [exact A'|]. split; [exact D|]. split; [now apply hs_shape|]. split; [auto|discriminate].
    - exists m, X, 0. cbn [slist_step bind fst snd]. rewrite Ln, map_length. repeat (split; auto); discriminate.
    - exists m, X, 0. cbn [slist_step bind fst snd]. rewrite Ln, map_length. repeat (split; auto); discriminate.
    - rewrite E1. cbn [bind]. apply sl_rel_at in R1 as (X1 & A1 & D1). cbn [fst] in D1. apply map_eq_nil in D1. subst X1.
      exists m1, [], 0. split; [reflexivity|]. split; [exact A1|]. repeat (split; auto); discriminate.
    - exists m, X, 0. cbn [slist_step]. rewrite (slist_iter_ok _ _ _ Rl). cbn [bind fst snd]. repeat (split; auto); discriminate.
    - cbn [slist_step]. destruct (slist_iter_mut_at w m X vs A) as (m' & X' & E2 & A' & Sh & D). rewrite E2. exists m', X', 0. cbn [bind fst snd].
      split; [reflexivity|]. split; [exact A'|]. split; [exact D|]. split; [now apply hs_shape|]. split; discriminate.
    - rewrite E1. cbn [bind]. apply sl_rel_at in R1 as (X1 & A1 & D1). cbn [fst] in D1. apply map_eq_nil in D1. subst X1.
      exists m1, [], 0. split; [reflexivity|]. split; [exact A1|]. repeat (split; auto); discriminate.
  Qed.

  (** ** Runs *)
  Lemma slist_run_c ps (ops : list (seq_op T)) : forall qs (n : nat) l w m X, length qs = length ops ->
    (forall j, j < length ops -> nth j qs 0%N = nth (n + j) ps 0%N) -> sl_at w m X -> hs X = map (fun d => height_of (nth d ps 0%N)) l ->
    exists m' outs, run slist_step_c m (combine ops qs) = Ok (m', outs) /\ map fst outs = snd (spec_run seq_spec_step (map dt X) ops) /\ length outs = length ops /\
    forall i o, nth_error ops i = Some o ->
      (seeks o = true -> nth i (map snd outs) 0 <= cost_bound o (map (fun d => height_of (nth d ps 0%N)) (tags n l (firstn i ops)))) /\
      (forall k, o = QGet k -> run_at 32 (rev (firstn k (map (fun d => height_of (nth d ps 0%N)) (tags n l (firstn i ops))))) <= nth i (map snd outs) 0).
  Proof.
    induction ops as [|o ops IH]; intros [|q qs] n l w m X El En A Ep; try discriminate.
    - exists m, []. repeat split; destruct i; discriminate.
    - pose proof (En 0 ltac:(simpl; lia)) as E0. rewrite Nat.add_0_r in E0. cbn [nth] in E0. subst q.
      destruct (slist_step_c_ok w m X o (nth n ps 0%N) A) as (m1 & X1 & c & E1 & A1 & V1 & P1 & B1 & B2).
      assert (P1' : hs X1 = map (fun d => height_of (nth d ps 0%N)) (fst (seq_spec_step l (retag n o)))).
      { rewrite P1, Ep. symmetry. apply (seq_step_map (fun d => height_of (nth d ps 0%N))). }
      destruct (IH qs (S n) (fst (seq_spec_step l (retag n o))) (worn_after o (map dt X) w) m1 X1) as (m2 & outs & E2 & E3 & E4 & E5); auto.
      { intros j Lj. rewrite Nat.add_succ_comm. apply (En (S j)). simpl. lia. }
      exists m2, ((snd (seq_spec_step (map dt X) o), c) :: outs). cbn [combine run]. rewrite E1. cbn [bind]. rewrite E2. cbn [bind].
      split; [easy|]. split; [|split].
      + cbn [map fst spec_run]. rewrite E3, V1. destruct (seq_spec_step (map dt X) o) as [l1 r1]. cbn [fst snd]. now destruct (spec_run seq_spec_step l1 ops).
      + simpl. congruence.
      + intros [|i] o' E.
        * injection E as <-. cbn [map nth snd firstn tags]. rewrite <- Ep. auto.
        * cbn [map nth firstn tags]. now apply E5.
  Qed.
  Lemma slist_at_new : sl_at false (slist_new : skip_list T) [].
  Proof. pose proof (@sl_rel_new T) as R. apply sl_rel_at in R as (X & A & E). apply map_eq_nil in E. now subst X. Qed.

  (** Each call moves to nodes whose heights were drawn by different calls. *)
  Lemma slist_steps_bound (ops : list (seq_op T)) : exists steps : list N -> list nat,
    (forall ps, length ps = length ops ->
       outputs slist_step_c slist_new (combine ops ps) = Ok (combine (spec_outputs seq_spec_step [] ops) (steps ps)) /\ length (steps ps) = length ops) /\
    forall i o (n : nat), nth_error ops i = Some o -> seeks o = true -> nth_error (seq_lengths_before [] ops) i = Some n ->
      exists W, NoDup W /\ (forall w, In w W -> w < length ops) /\ length W <= n /\
        forall ps, length ps = length ops -> nth i (steps ps) 0 <= 65 + passes 32 (map (fun d => height_of (nth d ps 0%N)) W).
  Proof.
    set (steps := fun ps => match run slist_step_c (slist_new : skip_list T) (combine ops ps) with Ok (_, outs) => map snd outs | _ => [] end).
    exists steps.
    assert (A : forall ps, length ps = length ops -> outputs slist_step_c slist_new (combine ops ps) = Ok (combine (spec_outputs seq_spec_step [] ops) (steps ps)) /\
      length (steps ps) = length ops /\
      forall i o, nth_error ops i = Some o -> seeks o = true ->
        nth i (steps ps) 0 <= cost_bound o (map (fun d => height_of (nth d ps 0%N)) (tags 0 [] (firstn i ops)))).
    { intros ps El. destruct (slist_run_c ps ops ps 0 [] false slist_new [] El) as (t' & outs & E1 & E2 & E3 & E4); auto; [apply slist_at_new|].
      unfold outputs, steps. rewrite E1. simpl rmap. split; [|split].
      - f_equal. unfold spec_outputs. cbn [map] in E2. rewrite <- E2. clear. induction outs as [|[a c] outs IH]; simpl; congruence.
      - now rewrite map_length.
      - intros i o Ei. apply (E4 i o Ei). }
    split; [intros ps El; destruct (A ps El) as (A1 & A2 & _); auto|]. intros i o n Ei So En.
    assert (Li : i < length ops) by (apply nth_error_Some; congruence).
    pose proof (tags_length ops 0 [] [] i n eq_refl En) as Et.
    pose proof (tags_all_ok (firstn i ops) 0 [] ltac:(split; [constructor | intros ? []])) as [D L]. rewrite Nat.add_0_l, firstn_length_le in L by lia.
    set (l := tags 0 [] (firstn i ops)) in *. set (a := fst (place o n)). exists (rev (firstn a l)). split; [|split; [|split]].
    - apply NoDup_rev. rewrite <- (firstn_skipn a l) in D. now apply nodup_parts in D.
    - intros w X. apply in_rev in X. enough (w < i) by lia. apply L. rewrite <- (firstn_skipn a l). apply in_app_iff. auto.
    - rewrite rev_length, firstn_length. lia.
    - intros ps El. destruct (A ps El) as (_ & _ & A3). specialize (A3 i o Ei So). fold l in A3.
      unfold cost_bound in A3. rewrite map_length, Et in A3. fold a in A3. now rewrite firstn_map, <- map_rev in A3.
  Qed.
  Lemma log_small (n : nat) : (N.of_nat n < two32)%N -> S (Nat.log2 n) <= 32 /\ n <= 2 ^ S (Nat.log2 n).
  Proof.
    intros Ln. split.
    - destruct (Nat.eq_dec n 0) as [->|Nz]; [apply Nat.ltb_lt; reflexivity|]. apply Nat.log2_lt_pow2; [lia|].
      change two32 with (2 ^ N.of_nat 32)%N in Ln. change 2%N with (N.of_nat 2) in Ln. rewrite <- Nat2N.inj_pow in Ln.
      clear -Ln. revert Ln. generalize (2 ^ 32). intros. lia.
    - destruct (Nat.eq_dec n 0) as [Z|Nz]; [lia|]. pose proof (Nat.log2_spec n ltac:(lia)). lia.
  Qed.

  Lemma slist_steps_average (M : nat) (ops : list (seq_op T)) : N.of_nat M = two32 -> exists steps : list N -> list nat,
    (forall ps, length ps = length ops ->
       outputs slist_step_c slist_new (combine ops ps) = Ok (combine (spec_outputs seq_spec_step [] ops) (steps ps)) /\ length (steps ps) = length ops) /\
    forall i o (n : nat), nth_error ops i = Some o -> seeks o = true -> nth_error (seq_lengths_before [] ops) i = Some n -> (N.of_nat n < two32)%N ->
      average_within M (length ops) (Nat.log2 n + 67) 0 (fun ps => nth i (steps ps) 0).
  Proof.
    intros EM. destruct (slist_steps_bound ops) as (steps & A & B). exists steps. split; [exact A|]. intros i o n Ei So En Ln. unfold average_within.
    destruct (B i o n Ei So En) as (W & Nd & Lt & Lw & Bd). destruct (log_small n Ln) as [S3 S1].
    pose proof (passes_places M EM (length ops) W (S (Nat.log2 n)) Nd Lt S3 ltac:(lia)) as PP.
    assert (Le : total (fun ps => nth i (steps ps) 0) (draws M (length ops)) <= M ^ length ops * (Nat.log2 n + 67)).
    { eapply Nat.le_trans; [apply total_le with (g := fun ps => 65 + passes (S (Nat.log2 n)) (map (fun d => height_of (nth d ps 0%N)) W))|].
      - intros ps ip. apply draws_in in ip as [El _]. eapply Nat.le_trans; [exact (Bd ps El)|]. apply Nat.add_le_mono_l. now apply passes_less.
      - rewrite total_plus, total_const, draws_length. lia. }
    apply (Nat.mul_le_mono_l _ _ M) in Le. lia.
  Qed.
End SkipListCostProofs.

(** ** More than 2^32 elements *)
Lemma tall_total M (hgt : N -> nat) s : forall n,
  M * total (fun vs => tall s (map hgt vs)) (draws M n) = n * card M (fun x => s <=? hgt x) * M ^ n.
Proof.
  induction n as [|n IH]; [unfold total; simpl; lia|]. cbn [draws]. rewrite total_flat_map.
  rewrite (total_ext _ (fun x => M ^ n * b2n (s <=? hgt x) + total (fun vs => tall s (map hgt vs)) (draws M n))).
  2: { intros x _. rewrite total_map.
       rewrite (total_ext _ (fun vs => b2n (s <=? hgt x) + tall s (map hgt vs))).
       - rewrite total_plus, total_const, draws_length. lia.
       - intros vs _. cbn [map]. apply tall_cons. }
  rewrite total_plus, total_const, numbers_length, total_mul. fold (card M (fun x => s <=? hgt x)).
  set (c := card M _) in *. set (U := total _ (draws M n)) in *. cbn [Nat.pow].
  transitivity (M * (M ^ n * c) + M * (M * U)); [lia|]. rewrite IH. lia.
Qed.
Lemma run_at_32 l : (forall h, In h l -> h <= 32) -> run_at 32 l = tall 32 l.
Proof.
  induction l as [|h l IH]; intros L; [reflexivity|]. rewrite tall_cons. cbn [run_at].
  specialize (IH ltac:(intros; apply L; now right)). specialize (L h (or_introl eq_refl)).
  rewrite (proj2 (Nat.ltb_ge 32 h)) by exact L. rewrite IH. f_equal.
  destruct (Nat.eqb_spec h 32), (Nat.leb_spec 32 h); auto; lia.
Qed.
Definition pushes (n : nat) : list (seq_op unit) := repeat (QPushBack tt) n.
Lemma pushes_S n : pushes (S n) = pushes n ++ [QPushBack tt].
Proof. apply repeat_cons. Qed.
Lemma pushes_length n : length (pushes n) = n.
Proof. apply repeat_length. Qed.
Lemma tags_app {T} (ops ops' : list (seq_op T)) : forall n l, tags n l (ops ++ ops') = tags (n + length ops) (tags n l ops) ops'.
Proof. induction ops as [|o ops IH]; intros n l; simpl; [now rewrite Nat.add_0_r|]. now rewrite IH, Nat.add_succ_comm. Qed.
Lemma tags_pushes n : tags 0 [] (pushes n) = seq 0 n.
Proof.
  induction n as [|n IH]; [reflexivity|]. rewrite pushes_S, tags_app, IH, pushes_length, seq_S. reflexivity.
Qed.
Lemma seq_lengths_app {T} (ops ops' : list (seq_op T)) : forall l,
  seq_lengths_before l (ops ++ ops') = seq_lengths_before l ops ++ seq_lengths_before (fst (spec_run seq_spec_step l ops)) ops'.
Proof.
  induction ops as [|o ops IH]; intros l; [reflexivity|]. cbn [app seq_lengths_before spec_run]. rewrite IH.
  destruct (seq_spec_step l o) as [l1 r]. cbn [fst]. now destruct (spec_run seq_spec_step l1 ops).
Qed.
Lemma seq_lengths_length {T} (ops : list (seq_op T)) : forall l, length (seq_lengths_before l ops) = length ops.
Proof. induction ops as [|o ops IH]; intros l; simpl; auto. Qed.
Lemma pushes_list n : fst (spec_run seq_spec_step [] (pushes n)) = repeat tt n.
Proof.
  induction n as [|n IH]; [reflexivity|]. rewrite pushes_S, spec_run_app, IH. cbn [spec_run seq_spec_step fst]. symmetry. apply repeat_cons.
Qed.

Lemma slist_slow (M c : nat) : N.of_nat M = two32 -> exists (ops : list (seq_op unit)) (i n k : nat),
  nth_error ops i = Some (QGet k) /\ k < n /\ nth_error (seq_lengths_before [] ops) i = Some n /\
  forall steps : list N -> list nat,
    (forall ps, length ps = length ops ->
       outputs slist_step_c slist_new (combine ops ps) = Ok (combine (spec_outputs seq_spec_step [] ops) (steps ps)) /\ length (steps ps) = length ops) ->
    ~ average_within M (length ops) (c * Nat.log2 n + c) 0 (fun ps => nth i (steps ps) 0).
Proof.
  intros EM.
  destruct (pow_beats (M * c) (M * c + 1)) as (k & Ek).
  assert (El : Nat.log2 (2 ^ k) = k) by (apply Nat.log2_pow2, Nat.le_0_l).
  set (n := 2 ^ k) in *. rewrite <- El in Ek. clearbody n. clear El k.
  exists (pushes n ++ [QGet (n - 1)]), n, n, (n - 1).
  assert (Ei : nth_error (pushes n ++ [QGet (n - 1)]) n = Some (QGet (n - 1))).
  { rewrite nth_error_app2; rewrite pushes_length; [|lia]. now rewrite Nat.sub_diag. }
  split; [exact Ei|]. split; [lia|]. split.
  { rewrite seq_lengths_app, nth_error_app2; rewrite seq_lengths_length, pushes_length; [|lia].
    rewrite Nat.sub_diag, pushes_list. cbn [seq_lengths_before nth_error]. now rewrite repeat_length. }
  set (ops := pushes n ++ [QGet (n - 1)]) in *. intros steps Hs Av. unfold average_within in Av.
  assert (Lo : length ops = S n) by (unfold ops; rewrite app_length, pushes_length; simpl; lia).
  assert (PM : 0 < M) by (unfold two32 in EM; lia).
  set (idx := rev (seq 0 (n - 1))).
  assert (Dx : NoDup idx) by apply NoDup_rev, seq_NoDup.
  assert (Lx : forall w, In w idx -> w < length ops) by (intros w X; apply in_rev, in_seq in X; lia).
  assert (Ln : length idx = n - 1) by (unfold idx; now rewrite rev_length, seq_length).
  assert (L : total (fun ps => tall 32 (map height_of (at_places idx ps))) (draws M (length ops)) <= total (fun ps => nth n (steps ps) 0) (draws M (length ops))).
  { apply total_le. intros ps ips. apply draws_in in ips as [Elp _]. destruct (Hs ps Elp) as [E0 E0'].
    destruct (slist_run_c ps ops ps 0 [] false slist_new [] Elp) as (t' & outs & E1 & E2 & E3 & E4); auto; [apply slist_at_new|].
    unfold outputs in E0. rewrite E1 in E0. simpl in E0. injection E0 as E0.
    assert (Est : steps ps = map snd outs).
    { rewrite E0. assert (Lso : length (spec_outputs seq_spec_step [] ops) = length (steps ps)) by (rewrite E0'; apply spec_run_length).
      clear -Lso. revert Lso. generalize (spec_outputs seq_spec_step [] ops). intros l. revert l. generalize (steps ps). clear.
      induction l as [|x l IH]; intros [|y l'] E; try discriminate; auto. simpl. rewrite <- IH; auto. }
    rewrite Est. destruct (E4 n _ Ei) as [_ Lw]. specialize (Lw (n - 1) eq_refl).
    assert (Ef : firstn n ops = pushes n) by (unfold ops; rewrite firstn_app, pushes_length, Nat.sub_diag, firstn_all2 by (rewrite pushes_length; lia); apply app_nil_r).
    rewrite Ef, tags_pushes in Lw. eapply Nat.le_trans; [|exact Lw]. rewrite firstn_map, <- map_rev.
    replace (firstn (n - 1) (seq 0 n)) with (seq 0 (n - 1)).
    - fold idx. rewrite run_at_32.
      + unfold at_places. rewrite map_map. lia.
      + intros h ih. apply in_map_iff in ih as (d & <- & _). apply height_of_le.
    - assert (En : n = (n - 1) + 1) by lia. set (n' := n - 1) in *. rewrite En, seq_app, firstn_app, seq_length, Nat.sub_diag, firstn_all2 by (rewrite seq_length; lia).
      cbn [firstn]. now rewrite app_nil_r. }
  rewrite (draws_places M (length ops) idx (fun vs => tall 32 (map height_of vs)) Dx Lx), Ln in L.
  pose proof (tall_total M height_of 32 (n - 1)) as Tt.
  assert (Ec : card M (fun x => 32 <=? height_of x) = 1) by (pose proof (card_tall M EM 32 (le_n 32)) as Q; apply Nat2N.inj; exact Q).
  rewrite Ec in Tt.
  assert (Ep : M ^ length ops = M ^ (length ops - (n - 1)) * M ^ (n - 1)) by (rewrite <- Nat.pow_add_r; f_equal; lia).
  set (A := M ^ (length ops - (n - 1))) in *. set (B := M ^ (n - 1)) in *. set (U := total _ (draws M (n - 1))) in *.
  assert (PA : 0 < A) by (unfold A; pose proof (Nat.pow_nonzero M (length ops - (n - 1))); lia).
  assert (PB : 0 < B) by (unfold B; pose proof (Nat.pow_nonzero M (n - 1)); lia).
  rewrite Ep in Av. set (q := c * Nat.log2 n + c) in *.
  assert (Q : M * q + 1 < n) by (unfold q; lia).
  apply (Nat.mul_le_mono_l _ _ M) in L.
  assert (F : A * ((n - 1) * B) <= A * (B * (M * q))).
  { transitivity (M * (A * U)); [|lia]. replace (M * (A * U)) with (A * (M * U)) by lia. rewrite Tt. lia. }
  apply (Nat.mul_le_mono_pos_l _ _ A PA) in F. rewrite (Nat.mul_comm _ B) in F. apply (Nat.mul_le_mono_pos_l _ _ B PB) in F. lia.
Qed.
