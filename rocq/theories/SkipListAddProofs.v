(** Proofs about [+] of SkipLists and about whole programs. *)
From Coq Require Import Permutation.
From Verif Require Export SkipListProofs SkipListSpec SeqLemmas.

Section Join.
  Context {T : Type}.
  Notation link := (option nat * nat)%type.
  Notation hp := (heap T link).
  Notation item := (sitem T).
  Notation links := (nat -> nat -> link).
  Implicit Types (h : hp) (X Y P Q R : list item) (g : links) (m : skip_list T).

  (** ** The joined memory. *)
  Definition mv (n : nat) (h : hp) : hp := map (option_map (moved_node n)) h.
  Lemma mv_nth n h a : nth_error (mv n h) a = option_map (option_map (moved_node n)) (nth_error h a).
  Proof. apply nth_error_map. Qed.
  Lemma map_list_set {A B} (f : A -> B) (l : list A) : forall i x, map f (list_set l i x) = list_set (map f l) i (f x).
  Proof. induction l as [|y l IH]; intros [|i] x; simpl; auto. now rewrite IH. Qed.
  Lemma set_app_l {A} (l r : list A) : forall i x, i < length l -> list_set (l ++ r) i x = list_set l i x ++ r.
  Proof. induction l as [|y l IH]; intros [|i] x L; simpl in *; try lia; auto. now rewrite IH by lia. Qed.
  Lemma set_app_r {A} (l r : list A) i x : list_set (l ++ r) (length l + i) x = l ++ list_set r i x.
  Proof. induction l as [|y l IH]; simpl; auto. now rewrite IH. Qed.

  Lemma get_link_l h k a i : a < length h -> get_link (h ++ k) a i = get_link h a i.
  Proof. intros L. unfold get_link, read. now rewrite nth_error_app1. Qed.
  Lemma set_link_l h k a i l : a < length h -> set_link (h ++ k) a i l = let* h' := set_link h a i l in Ok (h' ++ k).
  Proof.
    intros L. unfold set_link, read. rewrite nth_error_app1 by auto. destruct (nth_error h a) as [[nd|]|]; auto. cbn [bind].
    destruct (i <? length (sn_links nd)); auto. cbn [bind]. now rewrite set_app_l.
  Qed.
  Lemma get_link_r h k a i : get_link (h ++ mv (length h) k) (length h + a) i
    = let* l := get_link k a i in Ok (moved_link (length h) l).
  Proof.
    unfold get_link, read. rewrite nth_error_app2, Nat.add_comm, Nat.add_sub, mv_nth by lia.
    destruct (nth_error k a) as [[nd|]|]; auto. cbn [option_map bind moved_node sn_links]. rewrite nth_error_map.
    now destruct (nth_error (sn_links nd) i).
  Qed.
  Lemma set_link_r h k a i l : set_link (h ++ mv (length h) k) (length h + a) i (moved_link (length h) l)
    = let* k' := set_link k a i l in Ok (h ++ mv (length h) k').
  Proof.
    unfold set_link, read. rewrite nth_error_app2 by lia. replace (length h + a - length h) with a by lia. rewrite mv_nth.
    destruct (nth_error k a) as [[nd|]|]; auto. cbn [option_map bind moved_node sn_links sn_data]. rewrite map_length.
    destruct (i <? length (sn_links nd)); auto. cbn [bind]. rewrite set_app_r. unfold mv. rewrite map_list_set.
    cbn [option_map]. unfold moved_node at 3. cbn [sn_data sn_links]. now rewrite map_list_set.
  Qed.
  Lemma dealloc_r h k a : dealloc (h ++ mv (length h) k) (length h + a) = let* k' := dealloc k a in Ok (h ++ mv (length h) k').
  Proof.
    unfold dealloc, read. rewrite nth_error_app2 by lia. replace (length h + a - length h) with a by lia. rewrite mv_nth.
    destruct (nth_error k a) as [[nd|]|]; auto. cbn [option_map bind]. rewrite set_app_r. unfold mv. now rewrite map_list_set.
  Qed.
  Lemma get_head_r n h k i : n = length h -> get_link (h ++ mv n k) n i = let* l := get_link k 0 i in Ok (moved_link n l).
  Proof. intros ->. rewrite <- get_link_r. now rewrite Nat.add_0_r. Qed.
  Lemma set_head_r n h k i l : n = length h -> fst l = None ->
    set_link (h ++ mv n k) n i l = let* k' := set_link k 0 i l in Ok (h ++ mv n k').
  Proof.
    intros -> E. rewrite <- set_link_r. rewrite Nat.add_0_r. f_equal. destruct l as [p d]. cbn [fst] in E. now subst p.
  Qed.
  Lemma dealloc_head_r n h k : n = length h -> dealloc (h ++ mv n k) n = let* k' := dealloc k 0 in Ok (h ++ mv n k').
  Proof. intros ->. rewrite <- dealloc_r. now rewrite Nat.add_0_r. Qed.
  Lemma set_dist_l h k a i d : a < length h -> set_dist (h ++ k) a i d = let* h' := set_dist h a i d in Ok (h' ++ k).
  Proof.
    intros L. unfold set_dist. rewrite get_link_l by auto. destruct (get_link h a i); cbn [bind]; auto. now apply set_link_l.
  Qed.
  Lemma onlevel_lt h X g a i : srep h X g -> onlevel X a i -> a < length h.
  Proof.
    intros Rp O. destruct (onlevel_links _ _ _ _ _ Rp O) as (d & k & E & _). apply nth_error_Some. congruence.
  Qed.

  (** ** The tails. *)
  Lemma tails_ok h k X g (e : nat -> nat) : srep h X g -> (forall i, i <= 32 -> links_ok g i (e i) 0 X) ->
    forall fuel i P Q tails, i <= 32 -> X = P ++ Q -> length Q + i < fuel -> length tails = 33 ->
    (forall j, j <= i -> last_at j 0 P = last_at i 0 P) ->
    exists tails', tails_loop fuel (h ++ k) (last_at i 0 P) i tails = Ok tails' /\ length tails' = 33
      /\ forall j, j <= 32 -> nth_error tails' j = if j <=? i then Some (last_at j 0 X) else nth_error tails j.
  Proof.
    intros Rp HL. induction fuel as [|fuel IH]; intros i P Q tails Hi EX Hf Ht HP; [lia|]. cbn [tails_loop].
    assert (O : onlevel X (last_at i 0 P) i) by (apply last_at_onlevel; auto; subst X; intros z Hz; apply in_app_iff; auto).
    rewrite get_link_l by (eapply onlevel_lt; eauto). rewrite (get_link_ok _ _ _ _ _ Rp O). cbn [bind].
    pose proof (HL i Hi) as L. rewrite EX in L. rewrite (links_last _ _ _ _ _ L). cbn [fst].
    destruct (first_cases i Q) as [LQ|(R & y & B & EQ & HR & Hy)].
    - rewrite (first_low _ _ _ LQ). cbn [fst].
      assert (EL : last_at i 0 X = last_at i 0 P) by (rewrite EX, last_at_app; now apply last_at_none).
      assert (N0 : forall j, nth_error (list_set tails i (last_at i 0 P)) j = if j =? i then Some (last_at i 0 X) else nth_error tails j).
      { intros j. rewrite list_set_nth, Nat.eqb_sym. destruct (j =? i); auto. rewrite (proj2 (Nat.ltb_lt _ _)) by lia. now rewrite EL. }
      destruct i as [|i].
      + eexists. split; [reflexivity|]. split; [now rewrite list_set_length|]. intros j Hj. rewrite N0. destruct j; auto.
      + rewrite <- (HP i ltac:(lia)). rewrite <- (HP i ltac:(lia)) in N0.
        destruct (IH i P Q (list_set tails (S i) (last_at i 0 P)) ltac:(lia) EX ltac:(lia)) as (t & E & Lt & Nt).
        * now rewrite list_set_length.
        * intros j Hj. rewrite (HP j) by lia. symmetry. apply HP. lia.
        * exists t. split; auto. split; auto. intros j Hj. rewrite Nt, N0 by auto.
          destruct (Nat.leb_spec j i), (Nat.leb_spec j (S i)), (Nat.eqb_spec j (S i)); try lia; subst; auto.
    - rewrite EQ, (first_tall _ _ _ _ _ HR Hy). cbn [fst].
      assert (LY : forall j, j <= i -> last_at j 0 (P ++ R ++ [y]) = ad y).
      { intros j Hj. rewrite !last_at_app. cbn [last_at]. now rewrite (proj2 (Nat.leb_le _ _)) by lia. }
      rewrite <- (LY i (le_n i)). apply (IH i (P ++ R ++ [y]) B); auto.
      + rewrite EX, EQ, <- !app_assoc. reflexivity.
      + rewrite EQ, app_length in Hf. cbn [length] in Hf. lia.
      + intros j Hj. now rewrite !LY by lia.
  Qed.

  (** ** Joining level by level. *)
  Lemma join_ok n X Y : forall k i h1 h2 g1 g2, i + k = 33 -> n = length h1 -> srep h1 X g1 -> srep h2 Y g2 ->
    (forall j, i <= j <= 32 -> fst (g1 (last_at j 0 X) j) = None) ->
    exists h1' h2' g1' g2',
      join_loop i (h1 ++ mv n h2) n (map (fun j => last_at j 0 X) (seq i k)) = Ok (h1' ++ mv n h2')
      /\ srep h1' X g1' /\ srep h2' Y g2' /\ n = length h1'
      /\ (forall a j, g1' a j = if (i <=? j) && (j <=? 32) && (a =? last_at j 0 X)
                                then (fst (moved_link n (g2 0 j)), snd (g2 0 j) + snd (g1 a j)) else g1 a j)
      /\ (forall a j, g2' a j = if (i <=? j) && (j <=? 32) && (a =? 0) then g1 (last_at j 0 X) j else g2 a j).
  Proof.
    induction k as [|k IH]; intros i h1 h2 g1 g2 Hk Hn R1 R2 HN; cbn [seq map join_loop].
    - exists h1, h2, g1, g2. split; [reflexivity|]. split; auto. split; auto. split; auto.
      split; intros a j; destruct (Nat.leb_spec i j), (Nat.leb_spec j 32); cbn [andb]; auto; lia.
    - assert (O1 : onlevel X (last_at i 0 X) i) by (apply last_at_onlevel; [lia|apply incl_refl]).
      assert (O2 : onlevel Y 0 i) by (left; lia).
      pose proof (onlevel_lt _ _ _ _ _ R1 O1) as La.
      rewrite get_link_l by auto. rewrite (get_link_ok _ _ _ _ _ R1 O1). cbn [bind].
      rewrite (get_head_r n h1 h2 i Hn), (get_link_ok _ _ _ _ _ R2 O2). cbn [bind].
      destruct (set_link_ok _ _ _ _ _ (moved_link n (g2 0 i)) R1 O1) as (h1a & E1 & R1a & L1a).
      rewrite set_link_l by auto. rewrite E1. cbn [bind].
      destruct (set_link_ok _ _ _ _ _ (g1 (last_at i 0 X) i) R2 O2) as (h2a & E2 & R2a & _).
      rewrite (set_head_r n h1a h2 i) by (try apply HN; lia). rewrite E2. cbn [bind].
      destruct (set_dist_ok _ _ _ _ _ (snd (moved_link n (g2 0 i)) + snd (g1 (last_at i 0 X) i)) R1a O1) as (h1b & E3 & R1b & L1b).
      rewrite set_dist_l by lia. rewrite E3. cbn [bind].
      destruct (IH (S i) h1b h2a _ _ ltac:(lia) ltac:(lia) R1b R2a) as (h1' & h2' & g1' & g2' & E4 & R1' & R2' & L1' & G1 & G2).
      { intros j Hj. rewrite !upd_other by lia. apply HN. lia. }
      rewrite E4. exists h1', h2', g1', g2'.
      split; [reflexivity|]. split; auto. split; auto. split; auto. split.
      + intros a j. rewrite G1. destruct (Nat.eq_dec j i) as [->|Nj].
        * rewrite (proj2 (Nat.leb_gt (S i) i)), (proj2 (Nat.leb_le i i)), (proj2 (Nat.leb_le i 32)) by lia. cbn [andb].
          destruct (Nat.eqb_spec a (last_at i 0 X)) as [->|Na].
          -- now rewrite !upd_same.
          -- now rewrite !upd_other by auto.
        * rewrite !upd_other by auto. destruct (Nat.leb_spec (S i) j), (Nat.leb_spec i j); auto; lia.
      + intros a j. rewrite G2. destruct (Nat.eq_dec j i) as [->|Nj].
        * rewrite (proj2 (Nat.leb_gt (S i) i)), (proj2 (Nat.leb_le i i)), (proj2 (Nat.leb_le i 32)) by lia. cbn [andb].
          destruct (Nat.eqb_spec a 0) as [->|Na].
          -- now rewrite !upd_same.
          -- now rewrite !upd_other by auto.
        * rewrite !upd_other by auto. destruct (Nat.leb_spec (S i) j), (Nat.leb_spec i j); auto; lia.
  Qed.

  Lemma lfree_none f h : lfree_from f h None = Ok (h, []).
  Proof. now destruct f. Qed.

  (** ** The result. *)
  Definition mvi (n : nat) (x : item) : item := It (n + ad x) (ht x) (dt x).
  Lemma first_mv n i e X : first i e (map (mvi n) X) = moved_link n (first i e X).
  Proof.
    induction X as [|x X IH]; cbn [map first mvi ht ad]; auto. destruct (i <=? ht x); auto. rewrite IH.
    now destruct (first i e X) as [[p|] d].
  Qed.
  Lemma has_tall_mv n i X : has_tall i (map (mvi n) X) = has_tall i X.
  Proof. unfold has_tall. induction X as [|x X IH]; cbn [map existsb mvi ht]; auto. now rewrite IH. Qed.
  Lemma tall_mv (n : nat) g g' i e X : (forall x, In x X -> g' (n + ad x) i = moved_link n (g (ad x) i)) ->
    tall_ok g i e X [] -> tall_ok g' i e (map (mvi n) X) [].
  Proof.
    induction X as [|x X IH]; cbn [map tall_ok mvi ht ad]; auto. intros E [L1 L2]. rewrite app_nil_r in *. split.
    - intros Hx. rewrite E by now left. rewrite L1, first_mv; auto.
    - apply IH; auto. intros y Hy. apply E. now right.
  Qed.
  Lemma low_tall g i e X : low i X -> tall_ok g i e X [].
  Proof.
    induction X as [|x X IH]; intros L; cbn [tall_ok]; auto. split.
    - intros Hx. specialize (L x (or_introl eq_refl)). lia.
    - apply IH. intros y Hy. apply L. now right.
  Qed.

  Definition glued n g1 g2 : links := fun a i => if a <? n then g1 a i else moved_link n (g2 (a - n) i).
  Lemma glued_l n g1 g2 a i : a < n -> glued n g1 g2 a i = g1 a i.
  Proof. intros L. unfold glued. now rewrite (proj2 (Nat.ltb_lt _ _)) by auto. Qed.
  Lemma glued_r n g1 g2 a i : glued n g1 g2 (n + a) i = moved_link n (g2 a i).
  Proof. unfold glued. rewrite (proj2 (Nat.ltb_ge _ _)) by lia. do 2 f_equal. lia. Qed.

  Lemma glued_srep h1 h2 X Y g1 g2 : srep h1 X g1 -> srep h2 Y g2 ->
    srep (h1 ++ mv (length h1) (list_set h2 0 None)) (X ++ map (mvi (length h1)) Y) (glued (length h1) g1 g2).
  Proof.
    intros R1 R2. set (n := length h1).
    assert (N0 : 0 < n) by (apply (onlevel_lt _ _ _ 0 0 R1); left; lia).
    assert (LX : forall x, In x X -> ad x < n) by (intros x Hx; apply (onlevel_lt _ _ _ _ 0 R1); right; exists x; repeat split; auto; lia).
    assert (Y0 : forall y, In y Y -> ad y <> 0).
    { intros y Hy Q. pose proof (sr_nodup _ _ _ R2) as Nd. inversion Nd as [|? ? M _]; subst. apply M. rewrite <- Q. now apply in_map. }
    split.
    - rewrite nth_error_app1 by auto. rewrite (sr_head _ _ _ R1). do 3 f_equal. apply nlinks_ext. intros i _. now rewrite glued_l.
    - intros x Hx. apply in_app_iff in Hx as [Hx|Hx].
      + rewrite nth_error_app1 by (apply LX; auto). rewrite (sr_node _ _ _ R1 _ Hx). do 3 f_equal. apply nlinks_ext.
        intros i _. rewrite glued_l; auto.
      + apply in_map_iff in Hx as (y & <- & Hy). cbn [mvi ad dt ht]. rewrite nth_error_app2 by (unfold n; lia).
        replace (n + ad y - length h1) with (ad y) by (unfold n; lia). rewrite mv_nth, list_set_nth.
        rewrite (proj2 (Nat.eqb_neq 0 (ad y))) by (apply not_eq_sym; auto). rewrite (sr_node _ _ _ R2 _ Hy).
        cbn [option_map moved_node sn_data sn_links]. unfold moved_node. cbn [sn_data sn_links]. do 3 f_equal.
        unfold nlinks. rewrite map_map. apply map_ext. intros i. now rewrite glued_r.
    - rewrite map_app. pose proof (sr_nodup _ _ _ R1) as M1. pose proof (sr_nodup _ _ _ R2) as M2.
      inversion M2 as [|? ? _ M3]; subst. clear M2.
      assert (M4 : NoDup (map ad (map (mvi n) Y))).
      { rewrite map_map. cbn [mvi ad]. rewrite <- (map_map ad (fun a => n + a)). apply FinFun.Injective_map_NoDup; auto. intros a b. lia. }
      change (NoDup ((0 :: map ad X) ++ map ad (map (mvi n) Y))).
      assert (D : forall a, In a (0 :: map ad X) -> ~ In a (map ad (map (mvi n) Y))).
      { intros a Ha Hb. rewrite map_map in Hb. apply in_map_iff in Hb as (y & <- & Hy). cbn [mvi ad] in Ha.
        destruct Ha as [Ha|Ha]; [lia|]. apply in_map_iff in Ha as (x & Ex & Hx). specialize (LX x Hx). lia. }
      revert M1 D. generalize (0 :: map ad X). intros l. induction l as [|a l IH]; intros M1 D; cbn [app]; auto.
      inversion M1; subst. constructor.
      + rewrite in_app_iff. intros [I|I]; [contradiction|]. now apply (D a (or_introl eq_refl)).
      + apply IH; auto. intros b Hb. apply D. now right.
    - intros x Hx. apply in_app_iff in Hx as [Hx|Hx]; [now apply R1|]. apply in_map_iff in Hx as (y & <- & Hy). exact (sr_ht _ _ _ R2 y Hy).
    - intros a nd E. rewrite map_app. destruct (Nat.lt_ge_cases a n) as [L|L].
      + rewrite nth_error_app1 in E by auto. apply (sr_dead _ _ _ R1) in E as [E|E]; [now left|right; apply in_app_iff; auto].
      + rewrite nth_error_app2, mv_nth in E by auto. fold n in E. rewrite list_set_nth in E.
        destruct (Nat.eqb_spec 0 (a - n)) as [Q|Q].
        * destruct (_ <? _); discriminate.
        * destruct (nth_error h2 (a - n)) as [[nd2|]|] eqn:E2; try discriminate.
          apply (sr_dead _ _ _ R2) in E2 as [E2|E2]; [lia|]. right. apply in_app_iff. right.
          rewrite map_map. cbn [mvi ad]. rewrite <- (map_map ad (fun a => n + a)). apply in_map_iff. exists (a - n). split; [lia|auto].
  Qed.

  Definition add_excess Y (e1 e2 : nat -> nat) i := if has_tall i Y then e2 i else e1 i + e2 i.
  Lemma slist_add_any m1 m2 X Y g1 g2 e1 e2 : sl_ok (sl_heap m1) X g1 e1 -> sl_ok (sl_heap m2) Y g2 e2 ->
    exists h g Y', slist_add m1 m2 = Ok (SkipList h (sl_len m1 + sl_len m2), []) /\ srep h (X ++ Y') g /\ map dt Y' = map dt Y /\ map ht Y' = map ht Y
      /\ forall i, i <= 32 -> e1 i = 0 \/ has_tall i Y = false -> links_ok g i (add_excess Y e1 e2 i) 0 (X ++ Y').
  Proof.
    intros (R1 & E1 & L1) (R2 & E2 & L2).
    unfold slist_add. fold (mv (length (sl_heap m1)) (sl_heap m2)).
    set (h1 := sl_heap m1) in *. set (h2 := sl_heap m2) in *. set (n := length h1).
    destruct (tails_ok h1 (mv n h2) X g1 e1 R1 L1 (S (length (h1 ++ mv n h2) + S max_height)) 32 [] X (repeat 0 33)) as (tails & ET & LT & NT); auto.
    { pose proof (srep_length _ _ _ R1). rewrite app_length. unfold max_height. lia. }
    cbn [last_at] in ET. change (S max_height) with 33 in *. change max_height with 32. rewrite ET. cbn [bind].
    assert (tails = map (fun j => last_at j 0 X) (seq 0 33)) as ->.
    { apply nth_error_ext'. intros j. rewrite nth_error_map. destruct (Nat.lt_ge_cases j 33) as [Hj|Hj].
      - rewrite NT, (proj2 (Nat.leb_le _ _)) by lia. rewrite (nth_error_nth' _ 0) by (rewrite seq_length; lia). now rewrite seq_nth.
      - rewrite (proj2 (nth_error_None tails j)), (proj2 (nth_error_None (seq 0 33) j)); auto; rewrite ?seq_length; lia. }
    assert (LA : forall j, j <= 32 -> g1 (last_at j 0 X) j = (None, gap_at j 0 X + e1 j)).
    { intros j Hj. rewrite (links_last _ _ (e1 j) X []); [reflexivity|]. rewrite app_nil_r. auto. }
    destruct (join_ok n X Y 33 0 h1 h2 g1 g2 eq_refl eq_refl R1 R2) as (h1' & h2' & g1' & g2' & EJ & R1' & R2' & H1 & G1 & G2).
    { intros j Hj. now rewrite LA by lia. }
    rewrite EJ. cbn [bind].
    assert (ED : ldrop (h1' ++ mv n h2') n = Ok (h1' ++ mv n (list_set h2' 0 None), [])).
    { unfold ldrop. rewrite (get_head_r n h1' h2' 0 H1), (get_link_ok _ _ _ _ _ R2') by (left; lia). cbn [bind].
      rewrite G2. cbn [Nat.leb Nat.eqb andb]. rewrite LA by lia.
      rewrite (dealloc_head_r n h1' h2' H1), (proj1 (dealloc_head _ _ _ R2')).
      cbn [bind moved_link fst snd option_map]. apply lfree_none. }
    rewrite ED. cbn [bind]. pose proof (glued_srep _ _ _ _ _ _ R1' R2') as RF. rewrite <- H1 in RF.
    eexists _, (glued n g1' g2'), (map (mvi n) Y). split; [reflexivity|]. split; [exact RF|].
    split; [rewrite map_map; reflexivity|]. split; [rewrite map_map; reflexivity|]. intros i Hi HW.
    assert (LX : forall x, In x X -> ad x < n) by (intros x Hx; apply (onlevel_lt _ _ _ _ 0 R1); right; exists x; repeat split; auto; lia).
    assert (Ll : last_at i 0 X < n) by (apply (onlevel_lt _ _ _ _ i R1), last_at_onlevel; [lia|apply incl_refl]).
    eapply (links_splice g1 _ i (e1 i) _ X [] (map (mvi n) Y)); [apply R1|rewrite app_nil_r; auto| | |].
    - intros b Nb Hb. rewrite glued_l.
      + rewrite G1, (proj2 (Nat.eqb_neq _ _)), andb_false_r by auto. reflexivity.
      + destruct Hb as [->|Hb]; [apply (onlevel_lt _ _ _ 0 0 R1); left; lia|]. apply in_map_iff in Hb as (x & <- & Hx). auto.
    - rewrite glued_l by auto. rewrite G1, Nat.eqb_refl, (proj2 (Nat.leb_le i 32)) by auto. cbn [Nat.leb andb].
      rewrite LA by auto. cbn [snd]. rewrite (proj1 (L2 i Hi)), first_mv. unfold add_excess.
      destruct (has_tall i Y) eqn:HT.
      + destruct HW as [-> | HW]; [|discriminate]. f_equal; cbn [snd moved_link]; lia.
      + apply has_tall_false in HT. rewrite !(first_low _ _ _ HT). cbn [moved_link fst snd option_map]. f_equal. lia.
    - assert (TY : tall_ok g2 i (add_excess Y e1 e2 i) Y []).
      { unfold add_excess. destruct (has_tall i Y) eqn:HT; [apply (L2 i Hi)|]. now apply low_tall, has_tall_false. }
      eapply tall_mv; [|exact TY]. intros y Hy. rewrite glued_r, G2, (proj2 (Nat.eqb_neq (ad y) 0)), andb_false_r; auto.
      intros Q. pose proof (sr_nodup _ _ _ R2) as Nd. inversion Nd as [|? ? M _]; subst. apply M. rewrite <- Q. now apply in_map.
  Qed.

  Lemma slist_add_at w1 w2 m1 m2 X Y : sl_at w1 m1 X -> sl_at w2 m2 Y -> w1 = false \/ Y = [] ->
    exists m Y', slist_add m1 m2 = Ok (m, []) /\ sl_at (w1 || w2) m (X ++ Y') /\ map dt Y' = map dt Y /\ map ht Y' = map ht Y.
  Proof.
    intros (g1 & e1 & O1 & N1 & W1) (g2 & e2 & O2 & N2 & W2) HW.
    destruct (slist_add_any _ _ _ _ _ _ _ _ O1 O2) as (h & g & Y' & E & Rp & ED & EH & HL). rewrite E.
    eexists _, Y'. split; [reflexivity|]. split; [|now split]. exists g, (add_excess Y e1 e2). cbn [sl_heap sl_len].
    split; [split; [exact Rp|split]|split].
    - destruct O1 as (_ & E1 & _), O2 as (_ & E2 & _). unfold add_excess. rewrite E1, E2. now destruct (has_tall 0 Y).
    - intros i Hi. apply HL; auto. destruct HW as [HW|HW]; auto. subst Y. now right.
    - apply (f_equal (@length _)) in EH. rewrite !map_length in EH. rewrite app_length. lia.
    - intros HF i. apply orb_false_iff in HF as [F1 F2]. unfold add_excess. rewrite (W1 F1), (W2 F2). now destruct (has_tall i Y).
  Qed.
  Lemma slist_add_ok w1 w2 m1 m2 l1 l2 : sl_rel w1 m1 l1 -> sl_rel w2 m2 l2 -> w1 = false \/ l2 = [] ->
    exists m, slist_add m1 m2 = Ok (m, []) /\ sl_rel (w1 || w2) m (l1 ++ l2).
  Proof.
    intros R1 R2 HW. apply sl_rel_at in R1 as (X & A1 & <-). apply sl_rel_at in R2 as (Y & A2 & <-).
    destruct (slist_add_at w1 w2 m1 m2 X Y A1 A2) as (m & Y' & E & A & ED & _).
    - destruct HW as [HW|HW]; [now left|right]. now apply map_eq_nil in HW.
    - exists m. split; [exact E|]. apply sl_at_rel in A. now rewrite map_app, ED in A.
  Qed.

  (** Whatever the distances, the result can be iterated over and dropped. *)
  Lemma slist_add_iter w1 w2 m1 m2 l1 l2 : sl_rel w1 m1 l1 -> sl_rel w2 m2 l2 ->
    exists m h, slist_add m1 m2 = Ok (m, []) /\ sl_len m = length (l1 ++ l2) /\ slist_iter m = Ok (l1 ++ l2)
      /\ live_nodes (sl_heap m) = S (length (l1 ++ l2)) /\ slist_drop m = Ok (h, l1 ++ l2) /\ live_nodes h = 0.
  Proof.
    intros (X & g1 & e1 & O1 & <- & N1 & W1) (Y & g2 & e2 & O2 & <- & N2 & W2).
    destruct (slist_add_any _ _ _ _ _ _ _ _ O1 O2) as (h & g & Y' & E & Rp & ED & _ & HL). rewrite E.
    destruct O1 as (_ & E1 & _), O2 as (_ & E2 & _). specialize (HL 0 ltac:(lia) (or_introl E1)).
    rewrite <- ED, <- map_app. pose proof (links_chain _ _ _ _ HL) as Ch. pose proof (srep_length _ _ _ Rp) as Hl.
    assert (EH : fst (g 0 0) = option_map ad (hd_error (X ++ Y'))) by (rewrite (proj1 HL); apply first_0).
    destruct (dealloc_head _ _ _ Rp) as (D1 & D2 & D3).
    destruct (lfree_from_ok (X ++ Y') (list_set h 0 None) g (length h) D2 Ch ltac:(lia)) as (h' & F1 & F2).
    eexists _, h'. split; [reflexivity|]. cbn [sl_heap sl_len]. split; [|split; [|split; [|split]]].
    - rewrite N1, N2, map_app, ED, app_length. reflexivity.
    - unfold slist_iter. cbn [sl_heap]. rewrite (get_link_ok _ _ _ 0 0 Rp) by (left; lia). cbn [bind]. rewrite EH.
      apply (liter_from_ok _ (X ++ Y') g); auto; [apply incl_refl|lia].
    - rewrite (srep_live _ _ _ Rp), map_length. reflexivity.
    - unfold slist_drop, ldrop. cbn [sl_heap]. rewrite (get_link_ok _ _ _ 0 0 Rp) by (left; lia). cbn [bind].
      rewrite D1. cbn [bind]. rewrite EH, list_set_length. exact F1.
    - eapply freed_all; eauto.
  Qed.

  (** ** Single lists. *)
  Lemma slist_insert_seq w m l i v d : sl_rel w m l ->
    exists m', slist_insert m i v d = Ok (m', snd (seq_insert l i v)) /\ sl_rel w m' (fst (seq_insert l i v)).
  Proof.
    intros R. unfold seq_insert. destruct (Nat.leb_spec i (length l)) as [Hi|Hi].
    - now apply slist_insert_ok.
    - exists m. unfold slist_insert. rewrite (sl_rel_len _ _ _ R), (proj2 (Nat.leb_gt _ _)) by auto. auto.
  Qed.
  Lemma slist_remove_seq w m l i : sl_rel w m l ->
    exists m', slist_remove m i = Ok (m', snd (seq_remove l i)) /\ sl_rel (w || (i <? length l)) m' (fst (seq_remove l i)).
  Proof.
    intros R. unfold seq_remove. destruct (nth_error l i) as [v|] eqn:E.
    - rewrite (proj2 (Nat.ltb_lt _ _)) by (apply nth_error_Some; congruence). rewrite orb_true_r. eapply slist_remove_ok; eauto.
    - apply nth_error_None in E. exists m. unfold slist_remove. rewrite (sl_rel_len _ _ _ R), (proj2 (Nat.ltb_ge _ _)) by auto.
      rewrite orb_false_r. auto.
  Qed.

  Lemma slist_step_ok w m l (o : seq_op T) d : sl_rel w m l ->
    exists m', slist_step m (o, d) = Ok (m', snd (seq_spec_step l o)) /\ sl_rel (worn_after o l w) m' (fst (seq_spec_step l o)).
  Proof.
    intros R. pose proof (sl_rel_len _ _ _ R) as Ln. destruct o; cbn [slist_step seq_spec_step worn_after].
    - now apply slist_insert_seq.
    - now apply slist_remove_seq.
    - destruct (slist_insert_seq w m l 0 v d R) as (m' & E & R'). exists m'. rewrite E. split; auto.
    - destruct (slist_insert_seq w m l (length l) v d R) as (m' & E & R'). exists m'. rewrite Ln, E. unfold seq_insert in *.
      rewrite Nat.leb_refl in *. cbn [fst snd] in *. rewrite insert_nth_length in R'. auto.
    - destruct (slist_remove_seq w m l 0 R) as (m' & E & R'). exists m'. rewrite E. unfold seq_remove in *. destruct l; auto.
    - destruct l as [|x l].
      + exists m. rewrite Ln. cbn. rewrite orb_false_r. auto.
      + rewrite Ln. unfold checked_sub. cbn [length Nat.leb]. destruct (slist_remove_seq w m (x :: l) (S (length l) - 1) R) as (m' & E & R').
        exists m'. rewrite E. unfold seq_remove in *. destruct (remove_nth_last (x :: l)) as [Q1 Q2]; [discriminate|].
        cbn [length] in *. rewrite Q1, Q2 in *. rewrite (proj2 (Nat.ltb_lt _ _)) in R' by lia.
        destruct (last_error (x :: l)) as [y|] eqn:El; [|now apply last_error_none in El]. auto.
    - rewrite (slist_get_ok _ _ _ _ R). exists m. auto.
    - destruct (slist_get_mut_ok _ _ _ i v R) as (m' & E & R'). rewrite E. exists m'. auto.
    - rewrite (slist_get_ok _ _ _ _ R). exists m. auto.
    - destruct (slist_get_mut_ok _ _ _ i v R) as (m' & E & R'). rewrite E. exists m'. auto.
    - rewrite Ln. exists m. auto.
    - rewrite Ln. exists m. auto.
    - destruct (slist_clear_ok _ _ _ R) as (m' & E & R'). rewrite E. exists m'. auto.
    - rewrite (slist_iter_ok _ _ _ R). exists m. auto.
    - destruct (slist_iter_mut_ok _ _ _ vs R) as (m' & E & R'). rewrite E. exists m'. auto.
    - destruct (slist_into_iter_ok _ _ _ (length (sl_heap m)) R) as (h & E & _). rewrite E. cbn [bind].
      pose proof (sl_rel_heap _ _ _ R). rewrite firstn_all2 by lia. exists slist_new. split; auto. apply sl_rel_new.
  Qed.

  Definition sl_some m l := exists w, sl_rel w m l.
  Lemma slist_some_step m l (o : seq_op T * N) : sl_some m l ->
    exists m', slist_step m o = Ok (m', snd (seq_spec_step l (fst o))) /\ sl_some m' (fst (seq_spec_step l (fst o))).
  Proof.
    intros [w R]. destruct o as [o d]. destruct (slist_step_ok w m l o d R) as (m' & E & R'). exists m'. split; auto.
    eexists. exact R'.
  Qed.
  Lemma sl_some_new : sl_some slist_new [].
  Proof. exists false. apply sl_rel_new. Qed.

  Lemma slist_refines (ops : list (seq_op T * N)) :
    outputs slist_step slist_new ops = Ok (spec_outputs seq_spec_step [] (map fst ops)).
  Proof.
    unfold outputs, spec_outputs. rewrite <- spec_run_map.
    destruct (run_sim slist_step (fun l o => seq_spec_step l (fst o)) sl_some slist_some_step ops _ _ sl_some_new) as (m & E & _).
    now rewrite E.
  Qed.
  Lemma slist_reach (ops : list (seq_op T * N)) m outs : run slist_step slist_new ops = Ok (m, outs) ->
    exists w, sl_rel w m (fst (spec_run seq_spec_step [] (map fst ops))).
  Proof.
    intros E. rewrite <- spec_run_map.
    destruct (run_sim slist_step (fun l o => seq_spec_step l (fst o)) sl_some slist_some_step ops _ _ sl_some_new) as (m' & E' & R).
    rewrite E in E'. injection E' as <- _. exact R.
  Qed.
  Lemma slist_memory (ops : list (seq_op T * N)) m outs : run slist_step slist_new ops = Ok (m, outs) ->
    exists l h, live_nodes (sl_heap m) = S (length l) /\ slist_iter m = Ok l /\ slist_drop m = Ok (h, l) /\ live_nodes h = 0.
  Proof.
    intros E. destruct (slist_reach _ _ _ E) as [w R]. destruct (slist_drop_ok _ _ _ R) as (h & D1 & D2).
    eexists _, h. split; [exact (sl_rel_live _ _ _ R)|]. split; [exact (slist_iter_ok _ _ _ R)|]. auto.
  Qed.
  Lemma slist_into_iter_drops (ops : list (seq_op T * N)) m outs (n : nat) : run slist_step slist_new ops = Ok (m, outs) ->
    exists l h, slist_iter m = Ok l /\ live_nodes h = 0 /\
      slist_into_iter m n = Ok (h, firstn n l, flat_map (fun p => [p; p]) (skipn n l)).
  Proof.
    intros E. destruct (slist_reach _ _ _ E) as [w R]. destruct (slist_into_iter_ok _ _ _ n R) as (h & D1 & D2).
    eexists _, h. split; [exact (slist_iter_ok _ _ _ R)|]. auto.
  Qed.
  Lemma slist_add_iterates (ops1 ops2 : list (seq_op T * N)) m1 m2 outs1 outs2 :
    run slist_step slist_new ops1 = Ok (m1, outs1) -> run slist_step slist_new ops2 = Ok (m2, outs2) ->
    exists l1 l2 m h, slist_iter m1 = Ok l1 /\ slist_iter m2 = Ok l2 /\ slist_add m1 m2 = Ok (m, []) /\
      sl_len m = length (l1 ++ l2) /\ slist_iter m = Ok (l1 ++ l2) /\
      live_nodes (sl_heap m) = S (length (l1 ++ l2)) /\ slist_drop m = Ok (h, l1 ++ l2) /\ live_nodes h = 0.
  Proof.
    intros E1 E2. destruct (slist_reach _ _ _ E1) as [w1 R1]. destruct (slist_reach _ _ _ E2) as [w2 R2].
    destruct (slist_add_iter _ _ _ _ _ _ R1 R2) as (m & h & Q). eexists _, _, m, h.
    split; [exact (slist_iter_ok _ _ _ R1)|]. split; [exact (slist_iter_ok _ _ _ R2)|exact Q].
  Qed.

  (** ** Programs. *)
  Definition sl_regs (ws : nat -> bool) (rs : nat -> skip_list T) (sp : nat -> list T) := forall i, sl_rel (ws i) (rs i) (sp i).
  Lemma sl_regs_update ws rs sp i w m l : sl_regs ws rs sp -> sl_rel w m l -> sl_regs (update ws i w) (update rs i m) (update sp i l).
  Proof. intros R Rm j. unfold update. destruct (j =? i); auto. Qed.

  Lemma slist_prog_ok (ops : list (sprog_op T * N)) : forall ws rs sp, sl_regs ws rs sp -> joins_fresh sp ws (map fst ops) = true ->
    exists rs' ws', run slist_prog_step rs ops = Ok (rs', snd (spec_run sprog_spec_step sp (map fst ops)))
      /\ sl_regs ws' rs' (fst (spec_run sprog_spec_step sp (map fst ops))).
  Proof.
    induction ops as [|[o d] ops IH]; intros ws rs sp R HF.
    - exists rs, ws. auto.
    - cbn [map fst joins_fresh run spec_run] in *.
      assert (St : exists rs1 ws1, slist_prog_step rs (o, d) = Ok (rs1, snd (sprog_spec_step sp o)) /\ sl_regs ws1 rs1 (fst (sprog_spec_step sp o))
                /\ joins_fresh (fst (sprog_spec_step sp o)) ws1 (map fst ops) = true).
      { destruct o as [i o|c i j]; cbn [slist_prog_step sprog_spec_step] in *.
        - destruct (slist_step_ok _ _ _ o d (R i)) as (m' & E & R'). rewrite E. cbn [bind].
          destruct (seq_spec_step (sp i) o) as [l out]. cbn [fst snd] in *. eexists _, _. split; [reflexivity|].
          split; [|exact HF]. now apply sl_regs_update.
        - cbv zeta in *. apply andb_true_iff in HF as [HF1 HF2]. cbn [fst snd] in *.
          pose proof (sl_regs_update _ _ _ i _ _ _ R sl_rel_new) as R1.
          pose proof (sl_regs_update _ _ _ j _ _ _ R1 sl_rel_new) as R2.
          destruct (slist_add_ok _ _ _ _ _ _ (R i) (R1 j)) as (m & E & Rm).
          { apply orb_true_iff in HF1 as [HF1|HF1]; [left; now apply negb_true_iff|right].
            apply Nat.eqb_eq in HF1. now apply length_zero_iff_nil. }
          rewrite E. cbn [bind]. eexists _, _. split; [reflexivity|]. split; [|exact HF2]. now apply sl_regs_update. }
      destruct St as (rs1 & ws1 & E & R1 & HF1). rewrite E. cbn [bind].
      destruct (sprog_spec_step sp o) as [sp1 out]. cbn [fst snd] in *.
      destruct (IH _ _ _ R1 HF1) as (rs2 & ws2 & E2 & R2). rewrite E2. cbn [bind].
      destruct (spec_run sprog_spec_step sp1 (map fst ops)) as [sp2 outs]. cbn [fst snd] in *. exists rs2, ws2. auto.
  Qed.
  Lemma slist_prog_refines (ops : list (sprog_op T * N)) : joins_fresh (fun _ => []) (fun _ => false) (map fst ops) = true ->
    outputs slist_prog_step (fun _ => slist_new) ops = Ok (sprog_spec_outputs (map fst ops)).
  Proof.
    intros HF. unfold outputs, sprog_spec_outputs, spec_outputs.
    destruct (slist_prog_ok ops (fun _ => false) (fun _ => slist_new) (fun _ => [])) as (rs & ws & E & _); auto.
    - intros i. apply sl_rel_new.
    - now rewrite E.
  Qed.
End Join.

(** ** Witnesses. *)
Lemma slist_into_iter_bad : exists (m : skip_list nat) outs h,
  run slist_step slist_new [(QPushBack 1, 0%N); (QPushBack 2, 0%N)] = Ok (m, outs) /\
  slist_into_iter m 1 = Ok (h, [1], [2; 2]).
Proof. do 3 eexists. vm_compute. split; reflexivity. Qed.

Definition tall_draw : N := 2147483647. (* a node of height 1 *)
Definition flat_draw : N := 4294967295. (* a node of height 0 *)
Definition worn_join : list (sprog_op nat * N) :=
  [(QPOp 0 (QPushBack 10), flat_draw); (QPOp 0 (QPushBack 11), flat_draw); (QPOp 0 QPopBack, 0%N);
   (QPOp 1 (QPushBack 12), tall_draw); (QPOp 1 (QPushBack 13), flat_draw); (QPAdd 0 0 1, 0%N)].
Lemma slist_add_bad_get : exists ops : list (sprog_op nat * N),
  outputs slist_prog_step (fun _ => slist_new) (ops ++ [(QPOp 0 QIter, 0%N); (QPOp 0 (QGet 2), 0%N); (QPOp 0 (QGet 3), 0%N)])
    = Ok (firstn 6 (sprog_spec_outputs (map fst ops)) ++ [QList [10; 12; 13]; QOpt (Some 12); QOpt (Some 13)]).
Proof. exists worn_join. vm_compute. reflexivity. Qed.
(** The node of 12 is freed but still linked at level 1. *)
Lemma slist_add_bad_free : exists ops : list (sprog_op nat * N),
  outputs slist_prog_step (fun _ => slist_new) (ops ++ [(QPOp 0 (QRemove 1), 0%N)])
    = Ok (sprog_spec_outputs (map fst ops ++ [QPOp 0 (QRemove 1)])) /\
  outputs slist_prog_step (fun _ => slist_new) (ops ++ [(QPOp 0 (QRemove 1), 0%N); (QPOp 0 (QGet 1), 0%N)]) = Panic.
Proof. exists worn_join. vm_compute. split; reflexivity. Qed.
