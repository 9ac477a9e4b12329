(** Removal from the on-disk B+ tree. *)
From Verif Require Import BpMapModel BpLeafProofs BpInternalProofs BpStoreProofs OrdLemmas ListLemmas MapSpec.
From Verif Require Export BpInsertProofs.

Section Remove.
  Context {K V : Type} `{CmpLaws K} {Tg : tightness}.
  Variables m d : nat.
  Hypothesis Hm : 1 <= m.
  Hypothesis Hd : 3 <= d.
  Notation entry := (K * V)%type.
  Notation node := (node K V).
  Notation store := (store K V).
  Notation frame := (@frame K).
  Notation bt := (@bt K V).
  Notation kid := (option K * bt)%type.
  Notation flat := (flat m d).
  Notation flat_kids := (flat_kids m d).
  Notation inode := (inode d).
  Notation ok := (ok m d).
  Notation kids_ok := (kids_ok m d).
  Implicit Types (t c : bt) (kids L R M A B : list kid) (l lo hi : option K) (nxt : option nat) (es : list entry) (e : entry).

  (** *** Two neighbouring children of a node *)
  Lemma cell_at {T} (a : list T) x b i : i = length a -> cell (a ++ x :: b) i = Ok x.
  Proof. apply cell_app. Qed.
  Lemma pair_ptrs A l1 c1 k2 c2 B :
    cell (in_ptrs (inode (A ++ (l1, c1) :: (Some k2, c2) :: B))) (length A) = Ok (root_of c1) /\
    cell (in_ptrs (inode (A ++ (l1, c1) :: (Some k2, c2) :: B))) (length A + 1) = Ok (root_of c2).
  Proof.
    rewrite inode_at. unfold node_of. cbn [in_ptrs]. split.
    - rewrite <- !app_assoc. cbn [app]. apply cell_app. now rewrite map_length.
    - rewrite <- !app_assoc. rewrite (app_assoc (map kroot A)). cbn [map app]. apply cell_app.
      rewrite app_length, map_length. reflexivity.
  Qed.
  Lemma pair_key A l1 c1 k2 c2 B c1' k' c2' :
    keyed (tl (A ++ (l1, c1) :: (Some k2, c2) :: B)) -> root_of c1 = root_of c1' -> root_of c2 = root_of c2' ->
    let I0 := inode (A ++ (l1, c1) :: (Some k2, c2) :: B) in
    cell (in_keys I0) (length A) = Ok (Some k2) /\
    set_cell (in_keys I0) (length A) (Some k') = Ok (list_set (in_keys I0) (length A) (Some k')) /\
    mkInternal (in_len I0) (list_set (in_keys I0) (length A) (Some k')) (in_ptrs I0) =
      inode (A ++ (l1, c1') :: (Some k', c2') :: B).
  Proof.
    intros D E1 E2 I0. apply keyed_at in D as [DL _]. unfold I0. clear I0. rewrite !inode_at, E1.
    cbn [map]. change (kroot (Some k2, c2)) with (root_of c2). change (kroot (Some k', c2')) with (root_of c2').
    rewrite E2. change (keys_of ((Some k2, c2) :: B)) with (k2 :: keys_of B).
    change (keys_of ((Some k', c2') :: B)) with (k' :: keys_of B).
    unfold node_of, pad. cbn [in_len in_keys in_ptrs]. rewrite !map_app. cbn [map]. rewrite <- !app_assoc. cbn [app].
    split; [|split].
    - apply cell_app. now rewrite map_length.
    - unfold set_cell. rewrite cell_app by (now rewrite map_length). reflexivity.
    - rewrite set_app by (now rewrite map_length). rewrite !app_length. reflexivity.
  Qed.
  Lemma pair_remove A l1 c1 k2 c2 B c' : keyed (tl (A ++ (l1, c1) :: (Some k2, c2) :: B)) ->
    length (A ++ (l1, c1) :: (Some k2, c2) :: B) <= d + 1 -> root_of c' = root_of c1 ->
    internal_remove_at (inode (A ++ (l1, c1) :: (Some k2, c2) :: B)) (length A) true =
      Ok (inode (A ++ (l1, c') :: B), (k2, root_of c2)).
  Proof.
    intros D Len E. apply keyed_at in D as [DL D]. inversion D as [|? ? _ DR]; subst.
    rewrite !inode_at, E. change (keys_of ((Some k2, c2) :: B)) with (k2 :: keys_of B). cbn [map].
    change (kroot (Some k2, c2)) with (root_of c2). rewrite <- DL. rewrite app_length in Len. cbn [length] in Len.
    apply internal_remove_at_ok; rewrite !app_length, ?map_length; cbn [length]; rewrite ?map_length, ?keys_length by exact DR; lia.
  Qed.

  Definition blt lo hi : Prop := match lo, hi with Some x, Some y => cmp x y = Lt | _, _ => True end.
  Lemma seg_app' lo k hi (a b : list entry) : seg lo (Some k) a -> seg (Some k) hi b -> blt lo (Some k) -> blt (Some k) hi ->
    seg lo hi (a ++ b).
  Proof.
    intros [S1 F1] [S2 F2] B1 B2. rewrite Forall_forall in F1, F2. split.
    - apply sorted_app. split; [exact S1|]. split; [exact S2|]. intros x y I J. 
      destruct (F1 x I) as [_ P]. destruct (F2 y J) as [Q _]. cbn in P, Q. unfold plt. border.
    - apply Forall_app. split; apply Forall_forall.
      + intros x I. destruct (F1 x I) as [P Q]. split; [exact P|]. destruct hi as [h|]; [|exact Logic.I]. cbn in *. border.
      + intros y J. destruct (F2 y J) as [P Q]. split; [|exact Q]. destruct lo as [x|]; [|exact Logic.I]. cbn in *. border.
  Qed.
  Lemma kids_blt n lo kids hi : kids_ok n lo kids hi -> blt lo hi.
  Proof. intros O. destruct (kids_seg m d n lo kids hi Hm O) as [S Ne]. exact (seg_key _ _ _ S Ne). Qed.
  Lemma ok_blt n lo hi t : ok n false lo hi t -> blt lo hi.
  Proof. intros O. destruct (ok_seg m d Hm n lo hi t O) as [S Ne]. exact (seg_key _ _ _ S Ne). Qed.

  (** What repairing the pair of children behind [A] may lead to. *)
  Definition fix_out n (r : res (store * option (nat * nat * internal K))) p A l1 (q1 f1 : nat) B (I0 : internal K)
    hi nxt F rt ln (X : list entry) : Prop :=
    (exists s' fl' c', r = Ok (s', Some (length A, p, I0)) /\
       rep s' ((p, Internal I0) :: flat_kids (A ++ (l1, c') :: B) nxt ++ F) fl' rt ln /\
       ok n false l1 (low_of B hi) c' /\ contents c' = X /\ root_of c' = q1 /\ first_leaf c' = f1) \/
    (exists s' fl' c1' k' c2', r = Ok (s', None) /\
       rep s' (flat (BNode p (A ++ (l1, c1') :: (Some k', c2') :: B)) nxt ++ F) fl' rt ln /\
       ok n false l1 (Some k') c1' /\ ok n false (Some k') (low_of B hi) c2' /\
       contents c1' ++ contents c2' = X /\ root_of c1' = q1 /\ first_leaf c1' = f1).

  Lemma fix_leaf_right p q1 es1 q2 es2 k2 l1 B hi nxt n0 s F fl rt ln c1 c2 :
    let I0 := inode ((l1, c1) :: (Some k2, c2) :: B) in
    root_of c1 = q1 -> root_of c2 = q2 -> keyed B ->
    seg l1 (Some k2) es1 -> seg (Some k2) (low_of B hi) es2 -> blt l1 (Some k2) -> blt (Some k2) (low_of B hi) ->
    length es1 + 1 = (m + 1) / 2 -> (m + 1) / 2 <= length es2 <= m ->
    rep s ((p, Internal I0) :: (q1, n0) :: (q2, Leaf (mk_leaf m es2 (nxt_of B nxt))) :: flat_kids B nxt ++ F) fl rt ln ->
    fix_out 0 (run_io s (fix_leaf m q1 (mk_leaf m es1 (Some q2)) p I0 0)) p [] l1 q1 q1 B I0 hi nxt F rt ln (es1 ++ es2).
  Proof.
    intros I0 Q1 Q2 D S1 S2 B1 B2 L1 L2 Rp. pose proof (half_up m) as HU. pose proof (half_le m) as [HL1 HL2].
    pose proof (seg_app' _ _ _ _ _ S1 S2 B1 B2) as ST.
    assert (Kd : keyed (tl ([] ++ (l1, c1) :: (Some k2, c2) :: B))) by (constructor; [discriminate | exact D]).
    destruct (pair_ptrs [] l1 c1 k2 c2 B) as [_ P2]. cbn [app length] in P2. fold I0 in P2. rewrite Q2 in P2.
    unfold fix_leaf. cbn [sibling_of Nat.eqb]. change (0 + 1) with 1 in *. rewrite (run_pure _ _ _ _ P2).
    cbn [run_io]. erewrite rep_get; [|exact Rp|right; right; left; reflexivity]. cbn [bind expect_leaf iobind].
    change (lf_len (mk_leaf m es2 (nxt_of B nxt))) with (length es2).
    destruct (length es2 =? (m + 1) / 2) eqn:Q.
    - apply Nat.eqb_eq in Q. left. cbn [Nat.eqb].
      rewrite (run_pure _ _ _ _ (leaf_merge_ok m es1 es2 (Some q2) (nxt_of B nxt) ltac:(lia))). cbn [run_io].
      assert (Rp' : rep s ((q2, Leaf (mk_leaf m es2 (nxt_of B nxt))) :: (p, Internal I0) :: (q1, n0) :: flat_kids B nxt ++ F) fl rt ln).
      { eapply rep_perm; [|exact Rp]. perm. }
      destruct (rep_free _ _ _ _ _ _ _ Rp') as (s1 & W1 & R1). rewrite W1. cbn [bind run_io].
      assert (R1' : rep s1 ((q1, n0) :: (p, Internal I0) :: flat_kids B nxt ++ F) (q2 :: fl) rt ln).
      { eapply rep_perm; [|exact R1]. perm. }
      destruct (rep_write _ _ _ (Leaf (mk_leaf m (es1 ++ es2) (nxt_of B nxt))) _ _ _ _ R1') as (s2 & W2 & R2).
      rewrite W2. cbn [bind]. exists s2, (q2 :: fl), (BLeaf q1 (es1 ++ es2)). split; [reflexivity|]. split.
      + eapply rep_perm; [|exact R2]. cbn [app]. rewrite flat_kids_cons. cbn [BpTreeProofs.flat app]. perm.
      + split; [|auto]. split; [exact ST|]. rewrite app_length. split; [lia|]. intros _. lia.
    - apply Nat.eqb_neq in Q. right. cbn [Nat.eqb].
      destruct es2 as [|e es2]; [cbn [length] in *; lia|].
      destruct es2 as [|e2 es2]; [cbn [length] in *; lia|].
      rewrite run_bind.
      pose proof (leaf_remove_at_ok m [] e (e2 :: es2) (nxt_of B nxt) (proj2 L2)) as RA. cbn [app length] in RA.
      rewrite (run_pure _ _ _ _ RA). cbn beta iota.
      assert (CE : cell (lf_entries (mk_leaf m (e2 :: es2) (nxt_of B nxt))) 0 = Ok (Some e2)) by reflexivity.
      rewrite (run_pure _ _ _ _ CE). rewrite (run_pure _ (expect (Some e2)) _ e2 eq_refl).
      pose proof ST as ST2. change (es1 ++ e :: e2 :: es2) with (es1 ++ [e] ++ e2 :: es2) in ST2. rewrite app_assoc in ST2.
      apply seg_cut in ST2 as [SA SB].
      assert (PE : put e es1 = es1 ++ [e]).
      { destruct ST as [ST _]. apply sorted_app in ST as (_ & _ & ST). unfold put.
        assert (AL : all_lt es1 (fst e)) by (apply Forall_forall; intros x Ix; apply ST; [exact Ix | now left]).
        now rewrite (below_all_lt es1), (above_all_lt es1). }
      set (c1' := BLeaf q1 (es1 ++ [e])). set (c2' := BLeaf q2 (e2 :: es2)).
      destruct (pair_key [] l1 c1 k2 c2 B c1' (fst e2) c2' Kd Q1 Q2) as (_ & K2 & K3). cbn [app length] in K2, K3.
      fold I0 in K2, K3. rewrite (run_pure _ _ _ _ K2).
      pose proof (leaf_insert_room m es1 (Some q2) e (proj1 S1) ltac:(lia)) as LI. rewrite PE in LI.
      rewrite (run_pure _ _ _ _ LI). cbn [run_io bind]. rewrite K3.
      destruct (rep_write _ _ _ (Internal (inode ((l1, c1') :: (Some (fst e2), c2') :: B))) _ _ _ _ Rp) as (s1 & W1 & R1).
      rewrite W1. cbn [bind run_io].
      assert (R1' : rep s1 ((q2, Leaf (mk_leaf m (e :: e2 :: es2) (nxt_of B nxt))) :: (p, Internal (inode ((l1, c1') :: (Some (fst e2), c2') :: B))) :: (q1, n0) :: flat_kids B nxt ++ F) fl rt ln).
      { eapply rep_perm; [|exact R1]. perm. }
      destruct (rep_write _ _ _ (Leaf (mk_leaf m (e2 :: es2) (nxt_of B nxt))) _ _ _ _ R1') as (s2 & W2 & R2).
      rewrite W2. cbn [bind run_io].
      assert (R2' : rep s2 ((q1, n0) :: (q2, Leaf (mk_leaf m (e2 :: es2) (nxt_of B nxt))) :: (p, Internal (inode ((l1, c1') :: (Some (fst e2), c2') :: B))) :: flat_kids B nxt ++ F) fl rt ln).
      { eapply rep_perm; [|exact R2]. perm. }
      destruct (rep_write _ _ _ (Leaf (mk_leaf m (es1 ++ [e]) (Some q2))) _ _ _ _ R2') as (s3 & W3 & R3).
      rewrite W3. cbn [bind]. exists s3, fl, c1', (fst e2), c2'. split; [reflexivity|]. split.
      + eapply rep_perm; [|exact R3]. cbn [app]. rewrite flat_node, !flat_kids_cons.
        change (flat c1' (nxt_of ((Some (fst e2), c2') :: B) nxt)) with [(q1, @Leaf K V (mk_leaf m (es1 ++ [e]) (Some q2)))].
        change (flat c2' (nxt_of B nxt)) with [(q2, @Leaf K V (mk_leaf m (e2 :: es2) (nxt_of B nxt)))]. perm.
      + unfold c1', c2'. cbn [length] in *. split; [split; [exact SA|]; rewrite app_length; cbn [length]; split; [lia|]; intros _; lia|].
        split; [split; [exact SB|]; cbn [length]; split; [lia|]; intros _; lia|].
        cbn [contents root_of first_leaf]. rewrite <- app_assoc. auto.
  Qed.

  Lemma fix_leaf_left p A q1 es1 q2 es2 k2 l1 B hi nxt n0 s F fl rt ln c1 c2 :
    let I0 := inode (A ++ (l1, c1) :: (Some k2, c2) :: B) in
    root_of c1 = q1 -> root_of c2 = q2 -> keyed (tl (A ++ (l1, c1) :: (Some k2, c2) :: B)) ->
    seg l1 (Some k2) es1 -> seg (Some k2) (low_of B hi) es2 -> blt l1 (Some k2) -> blt (Some k2) (low_of B hi) ->
    length es2 + 1 = (m + 1) / 2 -> (m + 1) / 2 <= length es1 <= m ->
    rep s ((p, Internal I0) :: (q1, Leaf (mk_leaf m es1 (Some q2))) :: (q2, n0) :: flat_kids A (Some q1) ++ flat_kids B nxt ++ F) fl rt ln ->
    fix_out 0 (run_io s (fix_leaf m q2 (mk_leaf m es2 (nxt_of B nxt)) p I0 (length A + 1))) p A l1 q1 q1 B I0 hi nxt F rt ln (es1 ++ es2).
  Proof.
    intros I0 Q1 Q2 Kd S1 S2 B1 B2 L2 L1 Rp. pose proof (half_up m) as HU. pose proof (half_le m) as [HL1 HL2].
    pose proof (seg_app' _ _ _ _ _ S1 S2 B1 B2) as ST.
    destruct (pair_ptrs A l1 c1 k2 c2 B) as [P1 _]. fold I0 in P1. rewrite Q1 in P1.
    unfold fix_leaf. assert (SB : sibling_of (length A + 1) = length A).
    { unfold sibling_of. rewrite (proj2 (Nat.eqb_neq (length A + 1) 0)) by lia. lia. }
    rewrite SB. assert (NE : (length A =? length A + 1 + 1) = false) by (apply Nat.eqb_neq; lia). rewrite NE. clear SB NE.
    rewrite (run_pure _ _ _ _ P1). cbn [run_io].
    erewrite rep_get; [|exact Rp|right; left; reflexivity]. cbn [bind expect_leaf iobind].
    change (lf_len (mk_leaf m es1 (Some q2))) with (length es1).
    destruct (length es1 =? (m + 1) / 2) eqn:Q.
    - apply Nat.eqb_eq in Q. left.
      rewrite (run_pure _ _ _ _ (leaf_merge_ok m es1 es2 (Some q2) (nxt_of B nxt) ltac:(lia))). cbn [run_io].
      assert (Rp' : rep s ((q2, n0) :: (p, Internal I0) :: (q1, Leaf (mk_leaf m es1 (Some q2))) :: flat_kids A (Some q1) ++ flat_kids B nxt ++ F) fl rt ln).
      { eapply rep_perm; [|exact Rp]. perm. }
      destruct (rep_free _ _ _ _ _ _ _ Rp') as (s1 & W1 & R1). rewrite W1. cbn [bind run_io].
      assert (R1' : rep s1 ((q1, Leaf (mk_leaf m es1 (Some q2))) :: (p, Internal I0) :: flat_kids A (Some q1) ++ flat_kids B nxt ++ F) (q2 :: fl) rt ln).
      { eapply rep_perm; [|exact R1]. perm. }
      destruct (rep_write _ _ _ (Leaf (mk_leaf m (es1 ++ es2) (nxt_of B nxt))) _ _ _ _ R1') as (s2 & W2 & R2).
      rewrite W2. cbn [bind]. exists s2, (q2 :: fl), (BLeaf q1 (es1 ++ es2)). split; [reflexivity|]. split.
      + eapply rep_perm; [|exact R2]. rewrite flat_kids_app, flat_kids_cons. cbn [BpTreeProofs.flat app nxt_of first_leaf]. perm.
      + split; [|auto]. split; [exact ST|]. rewrite app_length. split; [lia|]. intros _. lia.
    - apply Nat.eqb_neq in Q. right.
      destruct (exists_last (l := es1)) as (a & e & Ea); [intros ->; cbn [length] in *; lia|].
      rewrite run_bind.
      assert (LA : length es1 = length a + 1) by (rewrite Ea, app_length; reflexivity).
      assert (CP : checked_pred (length es1) = Ok (length a)) by (rewrite LA, Nat.add_1_r; reflexivity).
      rewrite (run_pure _ _ _ _ CP).
      pose proof (leaf_remove_at_ok m a e [] (Some q2)) as RA. rewrite <- Ea, app_nil_r in RA.
      rewrite (run_pure _ _ _ _ (RA (proj2 L1))). cbn beta iota.
      pose proof ST as ST2. rewrite Ea, <- app_assoc in ST2. cbn [app] in ST2. apply seg_cut in ST2 as [SA SB].
      assert (PE : put e es2 = e :: es2).
      { apply put_front. destruct SB as [SB _]. now apply sorted_cons in SB. }
      set (c1' := BLeaf q1 a). set (c2' := BLeaf q2 (e :: es2)).
      destruct (pair_key A l1 c1 k2 c2 B c1' (fst e) c2' Kd Q1 Q2) as (_ & K2 & K3).
      fold I0 in K2, K3. rewrite (run_pure _ _ _ _ K2).
      pose proof (leaf_insert_room m es2 (nxt_of B nxt) e (proj1 S2) ltac:(lia)) as LI. rewrite PE in LI.
      rewrite (run_pure _ _ _ _ LI). cbn [run_io bind]. rewrite K3.
      destruct (rep_write _ _ _ (Internal (inode (A ++ (l1, c1') :: (Some (fst e), c2') :: B))) _ _ _ _ Rp) as (s1 & W1 & R1).
      rewrite W1. cbn [bind run_io].
      assert (R1' : rep s1 ((q1, Leaf (mk_leaf m es1 (Some q2))) :: (p, Internal (inode (A ++ (l1, c1') :: (Some (fst e), c2') :: B))) :: (q2, n0) :: flat_kids A (Some q1) ++ flat_kids B nxt ++ F) fl rt ln).
      { eapply rep_perm; [|exact R1]. perm. }
      destruct (rep_write _ _ _ (Leaf (mk_leaf m a (Some q2))) _ _ _ _ R1') as (s2 & W2 & R2).
      rewrite W2. cbn [bind run_io].
      assert (R2' : rep s2 ((q2, n0) :: (q1, Leaf (mk_leaf m a (Some q2))) :: (p, Internal (inode (A ++ (l1, c1') :: (Some (fst e), c2') :: B))) :: flat_kids A (Some q1) ++ flat_kids B nxt ++ F) fl rt ln).
      { eapply rep_perm; [|exact R2]. perm. }
      destruct (rep_write _ _ _ (Leaf (mk_leaf m (e :: es2) (nxt_of B nxt))) _ _ _ _ R2') as (s3 & W3 & R3).
      rewrite W3. cbn [bind]. exists s3, fl, c1', (fst e), c2'. split; [reflexivity|]. split.
      + eapply rep_perm; [|exact R3]. rewrite flat_node, flat_kids_app, !flat_kids_cons.
        change (nxt_of ((l1, c1') :: (Some (fst e), c2') :: B) nxt) with (Some q1).
        change (flat c1' (nxt_of ((Some (fst e), c2') :: B) nxt)) with [(q1, @Leaf K V (mk_leaf m a (Some q2)))].
        change (flat c2' (nxt_of B nxt)) with [(q2, @Leaf K V (mk_leaf m (e :: es2) (nxt_of B nxt)))]. perm.
      + unfold c1', c2'. split; [split; [exact SA|]; split; [lia|]; intros _; lia|].
        split; [split; [exact SB|]; cbn [length]; split; [lia|]; intros _; lia|].
        cbn [contents root_of first_leaf]. rewrite Ea, <- app_assoc. auto.
  Qed.

  Lemma inode_len kids : kids <> [] -> keyed (tl kids) -> in_len (inode kids) + 1 = length kids.
  Proof.
    intros Ne D. unfold BpTreeProofs.inode, node_of. cbn [in_len]. rewrite keys_length by exact D.
    destruct kids; [congruence|]. cbn. lia.
  Qed.
  Lemma nxt_first kids q x : kids <> [] -> nxt_of kids x = Some (first_leaf (BNode q kids)).
  Proof. destruct kids as [|[l c] r]; [congruence | reflexivity]. Qed.
  Lemma first_leaf_app q q' (k1 k2 : list kid) : k1 <> [] -> first_leaf (BNode q (k1 ++ k2)) = first_leaf (BNode q' k1).
  Proof. destruct k1 as [|[l c] r]; [congruence | reflexivity]. Qed.
  Lemma keys_tl_app (k1 k2 : list kid) : k1 <> [] -> keys_of (tl (k1 ++ k2)) = keys_of (tl k1) ++ keys_of k2.
  Proof. destruct k1; [congruence|]. intros _. cbn [app tl]. apply keys_app. Qed.
  Lemma keys_tl_len kids : kids <> [] -> keyed (tl kids) -> length (keys_of (tl kids)) + 1 = length kids.
  Proof. intros Ne D. rewrite keys_length by exact D. destruct kids; [congruence | cbn; lia]. Qed.

  (** The node operations on inner nodes given by their children. *)
  Lemma inode_merge n lo hi k1 k2 c20 r2 : kids_ok n lo k1 (Some k2) -> kids_ok n (Some k2) ((Some k2, c20) :: r2) hi ->
    length k1 + length ((Some k2, c20) :: r2) <= d + 1 ->
    internal_merge (inode k1) k2 (inode ((Some k2, c20) :: r2)) = Ok (inode (k1 ++ (Some k2, c20) :: r2)).
  Proof.
    intros (F1 & D1 & _) (_ & D2 & _) Len. pose proof (first_low_ne _ _ F1) as Ne.
    pose proof (keys_tl_len k1 Ne D1) as L1. cbn [tl] in D2. cbn [length] in Len. unfold BpTreeProofs.inode.
    rewrite keys_tl_app by exact Ne. rewrite map_app.
    change (keys_of ((Some k2, c20) :: r2)) with (k2 :: keys_of r2). cbn [tl].
    apply internal_merge_ok; rewrite ?map_length, ?(keys_length r2) by exact D2; cbn [length]; lia.
  Qed.
  Lemma inode_push n lo k1 k2 c : kids_ok n lo k1 (Some k2) -> length k1 <= d ->
    internal_insert (inode k1) k2 (root_of c) true = Ok (inode (k1 ++ [(Some k2, c)]), None).
  Proof.
    intros (F1 & D1 & Ch) Len. pose proof (first_low_ne _ _ F1) as Ne. pose proof (keys_tl_len k1 Ne D1) as L1.
    destruct k1 as [|[l0 c0] r]; [congruence|].
    destruct (chain_keys (ok n false) (ok_seg m d Hm n) r l0 c0 (Some k2) D1 Ch) as (_ & _ & A).
    unfold BpTreeProofs.inode. rewrite keys_tl_app by exact Ne. rewrite map_app.
    change (keys_of [(Some k2, c)]) with [k2]. change (map kroot [(Some k2, c)]) with [root_of c]. cbn [tl] in *.
    pose proof (internal_insert_room d (keys_of r) [] (map kroot ((l0, c0) :: r)) [] k2 (root_of c) true) as I.
    rewrite !app_nil_r in I. apply I.
    - repeat constructor.
    - eapply Forall_impl; [|exact A]. cbn. intros a Q. border.
    - cbn [length] in *. lia.
    - rewrite map_length. lia.
    - rewrite map_length. lia.
  Qed.
  Lemma inode_unshift n lo hi k1 x c : kids_ok n lo k1 hi -> lo <> None -> length k1 <= d ->
    forall k2, lo = Some k2 ->
    internal_insert (inode k1) k2 (root_of c) false = Ok (inode ((x, c) :: k1), None).
  Proof.
    intros (F1 & D1 & Ch) _ Len k2 ->. pose proof (first_low_ne _ _ F1) as Ne. pose proof (keys_tl_len k1 Ne D1) as L1.
    destruct k1 as [|[l0 c0] r]; [congruence|]. cbn in F1. subst l0.
    destruct (chain_keys (ok n false) (ok_seg m d Hm n) r (Some k2) c0 hi D1 Ch) as (S & A & _).
    unfold BpTreeProofs.inode. cbn [tl] in *. change (keys_of ((Some k2, c0) :: r)) with (k2 :: keys_of r).
    change (map kroot ((x, c) :: (Some k2, c0) :: r)) with (root_of c :: map kroot ((Some k2, c0) :: r)).
    apply (internal_insert_room d [] (keys_of r) [] (map kroot ((Some k2, c0) :: r)) k2 (root_of c) false).
    - now constructor.
    - constructor.
    - cbn [length app] in *. lia.
    - cbn [length app] in *. rewrite map_length. cbn [length]. lia.
    - reflexivity.
  Qed.
  Lemma inode_shift n lo hi c20 k' c21 r2 : kids_ok n lo ((lo, c20) :: (Some k', c21) :: r2) hi ->
    length r2 + 2 <= d + 1 ->
    internal_remove_at (inode ((lo, c20) :: (Some k', c21) :: r2)) 0 false =
      Ok (inode ((Some k', c21) :: r2), (k', root_of c20)).
  Proof.
    intros (_ & D & _) Len. cbn [tl] in D. inversion D as [|? ? _ D2]; subst.
    unfold BpTreeProofs.inode. cbn [tl]. change (keys_of ((Some k', c21) :: r2)) with (k' :: keys_of r2).
    change (map kroot ((lo, c20) :: (Some k', c21) :: r2)) with (root_of c20 :: map kroot ((Some k', c21) :: r2)).
    apply (internal_remove_at_ok d [] k' (keys_of r2) [] (root_of c20) (map kroot ((Some k', c21) :: r2)) false);
      cbn [app length]; rewrite ?map_length, ?keys_length by exact D2; cbn [length]; lia.
  Qed.
  Lemma inode_pop n lo hi k1 x c : k1 <> [] -> kids_ok n lo (k1 ++ [(Some x, c)]) hi -> length k1 <= d ->
    internal_remove_at (inode (k1 ++ [(Some x, c)])) (in_len (inode (k1 ++ [(Some x, c)])) - 1) true =
      Ok (inode k1, (x, root_of c)) /\ checked_pred (in_len (inode (k1 ++ [(Some x, c)]))) = Ok (in_len (inode (k1 ++ [(Some x, c)])) - 1).
  Proof.
    intros Ne O Len. destruct (kids_cut m d n lo hi k1 (Some x) c [] Ne O) as ((F1 & D1 & _) & _ & _).
    pose proof (keys_tl_len k1 Ne D1) as L1.
    assert (IL : in_len (inode (k1 ++ [(Some x, c)])) = length (keys_of (tl k1)) + 1).
    { unfold BpTreeProofs.inode, node_of. cbn [in_len]. rewrite keys_tl_app by exact Ne. rewrite app_length. reflexivity. }
    rewrite IL. split; [|rewrite !Nat.add_1_r; cbn; now rewrite Nat.sub_0_r].
    rewrite Nat.add_sub. unfold BpTreeProofs.inode. rewrite keys_tl_app by exact Ne. rewrite map_app.
    change (keys_of [(Some x, c)]) with [x]. change (map kroot [(Some x, c)]) with [root_of c].
    pose proof (internal_remove_at_ok d (keys_of (tl k1)) x [] (map kroot k1) (root_of c) [] true) as I.
    rewrite !app_nil_r in I. apply I; rewrite ?app_length, ?map_length; cbn [length]; lia.
  Qed.

  Lemma fix_internal_right n p q1 k1 q2 k2s k2 l1 B hi nxt n0 s F fl rt ln c1 c2 :
    let I0 := inode ((l1, c1) :: (Some k2, c2) :: B) in
    root_of c1 = q1 -> root_of c2 = q2 -> keyed B ->
    kids_ok n l1 k1 (Some k2) -> kids_ok n (Some k2) k2s (low_of B hi) ->
    length k1 + 1 = (d + 1) / 2 -> (d + 1) / 2 <= length k2s <= d + 1 ->
    rep s ((p, Internal I0) :: (q1, n0) :: flat_kids k1 (nxt_of k2s (nxt_of B nxt)) ++
             (q2, Internal (inode k2s)) :: flat_kids k2s (nxt_of B nxt) ++ flat_kids B nxt ++ F) fl rt ln ->
    fix_out (S n) (run_io s (fix_internal d q1 (inode k1) p I0 0)) p [] l1 q1 (first_leaf (BNode q1 k1)) B I0 hi nxt F rt ln
      (kcontents k1 ++ kcontents k2s).
  Proof.
    intros I0 Q1 Q2 D O1 O2 L1 L2 Rp. pose proof (half_up d) as HU. pose proof (half_le d) as [HL1 HL2].
    assert (Kd : keyed (tl ([] ++ (l1, c1) :: (Some k2, c2) :: B))) by (constructor; [discriminate | exact D]).
    destruct (pair_ptrs [] l1 c1 k2 c2 B) as [_ P2]. cbn [app length] in P2. fold I0 in P2. rewrite Q2 in P2.
    pose proof O1 as (F1 & D1 & _). pose proof (first_low_ne _ _ F1) as Ne1.
    pose proof O2 as (F2 & D2 & _). pose proof (first_low_ne _ _ F2) as Ne2.
    destruct k2s as [|[l2 c20] r2] eqn:Ek; [congruence|]. cbn in F2. subst l2. rewrite <- Ek in *.
    pose proof (inode_len k2s Ne2 D2) as IL.
    unfold fix_internal. cbn [sibling_of Nat.eqb]. change (0 + 1) with 1 in *. rewrite (run_pure _ _ _ _ P2).
    cbn [run_io].
    erewrite rep_get; [|exact Rp|right; right; apply in_or_app; right; left; reflexivity]. cbn [bind expect_internal iobind].
    assert (JO : kids_ok n l1 (k1 ++ k2s) (low_of B hi)).
    { rewrite Ek in *. apply kids_join; auto. discriminate. }
    destruct (in_len (inode k2s) + 1 =? (d + 1) / 2) eqn:Q.
    - apply Nat.eqb_eq in Q. left. cbn [Nat.eqb].
      destruct (pair_key [] l1 c1 k2 c2 B c1 k2 c2 Kd eq_refl eq_refl) as (K1 & _). cbn [app length] in K1. fold I0 in K1.
      rewrite (run_pure _ _ _ _ K1). rewrite (run_pure _ (expect (Some k2)) _ k2 eq_refl).
      assert (MG : internal_merge (inode k1) k2 (inode k2s) = Ok (inode (k1 ++ k2s))).
      { rewrite Ek in *. apply (inode_merge n l1 (low_of B hi)); auto. lia. }
      rewrite (run_pure _ _ _ _ MG). cbn [run_io].
      assert (Rp' : rep s ((q2, Internal (inode k2s)) :: (p, Internal I0) :: (q1, n0) :: flat_kids k1 (nxt_of k2s (nxt_of B nxt)) ++ flat_kids k2s (nxt_of B nxt) ++ flat_kids B nxt ++ F) fl rt ln).
      { eapply rep_perm; [|exact Rp]. perm. }
      destruct (rep_free _ _ _ _ _ _ _ Rp') as (s1 & W1 & R1). rewrite W1. cbn [bind run_io].
      assert (R1' : rep s1 ((q1, n0) :: (p, Internal I0) :: flat_kids k1 (nxt_of k2s (nxt_of B nxt)) ++ flat_kids k2s (nxt_of B nxt) ++ flat_kids B nxt ++ F) (q2 :: fl) rt ln).
      { eapply rep_perm; [|exact R1]. perm. }
      destruct (rep_write _ _ _ (Internal (inode (k1 ++ k2s))) _ _ _ _ R1') as (s2 & W2 & R2).
      rewrite W2. cbn [bind]. exists s2, (q2 :: fl), (BNode q1 (k1 ++ k2s)). split; [reflexivity|]. split.
      + eapply rep_perm; [|exact R2]. cbn [app]. rewrite flat_kids_cons, flat_node, flat_kids_app. perm.
      + split; [|split; [apply kcontents_app | split; [reflexivity | now apply first_leaf_app]]].
        split; [exact JO|]. rewrite app_length. split; [lia|]. intros _. lia.
    - apply Nat.eqb_neq in Q. right. cbn [Nat.eqb].
      destruct r2 as [|[x c21] r2]; [rewrite Ek in *; cbn [length] in *; lia|].
      set (k2' := (x, c21) :: r2) in *.
      assert (En : k1 ++ k2s = (k1 ++ [(Some k2, c20)]) ++ k2') by (rewrite Ek, <- app_assoc; reflexivity).
      rewrite En in JO.
      assert (Ne' : k1 ++ [(Some k2, c20)] <> []) by (destruct k1; discriminate).
      destruct (kids_cut m d n l1 (low_of B hi) (k1 ++ [(Some k2, c20)]) x c21 r2 Ne' JO) as (O1' & O2' & Nx).
      destruct x as [k'|]; [|congruence]. fold k2' in O2'.
      rewrite run_bind.
      assert (SH : internal_remove_at (inode k2s) 0 false = Ok (inode k2', (k', root_of c20))).
      { rewrite Ek in *. apply (inode_shift n (Some k2) (low_of B hi)); [exact O2|]. unfold k2' in L2. cbn [length] in L2. lia. }
      rewrite (run_pure _ _ _ _ SH). cbn beta iota.
      set (c1' := BNode q1 (k1 ++ [(Some k2, c20)])). set (c2' := BNode q2 k2').
      destruct (pair_key [] l1 c1 k2 c2 B c1' k' c2' Kd Q1 Q2) as (K1 & _ & K3). cbn [app length] in K1, K3.
      fold I0 in K1, K3. rewrite (run_pure _ _ _ _ K1). rewrite (run_pure _ (expect (Some k2)) _ k2 eq_refl).
      pose proof (inode_push n l1 k1 k2 c20 O1 ltac:(lia)) as PU. rewrite (run_pure _ _ _ _ PU).
      cbn [run_io bind]. rewrite K3.
      destruct (rep_write _ _ _ (Internal (inode ((l1, c1') :: (Some k', c2') :: B))) _ _ _ _ Rp) as (s1 & W1 & R1).
      rewrite W1. cbn [bind run_io].
      assert (R1' : rep s1 ((q2, Internal (inode k2s)) :: (p, Internal (inode ((l1, c1') :: (Some k', c2') :: B))) :: (q1, n0) :: flat_kids k1 (nxt_of k2s (nxt_of B nxt)) ++ flat_kids k2s (nxt_of B nxt) ++ flat_kids B nxt ++ F) fl rt ln).
      { eapply rep_perm; [|exact R1]. perm. }
      destruct (rep_write _ _ _ (Internal (inode k2')) _ _ _ _ R1') as (s2 & W2 & R2).
      rewrite W2. cbn [bind run_io].
      assert (R2' : rep s2 ((q1, n0) :: (q2, Internal (inode k2')) :: (p, Internal (inode ((l1, c1') :: (Some k', c2') :: B))) :: flat_kids k1 (nxt_of k2s (nxt_of B nxt)) ++ flat_kids k2s (nxt_of B nxt) ++ flat_kids B nxt ++ F) fl rt ln).
      { eapply rep_perm; [|exact R2]. perm. }
      destruct (rep_write _ _ _ (Internal (inode (k1 ++ [(Some k2, c20)]))) _ _ _ _ R2') as (s3 & W3 & R3).
      rewrite W3. cbn [bind]. exists s3, fl, c1', k', c2'. split; [reflexivity|]. split.
      + eapply rep_perm; [|exact R3]. cbn [app]. rewrite flat_node, !flat_kids_cons.
        change (flat c1' (nxt_of ((Some k', c2') :: B) nxt)) with
          ((q1, @Internal K V (inode (k1 ++ [(Some k2, c20)]))) :: flat_kids (k1 ++ [(Some k2, c20)]) (Some (first_leaf c21))).
        change (flat c2' (nxt_of B nxt)) with ((q2, @Internal K V (inode k2')) :: flat_kids k2' (nxt_of B nxt)).
        rewrite flat_kids_app, (flat_kids_cons m d (Some k2) c20 []).
        change (flat_kids [] (Some (first_leaf c21))) with (@nil (nat * node)).
        change (nxt_of [] (Some (first_leaf c21))) with (Some (first_leaf c21)).
        change (nxt_of [(Some k2, c20)] (Some (first_leaf c21))) with (Some (first_leaf c20)).
        rewrite Ek. rewrite (flat_kids_cons m d (Some k2)).
        change (nxt_of ((Some k2, c20) :: k2') (nxt_of B nxt)) with (Some (first_leaf c20)).
        change (nxt_of k2' (nxt_of B nxt)) with (Some (first_leaf c21)). perm.
      + unfold c1', c2'. rewrite Ek in L2, IL. unfold k2' in *. cbn [length] in L2, IL.
        split; [split; [exact O1'|]; rewrite app_length; cbn [length]; split; [lia|]; intros _; lia|].
        split; [split; [exact O2'|]; cbn [length]; rewrite Ek in Q; split; [lia|]; intros _; lia|].
        change (kcontents (k1 ++ [(Some k2, c20)]) ++ kcontents ((Some k', c21) :: r2) = kcontents k1 ++ kcontents k2s /\ q1 = q1 /\ first_leaf (BNode q1 (k1 ++ [(Some k2, c20)])) = first_leaf (BNode q1 k1)).
        rewrite Ek. rewrite <- !kcontents_app, <- app_assoc. split; [reflexivity|]. split; [reflexivity|]. now apply first_leaf_app.
  Qed.

  Lemma fix_internal_left n p A q1 k1 q2 k2s k2 l1 B hi nxt n0 s F fl rt ln c1 c2 :
    let I0 := inode (A ++ (l1, c1) :: (Some k2, c2) :: B) in
    root_of c1 = q1 -> root_of c2 = q2 -> keyed (tl (A ++ (l1, c1) :: (Some k2, c2) :: B)) ->
    kids_ok n l1 k1 (Some k2) -> kids_ok n (Some k2) k2s (low_of B hi) ->
    length k2s + 1 = (d + 1) / 2 -> (d + 1) / 2 <= length k1 <= d + 1 ->
    rep s ((p, Internal I0) :: (q2, n0) :: flat_kids k2s (nxt_of B nxt) ++
             (q1, Internal (inode k1)) :: flat_kids k1 (nxt_of k2s (nxt_of B nxt)) ++
             flat_kids A (nxt_of k1 None) ++ flat_kids B nxt ++ F) fl rt ln ->
    fix_out (S n) (run_io s (fix_internal d q2 (inode k2s) p I0 (length A + 1))) p A l1 q1 (first_leaf (BNode q1 k1)) B I0 hi nxt F rt ln
      (kcontents k1 ++ kcontents k2s).
  Proof.
    intros I0 Q1 Q2 Kd O1 O2 L2 L1 Rp. pose proof (half_up d) as HU. pose proof (half_le d) as [HL1 HL2].
    destruct (pair_ptrs A l1 c1 k2 c2 B) as [P1 _]. fold I0 in P1. rewrite Q1 in P1.
    pose proof O1 as (F1 & D1 & _). pose proof (first_low_ne _ _ F1) as Ne1.
    pose proof O2 as (F2 & D2 & _). pose proof (first_low_ne _ _ F2) as Ne2.
    destruct k2s as [|[l2 c20] r2] eqn:Ek; [congruence|]. cbn in F2. subst l2. rewrite <- Ek in *.
    pose proof (inode_len k1 Ne1 D1) as IL.
    unfold fix_internal. assert (SB : sibling_of (length A + 1) = length A).
    { unfold sibling_of. rewrite (proj2 (Nat.eqb_neq (length A + 1) 0)) by lia. lia. }
    rewrite SB. assert (NE : (length A =? length A + 1 + 1) = false) by (apply Nat.eqb_neq; lia). rewrite NE. clear SB NE.
    rewrite (run_pure _ _ _ _ P1). cbn [run_io].
    erewrite rep_get; [|exact Rp|right; right; apply in_or_app; right; left; reflexivity]. cbn [bind expect_internal iobind].
    assert (JO : kids_ok n l1 (k1 ++ k2s) (low_of B hi)).
    { rewrite Ek in *. apply kids_join; auto. discriminate. }
    destruct (in_len (inode k1) + 1 =? (d + 1) / 2) eqn:Q.
    - apply Nat.eqb_eq in Q. left.
      destruct (pair_key A l1 c1 k2 c2 B c1 k2 c2 Kd eq_refl eq_refl) as (K1 & _). fold I0 in K1.
      rewrite (run_pure _ _ _ _ K1). rewrite (run_pure _ (expect (Some k2)) _ k2 eq_refl).
      assert (MG : internal_merge (inode k1) k2 (inode k2s) = Ok (inode (k1 ++ k2s))).
      { rewrite Ek in *. apply (inode_merge n l1 (low_of B hi)); auto. lia. }
      rewrite (run_pure _ _ _ _ MG). cbn [run_io].
      assert (Rp' : rep s ((q2, n0) :: (p, Internal I0) :: (q1, Internal (inode k1)) :: flat_kids k1 (nxt_of k2s (nxt_of B nxt)) ++ flat_kids k2s (nxt_of B nxt) ++ flat_kids A (nxt_of k1 None) ++ flat_kids B nxt ++ F) fl rt ln).
      { eapply rep_perm; [|exact Rp]. perm. }
      destruct (rep_free _ _ _ _ _ _ _ Rp') as (s1 & W1 & R1). rewrite W1. cbn [bind run_io].
      assert (R1' : rep s1 ((q1, Internal (inode k1)) :: (p, Internal I0) :: flat_kids k1 (nxt_of k2s (nxt_of B nxt)) ++ flat_kids k2s (nxt_of B nxt) ++ flat_kids A (nxt_of k1 None) ++ flat_kids B nxt ++ F) (q2 :: fl) rt ln).
      { eapply rep_perm; [|exact R1]. perm. }
      destruct (rep_write _ _ _ (Internal (inode (k1 ++ k2s))) _ _ _ _ R1') as (s2 & W2 & R2).
      rewrite W2. cbn [bind]. exists s2, (q2 :: fl), (BNode q1 (k1 ++ k2s)). split; [reflexivity|]. split.
      + eapply rep_perm; [|exact R2]. rewrite flat_kids_app, flat_kids_cons, flat_node, flat_kids_app.
        change (nxt_of ((l1, BNode q1 (k1 ++ k2s)) :: B) nxt) with (Some (first_leaf (BNode q1 (k1 ++ k2s)))).
        rewrite (first_leaf_app q1 q1) by exact Ne1. rewrite (nxt_first k1 q1 None Ne1). perm.
      + split; [|split; [apply kcontents_app | split; [reflexivity | now apply first_leaf_app]]].
        split; [exact JO|]. rewrite app_length. split; [lia|]. intros _. lia.
    - apply Nat.eqb_neq in Q. right.
      destruct (exists_last Ne1) as (a & [x cl] & Ea).
      assert (LA : length k1 = length a + 1) by (rewrite Ea, app_length; reflexivity).
      assert (Nea : a <> []) by (intros ->; cbn [length] in LA; lia).
      assert (En : k1 ++ k2s = a ++ (x, cl) :: k2s) by (rewrite Ea, <- app_assoc; reflexivity).
      rewrite En in JO.
      destruct (kids_cut m d n l1 (low_of B hi) a x cl k2s Nea JO) as (O1' & O2' & Nx).
      destruct x as [k'|]; [|congruence].
      rewrite run_bind.
      destruct (inode_pop n l1 (Some k2) a k' cl Nea ltac:(now rewrite <- Ea) ltac:(lia)) as [PO1 PO2]. rewrite <- Ea in PO1, PO2.
      rewrite (run_pure _ _ _ _ PO2). rewrite (run_pure _ _ _ _ PO1). cbn beta iota.
      set (c1' := BNode q1 a). set (c2' := BNode q2 ((Some k', cl) :: k2s)).
      destruct (pair_key A l1 c1 k2 c2 B c1' k' c2' Kd Q1 Q2) as (K1 & _ & K3).
      fold I0 in K1, K3. rewrite (run_pure _ _ _ _ K1). rewrite (run_pure _ (expect (Some k2)) _ k2 eq_refl).
      pose proof (inode_unshift n (Some k2) (low_of B hi) k2s (Some k') cl O2 ltac:(discriminate) ltac:(lia) k2 eq_refl) as PU.
      rewrite (run_pure _ _ _ _ PU). cbn [run_io bind]. rewrite K3.
      destruct (rep_write _ _ _ (Internal (inode (A ++ (l1, c1') :: (Some k', c2') :: B))) _ _ _ _ Rp) as (s1 & W1 & R1).
      rewrite W1. cbn [bind run_io].
      assert (R1' : rep s1 ((q1, Internal (inode k1)) :: (p, Internal (inode (A ++ (l1, c1') :: (Some k', c2') :: B))) :: (q2, n0) :: flat_kids k1 (nxt_of k2s (nxt_of B nxt)) ++ flat_kids k2s (nxt_of B nxt) ++ flat_kids A (nxt_of k1 None) ++ flat_kids B nxt ++ F) fl rt ln).
      { eapply rep_perm; [|exact R1]. perm. }
      destruct (rep_write _ _ _ (Internal (inode a)) _ _ _ _ R1') as (s2 & W2 & R2).
      rewrite W2. cbn [bind run_io].
      assert (R2' : rep s2 ((q2, n0) :: (q1, Internal (inode a)) :: (p, Internal (inode (A ++ (l1, c1') :: (Some k', c2') :: B))) :: flat_kids k1 (nxt_of k2s (nxt_of B nxt)) ++ flat_kids k2s (nxt_of B nxt) ++ flat_kids A (nxt_of k1 None) ++ flat_kids B nxt ++ F) fl rt ln).
      { eapply rep_perm; [|exact R2]. perm. }
      destruct (rep_write _ _ _ (Internal (inode ((Some k', cl) :: k2s))) _ _ _ _ R2') as (s3 & W3 & R3).
      rewrite W3. cbn [bind]. exists s3, fl, c1', k', c2'. split; [reflexivity|]. split.
      + eapply rep_perm; [|exact R3]. rewrite flat_node, flat_kids_app, !flat_kids_cons.
        change (flat c1' (nxt_of ((Some k', c2') :: B) nxt)) with ((q1, Internal (inode a)) :: flat_kids a (Some (first_leaf cl))).
        change (flat c2' (nxt_of B nxt)) with ((q2, Internal (inode ((Some k', cl) :: k2s))) :: flat_kids ((Some k', cl) :: k2s) (nxt_of B nxt)).
        change (nxt_of ((l1, c1') :: (Some k', c2') :: B) nxt) with (Some (first_leaf (BNode q1 a))).
        rewrite (nxt_first k1 q1 None Ne1). rewrite Ea. rewrite (first_leaf_app q1 q1 a) by exact Nea.
        rewrite flat_kids_app, !flat_kids_cons.
        change (nxt_of [(Some k', cl)] (nxt_of k2s (nxt_of B nxt))) with (Some (first_leaf cl)).
        change (nxt_of [] (nxt_of k2s (nxt_of B nxt))) with (nxt_of k2s (nxt_of B nxt)).
        change (flat_kids [] (nxt_of k2s (nxt_of B nxt))) with (@nil (nat * node)). perm.
      + unfold c1', c2'.
        split; [split; [exact O1'|]; split; [lia|]; intros _; lia|].
        split; [split; [exact O2'|]; cbn [length]; split; [lia|]; intros _; lia|].
        change (kcontents a ++ kcontents ((Some k', cl) :: k2s) = kcontents k1 ++ kcontents k2s /\ q1 = q1 /\ first_leaf (BNode q1 a) = first_leaf (BNode q1 k1)).
        rewrite <- !kcontents_app, En. split; [reflexivity|]. split; [reflexivity|]. rewrite Ea. symmetry. now apply first_leaf_app.
  Qed.
End Remove.
