(** Removal from the on-disk B+ tree: repairs on the way up. *)
From Verif Require Import BpMapModel BpLeafProofs BpInternalProofs BpStoreProofs OrdLemmas ListLemmas MapSpec.
From Verif Require Export BpRemoveProofs.

Section Delete.
  Context {K V : Type} `{CmpLaws K} {Tg : tightness}.
  Variables m d : nat.
  Hypothesis Hm : 1 <= m.
  Hypothesis Hd : 3 <= d.
  Notation entry := (K * V)%type.
  Notation node := (node K V).
  Notation store := (store K V).
  Notation frame := (@frame K).
  Notation bt := (@bt K V).
  Notation kid := (option K * bt)%type.
  Notation flat := (flat m d).
  Notation flat_kids := (flat_kids m d).
  Notation inode := (inode d).
  Notation ok := (ok m d).
  Notation kids_ok := (kids_ok m d).
  Notation fix_out := (fix_out m d).
  Implicit Types (t c : bt) (kids L R M A B : list kid) (l lo hi : option K) (nxt : option nat) (es : list entry) (e : entry).

  Definition rem_done (r : res (store * option entry)) n root lo hi t nxt F k rt ln : Prop :=
    exists s' t' fl', r = Ok (s', hd_error (at_key k (contents t))) /\
      rep s' (flat t' nxt ++ F) fl' rt ln /\
      ok n root lo hi t' /\ contents t' = drop k (contents t) /\ root_of t' = root_of t /\ first_leaf t' = first_leaf t.
  Definition rem_pend (r : res (store * option entry)) n lo hi p kids nxt F k rt ln (stk : list frame) : Prop :=
    exists s' fl' I0 i x kids',
      r = run_io s' (let! _ := shrink d stk i p I0 in Ret (hd_error (at_key k (kcontents kids)))) /\
      rep s' ((p, Internal I0) :: flat_kids kids' nxt ++ F) fl' rt ln /\
      internal_remove_at I0 i true = Ok (inode kids', x) /\
      kids_ok n lo kids' hi /\ length kids' + 1 = length kids /\ kcontents kids' = drop k (kcontents kids) /\
      first_leaf (BNode p kids') = first_leaf (BNode p kids).
  Definition after (stk : list frame) (del : option (nat * nat * internal K)) (ret : option entry) : io K V (option entry) :=
    match del with
    | Some (i, page, nd) => let! _ := shrink d stk i page nd in Ret ret
    | None => Ret ret
    end.

  Lemma fix_to_out n root lo hi p A l1 c1 k2 c2 B nxt F k rt ln ln' stk fr upd r X :
    let kids := A ++ (l1, c1) :: (Some k2, c2) :: B in
    kids_ok n lo kids hi -> 2 <= length kids <= d + 1 -> (root = false -> (d + 1) / 2 <= length kids) ->
    fix_out n fr p A l1 (root_of c1) (first_leaf c1) B (inode kids) hi nxt F rt ln X ->
    kcontents A ++ X ++ kcontents B = drop k (kcontents kids) ->
    (forall s E fl, rep s E fl rt ln -> rep (upd s) E fl rt ln') ->
    (forall s del E fl, fr = Ok (s, del) -> rep s E fl rt ln ->
       r = run_io (upd s) (after stk del (hd_error (at_key k (kcontents kids))))) ->
    rem_done r (S n) root lo hi (BNode p kids) nxt F k rt ln' \/ rem_pend r n lo hi p kids nxt F k rt ln' stk.
  Proof.
    intros kids O Len Min FO CE UP RE. destruct FO as [FO|FO].
    - right. destruct FO as (s' & fl' & c' & E & Rp & Oc & Cc & Rt & Fl).
      rewrite (RE _ _ _ _ E Rp). cbn [after].
      exists (upd s'), fl', (inode kids), (length A), (k2, root_of c2), (A ++ (l1, c') :: B).
      split; [reflexivity|]. split; [now apply UP|]. split; [|split; [|split; [|split]]].
      + unfold kids. apply (pair_remove m d Hm Hd); auto; [apply O | apply Len].
      + apply (kids_splice m d n lo hi A [(l1, c1); (Some k2, c2)] [(l1, c')] B l1); cbn; auto. constructor.
      + unfold kids. rewrite !app_length. cbn [length]. lia.
      + rewrite kcontents_app, kcontents_cons, Cc. exact CE.
      + unfold kids. destruct A as [|[y b] A]; [exact Fl | reflexivity].
    - left. destruct FO as (s' & fl' & c1' & k' & c2' & E & Rp & O1 & O2 & Cc & Rt & Fl).
      rewrite (RE _ _ _ _ E Rp). cbn [after run_io].
      exists (upd s'), (BNode p (A ++ (l1, c1') :: (Some k', c2') :: B)), fl'.
      split; [reflexivity|]. split; [now apply UP|]. split; [|split; [|split]].
      + split; [|unfold kids in *; rewrite app_length in *; cbn [length] in *; auto].
        apply (kids_splice m d n lo hi A [(l1, c1); (Some k2, c2)] [(l1, c1'); (Some k', c2')] B l1); cbn; auto.
        constructor; [discriminate | constructor].
      + change (kcontents (A ++ (l1, c1') :: (Some k', c2') :: B) = drop k (kcontents kids)).
        rewrite kcontents_app, !kcontents_cons, <- CE, <- Cc. now rewrite <- app_assoc.
      + reflexivity.
      + unfold kids. destruct A as [|[y b] A]; [exact Fl | reflexivity].
  Qed.

  Lemma drop_length k es : sorted es -> length (drop k es) + length (at_key k es) = length es.
  Proof.
    intros S. rewrite (sorted_split es k S) at 3. unfold drop. rewrite !app_length. lia.
  Qed.
  Lemma drop_seg lo hi k es : seg lo hi es -> seg lo hi (drop k es).
  Proof.
    intros [S F]. split; [now apply sorted_delete|]. unfold drop. rewrite Forall_forall in F.
    apply Forall_app. split; apply Forall_forall; intros x I; apply F.
    - now apply in_below in I.
    - now apply in_above in I.
  Qed.
  Lemma drop_none k es : sorted es -> at_key k es = [] -> drop k es = es.
  Proof. intros S E. rewrite (sorted_split es k S) at 2. now rewrite E. Qed.

  (** One child is replaced by one of the same size class. *)
  Lemma replace_done r n root lo hi p L l c R nxt F k rt ln s' c' fl' :
    kids_ok n lo (L ++ (l, c) :: R) hi -> 2 <= length (L ++ (l, c) :: R) <= d + 1 ->
    (root = false -> (d + 1) / 2 <= length (L ++ (l, c) :: R)) ->
    all_lt (kcontents L) k -> all_gt (kcontents R) k ->
    r = Ok (s', hd_error (at_key k (contents c))) ->
    rep s' (flat c' (nxt_of R nxt) ++ (p, Internal (inode (L ++ (l, c) :: R)))
               :: flat_kids L (Some (first_leaf c)) ++ flat_kids R nxt ++ F) fl' rt ln ->
    ok n false l (low_of R hi) c' -> contents c' = drop k (contents c) -> root_of c' = root_of c ->
    first_leaf c' = first_leaf c ->
    rem_done r (S n) root lo hi (BNode p (L ++ (l, c) :: R)) nxt F k rt ln.
  Proof.
    intros O Len Min A1 A2 E Rp Oc Cc Rt Fl.
    assert (KC : contents (BNode p (L ++ (l, c) :: R)) = kcontents L ++ contents c ++ kcontents R).
    { change (contents (BNode p (L ++ (l, c) :: R))) with (kcontents (L ++ (l, c) :: R)).
      now rewrite kcontents_app, kcontents_cons. }
    exists s', (BNode p (L ++ (l, c') :: R)), fl'. rewrite KC, at_mid by assumption. split; [exact E|]. split; [|split; [|split; [|split]]].
    - eapply rep_perm; [|exact Rp]. rewrite flat_node, flat_kids_app, flat_kids_cons. cbn [nxt_of].
      rewrite Fl. rewrite (inode_replace d L l c' c R Rt). perm.
    - split; [|rewrite app_length in *; cbn [length] in *; auto].
      apply (kids_splice m d n lo hi L [(l, c)] [(l, c')] R l); cbn; auto. constructor.
    - rewrite drop_mid by assumption. change (contents (BNode p (L ++ (l, c') :: R))) with (kcontents (L ++ (l, c') :: R)).
      rewrite kcontents_app, kcontents_cons. now rewrite Cc.
    - reflexivity.
    - destruct L as [|[y b] L]; [exact Fl | reflexivity].
  Qed.

  Lemma remove_leaf_kid root lo hi p L l q es R nxt s F fl rt ln stk k :
    let kids := L ++ (l, BLeaf q es) :: R in
    kids_ok 0 lo kids hi -> 2 <= length kids <= d + 1 -> (root = false -> (d + 1) / 2 <= length kids) ->
    in_b l (low_of R hi) k ->
    rep s (flat (BNode p kids) nxt ++ F) fl rt ln -> length (at_key k es) <= ln ->
    let r := run_io s (remove_at m d q (Leaf (mk_leaf m es (nxt_of R nxt))) ((p, inode kids, length L) :: stk) k) in
    rem_done r 1 root lo hi (BNode p kids) nxt F k rt (ln - length (at_key k es)) \/
    rem_pend r 0 lo hi p kids nxt F k rt (ln - length (at_key k es)) stk.
  Proof.
    intros kids O Len Min B Rp LL r. subst r.
    destruct (split_contents m d 0 lo hi L l (BLeaf q es) R k Hm O B) as [A1 A2].
    assert (Oc : ok 0 false l (low_of R hi) (BLeaf q es)).
    { destruct O as (_ & _ & Ch). apply chain_app in Ch as [_ [Ch _]]. exact Ch. }
    pose proof (ok_blt m d Hm 0 l (low_of R hi) _ Oc) as BL.
    destruct Oc as (Sg & Lm & Mn). specialize (Mn eq_refl). pose proof Sg as [S _].
    assert (KC : kcontents kids = kcontents L ++ es ++ kcontents R) by (unfold kids; now rewrite kcontents_app, kcontents_cons).
    assert (AT : at_key k (kcontents kids) = at_key k es) by (rewrite KC; now apply at_mid).
    pose proof (drop_length k es S) as DL.
    assert (Rp' : rep s ((q, Leaf (mk_leaf m es (nxt_of R nxt))) :: (p, Internal (inode kids))
               :: flat_kids L (Some q) ++ flat_kids R nxt ++ F) fl rt ln).
    { eapply rep_perm; [|exact Rp]. rewrite flat_node. unfold kids at 2. rewrite flat_kids_app, flat_kids_cons.
      cbn [nxt_of first_leaf BpTreeProofs.flat]. perm. }
    unfold remove_at, remove_leaf. cbn [expect_leaf iobind].
    pose proof (leaf_remove_ok m es (nxt_of R nxt) k S Lm) as LR. fold (drop k es) in LR. rewrite LR. cbn [pure iobind].
    change (lf_len (mk_leaf m (drop k es) (nxt_of R nxt))) with (length (drop k es)).
    destruct (length (drop k es) <? (m + 1) / 2) eqn:Q.
    - (* too few entries are left *)
      apply Nat.ltb_lt in Q.
      destruct (at_key_cases es k S) as [A | (x & A & _)]; [rewrite A in DL; cbn [length] in DL; lia|].
      rewrite A in *. cbn [length hd_error] in *.
      rewrite run_bind.
      set (upd := fun s : store => set_len s (ln - 1)).
      assert (UP : forall s E fl, rep s E fl rt ln -> rep (upd s) E fl rt (ln - 1)).
      { intros. eapply rep_set_len. eassumption. }
      (* the sibling *)
      destruct L as [|last L'] eqn:EL using rev_ind; [|clear IHL']; cbn [length] in *.
      + (* first child: the sibling is on the right *)
        destruct R as [|[l2 c2] B0]; [unfold kids in Len; cbn [length app] in Len; lia|].
        pose proof O as (F0 & D0 & Ch0). unfold kids in F0, D0, Ch0. cbn in F0. subst l.
        destruct Ch0 as (_ & O2 & _). cbn [app tl] in D0. inversion D0 as [|? ? D1 D2]; subst. cbn in D1.
        destruct l2 as [k2|]; [|congruence]. destruct c2 as [q2 es2|q2 kk]; [|contradiction].
        pose proof (ok_blt m d Hm 0 _ _ _ O2) as BL2.
        destruct O2 as (Sg2 & Lm2 & Mn2). specialize (Mn2 eq_refl).
        pose proof (fix_leaf_right m d Hm Hd p q (drop k es) q2 es2 k2 lo B0 hi nxt
                      (Leaf (mk_leaf m es (Some q2))) s F fl rt ln (BLeaf q es) (BLeaf q2 es2)
                      eq_refl eq_refl D2 (drop_seg _ _ _ _ Sg) Sg2 BL BL2 ltac:(lia) (conj Mn2 Lm2)) as FO.
        assert (FO' : fix_out 0 (run_io s (fix_leaf m q (mk_leaf m (drop k es) (Some q2)) p (inode kids) 0)) p [] lo q q B0 (inode kids) hi nxt F rt ln (drop k es ++ es2)).
        { apply FO. eapply rep_perm; [|exact Rp']. cbn [app]. rewrite flat_kids_cons.
          change (flat (BLeaf q2 es2) (nxt_of B0 nxt)) with [(q2, @Leaf K V (mk_leaf m es2 (nxt_of B0 nxt)))].
          unfold kids. cbn [app nxt_of first_leaf]. change (flat_kids [] (Some q)) with (@nil (nat * node)). perm. }
        eapply (fix_to_out 0 root lo hi p [] lo (BLeaf q es) k2 (BLeaf q2 es2) B0 nxt F k rt ln (ln - 1) stk _ upd _ (drop k es ++ es2) O Len Min FO');
          [|exact UP|].
        * fold kids. rewrite KC. rewrite drop_mid by assumption. rewrite kcontents_cons.
          change (kcontents []) with (@nil entry). cbn [app contents]. now rewrite <- app_assoc.
        * intros s1 del E fl1 Ef R1. rewrite run_bind. cbn [nxt_of first_leaf]. rewrite Ef. cbn [bind run_io].
          rewrite (rep_len _ _ _ _ _ R1). rewrite (run_pure _ _ _ (ln - 1)) by (destruct ln; [lia | cbn; now rewrite Nat.sub_0_r]).
          cbn [run_io bind]. change ([] ++ (lo, BLeaf q es) :: (Some k2, BLeaf q2 es2) :: B0) with kids. rewrite AT. reflexivity.
      + (* otherwise on the left *)
        destruct last as [l1 c1]. pose proof O as (F0 & D0 & Ch0).
        assert (EK : kids = L' ++ (l1, c1) :: (l, BLeaf q es) :: R) by (unfold kids; now rewrite <- app_assoc).
        rewrite EK in O, D0, Ch0, Len, Min.
        apply chain_app in Ch0 as [_ [O1 _]]. cbn [low_of] in O1.
        destruct (keyed_at L' l1 c1 _ D0) as [_ D1]. inversion D1 as [|? ? D2 D3]; subst. cbn in D2.
        destruct l as [k2|]; [|congruence]. destruct c1 as [q1 es1|q1 kk]; [|contradiction].
        pose proof (ok_blt m d Hm 0 _ _ _ O1) as BL1.
        destruct O1 as (Sg1 & Lm1 & Mn1). specialize (Mn1 eq_refl).
        pose proof (fix_leaf_left m d Hm Hd p L' q1 es1 q (drop k es) k2 l1 R hi nxt
                      (Leaf (mk_leaf m es (nxt_of R nxt))) s F fl rt ln (BLeaf q1 es1) (BLeaf q es)
                      eq_refl eq_refl D0 Sg1 (drop_seg _ _ _ _ Sg) BL1 BL ltac:(lia) (conj Mn1 Lm1)) as FO.
        rewrite <- EK in FO.
        assert (FO' : fix_out 0 (run_io s (fix_leaf m q (mk_leaf m (drop k es) (nxt_of R nxt)) p (inode kids) (length L' + 1))) p L' l1 q1 q1 R (inode kids) hi nxt F rt ln (es1 ++ drop k es)).
        { apply FO. eapply rep_perm; [|exact Rp']. rewrite flat_kids_app, flat_kids_cons.
          change (flat (BLeaf q1 es1) (nxt_of [] (Some q))) with [(q1, @Leaf K V (mk_leaf m es1 (Some q)))].
          change (flat_kids [] (Some q)) with (@nil (nat * node)).
          change (nxt_of [(l1, BLeaf q1 es1)] (Some q)) with (Some q1). perm. }
        rewrite EK in FO' |- *. rewrite app_length. cbn [length].
        eapply (fix_to_out 0 root lo hi p L' l1 (BLeaf q1 es1) k2 (BLeaf q es) R nxt F k rt ln (ln - 1) stk _ upd _ (es1 ++ drop k es) O Len Min FO');
          [|exact UP|].
        * rewrite <- EK, KC. rewrite drop_mid by assumption. rewrite kcontents_app.
          change (kcontents [(l1, BLeaf q1 es1)]) with (es1 ++ []). rewrite app_nil_r. now rewrite <- !app_assoc.
        * intros s1 del E fl1 Ef R1. rewrite run_bind. rewrite Ef. cbn [bind run_io].
          rewrite (rep_len _ _ _ _ _ R1). rewrite (run_pure _ _ _ (ln - 1)) by (destruct ln; [lia | cbn; now rewrite Nat.sub_0_r]).
          cbn [run_io bind]. rewrite <- EK, AT. reflexivity.
    - (* enough entries are left *)
      apply Nat.ltb_ge in Q. left.
      destruct (at_key_cases es k S) as [A | (x & A & _)]; rewrite A in *; cbn [length hd_error] in *; rewrite ?Nat.sub_0_r.
      + eapply (replace_done _ 0 root lo hi p L l (BLeaf q es) R nxt F k rt ln s (BLeaf q es) fl O Len Min A1 A2);
          cbn [contents root_of first_leaf]; auto.
        * now rewrite A.
        * split; [exact Sg|]. split; [exact Lm | auto].
        * symmetry. now apply drop_none.
      + cbn [run_io iobind]. rewrite (rep_len _ _ _ _ _ Rp').
        assert (CP : checked_pred ln = Ok (ln - 1)) by (destruct ln; [lia | cbn; now rewrite Nat.sub_0_r]).
        rewrite CP. cbn [pure iobind run_io].
        pose proof (rep_set_len _ _ _ _ _ (ln - 1) Rp') as R1.
        destruct (rep_write _ _ _ (Leaf (mk_leaf m (drop k es) (nxt_of R nxt))) _ _ _ _ R1) as (s2 & W2 & R2).
        rewrite W2. cbn [bind run_io].
        eapply (replace_done _ 0 root lo hi p L l (BLeaf q es) R nxt F k rt (ln - 1) s2 (BLeaf q (drop k es)) fl O Len Min A1 A2);
          cbn [contents root_of first_leaf]; auto.
        * now rewrite A.
        * split; [now apply drop_seg|]. split; [lia | auto].
  Qed.

  Lemma remove_ok k hi t nxt q es nx fr : descend d k hi t nxt q es nx fr ->
    forall n root lo s F fl rt ln stk, ok (S n) root lo hi t -> in_b lo hi k ->
    rep s (flat t nxt ++ F) fl rt ln -> length (at_key k (contents t)) <= ln ->
    let r := run_io s (remove_at m d q (Leaf (mk_leaf m es nx)) (fr ++ stk) k) in
    let ln' := ln - length (at_key k (contents t)) in
    exists p kids, t = BNode p kids /\
    (rem_done r (S n) root lo hi t nxt F k rt ln' \/ rem_pend r n lo hi p kids nxt F k rt ln' stk).
  Proof.
    induction 1 as [hi p es nxt|hi p L l c R nxt q es nx fr B F0 X IH];
      intros n root lo s F fl rt ln stk O Bk Rp LL r ln'; subst r ln'; [contradiction|].
    exists p, (L ++ (l, c) :: R). split; [reflexivity|]. destruct O as (O & Len & Min). fold (kids_ok n lo (L ++ (l, c) :: R) hi) in O.
    destruct (split_contents m d n lo hi L l c R k Hm O B) as [A1 A2].
    assert (KC : contents (BNode p (L ++ (l, c) :: R)) = kcontents L ++ contents c ++ kcontents R).
    { change (contents (BNode p (L ++ (l, c) :: R))) with (kcontents (L ++ (l, c) :: R)). now rewrite kcontents_app, kcontents_cons. }
    assert (AT : at_key k (contents (BNode p (L ++ (l, c) :: R))) = at_key k (contents c)) by (rewrite KC; now apply at_mid).
    assert (KC' : kcontents (L ++ (l, c) :: R) = kcontents L ++ contents c ++ kcontents R) by exact KC.
    assert (Oc : ok n false l (low_of R hi) c).
    { destruct O as (_ & _ & Ch). apply chain_app in Ch as [_ [Ch _]]. exact Ch. }
    rewrite AT in LL |- *.
    destruct n as [|n].
    - (* the children are leaves *)
      destruct c as [q0 es0|q0 kk]; [|contradiction]. inversion X; subst. cbn [app contents] in *.
      now apply (remove_leaf_kid root lo hi p L l q es R nxt s F fl rt ln stk k).
    - assert (Rp' : rep s (flat c (nxt_of R nxt) ++ (p, Internal (inode (L ++ (l, c) :: R)))
               :: flat_kids L (Some (first_leaf c)) ++ flat_kids R nxt ++ F) fl rt ln).
      { eapply rep_perm; [|exact Rp]. rewrite flat_node, flat_kids_app, flat_kids_cons. cbn [nxt_of]. perm. }
      rewrite <- app_assoc. cbn [app].
      destruct (IH n false l s _ fl rt ln ((p, inode (L ++ (l, c) :: R), length L) :: stk) Oc B Rp' LL) as (cq & ck & Ec & [IHr|IHr]).
      + left. destruct IHr as (s' & c' & fl' & E & R1 & O1 & C1 & Rt & Fl). unfold BpMapModel.frame in *.
        now apply (replace_done _ (S n) root lo hi p L l c R nxt F k rt _ s' c' fl').
      + destruct IHr as (s' & fl' & I0 & i & x & ck' & E & R1 & RM & Ok' & Lk & Ck & Fk).
        unfold BpMapModel.frame in *. rewrite E. cbn [shrink]. rewrite RM. cbn [pure iobind].
        set (ln' := ln - length (at_key k (contents c))) in *.
        pose proof Ok' as (Fl' & Dk & _). pose proof (first_low_ne _ _ Fl') as Nek.
        pose proof (inode_len m d Hm Hd ck' Nek Dk) as IL. rewrite IL.
        pose proof (half_up d) as HU. pose proof (half_le d) as [HL1 HL2].
        assert (LkO : 2 <= length ck <= d + 1 /\ (d + 1) / 2 <= length ck).
        { rewrite Ec in Oc. destruct Oc as (_ & L1 & L2). specialize (L2 eq_refl). lia. }
        destruct (length ck' <? (d + 1) / 2) eqn:Q.
        2: { (* still enough children *)
          apply Nat.ltb_ge in Q. left. cbn [iobind run_io].
          destruct (rep_write _ _ _ (Internal (inode ck')) _ _ _ _ R1) as (s2 & W2 & R2). rewrite W2. cbn [bind run_io].
          apply (replace_done _ (S n) root lo hi p L l c R nxt F k rt ln' s2 (BNode cq ck') fl' O Len Min A1 A2); auto.
          - rewrite Ec. reflexivity.
          - split; [exact Ok'|]. split; [lia|]. intros _. exact Q.
          - rewrite Ec. exact Ck.
          - rewrite Ec. reflexivity.
          - rewrite Ec. exact Fk. }
        apply Nat.ltb_lt in Q. rewrite run_bind, run_bind.
        assert (Cc : contents c = kcontents ck) by (rewrite Ec; reflexivity).
        assert (Rtc : root_of c = cq) by (rewrite Ec; reflexivity).
        assert (Flc : first_leaf c = first_leaf (BNode cq ck)) by (rewrite Ec; reflexivity).
        assert (ATk : at_key k (kcontents (L ++ (l, c) :: R)) = at_key k (kcontents ck)) by (rewrite KC', at_mid by assumption; now rewrite Cc).
        set (upd := fun s : store => s).
        assert (UP : forall s E fl, rep s E fl rt ln' -> rep (upd s) E fl rt ln') by auto.
        destruct L as [|last L'] eqn:EL using rev_ind; [|clear IHL']; cbn [length] in *.
        * destruct R as [|[l2 c2] B0]; [cbn [length app] in Len; lia|].
          pose proof O as (F1 & D0 & Ch0). cbn in F1. subst l.
          destruct Ch0 as (_ & O2 & _). cbn [app tl] in D0. inversion D0 as [|? ? D1 D2]; subst. cbn in D1.
          destruct l2 as [k2|]; [|congruence]. destruct c2 as [q2 es2|q2 k2s]; [contradiction|].
          destruct O2 as (O2 & L2 & M2). specialize (M2 eq_refl). fold (kids_ok n (Some k2) k2s (low_of B0 hi)) in O2.
          assert (Ne2 : k2s <> []) by (intros ->; cbn [length] in L2; lia).
          pose proof (fix_internal_right m d Hm Hd n p cq ck' q2 k2s k2 lo B0 hi nxt (Internal I0) s' F fl' rt ln'
                        (BNode cq ck) (BNode q2 k2s) eq_refl eq_refl D2 Ok' O2 ltac:(lia) ltac:(lia)) as FO.
          assert (FO' : fix_out (S n) (run_io s' (fix_internal d cq (inode ck') p (inode ((lo, BNode cq ck) :: (Some k2, BNode q2 k2s) :: B0)) 0)) p [] lo cq (first_leaf (BNode cq ck)) B0
                          (inode ((lo, BNode cq ck) :: (Some k2, BNode q2 k2s) :: B0)) hi nxt F rt ln' (kcontents ck' ++ kcontents k2s)).
          { rewrite <- Fk. apply FO. eapply rep_perm; [|exact R1]. cbn [app]. rewrite flat_kids_cons, flat_node.
            change (flat_kids [] (Some (first_leaf (BNode cq ck)))) with (@nil (nat * node)).
            cbn [nxt_of]. rewrite (nxt_first k2s q2 _ Ne2). perm. }
          eapply (fix_to_out (S n) root lo hi p [] lo (BNode cq ck) k2 (BNode q2 k2s) B0 nxt F k rt ln' ln' stk _ upd _ (kcontents ck' ++ kcontents k2s) O Len Min FO');
            [|exact UP|].
          -- rewrite Ck. change (kcontents ([] ++ (lo, BNode cq ck) :: (Some k2, BNode q2 k2s) :: B0)) with
               ([] ++ kcontents ck ++ kcontents ((Some k2, BNode q2 k2s) :: B0)).
             rewrite drop_mid by assumption. rewrite kcontents_cons. change (kcontents []) with (@nil entry).
             cbn [app contents]. now rewrite <- app_assoc.
          -- intros s1 del E0 fl1 Ef R2. cbn [app] in *. rewrite Ef. cbn [bind]. unfold upd. cbn [after]. rewrite ATk.
             destruct del as [[[i' pg] nd']|]; cbn [after run_io bind]; [rewrite run_bind|]; reflexivity.
        * destruct last as [l1 c1].
          assert (EK : forall T (f : list kid -> T), f ((L' ++ [(l1, c1)]) ++ (l, c) :: R) = f (L' ++ (l1, c1) :: (l, c) :: R)) by (intros; now rewrite <- app_assoc).
          rewrite <- app_assoc in O, Len, Min, KC', ATk. cbn [app] in O, Len, Min, KC', ATk.
          rewrite <- app_assoc. cbn [app].
          pose proof O as (F1 & D0 & Ch0).
          apply chain_app in Ch0 as [_ [O1 _]]. cbn [low_of] in O1.
          destruct (keyed_at L' l1 c1 _ D0) as [_ D1]. inversion D1 as [|? ? D2 D3]; subst. cbn in D2.
          destruct l as [k2|]; [|congruence]. destruct c1 as [q1 es1|q1 k1]; [contradiction|].
          destruct O1 as (O1 & L1 & M1). specialize (M1 eq_refl). fold (kids_ok n l1 k1 (Some k2)) in O1.
          assert (Ne1 : k1 <> []) by (intros ->; cbn [length] in L1; lia).
          pose proof (fix_internal_left m d Hm Hd n p L' q1 k1 cq ck' k2 l1 R hi nxt (Internal I0) s' F fl' rt ln'
                        (BNode q1 k1) (BNode cq ck) eq_refl eq_refl D0 O1 Ok' ltac:(lia) ltac:(lia)) as FO.
          rewrite app_length. cbn [length].
          assert (FO' : fix_out (S n) (run_io s' (fix_internal d cq (inode ck') p (inode (L' ++ (l1, BNode q1 k1) :: (Some k2, BNode cq ck) :: R)) (length L' + 1))) p L' l1 q1 (first_leaf (BNode q1 k1)) R
                          (inode (L' ++ (l1, BNode q1 k1) :: (Some k2, BNode cq ck) :: R)) hi nxt F rt ln' (kcontents k1 ++ kcontents ck')).
          { apply FO. eapply rep_perm; [|exact R1].
            rewrite flat_kids_app, flat_kids_cons, flat_node. rewrite <- app_assoc. cbn [app].
            change (flat_kids [] (Some (first_leaf (BNode cq ck)))) with (@nil (nat * node)).
            change (nxt_of [] (Some (first_leaf (BNode cq ck)))) with (Some (first_leaf (BNode cq ck))).
            change (nxt_of [(l1, BNode q1 k1)] (Some (first_leaf (BNode cq ck)))) with (Some (first_leaf (BNode q1 k1))).
            rewrite (nxt_first k1 q1 None Ne1). rewrite (nxt_first ck' cq _ Nek). rewrite Fk. perm. }
          eapply (fix_to_out (S n) root lo hi p L' l1 (BNode q1 k1) k2 (BNode cq ck) R nxt F k rt ln' ln' stk _ upd _ (kcontents k1 ++ kcontents ck') O Len Min FO');
            [|exact UP|].
          -- rewrite Ck, KC'. rewrite drop_mid by assumption. rewrite kcontents_app.
             change (kcontents [(l1, BNode q1 k1)]) with (kcontents k1 ++ []). rewrite app_nil_r.
             cbn [contents]. now rewrite <- !app_assoc.
          -- intros s1 del E0 fl1 Ef R2. rewrite Ef. cbn [bind]. unfold upd. rewrite ATk.
             destruct del as [[[i' pg] nd']|]; cbn [after run_io bind]; [rewrite run_bind|]; reflexivity.
  Qed.

  Notation inv := (inv m d).
  Lemma remove_inv (s : store) (ml : list entry) (k : K) : inv s ml ->
    exists s', run_io s (remove_prog m d k) = Ok (s', hd_error (at_key k ml)) /\ inv s' (drop k ml).
  Proof.
    intros I. pose proof (inv_sorted m d Hm s ml I) as Srt. destruct I as (n & t & fl & O & Rp & <-).
    assert (Rp' : rep s (flat t None ++ []) fl (root_of t) (length (contents t))) by now rewrite app_nil_r.
    assert (Bd : in_b None None k) by (split; exact I).
    destruct (search_ok m d k n true None None t None s [] fl _ Hm ltac:(lia) O Bd Rp') as (q & es & nx & fr & X & E).
    unfold remove_prog. rewrite run_bind, E. cbn [bind].
    pose proof (drop_length k (contents t) Srt) as DL.
    destruct n as [|n].
    - (* the root is a leaf *)
      destruct t as [p es0|p kids]; [|contradiction]. inversion X; subst. cbn [contents root_of] in *.
      destruct O as (Sg & Lm & _). unfold remove_at, remove_leaf. cbn [expect_leaf iobind].
      pose proof (leaf_remove_ok m es None k Srt Lm) as LR. fold (drop k es) in LR. rewrite LR. cbn [pure iobind].
      change (lf_len (mk_leaf m (drop k es) None)) with (length (drop k es)).
      assert (G : forall r,
        run_io s match hd_error (at_key k es) with
                 | Some _ => GetLen (fun n => let? n0 := checked_pred n in SetLen n0 (WriteNode q (Leaf (mk_leaf m (drop k es) None)) (Ret (hd_error (at_key k es)))))
                 | None => Ret (hd_error (at_key k es)) end = r ->
        exists s', r = Ok (s', hd_error (at_key k es)) /\ inv s' (drop k es)).
      { intros r <-. destruct (at_key_cases es k Srt) as [A | (x & A & _)]; rewrite A in *; cbn [hd_error length run_io] in *.
        - exists s. split; [reflexivity|]. rewrite drop_none by assumption. exists 0, (BLeaf q es), fl. split; [|split; [exact Rp | reflexivity]].
          split; [exact Sg|]. split; [exact Lm | discriminate].
        - rewrite (rep_len _ _ _ _ _ Rp). rewrite (run_pure _ _ _ (length (drop k es))) by (rewrite <- DL, Nat.add_1_r; reflexivity).
          cbn [run_io]. pose proof (rep_set_len _ _ _ _ _ (length (drop k es)) Rp) as R1.
          destruct (rep_write _ _ _ (Leaf (mk_leaf m (drop k es) None)) _ _ _ _ R1) as (s2 & W2 & R2).
          rewrite W2. cbn [bind run_io]. exists s2. split; [reflexivity|]. exists 0, (BLeaf q (drop k es)), fl.
          split; [|split; [exact R2 | reflexivity]]. split; [now apply drop_seg|]. split; [lia | discriminate]. }
      apply G. destruct (length (drop k es) <? (m + 1) / 2); destruct (at_key k es); cbn [hd_error iobind run_io]; try reflexivity; destruct (checked_pred (md_len (st_mem s))); reflexivity.
    - pose proof (remove_ok k None t None q es nx fr X n true None s [] fl _ _ [] O Bd Rp' ltac:(lia)) as RO.
      rewrite app_nil_r in RO. destruct RO as (p & kids & -> & RO).
      replace (length (contents (BNode p kids)) - length (at_key k (contents (BNode p kids)))) with (length (drop k (contents (BNode p kids)))) in RO by lia.
      destruct RO as [RO|RO].
      + destruct RO as (s' & t' & fl' & E' & R' & O' & C' & Rt & _). exists s'. split; [exact E'|].
        exists (S n), t', fl'. rewrite app_nil_r in R'. rewrite Rt. auto.
      + destruct RO as (s' & fl' & I0 & i & x & kids' & E' & R' & RM & Ok' & Lk & Ck & Fk).
        change (kcontents kids) with (contents (BNode p kids)) in *. set (ml := contents (BNode p kids)) in *.
        rewrite E'. cbn [shrink]. rewrite RM. cbn [pure iobind].
        pose proof Ok' as (Fl' & Dk & Ch). pose proof (first_low_ne _ _ Fl') as Nek.
        pose proof (inode_len m d Hm Hd kids' Nek Dk) as IL.
        destruct O as (_ & Len & _). rewrite app_nil_r in R'. cbn [root_of] in R'.
        assert (Wr : 2 <= length kids' -> exists s2, run_io s' (WriteNode p (Internal (inode kids')) (Ret (hd_error (at_key k ml)))) = Ok (s2, hd_error (at_key k ml)) /\ inv s2 (drop k ml)).
        { intros L2. destruct (rep_write _ _ _ (Internal (inode kids')) _ _ _ _ R') as (s2 & W2 & R2).
          exists s2. cbn [run_io]. rewrite W2. split; [reflexivity|]. exists (S n), (BNode p kids'), fl'.
          split; [|split; [exact R2 | exact Ck]]. split; [exact Ok'|]. split; [lia | discriminate]. }
        pose proof (half_up d) as HU. pose proof (half_le d) as [HL1 HL2].
        destruct (in_len (inode kids') + 1 <? (d + 1) / 2) eqn:Q.
        * destruct (in_len (inode kids') =? 0) eqn:Z; [|apply Nat.eqb_neq in Z; apply Wr; lia].
          apply Nat.eqb_eq in Z. destruct kids' as [|[l c] [|y r]]; [congruence| |cbn [length] in IL; lia].
          cbn in Fl'. subst l.
          assert (CE : cell (in_ptrs (inode [(None, c)])) 0 = Ok (root_of c)) by reflexivity.
          rewrite CE. cbn [pure iobind run_io].
          pose proof (rep_set_root _ _ _ _ _ (root_of c) R') as R2.
          destruct (rep_free _ _ _ _ _ _ _ R2) as (s3 & W3 & R3). rewrite W3. cbn [bind run_io].
          exists s3. split; [reflexivity|]. exists n, c, (p :: fl'). destruct Ch as [Oc _]. cbn [low_of] in Oc.
          split; [now apply ok_weaken|]. split.
          -- rewrite flat_kids_cons in R3. cbn [nxt_of] in R3. change (flat_kids [] None) with (@nil (nat * node)) in R3.
             now rewrite app_nil_r in R3.
          -- rewrite <- Ck. unfold kcontents. cbn. now rewrite app_nil_r.
        * apply Nat.ltb_ge in Q. apply Wr. lia.
  Qed.
End Delete.
