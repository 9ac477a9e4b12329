(** Insertion into the on-disk B+ tree. *)
From Verif Require Import BpMapModel BpLeafProofs BpInternalProofs BpStoreProofs OrdLemmas ListLemmas MapSpec.
From Verif Require Export BpTreeProofs.

Section Insert.
  Context {K V : Type} `{CmpLaws K} {Tg : tightness}.
  Variables m d : nat.
  Hypothesis Hm : 1 <= m.
  Hypothesis Hd : 3 <= d.
  Notation entry := (K * V)%type.
  Notation node := (node K V).
  Notation store := (store K V).
  Notation frame := (@frame K).
  Notation bt := (@bt K V).
  Notation kid := (option K * bt)%type.
  Notation flat := (flat m d).
  Notation flat_kids := (flat_kids m d).
  Notation inode := (inode d).
  Notation ok := (ok m d).
  Notation kids_ok := (kids_ok m d).
  Implicit Types (t c : bt) (kids L R M : list kid) (l lo hi : option K) (nxt : option nat) (es : list entry) (e : entry).

  Lemma kids_keys n lo kids hi : kids_ok n lo kids hi ->
    StronglySorted (fun x y => cmp x y = Lt) (keys_of (tl kids)).
  Proof.
    intros (F & D & Ch). destruct kids as [|[l c] r]; [contradiction|].
    destruct (chain_keys (ok n false) (ok_seg m d Hm n) r l c hi D Ch) as (A & _). exact A.
  Qed.
  Lemma ssorted_app {A} (P : A -> A -> Prop) (a b : list A) : StronglySorted P (a ++ b) ->
    StronglySorted P a /\ StronglySorted P b /\ Forall (fun x => Forall (P x) b) a.
  Proof.
    induction a as [|x a IH]; intros S; [repeat split; auto; constructor|].
    inversion S as [|? ? S1 S2]; subst. destruct (IH S1) as (I1 & I2 & I3). apply Forall_app in S2 as [S2 S3].
    repeat split; auto; constructor; auto.
  Qed.
  Lemma ssorted_pairs (kp : list (K * nat)) : StronglySorted (fun x y => cmp x y = Lt) (map fst kp) -> sorted kp.
  Proof.
    induction kp as [|[k p] kp IH]; cbn [map fst]; intros S; inversion S as [|? ? S1 S2]; subst; constructor.
    - now apply IH.
    - apply Forall_map in S2. exact S2.
  Qed.

  Lemma kids_cut n lo hi N1 x c N2 : N1 <> [] -> kids_ok n lo (N1 ++ (x, c) :: N2) hi ->
    kids_ok n lo N1 x /\ kids_ok n x ((x, c) :: N2) hi /\ x <> None.
  Proof.
    intros Ne (F & D & Ch). apply chain_app in Ch as [C1 C2]. destruct N1 as [|[y b] N1]; [congruence|].
    cbn [app tl] in D. unfold keyed in D. apply Forall_app in D as [D1 D2]. inversion D2 as [|? ? D3 D4]; subst.
    split; [exact (conj F (conj D1 C1))|]. split; [exact (conj eq_refl (conj D4 C2)) | exact D3].
  Qed.
  Lemma kids_join n lo hi N1 x c N2 : kids_ok n lo N1 x -> kids_ok n x ((x, c) :: N2) hi -> x <> None ->
    kids_ok n lo (N1 ++ (x, c) :: N2) hi.
  Proof.
    intros (F & D & Ch) (F2 & D2 & Ch2) Nx. split; [now apply first_low_app|]. split.
    - destruct N1 as [|[y b] N1]; [contradiction|]. cbn [app tl] in *. apply Forall_app. split; [exact D|].
      now constructor.
    - apply chain_app. split; [exact Ch | exact Ch2].
  Qed.

  Lemma grow_room n lo hi L l c c1 sk c2 R : kids_ok n lo (L ++ (l, c1) :: (Some sk, c2) :: R) hi ->
    root_of c1 = root_of c -> length (L ++ (l, c1) :: (Some sk, c2) :: R) <= d + 1 ->
    internal_insert (inode (L ++ (l, c) :: R)) sk (root_of c2) true =
      Ok (inode (L ++ (l, c1) :: (Some sk, c2) :: R), None).
  Proof.
    intros O E Len. pose proof (kids_keys _ _ _ _ O) as S. rewrite keys_at in S.
    change (keys_of ((Some sk, c2) :: R)) with (sk :: keys_of R) in S.
    destruct (ssorted_app _ _ _ S) as (_ & S2 & S3). destruct O as (_ & D & _).
    apply keyed_at in D as [DL D]. inversion D as [|? ? _ DR]; subst.
    rewrite !inode_at, E. change (keys_of ((Some sk, c2) :: R)) with (sk :: keys_of R).
    cbn [map]. change (kroot (Some sk, c2)) with (root_of c2).
    rewrite app_length in Len. cbn [length] in Len.
    apply internal_insert_room; [exact S2| | | |].
    - eapply Forall_impl; [|exact S3]. cbn. intros a Fa. inversion Fa; subst. intros Q. border.
    - rewrite app_length, DL, keys_length by exact DR. lia.
    - rewrite !app_length, !map_length, DL, keys_length by exact DR. cbn [length]. lia.
    - rewrite app_length, map_length, DL. reflexivity.
  Qed.
  Lemma grow_full n lo hi L l c c1 sk c2 R : kids_ok n lo (L ++ (l, c1) :: (Some sk, c2) :: R) hi ->
    root_of c1 = root_of c -> length (L ++ (l, c1) :: (Some sk, c2) :: R) = d + 2 ->
    exists N1 k' c' N2, L ++ (l, c1) :: (Some sk, c2) :: R = N1 ++ (Some k', c') :: N2 /\
      length N1 = (d + 1) / 2 + 1 /\ length N2 = d / 2 /\
      internal_insert (inode (L ++ (l, c) :: R)) sk (root_of c2) true =
        Ok (inode N1, Some (k', inode ((Some k', c') :: N2))).
  Proof.
    intros O E Len. rewrite (inode_replace d L l c c1 R) by congruence.
    pose proof (kids_keys _ _ _ _ O) as S. pose proof O as (_ & D & _).
    set (new := L ++ (l, c1) :: (Some sk, c2) :: R) in *.
    assert (exists l0 c0 r, new = (l0, c0) :: r) as (l0 & c0 & r & En).
    { unfold new. destruct L as [|[l0 c0] L]; cbn; eauto. }
    (* the node before the insertion *)
    assert (exists r1, r = r1 ++ (Some sk, c2) :: R /\ L ++ (l, c1) :: R = (l0, c0) :: r1 ++ R) as (r1 & Er & Eo).
    { unfold new in En. destruct L as [|[y b] L]; cbn in En; injection En as <- <- <-.
      - exists []. split; reflexivity.
      - exists (L ++ [(l, c1)]). rewrite <- !app_assoc. split; reflexivity. }
    rewrite Eo. rewrite En in *. cbn [tl] in *. subst r.
    unfold keyed in D. rewrite Forall_app in D. destruct D as [D1 D2]. inversion D2 as [|? ? _ D3]; subst.
    assert (DR : keyed (r1 ++ R)) by (apply Forall_app; split; assumption).
    assert (DN : keyed (r1 ++ (Some sk, c2) :: R)) by (apply Forall_app; split; assumption).
    rewrite (inode_mk d l0 c0 (r1 ++ R) DR).
    pose proof (ssorted_pairs (kp_of (r1 ++ (Some sk, c2) :: R))) as SP. rewrite kp_keys in SP. specialize (SP S).
    rewrite kp_app in SP. change (kp_of ((Some sk, c2) :: R)) with ((sk, root_of c2) :: kp_of R) in SP.
    pose proof (proj1 (sorted_mid _ _ _) SP) as SM. cbn [fst] in SM.
    destruct SM as (A1 & A2 & A3 & A4).
    assert (PE : put (sk, root_of c2) (kp_of (r1 ++ R)) = kp_of (r1 ++ (Some sk, c2) :: R)).
    { rewrite !kp_app. change (kp_of ((Some sk, c2) :: R)) with ((sk, root_of c2) :: kp_of R).
      unfold put. cbn [fst]. rewrite below_app, above_app.
      rewrite (below_all_lt (kp_of r1)), (above_all_lt (kp_of r1)) by assumption.
      rewrite (below_all_gt (kp_of R)), (above_all_gt (kp_of R)) by assumption.
      now rewrite app_nil_r. }
    assert (LE : length (r1 ++ R) = d).
    { cbn [length] in Len. rewrite app_length in Len. cbn [length] in Len. rewrite app_length. lia. }
    destruct (internal_insert_split d (root_of c0) (kp_of (r1 ++ R)) sk (root_of c2)) as (M1 & k' & sp & M2 & P1 & P2 & P3 & P4).
    - rewrite kp_app. apply sorted_app. split; [assumption|]. split; [assumption|].
      apply sorted_app in SP as (_ & _ & SP). intros x y I J. apply SP; [exact I | now right].
    - rewrite kp_app, at_app. now rewrite (at_all_lt (kp_of r1)), (at_all_gt (kp_of R)) by assumption.
    - rewrite kp_length by exact DR. exact LE.
    - lia.
    - rewrite P4. rewrite PE in P1.
      destruct (kp_split _ _ _ _ DN P1) as (a & y & b & Q1 & Q2 & Q3 & Q4).
      rewrite Q1 in DN. unfold keyed in DN. apply Forall_app in DN as [DA DB]. inversion DB as [|? ? Dy DB2]; subst.
      destruct y as [[ky|] cy]; [|now cbn in Dy]. cbn in Q3. injection Q3 as <- <-.
      exists ((l0, c0) :: a), ky, cy, b. rewrite Q1. split; [reflexivity|].
      split; [cbn [length]; rewrite <- (kp_length a) by exact DA; lia|].
      split; [rewrite <- (kp_length b) by exact DB2; lia|].
      rewrite !inode_mk by assumption. reflexivity.
  Qed.

  Definition finish : io K V (option entry) := GetLen (fun n => SetLen (n + 1) (Ret None)).
  Definition ins_done (r : res (store * option entry)) n root lo hi t nxt F e rt ln : Prop :=
    exists s' t' fl', r = Ok (s', hd_error (at_key (fst e) (contents t))) /\
      rep s' (flat t' nxt ++ F) fl' rt (match at_key (fst e) (contents t) with [] => ln + 1 | _ => ln end) /\
      ok n root lo hi t' /\ contents t' = put e (contents t) /\ root_of t' = root_of t /\ first_leaf t' = first_leaf t.
  Definition ins_pend (r : res (store * option entry)) n lo hi t nxt F e rt ln (stk : list frame) : Prop :=
    at_key (fst e) (contents t) = [] /\
    exists s' t1 sk t2 fl', r = run_io s' (let! _ := grow d stk (root_of t) sk (root_of t2) in finish) /\
      rep s' (flat t1 (Some (first_leaf t2)) ++ flat t2 nxt ++ F) fl' rt ln /\
      ok n false lo (Some sk) t1 /\ ok n false (Some sk) hi t2 /\
      contents t1 ++ contents t2 = put e (contents t) /\ root_of t1 = root_of t /\ first_leaf t1 = first_leaf t.

  Lemma in_b_put lo hi e es : Forall (fun x : entry => in_b lo hi (fst x)) es -> in_b lo hi (fst e) ->
    Forall (fun x : entry => in_b lo hi (fst x)) (put e es).
  Proof.
    intros F B. unfold put. apply Forall_app. split; [|constructor; [exact B|]];
      apply Forall_forall; intros x I; rewrite Forall_forall in F; apply F.
    - now apply in_below in I.
    - now apply in_above in I.
  Qed.
  Lemma seg_put lo hi e es : seg lo hi es -> in_b lo hi (fst e) -> seg lo hi (put e es).
  Proof. intros [S F] B. split; [now apply put_sorted | now apply in_b_put]. Qed.
  Lemma seg_cut lo hi a e b : seg lo hi (a ++ e :: b) ->
    seg lo (Some (fst e)) a /\ seg (Some (fst e)) hi (e :: b).
  Proof.
    intros [S F]. apply Forall_app in F as [F1 F2]. apply sorted_app in S as (S1 & S2 & S3).
    rewrite Forall_forall in F1, F2. split; (split; [assumption|]); apply Forall_forall.
    - intros x I. split; [apply (F1 x I)|]. cbn. apply S3; [exact I | now left].
    - intros x I. split; [|apply (F2 x I)]. cbn. apply sorted_cons in S2 as [S2 _]. destruct I as [-> |I].
      + rewrite cmp_refl. discriminate.
      + unfold all_gt in S2. rewrite Forall_forall in S2. rewrite (S2 x I). discriminate.
  Qed.

  (** Conditions under which overwriting an entry is safe. *)
  Definition safe e es : Prop := length es < m \/ at_key (fst e) es = [] \/ length (below (fst e) es) <= m / 2 + 1.

  Lemma insert_leaf_ok root lo hi p es nxt s F fl rt ln stk e :
    ok 0 root lo hi (BLeaf p es) -> in_b lo hi (fst e) -> safe e es ->
    rep s (flat (BLeaf p es) nxt ++ F) fl rt ln ->
    let r := run_io s (insert_at d p (Leaf (mk_leaf m es nxt)) stk e) in
    ins_done r 0 root lo hi (BLeaf p es) nxt F e rt ln \/ ins_pend r 0 lo hi (BLeaf p es) nxt F e rt ln stk.
  Proof.
    intros (Sg & Len & Min) B Sf Rp r. subst r. pose proof (seg_put lo hi e es Sg B) as SP.
    pose proof Sg as [S _]. cbn [BpTreeProofs.flat app] in Rp.
    (* an insertion that does not split *)
    assert (NS : forall o, leaf_insert (mk_leaf m es nxt) e = Ok (mk_leaf m (put e es) nxt, option_map IEntry o) ->
              o = hd_error (at_key (fst e) es) -> length (put e es) <= m ->
              ins_done (run_io s (insert_at d p (Leaf (mk_leaf m es nxt)) stk e)) 0 root lo hi (BLeaf p es) nxt F e rt ln).
    { intros o E Eo Lp. unfold insert_at. rewrite (run_pure _ _ _ _ E).
      destruct (rep_write _ _ _ (Leaf (mk_leaf m (put e es) nxt)) _ _ _ _ Rp) as (s1 & W & R1).
      assert (Ok' : ok 0 root lo hi (BLeaf p (put e es))).
      { split; [exact SP|]. split; [exact Lp|]. intros Q. specialize (Min Q).
        destruct (at_key_cases es (fst e) S) as [A | (x & A & _)].
        - rewrite (put_length e es S A). lia.
        - rewrite (put_length_at e es x S A). exact Min. }
      unfold ins_done. cbn [contents root_of first_leaf]. rewrite Eo in *.
      destruct (at_key_cases es (fst e) S) as [A | (x & A & _)]; rewrite A in *; cbn [option_map hd_error] in *.
      - cbn [run_io]. rewrite W. cbn [bind run_io]. rewrite (rep_len _ _ _ _ _ R1).
        eexists _, (BLeaf p (put e es)), fl. split; [reflexivity|]. split; [|auto].
        cbn [BpTreeProofs.flat app]. eapply rep_set_len; eauto.
      - cbn [run_io]. rewrite W. cbn [bind].
        eexists _, (BLeaf p (put e es)), fl. split; [reflexivity|]. split; [exact R1 | auto]. }
    destruct (Nat.lt_ge_cases (length es) m) as [Lt|Ge].
    - left. apply (NS (hd_error (at_key (fst e) es))); [now apply leaf_insert_room | reflexivity|].
      destruct (at_key_cases es (fst e) S) as [A | (x & A & _)].
      + rewrite (put_length e es S A). lia.
      + rewrite (put_length_at e es x S A). lia.
    - assert (Full : length es = m) by lia.
      destruct (at_key_cases es (fst e) S) as [A | (x & A & _)].
      2: { left. apply (NS (Some x)).
           - destruct Sf as [Sf|[Sf|Sf]]; [lia|congruence|]. now apply leaf_insert_full_safe.
           - now rewrite A.
           - rewrite (put_length_at e es x S A). lia. }
      right. pose proof (leaf_insert_split m es nxt e S Full Hm A) as (sk & H1 & E).
      pose proof (put_length e es S A) as PL. rewrite Full in PL.
      pose proof (half_up m) as HU. pose proof (half_le m) as [HL1 HL2].
      set (h := m / 2 + 1) in *. set (a := firstn h (put e es)) in *.
      destruct (skipn h (put e es)) as [|x b] eqn:SK; [discriminate|]. cbn in H1. injection H1 as ->.
      assert (PE : put e es = a ++ sk :: b) by (unfold a; rewrite <- SK; symmetry; apply firstn_skipn).
      assert (LA : length a = h) by (unfold a; rewrite firstn_length; lia).
      assert (LB : length (sk :: b) = (m + 1) / 2).
      { rewrite PE, app_length in PL. lia. }
      split; [exact A|]. unfold insert_at. rewrite (run_pure _ _ _ _ E). cbn [run_io].
      destruct (rep_alloc s (Leaf (mk_leaf m (sk :: b) nxt)) _ _ _ _ Rp) as (s1 & q & fl1 & W1 & R1).
      rewrite W1. cbn [bind run_io].
      assert (R1' : rep s1 ((p, Leaf (mk_leaf m es nxt)) :: (q, Leaf (mk_leaf m (sk :: b) nxt)) :: F) fl1 rt ln).
      { eapply rep_perm; [|exact R1]. perm. }
      destruct (rep_write _ _ _ (Leaf (mk_leaf m a (Some q))) _ _ _ _ R1') as (s2 & W2 & R2).
      change (mkLeaf (lf_len (mk_leaf m a nxt)) (lf_entries (mk_leaf m a nxt)) (Some q)) with (mk_leaf m a (Some q)).
      rewrite W2. cbn [bind].
      rewrite PE in SP. apply seg_cut in SP as [SA SB].
      exists s2, (BLeaf p a), (fst sk), (BLeaf q (sk :: b)), fl1.
      split; [reflexivity|]. split; [exact R2|]. cbn [contents root_of first_leaf].
      split; [split; [exact SA|split; intros; lia]|].
      split; [split; [exact SB|split; intros; lia]|]. rewrite PE. auto.
  Qed.

  Lemma insert_ok e hi t nxt q es nx fr : descend d (fst e) hi t nxt q es nx fr ->
    forall n root lo s F fl rt ln stk, ok n root lo hi t -> in_b lo hi (fst e) -> safe e es ->
    rep s (flat t nxt ++ F) fl rt ln ->
    let r := run_io s (insert_at d q (Leaf (mk_leaf m es nx)) (fr ++ stk) e) in
    ins_done r n root lo hi t nxt F e rt ln \/ ins_pend r n lo hi t nxt F e rt ln stk.
  Proof.
    induction 1 as [hi p es nxt|hi p L l c R nxt q es nx fr B F0 X IH];
      intros n root lo s F fl rt ln stk O Be Sf Rp r; subst r.
    - destruct n as [|n]; [|contradiction]. now apply (insert_leaf_ok root lo hi p es nxt s F fl).
    - destruct n as [|n]; [contradiction|]. destruct O as (O & Len & Min).
      destruct (split_contents m d n lo hi L l c R (fst e) Hm O B) as [A1 A2].
      set (kids := L ++ (l, c) :: R) in *.
      assert (KC : contents (BNode p kids) = kcontents L ++ contents c ++ kcontents R).
      { change (contents (BNode p kids)) with (kcontents kids). unfold kids. now rewrite kcontents_app, kcontents_cons. }
      assert (AT : at_key (fst e) (contents (BNode p kids)) = at_key (fst e) (contents c)) by (rewrite KC; now apply at_mid).
      assert (PU : put e (contents (BNode p kids)) = kcontents L ++ put e (contents c) ++ kcontents R) by (rewrite KC; now apply put_mid).
      assert (Oc : ok n false l (low_of R hi) c).
      { destruct O as (_ & _ & Ch). apply chain_app in Ch as [_ [Ch _]]. exact Ch. }
      assert (Rp' : rep s (flat c (nxt_of R nxt) ++ (p, Internal (inode kids))
               :: flat_kids L (Some (first_leaf c)) ++ flat_kids R nxt ++ F) fl rt ln).
      { eapply rep_perm; [|exact Rp]. rewrite flat_node. unfold kids at 2. rewrite flat_kids_app, flat_kids_cons. cbn [nxt_of]. perm. }
      rewrite <- app_assoc. cbn [app].
      destruct (IH n false l s _ fl rt ln ((p, inode kids, length L) :: stk) Oc B Sf Rp') as [IHr|IHr].
      + (* the child absorbed the entry *)
        left. destruct IHr as (s' & c' & fl' & E & R1 & O1 & C1 & Rt & Fl).
        exists s', (BNode p (L ++ (l, c') :: R)), fl'. rewrite AT. split; [exact E|]. split.
        * eapply rep_perm; [|exact R1]. rewrite flat_node, flat_kids_app, flat_kids_cons. cbn [nxt_of].
          rewrite Fl. unfold kids. rewrite (inode_replace d L l c' c R Rt). perm.
        * split; [|split; [|split]].
          -- split; [|unfold kids in *; rewrite app_length in *; cbn [length] in *; auto].
             apply (kids_splice m d n lo hi L [(l, c)] [(l, c')] R l); cbn; auto. constructor.
          -- rewrite PU. change (contents (BNode p (L ++ (l, c') :: R))) with (kcontents (L ++ (l, c') :: R)).
             rewrite kcontents_app, kcontents_cons. now rewrite C1.
          -- reflexivity.
          -- unfold kids. destruct L as [|[y b] L]; [exact Fl | reflexivity].
      + (* the child split *)
        destruct IHr as (A & s' & c1 & sk & c2 & fl' & E & R1 & O1 & O2 & C1 & Rt & Fl).
        unfold BpMapModel.frame in E |- *. rewrite E. cbn [grow iobind]. set (new := L ++ (l, c1) :: (Some sk, c2) :: R).
        assert (On : kids_ok n lo new hi).
        { apply (kids_splice m d n lo hi L [(l, c)] [(l, c1); (Some sk, c2)] R l); cbn; auto.
          constructor; [discriminate | constructor]. }
        assert (LN : length new = length kids + 1) by (unfold new, kids; rewrite !app_length; cbn [length]; lia).
        assert (CN : kcontents new = put e (contents (BNode p kids))).
        { rewrite PU. unfold new. rewrite kcontents_app, !kcontents_cons. rewrite <- C1. now rewrite <- app_assoc. }
        assert (FN : forall p', first_leaf (BNode p' new) = first_leaf (BNode p kids)).
        { intros p'. unfold new, kids. destruct L as [|[y b] L]; [exact Fl | reflexivity]. }
        assert (R1' : rep s' ((p, Internal (inode kids)) :: flat_kids new nxt ++ F) fl' rt ln).
        { eapply rep_perm; [|exact R1]. unfold new. rewrite flat_kids_app, !flat_kids_cons. cbn [nxt_of]. rewrite Fl. perm. }
        destruct (Nat.le_gt_cases (length new) (d + 1)) as [Fit|Over].
        * (* there is room *)
          left. pose proof (grow_room n lo hi L l c c1 sk c2 R On Rt Fit) as GI. fold new kids in GI.
          rewrite GI. cbn [pure iobind].
          destruct (rep_write _ _ _ (Internal (inode new)) _ _ _ _ R1') as (s2 & W & R2).
          cbn [run_io]. rewrite W. cbn [bind run_io finish iobind]. rewrite (rep_len _ _ _ _ _ R2).
          eexists _, (BNode p new), fl'. rewrite AT, A. split; [reflexivity|]. split; [|split; [|split; [|split]]].
          -- eapply rep_set_len. exact R2.
          -- split; [exact On|]. split; [lia|]. intros Q. specialize (Min Q). lia.
          -- exact CN.
          -- reflexivity.
          -- apply FN.
        * (* the node splits as well *)
          right. split; [congruence|].
          assert (Full : length new = d + 2) by lia.
          destruct (grow_full n lo hi L l c c1 sk c2 R On Rt Full) as (N1 & k' & c' & N2 & EN & L1 & L2 & GI).
          fold new kids in EN, GI. rewrite GI. cbn [pure iobind run_io].
          destruct (rep_alloc s' (Internal (inode ((Some k', c') :: N2))) _ _ _ _ R1') as (s1 & q2 & fl1 & W1 & R2).
          rewrite W1. cbn [bind run_io].
          assert (R2' : rep s1 ((p, Internal (inode kids)) :: (q2, Internal (inode ((Some k', c') :: N2))) :: flat_kids new nxt ++ F) fl1 rt ln).
          { eapply rep_perm; [|exact R2]. perm. }
          destruct (rep_write _ _ _ (Internal (inode N1)) _ _ _ _ R2') as (s2 & W2 & R3).
          rewrite W2. cbn [bind]. pose proof (half_up d) as HU. pose proof (half_le d) as [HL1 HL2].
          rewrite EN in On. assert (N1 <> []) as NE by (intros ->; cbn [length] in L1; lia).
          destruct (kids_cut n lo hi N1 (Some k') c' N2 NE On) as (K1 & K2 & _).
          exists s2, (BNode p N1), k', (BNode q2 ((Some k', c') :: N2)), fl1.
          split; [reflexivity|]. split; [|split; [|split; [|split; [|split]]]].
          -- eapply rep_perm; [|exact R3]. rewrite !flat_node. rewrite EN, flat_kids_app.
             change (nxt_of ((Some k', c') :: N2) nxt) with (Some (first_leaf c')).
             change (first_leaf (BNode q2 ((Some k', c') :: N2))) with (first_leaf c'). perm.
          -- split; [exact K1|]. split; [lia|]. intros _. lia.
          -- split; [exact K2|]. cbn [length]. split; [lia|]. intros _. lia.
          -- rewrite <- CN, EN. change (kcontents N1 ++ kcontents ((Some k', c') :: N2) = kcontents (N1 ++ (Some k', c') :: N2)).
             now rewrite kcontents_app.
          -- reflexivity.
          -- rewrite <- (FN p), EN. destruct N1 as [|[y b] N1]; [congruence | reflexivity].
  Qed.

  (** The file holds the map [l]. *)
  Definition inv (s : store) (ml : list entry) : Prop :=
    exists n t fl, ok n true None None t /\ rep s (flat t None) fl (root_of t) (length ml) /\ contents t = ml.

  Lemma inv_sorted s ml : inv s ml -> sorted ml.
  Proof. intros (n & t & fl & O & _ & <-). now apply (ok_root_seg m d n true None None t Hm). Qed.

  (** The insertion of [e] finds a leaf where it does no harm. *)
  Definition lands s e : Prop :=
    forall q es nx fr, run_io s (search_node (fst e)) = Ok (s, (q, Leaf (mk_leaf m es nx), fr)) -> safe e es.
  Lemma insert_inv s ml e : inv s ml -> lands s e ->
    exists s', run_io s (insert_prog d e) = Ok (s', hd_error (at_key (fst e) ml)) /\ inv s' (put e ml).
  Proof.
    intros I. pose proof (inv_sorted s ml I) as Srt. destruct I as (n & t & fl & O & Rp & <-). intros Sf.
    assert (Rp' : rep s (flat t None ++ []) fl (root_of t) (length (contents t))) by now rewrite app_nil_r.
    assert (Bd : in_b None None (fst e)) by (split; exact I).
    destruct (search_ok m d (fst e) n true None None t None s [] fl _ Hm ltac:(lia) O Bd Rp') as (q & es & nx & fr & X & E).
    unfold insert_prog. rewrite run_bind, E. cbn [bind].
    pose proof (insert_ok e None t None q es nx fr X n true None s [] fl _ _ [] O Bd (Sf _ _ _ _ E) Rp') as C0.
    cbn zeta in C0. rewrite app_nil_r in C0. destruct C0 as [D0|P0].
    - destruct D0 as (s' & t' & fl' & E' & R' & O' & C' & Rt & _). exists s'. split; [exact E'|].
      exists n, t', fl'. split; [exact O'|]. rewrite app_nil_r in R'. split; [|exact C']. rewrite Rt.
      destruct (at_key_cases (contents t) (fst e) Srt) as [A | (x & A & _)]; rewrite A in R'.
      + rewrite (put_length e _ Srt A). now rewrite Nat.add_1_r in R'.
      + now rewrite (put_length_at e _ x Srt A).
    - destruct P0 as (A & s' & t1 & sk & t2 & fl' & E' & R' & O1 & O2 & C' & Rt & Fl).
      rewrite A. cbn [hd_error]. rewrite E'.
      assert (G : forall (R : Type) (f : unit -> io K V R),
        iobind (grow d [] (root_of t) sk (root_of t2)) f =
        AllocNode (Internal (inode [(None, t1); (Some sk, t2)])) (fun q0 => SetRoot q0 (f tt))).
      { intros R f. unfold grow, internal_new, BpTreeProofs.inode, node_of, pad. cbn [in_keys in_ptrs tl map length].
        destruct d as [|[|[|d']]]; try lia. cbn. unfold kroot. cbn. rewrite Rt. reflexivity. }
      rewrite G. cbn [run_io]. rewrite app_nil_r in R'.
      destruct (rep_alloc s' (Internal (inode [(None, t1); (Some sk, t2)])) _ _ _ _ R') as (s1 & q2 & fl1 & W1 & R1).
      rewrite W1. cbn [bind run_io finish]. rewrite (rep_len _ _ _ _ _ (rep_set_root _ _ _ _ _ q2 R1)).
      eexists. split; [reflexivity|].
      exists (S n), (BNode q2 [(None, t1); (Some sk, t2)]), fl1. split; [|split].
      + split; [|cbn [length]; split; [lia | discriminate]]. repeat split; cbn; auto.
        constructor; [discriminate | constructor].
      + rewrite (put_length e _ Srt A), <- (Nat.add_1_r (length (contents t))). cbn [root_of]. eapply rep_set_len, rep_set_root.
        eapply rep_perm; [|exact R1]. rewrite flat_node, !flat_kids_cons. cbn [nxt_of]. perm.
      + rewrite <- C'. cbn. now rewrite app_nil_r.
  Qed.
End Insert.
