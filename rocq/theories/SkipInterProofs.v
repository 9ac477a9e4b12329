(** What the intersection of SkipMap does, for every pair of maps. *)
From Coq Require Import Permutation.
From Verif Require Export SkipInterSpec SkipSetProofs SkipCostProofs.

Section SkipInterProofs.
  Context {K V : Type} `{CmpLaws K}.
  Notation hp := (heap (K * V) (option nat)).
  Notation item := (sitem (K * V)).
  Notation links := (nat -> nat -> option nat).
  Notation amap := (list (K * V)).
  Implicit Types (h : hp) (X Y A B XL XR : list item) (x y n : item) (f g : links) (k : K) (b : builder K V) (t : nat -> nat).

  (** ** One node *)
  Lemma link_inter n X : forall c i h g t, c + i = S (S (ht n)) -> srep h (n :: X) g ->
    (forall j, i <= j -> j <= 32 -> j <= S (ht n) -> onlevel (n :: X) (t j) j) ->
    exists h' g', link_tails c i h (map t (seq 0 33)) (ad n)
        = Ok (h', map (fun j => if (i <=? j) && (j <=? S (ht n)) then ad n else t j) (seq 0 33))
      /\ srep h' (n :: X) g'
      /\ (forall a j, j <= 32 -> g' a j = if (i <=? j) && (j <=? S (ht n)) && (a =? t j) then Some (ad n) else g a j).
  Proof.
    induction c as [|c IH]; intros i h g t Ec Rp On; cbn [link_tails].
    - exists h, g. assert (F : forall j, (i <=? j) && (j <=? S (ht n)) = false).
      { intros j. destruct (Nat.leb_spec i j), (Nat.leb_spec j (S (ht n))); auto; lia. }
      split; [|split; [exact Rp|]].
      + do 2 f_equal. apply map_ext. intros j. now rewrite F.
      + intros a j _. now rewrite F.
    - destruct (Nat.le_gt_cases i 32) as [Hi|Hi].
      2:{ rewrite (proj2 (nth_error_None _ _)) by (rewrite map_length, seq_length; lia). exists h, g.
          split; [|split; [exact Rp|]].
          - do 2 f_equal. apply map_ext_in. intros j Ij. apply in_seq in Ij.
            rewrite (proj2 (Nat.leb_gt i j)) by lia. reflexivity.
          - intros a j Hj. rewrite (proj2 (Nat.leb_gt i j)) by lia. reflexivity. }
      rewrite (tails_nth t) by lia.
      destruct (set_link_ok _ _ _ _ _ (Some (ad n)) Rp (On i (le_n i) Hi ltac:(lia))) as (h1 & E1 & R1 & _).
      rewrite E1. cbn [bind]. rewrite tails_set by lia.
      destruct (IH (S i) h1 (upd g (t i) i (Some (ad n))) (fun j => if j =? i then ad n else t j)) as (h' & g' & E & R' & G').
      + lia.
      + exact R1.
      + intros j J1 J2 J3. rewrite (proj2 (Nat.eqb_neq j i)) by lia. apply On; lia.
      + exists h', g'. split; [|split; [exact R'|]].
        * rewrite E. do 2 f_equal. apply map_ext. intros j.
          destruct (Nat.eqb_spec j i) as [Ej|Nj]; destruct (Nat.leb_spec (S i) j), (Nat.leb_spec i j), (Nat.leb_spec j (S (ht n)));
            cbn [andb]; auto; lia.
        * intros a j Hj. rewrite G' by exact Hj. destruct (Nat.eqb_spec j i) as [->|Nj].
          -- rewrite (proj2 (Nat.leb_gt (S i) i)) by lia. rewrite (proj2 (Nat.leb_le i i)), (proj2 (Nat.leb_le i (S (ht n)))) by lia.
             cbn [andb]. destruct (Nat.eqb_spec a (t i)) as [->|Na]; [apply upd_same|]. apply upd_other. auto.
          -- destruct (Nat.leb_spec (S i) j), (Nat.leb_spec i j), (Nat.leb_spec j (S (ht n))); cbn [andb]; try lia;
               try (apply upd_other; auto). destruct (a =? t j); auto. apply upd_other. auto.
  Qed.

  Lemma link_beyond h X g y i : srep h X g -> In y X -> ht y < i ->
    (forall l, set_link h (ad y) i l = Panic) /\ get_link h (ad y) i = Panic.
  Proof.
    intros Rp Iy Hi. pose proof (sr_node _ _ _ Rp _ Iy) as E. split.
    - intros l. unfold set_link, read. rewrite E. cbn [bind sn_links]. rewrite nlinks_length.
      now rewrite (proj2 (Nat.ltb_ge i (S (ht y)))) by lia.
    - unfold get_link, read. rewrite E. cbn [bind sn_links].
      rewrite (proj2 (nth_error_None _ _)) by (rewrite nlinks_length; lia). reflexivity.
  Qed.

  Lemma link_inter_bad n X y : In y X -> ht y <= ht n -> ht y < 32 ->
    forall c i h g t, c + i = S (S (ht n)) -> i <= S (ht y) -> srep h (n :: X) g ->
    (forall j, i <= j <= S (ht y) -> t j = ad y) -> link_tails c i h (map t (seq 0 33)) (ad n) = Panic.
  Proof.
    intros Iy Hy Hy'. induction c as [|c IH]; intros i h g t Ec Hi Rp Tl; [lia|]. cbn [link_tails].
    rewrite (tails_nth t) by lia. rewrite (Tl i) by lia. destruct (Nat.eq_dec i (S (ht y))) as [->|Ni].
    - rewrite (proj1 (link_beyond _ _ _ y (S (ht y)) Rp (or_intror Iy) (le_n _))). reflexivity.
    - assert (O : onlevel (n :: X) (ad y) i) by (right; exists y; repeat split; [now right|lia]).
      destruct (set_link_ok _ _ _ _ _ (Some (ad n)) Rp O) as (h1 & E1 & R1 & _). rewrite E1. cbn [bind].
      rewrite tails_set by lia. eapply IH; [lia|lia|exact R1|]. intros j Hj. cbn beta.
      rewrite (proj2 (Nat.eqb_neq j i)) by lia. apply Tl. lia.
  Qed.

  (** ** The result under construction: the head's links, and the tails up to one level above the last node *)
  Definition iok b X g : Prop :=
    srep (b_heap b) X g /\ seg g 0 0 X None /\ b_len b = length X /\
    (forall j, j <= 32 -> g 0 j = match X with [] => None | x :: _ => if j <=? S (ht x) then Some (ad x) else None end) /\
    exists t, b_tails b = map t (seq 0 33) /\
      forall j, j <= 32 -> match last_error X with None => t j = 0 | Some y => j <= S (ht y) -> t j = ad y end.

  Lemma iok_new : iok builder_new [] (fun _ _ => None).
  Proof.
    destruct (bok_new (K := K) (V := V)) as ([Rp Sg] & T & L). split; [exact Rp|]. split; [apply (Sg 0); lia|]. split; [exact L|]. split; [auto|].
    exists (fun _ => 0). split; [exact T|]. intros j _. reflexivity.
  Qed.

  Lemma last_at_0 X : forall a, last_at 0 a X = match last_error X with None => a | Some y => ad y end.
  Proof.
    induction X as [|x X IH]; intros a; [reflexivity|]. cbn [last_at Nat.leb]. rewrite IH. destruct X as [|y X]; [reflexivity|].
    change (last_error (x :: y :: X)) with (last_error (y :: X)).
    destruct (last_error (y :: X)) eqn:E; auto. apply last_error_none in E. discriminate.
  Qed.
  Lemma last_in X y : last_error X = Some y -> In y X.
  Proof.
    induction X as [|x X IH]; [discriminate|]. destruct X as [|z X]; [intros [= ->]; now left|].
    intros E. right. apply IH. exact E.
  Qed.

  (** May a node of height [hgt] follow a node of height [o]? *)
  Definition may_follow (o : option nat) (hgt : nat) : bool := match o with None => true | Some p => (hgt <? p) || (p =? 32) end.

  Lemma inter_append b X g e hgt : iok b X g -> hgt <= 32 ->
    if may_follow (option_map ht (last_error X)) hgt
    then exists b' g' n, append b e (S hgt) 1 = Ok b' /\ iok b' (X ++ [n]) g' /\ dt n = e /\ ht n = hgt
    else append b e (S hgt) 1 = Panic.
  Proof.
    intros (Rp & Sg & Ln & Hd & t & Et & Tl) Hh. unfold append.
    pose proof (alloc_ok (b_heap b) X g e hgt None Rp Hh) as Al.
    destruct (alloc (b_heap b) (Some e) (S hgt) None) as [h1 a] eqn:Ea. destruct Al as (R1 & _ & Fr).
    set (n := It a hgt e) in *. set (g1 := fun u j => if u =? a then None else g u j) in *.
    replace (S hgt + 1) with (S (S (ht n))) by (cbn [ht n]; lia). rewrite Et. change a with (ad n).
    destruct (may_follow _ _) eqn:MF.
    - assert (On : forall j, 0 <= j -> j <= 32 -> j <= S (ht n) -> onlevel (n :: X) (t j) j).
      { intros j _ J1 J2. specialize (Tl j J1). destruct (last_error X) as [y|] eqn:El.
        - assert (Iy : In y X).
          { destruct X as [|x0 X0]; [discriminate|]. now apply last_error_in in El as [->|El]; [left|right]. }
          cbn [option_map may_follow] in MF. apply Bool.orb_true_iff in MF.
          assert (J3 : j <= ht y). { destruct MF as [M|M]; [apply Nat.ltb_lt in M; cbn [ht n] in J2; lia|apply Nat.eqb_eq in M; lia]. }
          rewrite Tl by lia. right. exists y. repeat split; [now right|exact J3].
        - rewrite Tl. now left. }
      destruct (link_inter n X (S (S (ht n))) 0 h1 g1 t ltac:(lia) R1 On) as (h2 & g2 & E2 & R2 & G2).
      rewrite E2. cbn [bind]. eexists _, g2, n. split; [reflexivity|]. split; [|split; reflexivity].
      cbn [Nat.leb andb] in *.
      assert (T0 : t 0 = last_at 0 0 X).
      { rewrite last_at_0. specialize (Tl 0 ltac:(lia)). destruct (last_error X); auto. apply Tl. lia. }
      assert (Nd : NoDup (0 :: map ad (X ++ [n]))).
      { eapply Permutation_NoDup; [|apply (sr_nodup _ _ _ R2)]. apply perm_skip, Permutation_map. apply (Permutation_app_comm [n]). }
      assert (Nn : ad n <> last_at 0 0 X) by (apply (disj_last 0 X [n] Nd); now left).
      assert (An : a <> 0) by (intros ->; apply Fr; now left).
      split; [|split; [|split; [|split]]]; cbn [b_heap b_tails b_len].
      + eapply srep_equiv; [|exact R2]. apply (Permutation_app_comm [n]).
      + eapply (seg_splice g) with (R := []); [now apply nodup_head in Nd| |rewrite app_nil_r; exact Sg|].
        * intros u Nu Iu. rewrite G2 by lia. rewrite T0, (proj2 (Nat.eqb_neq u _) Nu), Bool.andb_false_r. unfold g1.
          rewrite (proj2 (Nat.eqb_neq u a)); auto. intros ->. apply Fr. destruct Iu as [->|Iu]; [now left|now right].
        * cbn [seg Nat.leb]. rewrite !G2 by lia. rewrite T0, Nat.eqb_refl. cbn [Nat.leb andb]. split; [reflexivity|].
          rewrite (proj2 (Nat.eqb_neq (ad n) _) Nn). unfold g1. cbn [ad n]. now rewrite Nat.eqb_refl.
      + rewrite app_length, Ln. simpl. lia.
      + intros j Hj. rewrite G2 by exact Hj. specialize (Tl j Hj). specialize (Hd j Hj). unfold g1.
        rewrite (proj2 (Nat.eqb_neq 0 a)) by auto. destruct X as [|x X'].
        * cbn [last_error app] in *. rewrite Tl, Nat.eqb_refl, Bool.andb_true_r, Hd. reflexivity.
        * cbn [app]. rewrite Hd. replace (0 =? t j) with (0 =? t j) by reflexivity.
          destruct (Nat.leb_spec j (S (ht n))) as [Hjn|Hjn]; cbn [andb]; [|reflexivity].
          assert (Nz : t j <> 0).
          { destruct (On j ltac:(lia) Hj Hjn) as [[Z _]|(y & Iy & Ey & _)].
            - exfalso. destruct (last_error (x :: X')) as [y|] eqn:El; [|apply last_error_none in El; discriminate].
              cbn [option_map may_follow] in MF. apply Bool.orb_true_iff in MF.
              assert (J3 : j <= S (ht y)). { destruct MF as [M|M]; [apply Nat.ltb_lt in M; cbn [ht n] in Hjn; lia|apply Nat.eqb_eq in M; lia]. }
              specialize (Tl J3). rewrite Tl in Z. pose proof (in_map ad _ _ (last_in _ _ El)) as Iy.
              pose proof (sr_nodup _ _ _ Rp) as N0. inversion N0 as [|? ? N1 _]. apply N1. now rewrite <- Z.
            - intros Z. rewrite Z in Ey. pose proof (sr_nodup _ _ _ R2) as N0. inversion N0 as [|? ? N1 _]. apply N1. rewrite <- Ey.
              exact (in_map ad _ _ Iy). }
          rewrite (proj2 (Nat.eqb_neq 0 (t j))) by auto. reflexivity.
      + exists (fun j => if j <=? S (ht n) then ad n else t j). split; [reflexivity|]. intros j Hj.
        rewrite last_error_app. cbn [last_error]. intros J. now rewrite (proj2 (Nat.leb_le j (S (ht n))) J).
    - destruct (last_error X) as [y|] eqn:El; [|discriminate]. cbn [option_map may_follow] in MF.
      apply Bool.orb_false_iff in MF as [M1 M2]. apply Nat.ltb_ge in M1. apply Nat.eqb_neq in M2.
      pose proof (last_in _ _ El) as Iy.
      pose proof (sr_ht _ _ _ Rp y Iy) as Hy.
      rewrite (link_inter_bad n X y Iy M1 ltac:(lia) (S (S (ht n))) 0 h1 g1 t ltac:(lia) ltac:(lia) R1); [reflexivity|].
      intros j Hj. apply (Tl j); lia.
  Qed.

  (** ** The loop *)
  Definition common XL XR : list item := filter (fun x => has_key (key x) (map dt XR)) XL.
  Fixpoint follow (o : option nat) (hs : list nat) : bool :=
    match hs with [] => true | a :: r => may_follow o a && follow (Some a) r end.
  Lemma height_size d : height_of d = 32 - N.to_nat (N.size (d mod 2 ^ 32)) /\ (N.size (d mod 2 ^ 32) <= 32)%N.
  Proof.
    split; [reflexivity|]. assert (L : (d mod 2 ^ 32 < 2 ^ 32)%N) by (apply N.mod_lt; discriminate).
    destruct (N.eq_dec (d mod 2 ^ 32) 0) as [-> | N0]; [discriminate|]. rewrite N.size_log2 by exact N0.
    apply N.le_succ_l. apply N.log2_lt_pow2; [now apply N.neq_0_lt_0|exact L].
  Qed.
  Lemma height_follow a c : may_follow (Some (height_of a)) (height_of c)
    = ((N.size (a mod 2 ^ 32) <? N.size (c mod 2 ^ 32))%N || (a mod 2 ^ 32 =? 0)%N).
  Proof.
    destruct (height_size a) as [-> A2]. destruct (height_size c) as [-> C2]. unfold may_follow.
    assert (Zr : forall n : N, (n =? 0)%N = (N.size n =? 0)%N) by (intros [|[]]; reflexivity). rewrite Zr.
    revert A2 C2. generalize (N.size (a mod 2 ^ 32)), (N.size (c mod 2 ^ 32)). intros u w U W.
    destruct (N.ltb_spec u w), (N.eqb_spec u 0), (Nat.ltb_spec (32 - N.to_nat w) (32 - N.to_nat u)),
      (Nat.eqb_spec (32 - N.to_nat u) 32); cbn [orb]; auto; lia.
  Qed.
  Lemma follow_growing ds : follow None (map height_of ds) = growing (map (fun d => d mod 2 ^ 32)%N ds).
  Proof.
    destruct ds as [|a ds]; [reflexivity|]. cbn [map follow]. change (may_follow None (height_of a)) with true. cbn [andb]. revert a.
    induction ds as [|c ds IH]; intros a; [reflexivity|]. cbn [map follow]. rewrite height_follow, IH. reflexivity.
  Qed.

  Definition inter_done (r : res (hp * hp * builder K V)) X XL XR : Prop :=
    if follow (option_map ht (last_error X)) (map ht (common XL XR))
    then exists hl gl hr gr b g Y, r = Ok (hl, hr, b) /\ srep hl [] gl /\ gl 0 0 = None /\ srep hr [] gr /\ gr 0 0 = None
      /\ iok b (X ++ Y) g /\ map dt Y = map dt (common XL XR) /\ map ht Y = map ht (common XL XR)
    else r = Panic.

  Lemma has_key_none k (l : amap) : (forall e, In e l -> cmp (fst e) k <> Eq) -> has_key k l = false.
  Proof.
    intros N. unfold has_key. destruct (at_key k l) as [|e r] eqn:E; [reflexivity|]. exfalso.
    assert (I : In e (at_key k l)) by (rewrite E; now left). apply in_at in I as [I C0]. exact (N e I C0).
  Qed.
  Lemma has_key_drop k e (l : amap) : cmp (fst e) k <> Eq -> has_key k (e :: l) = has_key k l.
  Proof. intros N. unfold has_key. rewrite at_cons. destruct (cmp (fst e) k); auto; contradiction. Qed.

  Lemma common_lt x XL y XR : sorted (map dt (y :: XR)) -> cmp (key x) (key y) = Lt -> common (x :: XL) (y :: XR) = common XL (y :: XR).
  Proof.
    intros S0 C0. unfold common. cbn [filter]. rewrite has_key_none; [reflexivity|].
    intros e I E. pose proof (sorted_lt_gt (dt x) (dt y) (map dt XR) S0 C0) as G. unfold all_gt in G. rewrite Forall_forall in G.
    specialize (G e I). cbn beta in G. unfold key in E. assert (X0 : cmp (fst (dt x)) (fst e) = Eq) by (now apply cmp_eq_sym).
    rewrite X0 in G. discriminate.
  Qed.
  Lemma common_gt XL y XR : (forall x, In x XL -> cmp (key y) (key x) <> Eq) -> common XL (y :: XR) = common XL XR.
  Proof.
    intros N. unfold common. apply filter_ext_in. intros x I. cbn [map]. apply has_key_drop. exact (N x I).
  Qed.
  Lemma common_eq x XL y XR : sorted (map dt (x :: XL)) -> cmp (key x) (key y) = Eq -> common (x :: XL) (y :: XR) = x :: common XL XR.
  Proof.
    intros S0 C0. unfold common at 1. cbn [filter].
    assert (E : has_key (key x) (map dt (y :: XR)) = true).
    { unfold has_key. cbn [map]. rewrite at_cons. fold (key y). now rewrite (cmp_eq_sym _ _ C0). }
    rewrite E. f_equal. apply common_gt. intros z I E'. cbn [map] in S0. apply sorted_cons in S0 as [G _].
    unfold all_gt in G. rewrite Forall_forall in G. specialize (G (dt z) (in_map dt _ _ I)). unfold key in *. cbn beta in G. korder.
  Qed.

  Lemma inter_loop_exact fuel : forall hl pl XL gl hr pr XR gr b X g,
    srcok hl pl XL gl -> srcok hr pr XR gr -> iok b X g -> sorted (map dt XL) -> sorted (map dt XR) ->
    length XL + length XR < fuel -> inter_done (inter_loop fuel hl pl hr pr b) X XL XR.
  Proof.
    induction fuel as [|fuel IH]; intros hl pl XL gl hr pr XR gr b X g SL SR B OL OR Hf; [lia|].
    destruct XL as [|x XL], XR as [|y XR].
    - pose proof (src_nil _ _ _ SL) as ->. pose proof (src_nil _ _ _ SR) as ->. cbn [inter_loop].
      unfold inter_done. cbn [common filter map follow]. destruct SL as (R1 & _ & _ & Z1), SR as (R2 & _ & _ & Z2).
      exists hl, gl, hr, gr, b, g, []. rewrite app_nil_r. auto 10.
    - pose proof (src_nil _ _ _ SL) as ->. pose proof (src_data _ _ _ _ _ SR) as [_ ->]. cbn [inter_loop].
      destruct (take_ok _ _ _ _ _ SR) as (_ & _ & h' & p' & _ & T & S'). rewrite T. cbn [bind].
      unfold inter_done. rewrite (common_gt [] y XR) by (intros ? []). eapply (IH _ _ [] gl); eauto; [eapply sorted_tl; exact OR|simpl in *; lia].
    - pose proof (src_nil _ _ _ SR) as ->. pose proof (src_data _ _ _ _ _ SL) as [_ ->]. cbn [inter_loop].
      destruct (take_ok _ _ _ _ _ SL) as (_ & _ & h' & p' & _ & T & S'). rewrite T. cbn [bind].
      change (inter_done (inter_loop fuel h' p' hr None b) X XL []).
      eapply (IH _ _ XL gl _ _ [] gr); eauto; [eapply sorted_tl; exact OL|simpl in *; lia].
    - pose proof (src_data _ _ _ _ _ SR) as [Dy Ey]. pose proof (src_data _ _ _ _ _ SL) as [Dx Ex].
      cbn [inter_loop]. rewrite Ex, Ey, Dx, Dy. cbn [bind]. fold (key x) (key y). rewrite <- Ex, <- Ey.
      cbn [map] in OL, OR. pose proof (sorted_tl _ _ OL) as OL'. pose proof (sorted_tl _ _ OR) as OR'.
      destruct (take_ok _ _ _ _ _ SL) as (_ & _ & h1 & p1 & T1 & D1 & S1).
      destruct (take_ok _ _ _ _ _ SR) as (_ & _ & h2 & p2 & _ & D2 & S2).
      destruct (cmp (key x) (key y)) eqn:Cm.
      + rewrite T1. cbn [bind]. rewrite D2. cbn [bind].
        pose proof (inter_append b X g (dt x) (ht x) B (src_ht _ _ _ _ _ SL)) as Ap.
        unfold inter_done. rewrite common_eq by auto. cbn [map follow].
        destruct (may_follow (option_map ht (last_error X)) (ht x)) eqn:MF; cbn [andb].
        * destruct Ap as (b' & g' & n & Ea & B' & En & Hn). rewrite Ea. cbn [bind].
          pose proof (IH _ _ XL gl _ _ XR gr b' (X ++ [n]) g' S1 S2 B' OL' OR' ltac:(simpl in *; lia)) as Q.
          unfold inter_done in Q. rewrite last_error_app in Q. cbn [last_error option_map] in Q. rewrite Hn in Q.
          destruct (follow _ _); [|exact Q]. destruct Q as (a1 & a2 & a3 & a4 & a5 & a6 & Y & Q1 & Q2 & Q3 & Q4 & Q5 & Q6 & Q7 & Q8).
          exists a1, a2, a3, a4, a5, a6, (n :: Y). rewrite <- app_assoc in Q6. cbn [map app] in *. rewrite Q7, Q8, En, Hn. auto 10.
        * rewrite Ap. reflexivity.
      + rewrite D1. cbn [bind]. unfold inter_done. rewrite common_lt by auto. eapply IH; eauto. simpl in *. lia.
      + rewrite D2. cbn [bind]. unfold inter_done. rewrite common_gt; [eapply IH; eauto; simpl in *; lia|].
        intros z I E. apply cmp_gt_lt in Cm. pose proof (sorted_lt_gt (dt y) (dt x) (map dt XL) OL Cm) as G.
        unfold all_gt in G. rewrite Forall_forall in G. specialize (G (dt z) (in_map dt (x :: XL) z I)). cbn beta in G.
        unfold key in E. rewrite E in G. discriminate.
  Qed.

  (** ** The heights behind the nodes of a reachable map *)
  Lemma run_at ops : forall m X, sk_at m X -> exists m' outs X', run skip_step m ops = Ok (m', outs) /\ sk_at m' X'
    /\ tags X' = fold_left (fun l op => put_step (height_of (snd op)) l (fst op)) ops (tags X).
  Proof.
    induction ops as [|[o d] ops IH]; intros m X A.
    - exists m, [], X. auto.
    - destruct (skip_step_c_ok m X o d A) as (m1 & X1 & c & E1 & A1 & _ & T1 & _).
      pose proof (skip_step_c_fst m (o, d)) as Er. rewrite E1 in Er. unfold rmap in Er. cbn [bind fst snd] in Er.
      destruct (IH m1 X1 A1) as (m2 & outs & X2 & E2 & A2 & T2). cbn [run]. rewrite <- Er. cbn [bind]. rewrite E2. cbn [bind].
      eexists _, _, X2. split; [reflexivity|]. split; [exact A2|]. rewrite T2, T1. reflexivity.
  Qed.
  Lemma draw_step_put (l : list (K * N)) (o : map_op K V) d : fst (map_spec_step l (draw_op (o, d))) = put_step d l o.
  Proof. destruct o; reflexivity. Qed.
  Lemma draws_fold (ops : list (map_op K V * N)) : forall l : list (K * N),
    fst (spec_run map_spec_step l (map draw_op ops)) = fold_left (fun l op => put_step (snd op) l (fst op)) ops l.
  Proof.
    induction ops as [|[o d] ops IH]; intros l; [reflexivity|]. cbn [map spec_run fold_left fst snd].
    pose proof (draw_step_put l o d) as E. destruct (map_spec_step l (draw_op (o, d))) as [l1 r]. cbn [fst] in E. subst l1.
    rewrite <- IH. now destruct (spec_run map_spec_step (put_step d l o) (map draw_op ops)).
  Qed.
  Lemma heights_fold (ops : list (map_op K V * N)) : forall l : list (K * N),
    fold_left (fun l op => put_step (height_of (snd op)) l (fst op)) ops (map (on2 height_of) l)
      = map (on2 height_of) (fold_left (fun l op => put_step (snd op) l (fst op)) ops l).
  Proof. induction ops as [|[o d] ops IH]; intros l; [reflexivity|]. cbn [fold_left fst snd]. rewrite <- IH, put_on2. reflexivity. Qed.
  Lemma run_tags (ops : list (map_op K V * N)) m outs : run skip_step skip_new ops = Ok (m, outs) ->
    exists X, sk_at m X /\ tags X = map (on2 height_of) (last_draws ops).
  Proof.
    intros E. destruct (run_at ops skip_new [] skip_at_new) as (m' & outs' & X & E' & A & T). rewrite E in E'. injection E' as <- <-.
    exists X. split; [exact A|]. rewrite T. unfold last_draws. rewrite draws_fold. exact (heights_fold ops []).
  Qed.

  Lemma filter_map_comm {T U : Type} (p : U -> bool) (f : T -> U) (l : list T) : filter p (map f l) = map f (filter (fun a => p (f a)) l).
  Proof. induction l as [|x l IH]; [reflexivity|]. cbn [map filter]. rewrite IH. now destruct (p (f x)). Qed.
  Lemma common_heights X (ds : list (K * N)) XR : tags X = map (on2 height_of) ds ->
    map ht (common X XR) = map height_of (map snd (filter (fun p => has_key (fst p) (map dt XR)) ds)).
  Proof.
    intros T. transitivity (map snd (filter (fun p => has_key (fst p) (map dt XR)) (tags X))).
    - unfold tags, common. rewrite filter_map_comm, map_map. reflexivity.
    - rewrite T, filter_map_comm, !map_map. reflexivity.
  Qed.
  Lemma common_data X XR : map dt (common X XR) = spec_inter (map dt X) (map dt XR).
  Proof. unfold spec_inter, common. rewrite filter_map_comm. reflexivity. Qed.

  (** ** What one can do with the result *)
  Definition inter_at (m : skip_map K V) X g : Prop := exists tl, iok (Builder (sk_heap m) tl (sk_len m)) X g.

  Lemma inter_iter m X g : inter_at m X g -> skip_iter m = Ok (map dt X).
  Proof.
    intros (tl & Rp & Sg & _). cbn [b_heap] in Rp. unfold skip_iter. rewrite (get_link_ok _ _ _ 0 0 Rp) by (left; split; [reflexivity|lia]).
    cbn [bind]. rewrite (seg_first _ _ _ _ _ Sg), first_or_0. pose proof (srep_length _ _ _ Rp).
    apply (iter_from_ok _ X g X Rp 0); [apply incl_refl|lia|exact Sg].
  Qed.
  Lemma inter_drop m X g : inter_at m X g -> exists h', skip_drop m = Ok (h', map dt X) /\ live_nodes h' = 0.
  Proof.
    intros (tl & Rp & Sg & _). cbn [b_heap] in Rp. unfold skip_drop. rewrite (get_link_ok _ _ _ 0 0 Rp) by (left; split; [reflexivity|lia]).
    cbn [bind]. rewrite (seg_first _ _ _ _ _ Sg), first_or_0. pose proof (srep_length _ _ _ Rp) as Hl.
    destruct (dealloc_head _ _ _ Rp) as (E1 & N1 & A1). rewrite E1. cbn [bind]. rewrite list_set_length.
    destruct (free_from_ok X _ g (length (sk_heap m)) N1 (seg_chain _ _ _ Sg) ltac:(lia)) as (h1 & E2 & F).
    rewrite E2. eexists. split; [reflexivity|]. eapply freed_all; eauto.
  Qed.

  Lemma skip_inter_at m X m' X' : sk_at m X -> sk_at m' X' ->
    if follow None (map ht (common X X'))
    then exists hl hr m2 Y g, skip_set_op SInter m m' = Ok (hl, hr, m2) /\ inter_at m2 Y g /\ map dt Y = spec_inter (map dt X) (map dt X')
      /\ map ht Y = map ht (common X X') /\ live_nodes hl = 0 /\ live_nodes hr = 0
    else skip_set_op SInter m m' = Panic.
  Proof.
    intros A A'.
    assert (Src : forall m X, sk_at m X -> exists g h, get_link (sk_heap m) 0 0 = Ok (option_map ad (hd_error X)) /\
      zero_links (sk_heap m) 0 None = Ok h /\ srcok h (option_map ad (hd_error X)) X g /\ length X < length h /\ sorted (map dt X)).
    { clear. intros m X (g & HO & Sl & Ln). pose proof (first_link _ _ _ HO) as FL. destruct HO as [Rp Sg].
      destruct (zero_links_ok _ _ _ None Rp) as (h & E & R1 & L1).
      exists (fun z j => if z =? 0 then None else g z j), h. repeat (split; [now auto|]). split; [|split].
      - split; [exact R1|]. split; [|auto]. apply (chain_zeroed (sk_heap m)); auto. apply (seg_chain _ _ 0), Sg. lia.
      - rewrite L1. eapply srep_length; eauto.
      - exact Sl. }
    destruct (Src _ _ A) as (g & h & E1 & E2 & S1 & L1 & Sl). destruct (Src _ _ A') as (g' & h' & E1' & E2' & S1' & L1' & Sl').
    unfold skip_set_op. rewrite E1. cbn [bind]. rewrite E1'. cbn [bind]. rewrite E2. cbn [bind]. rewrite E2'. cbn [bind].
    pose proof (inter_loop_exact (S (length h + length h')) h _ X g h' _ X' g' builder_new [] _ S1 S1' iok_new Sl Sl' ltac:(lia)) as D.
    unfold inter_done in D. cbn [last_error option_map] in D. destruct (follow None _); [|rewrite D; reflexivity].
    destruct D as (hl & gl & hr & gr & b & gb & Y & E & Rl & Zl & Rr & Zr & B & D1 & D2). rewrite E. cbn [bind].
    destruct (drop_empty hl gl (sk_len m) Rl Zl) as (hl' & -> & Ll). cbn [bind].
    destruct (drop_empty hr gr (sk_len m') Rr Zr) as (hr' & -> & Lr). cbn [bind].
    eexists _, _, _, Y, gb. split; [reflexivity|]. split; [|rewrite D1, common_data; auto].
    exists (b_tails b). cbn [sk_heap sk_len]. cbn [app] in B. destruct b. exact B.
  Qed.

  Theorem skip_inter_exact (ops1 ops2 : list (map_op K V * N)) m1 m2 o1 o2 :
    run skip_step skip_new ops1 = Ok (m1, o1) -> run skip_step skip_new ops2 = Ok (m2, o2) ->
    exists l1 l2, skip_iter m1 = Ok l1 /\ skip_iter m2 = Ok l2 /\
      if growing (common_draws ops1 l2)
      then exists hl hr m hd, skip_set_op SInter m1 m2 = Ok (hl, hr, m) /\ skip_iter m = Ok (spec_inter l1 l2)
             /\ live_nodes hl = 0 /\ live_nodes hr = 0 /\ live_nodes (sk_heap m) = S (length (spec_inter l1 l2))
             /\ sk_len m = length (spec_inter l1 l2) /\ skip_drop m = Ok (hd, spec_inter l1 l2) /\ live_nodes hd = 0
      else skip_set_op SInter m1 m2 = Panic.
  Proof.
    intros E1 E2. destruct (run_tags _ _ _ E1) as (X1 & A1 & T1). destruct (run_tags _ _ _ E2) as (X2 & A2 & _).
    exists (map dt X1), (map dt X2). split; [exact (skip_iter_ok _ _ (sk_at_rel _ _ A1))|].
    split; [exact (skip_iter_ok _ _ (sk_at_rel _ _ A2))|].
    pose proof (skip_inter_at _ _ _ _ A1 A2) as D. rewrite (common_heights _ _ X2 T1), follow_growing, map_map in D.
    unfold common_draws. destruct (growing _); [|exact D].
    destruct D as (hl & hr & m & Y & g & E & A & Dd & _ & L1 & L2). destruct (inter_drop _ _ _ A) as (hd & Ed & Ld).
    exists hl, hr, m, hd. rewrite <- Dd. split; [exact E|]. split; [exact (inter_iter _ _ _ A)|]. split; [exact L1|]. split; [exact L2|].
    destruct A as (tl & Rp & _ & Ln & _). cbn [b_heap b_len] in *. rewrite map_length. rewrite (srep_live _ _ _ Rp). auto.
  Qed.

  (** ** A result whose first node is lower than 32 levels takes no key from there on *)
  Section Poisoned.
    Variables (x : item) (X : list item) (k : K).
    Hypothesis Low : ht x < 32.
    Hypothesis From : cmp (key x) k <> Gt.

    Definition trap h Y g i : Prop := srep h Y g /\ In x Y /\ g 0 (S (ht x)) = Some (ad x) /\
      forall j, S (ht x) < j -> j <= i -> g 0 j = None.
    Lemma walk_trap h Y g : trap h Y g (S (ht x)) ->
      (exists c, cmp (key x) k = Eq /\ walk_all h 0 (S (ht x)) (fun u => is_lt (cmp u k)) = Ok (c, Some (ad x)))
      \/ walk_all h 0 (S (ht x)) (fun u => is_lt (cmp u k)) = Panic.
    Proof.
      intros (Rp & Ix & G & _). unfold walk_all. pose proof (srep_length _ _ _ Rp) as Lh. cbn [walk].
      rewrite (get_link_ok _ _ _ 0 (S (ht x)) Rp) by (left; split; [reflexivity|lia]). rewrite G. cbn [bind].
      rewrite (get_data_ok _ _ _ x Rp Ix). cbn [bind]. fold (key x). destruct (cmp (key x) k) eqn:Cm; [|right|contradiction].
      - left. exists 0. auto.
      - cbn [is_lt]. destruct (length h) as [|n]; [lia|]. cbn [walk].
        now rewrite (proj2 (link_beyond _ _ _ x (S (ht x)) Rp Ix (le_n _))).
    Qed.
    Lemma walk_empty h Y g i : srep h Y g -> i <= 32 -> g 0 i = None -> walk_all h 0 i (fun u => is_lt (cmp u k)) = Ok (0, None).
    Proof.
      intros Rp Hi G. unfold walk_all. cbn [walk]. rewrite (get_link_ok _ _ _ 0 i Rp) by (left; auto). now rewrite G.
    Qed.
    Lemma unlink_trap h Y g : trap h Y g (S (ht x)) -> forall c, cmp (key x) k = Eq -> unlink h c (S (ht x)) (Some (ad x)) k = Panic.
    Proof.
      intros (Rp & Ix & _) c Cm. unfold unlink. rewrite (get_data_ok _ _ _ x Rp Ix). cbn [bind]. fold (key x). rewrite Cm. cbn [is_eq].
      now rewrite (proj2 (link_beyond _ _ _ x (S (ht x)) Rp Ix (le_n _))).
    Qed.

    Lemma remove_trap h Y g : forall i, S (ht x) <= i -> i <= 32 -> trap h Y g i -> remove_loop i h 0 k = Panic.
    Proof.
      induction i as [|i IH]; intros Hi Hj T; [lia|]. cbn [remove_loop]. destruct (Nat.eq_dec (S i) (S (ht x))) as [E|N0].
      - rewrite E in *. destruct (walk_trap h Y g T) as [(c & Cm & W) | W]; rewrite W; cbn [bind]; [|reflexivity].
        now rewrite (unlink_trap h Y g T c Cm).
      - pose proof T as (Rp & Ix & G & Hd). rewrite (walk_empty h Y g (S i) Rp Hj) by (apply Hd; lia). cbn [bind unlink].
        apply IH; [lia|lia|]. repeat (split; [assumption|]). intros j J1 J2. apply Hd; lia.
    Qed.
    Lemma insert_trap n Y nh : In n Y -> ht n = nh -> ad n <> 0 -> forall i h g, S (ht x) <= i -> i <= 32 -> trap h Y g i ->
      insert_loop i h 0 (ad n) nh k = Panic.
    Proof.
      intros In0 Hn Nz. induction i as [|i IH]; intros h g Hi Hj T; [lia|]. cbn [insert_loop]. destruct (Nat.eq_dec (S i) (S (ht x))) as [E|N0].
      - rewrite E in *. destruct (walk_trap h Y g T) as [(c & Cm & W) | W]; rewrite W; cbn [bind]; [|reflexivity].
        now rewrite (unlink_trap h Y g T c Cm).
      - pose proof T as (Rp & Ix & G & Hd). rewrite (walk_empty h Y g (S i) Rp Hj) by (apply Hd; lia). cbn [bind unlink].
        destruct (Nat.leb_spec (S i) nh) as [L|L]; cbn [bind].
        + assert (O : onlevel Y 0 (S i)) by (left; auto).
          assert (On : onlevel Y (ad n) (S i)) by (right; exists n; repeat split; auto; lia).
          rewrite (get_link_ok _ _ _ 0 (S i) Rp O). cbn [bind].
          destruct (set_link_ok _ _ _ _ _ (Some (ad n)) Rp O) as (h1 & E1 & R1 & _). rewrite E1. cbn [bind].
          destruct (set_link_ok _ _ _ _ _ (g 0 (S i)) R1 On) as (h2 & E2 & R2 & _). rewrite E2. cbn [bind].
          eapply IH; [lia|lia|]. split; [exact R2|]. split; [exact Ix|]. split.
          * rewrite upd_other, upd_other by lia. exact G.
          * intros j J1 J2. rewrite upd_other, upd_other by lia. apply Hd; lia.
        + eapply IH; [lia|lia|]. repeat (split; [eassumption|]). intros j J1 J2. apply Hd; lia.
    Qed.
    Lemma step_trap m g : inter_at m (x :: X) g -> forall v d,
      skip_step m (MInsert k v, d) = Panic /\ skip_step m (MRemove k, d) = Panic.
    Proof.
      intros (tl & Rp & _ & _ & Hd & _) v d. cbn [b_heap] in Rp.
      assert (T : trap (sk_heap m) (x :: X) g 32).
      { split; [exact Rp|]. split; [now left|]. split.
        - rewrite Hd by lia. now rewrite Nat.leb_refl.
        - intros j J1 J2. rewrite Hd by exact J2. now rewrite (proj2 (Nat.leb_gt j (S (ht x))) J1). }
      split; cbn [skip_step].
      - unfold skip_insert. assert (Hh : height_of d <= 32) by (destruct (height_size d) as [-> _]; lia).
        pose proof (alloc_ok (sk_heap m) (x :: X) g (k, v) (height_of d) None Rp Hh) as Al.
        destruct (alloc (sk_heap m) (Some (k, v)) (S (height_of d)) None) as [h1 a]. destruct Al as (R1 & _ & Fr).
        change max_height with 32. change a with (ad (It a (height_of d) (k, v))).
        assert (Na : a <> 0) by (intros ->; apply Fr; now left).
        erewrite (insert_trap _ (It a (height_of d) (k, v) :: x :: X)); [reflexivity|now left|reflexivity|exact Na|lia|lia|].
        split; [exact R1|]. split; [right; now left|]. destruct T as (_ & _ & T1 & T2). cbn beta.
        rewrite (proj2 (Nat.eqb_neq 0 a)) by auto. split; [exact T1|]. intros j J1 J2. now apply T2.
      - unfold skip_remove. change max_height with 32. now rewrite (remove_trap (sk_heap m) (x :: X) g 32 ltac:(lia) ltac:(lia) T).
    Qed.
  End Poisoned.

  Theorem skip_inter_then (ops1 ops2 : list (map_op K V * N)) m1 m2 o1 o2 l1 l2 hl hr m k0 v0 r d0 ds :
    run skip_step skip_new ops1 = Ok (m1, o1) -> run skip_step skip_new ops2 = Ok (m2, o2) ->
    skip_iter m1 = Ok l1 -> skip_iter m2 = Ok l2 -> skip_set_op SInter m1 m2 = Ok (hl, hr, m) ->
    spec_inter l1 l2 = (k0, v0) :: r -> common_draws ops1 l2 = d0 :: ds -> d0 <> 0%N ->
    forall k v d, cmp k0 k <> Gt -> skip_step m (MInsert k v, d) = Panic /\ skip_step m (MRemove k, d) = Panic.
  Proof.
    intros E1 E2 I1 I2 Es El Ed N0 k v d Ck. destruct (run_tags _ _ _ E1) as (X1 & A1 & T1). destruct (run_tags _ _ _ E2) as (X2 & A2 & _).
    rewrite (skip_iter_ok _ _ (sk_at_rel _ _ A1)) in I1. rewrite (skip_iter_ok _ _ (sk_at_rel _ _ A2)) in I2.
    injection I1 as <-. injection I2 as <-.
    pose proof (skip_inter_at _ _ _ _ A1 A2) as D. destruct (follow None _); [|rewrite D in Es; discriminate].
    destruct D as (hl' & hr' & m' & Y & g & E & A & Dd & Dh & _). rewrite E in Es. injection Es as -> -> ->.
    rewrite El in Dd. destruct Y as [|x Y]; [discriminate|]. cbn [map] in Dd. injection Dd as Dx _.
    rewrite (common_heights _ _ X2 T1) in Dh. unfold common_draws in Ed.
    destruct (filter _ (last_draws ops1)) as [|[k' d'] fl]; [discriminate|]. cbn [map snd] in Ed, Dh. injection Ed as Ed _. injection Dh as Dh _.
    apply (step_trap x Y k) with (g := g); auto.
    - assert (Ed' : (d' mod 2 ^ 32)%N = d0) by exact Ed. rewrite Dh. destruct (height_size d') as [-> L]. rewrite Ed' in *. destruct d0 as [|p]; [contradiction|]. cbn [N.size] in *. lia.
    - unfold key. rewrite Dx. exact Ck.
  Qed.

  (** More than 32 common keys, none of them drawn as 0 *)
  Lemma growing_length ds : (forall d, In d ds -> d <> 0 /\ N.size d <= 32)%N -> growing ds = true -> length ds <= 32.
  Proof.
    assert (Q : forall ds a, (forall d, In d (a :: ds) -> d <> 0 /\ N.size d <= 32)%N -> growing (a :: ds) = true ->
      (N.size a + N.of_nat (length ds) <= 32)%N).
    { clear. induction ds as [|c ds IH]; intros a Hd G.
      - specialize (Hd a (or_introl eq_refl)). simpl. lia.
      - assert (G' : ((N.size a <? N.size c)%N || (a =? 0)%N) && growing (c :: ds) = true) by exact G.
        apply Bool.andb_true_iff in G' as [G1 G2]. apply Bool.orb_true_iff in G1.
        specialize (IH c (fun d I => Hd d (or_intror I)) G2).
        destruct G1 as [G1|G1]; [apply N.ltb_lt in G1|apply N.eqb_eq in G1; destruct (Hd a (or_introl eq_refl)); contradiction].
        cbn [length]. lia. }
    destruct ds as [|a ds]; intros Hd G; [simpl; lia|]. specialize (Q ds a Hd G). destruct (Hd a (or_introl eq_refl)) as [N0 _].
    assert (N.size a <> 0%N) by (destruct a as [|[]]; [contradiction| | |]; discriminate). cbn [length]. lia.
  Qed.
  Theorem skip_inter_many (ops1 ops2 : list (map_op K V * N)) m1 m2 o1 o2 l1 l2 :
    run skip_step skip_new ops1 = Ok (m1, o1) -> run skip_step skip_new ops2 = Ok (m2, o2) ->
    skip_iter m1 = Ok l1 -> skip_iter m2 = Ok l2 -> 32 < length (spec_inter l1 l2) -> ~ In 0%N (common_draws ops1 l2) ->
    skip_set_op SInter m1 m2 = Panic.
  Proof.
    intros E1 E2 I1 I2 L N0. destruct (run_tags _ _ _ E1) as (X1 & A1 & T1). destruct (run_tags _ _ _ E2) as (X2 & A2 & _).
    rewrite (skip_iter_ok _ _ (sk_at_rel _ _ A1)) in I1. rewrite (skip_iter_ok _ _ (sk_at_rel _ _ A2)) in I2.
    injection I1 as <-. injection I2 as <-.
    pose proof (skip_inter_at _ _ _ _ A1 A2) as D. rewrite (common_heights _ _ X2 T1), follow_growing, map_map in D.
    fold (common_draws ops1 (map dt X2)) in D. destruct (growing _) eqn:G; [|exact D]. exfalso.
    assert (Ln : length (common_draws ops1 (map dt X2)) = length (spec_inter (map dt X1) (map dt X2))).
    { rewrite <- common_data, map_length. unfold common_draws. rewrite map_length.
      pose proof (f_equal (@length _) (common_heights _ _ X2 T1)) as Q. now rewrite !map_length in Q. }
    apply growing_length in G; [rewrite Ln in G; lia|]. intros d I. split; [intros ->; contradiction|].
    unfold common_draws in I. apply in_map_iff in I as (p & <- & _). apply height_size.
  Qed.
End SkipInterProofs.
