(** Proofs about SplayModel.v. *)
From Verif Require Export SplayModel BstProofs.

Section SplayProofs.
  Context {K V : Type} `{CmpLaws K}.
  Notation sp := (tree unit K V).
  Notation N l e r := (Node tt l e r).
  Implicit Types (t l r : sp) (e : K * V) (k : K).

  Fixpoint zl_list (z : list (sp * (K * V))) : list (K * V) :=
    match z with [] => [] | (l, e) :: z' => zl_list z' ++ inorder l ++ [e] end.
  Fixpoint zr_list (z : list ((K * V) * sp)) : list (K * V) :=
    match z with [] => [] | (e, r) :: z' => e :: inorder r ++ zr_list z' end.

  Lemma plug_left_inorder z t : inorder (plug_left z t) = zl_list z ++ inorder t.
  Proof.
    revert t. induction z as [|[l e] z IH]; intros t; simpl; [reflexivity|].
    rewrite IH. simpl. now rewrite <- !app_assoc.
  Qed.

  Lemma plug_right_inorder z t : inorder (plug_right z t) = inorder t ++ zr_list z.
  Proof.
    revert t. induction z as [|[e r] z IH]; intros t; simpl; [now rewrite app_nil_r|].
    rewrite IH. simpl. now rewrite <- !app_assoc.
  Qed.

  (** What the root of a splayed tree says about the key. *)
  Definition root_at (k : K) (t : sp) : Prop :=
    match t with
    | Leaf => False
    | Node _ l e r =>
        match cmp k (fst e) with
        | Lt => all_lt (inorder l) k
        | Gt => all_gt (inorder r) k
        | Eq => True
        end
    end.

  Lemma splay_loop_ok fuel : forall k l e r zl zr,
    size l + size r < fuel ->
    sorted (zl_list zl ++ (inorder l ++ e :: inorder r) ++ zr_list zr) ->
    all_lt (zl_list zl) k -> all_gt (zr_list zr) k ->
    exists t', splay_loop fuel k l e r zl zr = Ok t' /\
      inorder t' = zl_list zl ++ (inorder l ++ e :: inorder r) ++ zr_list zr /\ root_at k t'.
  Proof.
    induction fuel as [|f IH]; intros k l e r zl zr Hf S Al Ag; [lia|].
    assert (Fin : forall l e r, inorder (splay_finish zl zr l e r) =
              zl_list zl ++ (inorder l ++ e :: inorder r) ++ zr_list zr).
    { intros l0 e0 r0. unfold splay_finish. simpl. rewrite plug_left_inorder, plug_right_inorder.
      lnorm. reflexivity. }
    cbn [splay_loop]. destruct (cmp k (fst e)) eqn:Ck.
    - eexists; split; [reflexivity|]. split; [apply Fin|]. simpl. now rewrite Ck.
    - destruct l as [|[] cl ce cr].
      + eexists; split; [reflexivity|]. split; [apply Fin|]. simpl. rewrite Ck.
        rewrite plug_left_inorder. simpl. rewrite app_nil_r. exact Al.
      + destruct (is_lt (cmp k (fst ce))) eqn:Cc.
        * assert (Cc' : cmp k (fst ce) = Lt) by (destruct (cmp k (fst ce)); simpl in Cc; congruence).
          destruct cl as [|[] ll le lr].
          -- eexists; split; [reflexivity|]. split.
             ++ rewrite Fin. lnorm. reflexivity.
             ++ simpl. rewrite Cc'. rewrite plug_left_inorder. simpl. rewrite app_nil_r. exact Al.
          -- destruct (IH k ll le lr zl ((ce, N cr e r) :: zr)) as (t' & E1 & E2 & E3); auto.
             ++ simpl in Hf. lia.
             ++ lnorm. lnorm_in S. exact S.
             ++ lnorm. apply (sorted_suffix_gt (zl_list zl ++ inorder ll ++ le :: inorder lr)); [|exact Cc'].
                lnorm. lnorm_in S. exact S.
             ++ exists t'. split; [exact E1|]. split; [|exact E3]. rewrite E2. lnorm. reflexivity.
        * destruct (IH k cl ce cr zl ((e, r) :: zr)) as (t' & E1 & E2 & E3); auto.
          -- simpl in Hf. lia.
          -- lnorm. lnorm_in S. exact S.
          -- lnorm. apply (sorted_suffix_gt (zl_list zl ++ inorder cl ++ ce :: inorder cr)); [|exact Ck].
             lnorm. lnorm_in S. exact S.
          -- exists t'. split; [exact E1|]. split; [|exact E3]. rewrite E2. lnorm. reflexivity.
    - destruct r as [|[] cl ce cr].
      + eexists; split; [reflexivity|]. split; [apply Fin|]. simpl. rewrite Ck.
        rewrite plug_right_inorder. simpl. exact Ag.
      + destruct (is_gt (cmp k (fst ce))) eqn:Cc.
        * assert (Cc' : cmp k (fst ce) = Gt) by (destruct (cmp k (fst ce)); simpl in Cc; congruence).
          destruct cr as [|[] rl re rr].
          -- eexists; split; [reflexivity|]. split.
             ++ rewrite Fin. lnorm. reflexivity.
             ++ simpl. rewrite Cc'. rewrite plug_right_inorder. simpl. exact Ag.
          -- destruct (IH k rl re rr ((N l e cl, ce) :: zl) zr) as (t' & E1 & E2 & E3); auto.
             ++ simpl in Hf. lia.
             ++ lnorm. lnorm_in S. exact S.
             ++ lnorm. pose proof (sorted_prefix_lt (zl_list zl ++ inorder l ++ e :: inorder cl) ce
                  (inorder rl ++ re :: inorder rr ++ zr_list zr) k) as X.
                lnorm_in X. apply X; [lnorm_in S; exact S | exact Cc'].
             ++ exists t'. split; [exact E1|]. split; [|exact E3]. rewrite E2. lnorm. reflexivity.
        * destruct (IH k cl ce cr ((l, e) :: zl) zr) as (t' & E1 & E2 & E3); auto.
          -- simpl in Hf. lia.
          -- lnorm. lnorm_in S. exact S.
          -- lnorm. pose proof (sorted_prefix_lt (zl_list zl ++ inorder l) e
                  (inorder cl ++ ce :: inorder cr ++ zr_list zr) k) as X.
             lnorm_in X. apply X; [lnorm_in S; exact S | exact Ck].
          -- exists t'. split; [exact E1|]. split; [|exact E3]. rewrite E2. lnorm. reflexivity.
  Qed.

  Lemma splay_ok t k : t <> Leaf -> sorted (inorder t) ->
    exists l e r, splay t k = Ok (N l e r) /\ inorder l ++ e :: inorder r = inorder t /\
      match cmp k (fst e) with
      | Lt => all_lt (inorder l) k
      | Gt => all_gt (inorder r) k
      | Eq => True
      end.
  Proof.
    destruct t as [|[] l e r]; [congruence|]. intros _ S. unfold splay.
    destruct (splay_loop_ok (size (N l e r)) k l e r [] []) as (t' & E1 & E2 & E3).
    - simpl. lia.
    - simpl in *. now rewrite app_nil_r.
    - apply all_lt_nil.
    - apply all_gt_nil.
    - destruct t' as [|[] l' e' r']; [destruct E3|]. exists l', e', r'.
      split; [exact E1|]. split; [|exact E3]. simpl in *. rewrite E2, app_nil_r. reflexivity.
  Qed.

  (** The root of the splayed tree decides where the key is. *)
  Lemma root_pieces l e r k : sorted (inorder l ++ e :: inorder r) ->
    match cmp k (fst e) with
    | Lt => all_lt (inorder l) k
    | Gt => all_gt (inorder r) k
    | Eq => True
    end ->
    let L := inorder l ++ e :: inorder r in
    match cmp k (fst e) with
    | Lt => below k L = inorder l /\ at_key k L = [] /\ above k L = e :: inorder r
    | Gt => below k L = inorder l ++ [e] /\ at_key k L = [] /\ above k L = inorder r
    | Eq => below k L = inorder l /\ at_key k L = [e] /\ above k L = inorder r
    end.
  Proof.
    intros S A. cbv zeta. destruct (cmp k (fst e)) eqn:Ck.
    - now apply pieces_eq.
    - destruct (pieces_lt _ _ _ _ S Ck) as (E1 & E2 & E3). rewrite E1, E2, E3.
      now rewrite below_all_lt, at_all_lt, above_all_lt.
    - destruct (pieces_gt _ _ _ _ S Ck) as (E1 & E2 & E3). rewrite E1, E2, E3.
      now rewrite below_all_gt, at_all_gt, above_all_gt.
  Qed.

  (** Root entry of a tree. *)
  Definition root_key {A} (t : tree A K V) : option K :=
    match t with Leaf => None | Node _ _ e _ => Some (fst e) end.

  Lemma splay_insert_ok t k v : sorted (inorder t) ->
    exists t', splay_insert t k v = Ok (t', hd_error (at_key k (inorder t))) /\
      inorder t' = below k (inorder t) ++ (k, v) :: above k (inorder t) /\ root_key t' = Some k.
  Proof.
    intros S. destruct t as [|a0 l0 e0 r0]; [eexists; repeat split; reflexivity|].
    unfold splay_insert. remember (Node a0 l0 e0 r0) as t eqn:Et.
    destruct (splay_ok t k) as (l & e & r & E1 & E2 & E3); [now subst | exact S |].
    clear Et. rewrite E1. cbn [bind]. rewrite <- E2 in *. pose proof (root_pieces l e r k S E3) as X.
    cbv zeta in X. destruct (cmp k (fst e)); destruct X as (X1 & X2 & X3); rewrite X1, X2, X3;
      (eexists; split; [reflexivity|]; split; [lnorm; reflexivity | reflexivity]).
  Qed.

  Lemma splay_remove_ok t k : sorted (inorder t) ->
    exists t', splay_remove t k = Ok (t', hd_error (at_key k (inorder t))) /\
      inorder t' = below k (inorder t) ++ above k (inorder t).
  Proof.
    intros S. destruct t as [|a0 l0 e0 r0]; [eexists; repeat split; reflexivity|].
    unfold splay_remove. remember (Node a0 l0 e0 r0) as t eqn:Et.
    destruct (splay_ok t k) as (l & e & r & E1 & E2 & E3); [now subst | exact S |].
    clear Et. rewrite E1. cbn [bind]. rewrite <- E2 in *. pose proof (root_pieces l e r k S E3) as X.
    cbv zeta in X. destruct (cmp k (fst e)) eqn:Ck; destruct X as (X1 & X2 & X3); rewrite X1, X2, X3; simpl.
    - destruct l as [|al ll le lr]; [eexists; split; reflexivity|].
      remember (Node al ll le lr) as l eqn:El.
      apply sorted_mid in S as (Sl & Sr & Fl & Fr).
      destruct (splay_ok l k) as (l1 & e1 & r1 & G1 & G2 & G3); [now subst | exact Sl |].
      clear El. rewrite G1. cbn [bind].
      assert (Fk : all_lt (inorder l) k) by (apply all_lt_eq with (fst e); [exact Fl | now apply cmp_eq_sym]).
      rewrite <- G2 in Fk. apply all_lt_app in Fk as [Fk1 Fk]. apply all_lt_cons in Fk as [Fk2 Fk3].
      rewrite (cmp_lt_gt _ _ Fk2) in G3.
      assert (Er : inorder r1 = []).
      { destruct (inorder r1) as [|p q]; [reflexivity|].
        apply all_lt_cons in Fk3 as [A1 _]. apply all_gt_cons in G3 as [A2 _]. korder. }
      eexists; split; [reflexivity|]. simpl. rewrite <- G2, Er. lnorm. reflexivity.
    - eexists; split; reflexivity.
    - eexists; split; [reflexivity|]. lnorm. reflexivity.
  Qed.

  Lemma splay_get_mut_ok t k v : sorted (inorder t) ->
    exists t', splay_get_mut_set t k v = Ok (t', hd_error (at_key k (inorder t))) /\
      inorder t' = below k (inorder t) ++ map (fun p => (fst p, v)) (at_key k (inorder t)) ++
                   above k (inorder t) /\
      (at_key k (inorder t) <> [] -> exists k', root_key t' = Some k' /\ cmp k k' = Eq).
  Proof.
    intros S. destruct t as [|a0 l0 e0 r0]; [eexists; repeat split; simpl; congruence|].
    unfold splay_get_mut_set. remember (Node a0 l0 e0 r0) as t eqn:Et.
    destruct (splay_ok t k) as (l & e & r & E1 & E2 & E3); [now subst | exact S |].
    clear Et. rewrite E1. cbn [bind]. rewrite <- E2 in *. pose proof (root_pieces l e r k S E3) as X.
    cbv zeta in X. destruct (cmp k (fst e)) eqn:Ck; destruct X as (X1 & X2 & X3); rewrite X1, X2, X3; simpl;
      (eexists; split; [reflexivity|]; split; [lnorm; reflexivity | ]).
    - intros _. exists (fst e). auto.
    - congruence.
    - congruence.
  Qed.

  Lemma splay_refines (ops : list (map_op K V)) : outputs splay_step splay_new ops = Ok (map_spec_outputs ops).
  Proof.
    apply (bmap_refines splay_insert splay_remove splay_get_mut_set (fun _ => True)); auto.
    - intros t k v _ S. destruct (splay_insert_ok t k v S) as (t' & E1 & E2 & _). eauto.
    - intros t k _ S. destruct (splay_remove_ok t k S) as (t' & E1 & E2). eauto.
    - intros t k v _ S. destruct (splay_get_mut_ok t k v S) as (t' & E1 & E2 & _). eauto.
  Qed.

  Lemma splay_reachable (ops : list (map_op K V)) m outs :
    run splay_step splay_new ops = Ok (m, outs) -> sorted (inorder (bm_tree m)).
  Proof.
    intros E. apply (bmap_reachable splay_insert splay_remove splay_get_mut_set (fun _ => True)) in E;
      [tauto | auto | auto | | | ].
    - intros t k v _ S. destruct (splay_insert_ok t k v S) as (t' & E1 & E2 & _). eauto.
    - intros t k _ S. destruct (splay_remove_ok t k S) as (t' & E1 & E2). eauto.
    - intros t k v _ S. destruct (splay_get_mut_ok t k v S) as (t' & E1 & E2 & _). eauto.
  Qed.

  (** After insert(k), or get_mut(k) that found k, the root holds k. *)
  Lemma splay_root_insert ops m outs k v m' o :
    run splay_step splay_new ops = Ok (m, outs) ->
    splay_step m (MInsert k v) = Ok (m', o) -> root_key (bm_tree m') = Some k.
  Proof.
    intros R. pose proof (splay_reachable _ _ _ R) as S. unfold splay_step, bmap_step, bmap_insert.
    destruct (splay_insert_ok (bm_tree m) k v S) as (t' & E1 & _ & E3). rewrite E1. cbn [bind].
    destruct (hd_error _); cbn; intros E; injection E as <- <-; exact E3.
  Qed.

  Lemma splay_root_get_mut ops m outs k v m' x :
    run splay_step splay_new ops = Ok (m, outs) ->
    splay_step m (MGetMut k v) = Ok (m', RVal (Some x)) ->
    exists k', root_key (bm_tree m') = Some k' /\ cmp k k' = Eq.
  Proof.
    intros R. pose proof (splay_reachable _ _ _ R) as S. unfold splay_step, bmap_step, bmap_get_mut_set.
    destruct (splay_get_mut_ok (bm_tree m) k v S) as (t' & E1 & _ & E3). rewrite E1. cbn [bind].
    intros E. injection E as <- E. cbn [bm_tree]. apply E3. intros N0. rewrite N0 in E. discriminate E.
  Qed.
End SplayProofs.
