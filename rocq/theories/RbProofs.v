(** Proofs about RbModel.v. *)
From Verif Require Export RbModel BstProofs ShapeSpec.

Definition red_color (c : color) : bool := match c with Red => true | Black => false end.

(** Split a [bind] hypothesis. *)
Ltac inv_bind E :=
  match type of E with
  | bind ?x _ = Ok _ => let R := fresh "R" in destruct x eqn:R; [cbn [bind] in E | discriminate E | discriminate E]
  end.

Ltac rb_case := repeat match goal with
  | X : _ /\ _ |- _ => destruct X
  | X : is_red ?x = _ |- context [is_red ?x] => rewrite X; simpl
  end.
Ltac rb_fin := eexists; split; [reflexivity|]; rb_case; simpl; intuition congruence.

Section RbProofs.
  Context {K V : Type} `{CmpLaws K}.
  Notation rb := (tree color K V).
  Implicit Types (t l r : rb) (e : K * V) (k : K) (n m : nat).

  (** ** Part 1: contents.  Every helper that returns normally keeps the in-order list. *)
  Lemma flip_root_inorder t : inorder (flip_root t) = inorder t.
  Proof. destruct t; reflexivity. Qed.

  Lemma flip_colors_inorder t : inorder (flip_colors t) = inorder t.
  Proof. destruct t; simpl; [reflexivity|]. now rewrite !flip_root_inorder. Qed.

  Lemma rb_rotate_left_inorder t t' : rb_rotate_left t = Ok t' -> inorder t' = inorder t.
  Proof.
    destruct t as [|c l e [|c' cl ce cr]]; simpl; try discriminate. intros E. injection E as <-.
    lnorm. reflexivity.
  Qed.

  Lemma rb_rotate_right_inorder t t' : rb_rotate_right t = Ok t' -> inorder t' = inorder t.
  Proof.
    destruct t as [|c [|c' cl ce cr] e r]; simpl; try discriminate. intros E. injection E as <-.
    lnorm. reflexivity.
  Qed.

  Lemma rb_balance_inorder t t' : rb_balance t = Ok t' -> inorder t' = inorder t.
  Proof.
    unfold rb_balance. intros E. inv_bind E. inv_bind E. injection E as <-.
    assert (E1 : inorder a = inorder t).
    { destruct (is_red (right_of t)); [now apply rb_rotate_left_inorder | now injection R as <-]. }
    assert (E2 : inorder a0 = inorder a).
    { destruct (red_red (left_of a)); [now apply rb_rotate_right_inorder | now injection R0 as <-]. }
    rewrite <- E1, <- E2. destruct (is_red (left_of a0) && is_red (right_of a0)); [|reflexivity].
    apply flip_colors_inorder.
  Qed.

  Lemma rb_insert_fix_inorder t t' : rb_insert_fix t = Ok t' -> inorder t' = inorder t.
  Proof.
    unfold rb_insert_fix. intros E. inv_bind E. inv_bind E. injection E as <-.
    assert (E1 : inorder a = inorder t).
    { destruct (is_red (right_of t) && negb (is_red (left_of t)));
        [now apply rb_rotate_left_inorder | now injection R as <-]. }
    assert (E2 : inorder a0 = inorder a).
    { destruct (red_red (left_of a)); [now apply rb_rotate_right_inorder | now injection R0 as <-]. }
    rewrite <- E1, <- E2. destruct (is_red (left_of a0) && is_red (right_of a0)); [|reflexivity].
    apply flip_colors_inorder.
  Qed.

  Lemma inorder_set_right t r' : t <> Leaf ->
    exists e, inorder (set_right t r') = inorder (left_of t) ++ e :: inorder r' /\
              inorder t = inorder (left_of t) ++ e :: inorder (right_of t).
  Proof. destruct t as [|c l e r]; [congruence|]. intros _. exists e. split; reflexivity. Qed.

  (** shift_left keeps the contents; the root becomes the old root or an entry of the right child. *)
  Lemma shift_left_inorder c l e r t1 : shift_left (Node c l e r) = Ok t1 ->
    exists c1 l1 e1 r1, t1 = Node c1 l1 e1 r1 /\ inorder t1 = inorder l ++ e :: inorder r /\
      (e1 = e \/ In e1 (inorder r)).
  Proof.
    unfold shift_left. cbn [flip_colors right_of].
    destruct r as [|cr [|cx a x b] y z]; cbn.
    - intros E. injection E as <-. repeat eexists; [simpl; now rewrite flip_root_inorder | now left].
    - intros E. injection E as <-. repeat eexists; [simpl; now rewrite flip_root_inorder | now left].
    - destruct cx; cbn.
      + intros E. injection E as <-. repeat eexists.
        * cbn. rewrite ?flip_root_inorder. lnorm. rewrite ?flip_root_inorder. reflexivity.
        * right. simpl. rewrite !in_app_iff. simpl. tauto.
      + intros E. injection E as <-. repeat eexists; [simpl; now rewrite flip_root_inorder | now left].
  Qed.

  (** rotate_right / shift_right likewise; the root becomes the old root or an entry of the left child. *)
  Lemma rotate_right_root c l e r t1 : rb_rotate_right (Node c l e r) = Ok t1 ->
    exists c1 l1 e1 r1, t1 = Node c1 l1 e1 r1 /\ inorder t1 = inorder l ++ e :: inorder r /\
      (e1 = e \/ In e1 (inorder l)).
  Proof.
    intros E. pose proof (rb_rotate_right_inorder _ _ E) as I. revert E I.
    destruct l as [|c' cl ce cr]; simpl; try discriminate. intros E I. injection E as <-.
    repeat eexists; [exact I|]. right. rewrite in_app_iff. simpl. tauto.
  Qed.

  Lemma shift_right_inorder c l e r t1 : shift_right (Node c l e r) = Ok t1 ->
    exists c1 l1 e1 r1, t1 = Node c1 l1 e1 r1 /\ inorder t1 = inorder l ++ e :: inorder r /\
      (e1 = e \/ In e1 (inorder l)).
  Proof.
    unfold shift_right. cbn [flip_colors left_of].
    destruct l as [|cl [|cx a x b] y z]; cbn.
    - intros E. injection E as <-. repeat eexists; [simpl; now rewrite flip_root_inorder | now left].
    - intros E. injection E as <-. repeat eexists; [simpl; now rewrite flip_root_inorder | now left].
    - destruct cx; cbn.
      + intros E. injection E as <-. repeat eexists.
        * cbn. rewrite ?flip_root_inorder. lnorm. rewrite ?flip_root_inorder. reflexivity.
        * right. rewrite in_app_iff. simpl. tauto.
      + intros E. injection E as <-. repeat eexists; [simpl; now rewrite flip_root_inorder | now left].
  Qed.

  Lemma rb_remove_min_inorder f : forall t t' (m : K * V), rb_remove_min f t = Ok (t', m) ->
    inorder t = m :: inorder t'.
  Proof.
    induction f as [|f IH]; intros t t' m; [discriminate|]. cbn [rb_remove_min].
    destruct t as [|c l e r]; [discriminate|]. destruct (is_none l) eqn:Nl.
    - intros E. injection E as <- <-. destruct l; [reflexivity | discriminate Nl].
    - intros E. inv_bind E. inv_bind E. destruct a0 as [l' m']. inv_bind E. injection E as <- <-.
      assert (X : exists c1 l1 e1 r1, a = Node c1 l1 e1 r1 /\ inorder a = inorder l ++ e :: inorder r).
      { destruct (should_shift l).
        - destruct (shift_left_inorder _ _ _ _ _ R) as (c1 & l1 & e1 & r1 & X1 & X2 & _). eauto 6.
        - injection R as <-. repeat eexists. }
      destruct X as (c1 & l1 & e1 & r1 & -> & X). apply IH in R0. apply rb_balance_inorder in R1.
      simpl in R0, R1, X. rewrite R1. simpl. rewrite <- X, R0. reflexivity.
  Qed.

  Lemma rb_ins_inorder t k v t' o : sorted (inorder t) -> rb_ins t k v = Ok (t', o) ->
    o = hd_error (at_key k (inorder t)) /\
    inorder t' = below k (inorder t) ++ (k, v) :: above k (inorder t).
  Proof.
    revert t' o. induction t as [|c l IHl e r IHr]; cbn [rb_ins inorder]; intros t' o S E.
    - injection E as <- <-. auto.
    - pose proof (proj1 (sorted_mid _ _ _) S) as (S1 & S2 & F1 & F2).
      inv_bind E. destruct a as [t1 o1]. inv_bind E. injection E as <- <-.
      rewrite (rb_insert_fix_inorder _ _ R0).
      destruct (cmp k (fst e)) eqn:Ck.
      + injection R as <- <-. destruct (pieces_eq _ _ _ _ S Ck) as (E1 & E2 & E3). now rewrite E1, E2, E3.
      + inv_bind R. destruct a0 as [l' ol]. injection R as <- <-.
        destruct (pieces_lt _ _ _ _ S Ck) as (E1 & E2 & E3). rewrite E1, E2, E3.
        destruct (IHl _ _ S1 eq_refl) as [I1 I2]. split; [exact I1|]. simpl. rewrite I2. lnorm. reflexivity.
      + inv_bind R. destruct a0 as [r' or]. injection R as <- <-.
        destruct (pieces_gt _ _ _ _ S Ck) as (E1 & E2 & E3). rewrite E1, E2, E3.
        destruct (IHr _ _ S2 eq_refl) as [I1 I2]. split; [exact I1|]. simpl. rewrite I2. lnorm. reflexivity.
  Qed.

  Lemma is_lt_true (c : comparison) : is_lt c = true -> c = Lt.
  Proof. now destruct c. Qed.

  Lemma rb_rem_inorder f : forall t k t' o, sorted (inorder t) -> rb_rem f t k = Ok (t', o) ->
    o = hd_error (at_key k (inorder t)) /\ inorder t' = below k (inorder t) ++ above k (inorder t).
  Proof.
    induction f as [|f IH]; intros t k t' o S; [discriminate|]. cbn [rb_rem].
    destruct t as [|c l e r]; [intros E; injection E as <- <-; auto|].
    cbn [inorder] in *. pose proof (proj1 (sorted_mid _ _ _) S) as (S1 & S2 & F1 & F2).
    destruct (is_lt (cmp k (fst e))) eqn:Ck.
    - apply is_lt_true in Ck. intros E. inv_bind E. inv_bind E. destruct a0 as [l' ol].
      inv_bind E. injection E as <- <-.
      assert (X : exists c1 l1 e1 r1, a = Node c1 l1 e1 r1 /\ inorder a = inorder l ++ e :: inorder r /\
                    cmp k (fst e1) = Lt).
      { destruct (should_shift l).
        - destruct (shift_left_inorder _ _ _ _ _ R) as (c1 & l1 & e1 & r1 & X1 & X2 & X3).
          exists c1, l1, e1, r1. repeat split; auto. destruct X3 as [->|X3]; [exact Ck|].
          unfold all_gt in F2. rewrite Forall_forall in F2. specialize (F2 _ X3). korder.
        - injection R as <-. repeat eexists. exact Ck. }
      destruct X as (c1 & l1 & e1 & r1 & -> & X & Ck1). cbn [inorder left_of set_left] in *.
      rewrite (rb_balance_inorder _ _ R1). rewrite <- X in *.
      destruct (IH _ _ _ _ (proj1 (proj1 (sorted_mid _ _ _) S)) R0) as [I1 I2].
      destruct (pieces_lt _ _ _ _ S Ck1) as (E1 & E2 & E3). rewrite E1, E2, E3. split; [exact I1|].
      simpl. rewrite I2. lnorm. reflexivity.
    - assert (Nk : cmp k (fst e) <> Lt) by (intros Hc; rewrite Hc in Ck; discriminate Ck). clear Ck.
      intros E. inv_bind E.
      assert (X : exists c1 l1 e1 r1, a = Node c1 l1 e1 r1 /\ inorder a = inorder l ++ e :: inorder r /\
                    cmp k (fst e1) <> Lt).
      { destruct (is_red l).
        - destruct (rotate_right_root _ _ _ _ _ R) as (c1 & l1 & e1 & r1 & X1 & X2 & X3).
          exists c1, l1, e1, r1. repeat split; auto. destruct X3 as [->|X3]; [exact Nk|].
          unfold all_lt in F1. rewrite Forall_forall in F1. specialize (F1 _ X3).
          intros Hc. apply Nk. korder.
        - injection R as <-. repeat eexists. exact Nk. }
      clear R Nk. destruct X as (c1 & l1 & e1 & r1 & -> & X & Nk1). cbn [inorder right_of left_of] in *.
      rewrite <- X in *. clear X F1 F2 S1 S2.
      destruct (key_is k (Node c1 l1 e1 r1) && is_none r1) eqn:KN.
      + apply andb_true_iff in KN as [Kk Nr]. unfold assert in E.
        destruct (is_none l1) eqn:Nl; cbn [bind] in E; [|discriminate E]. injection E as <- <-.
        simpl in Kk. assert (Ck1 : cmp k (fst e1) = Eq) by (destruct (cmp k (fst e1)); simpl in Kk; congruence).
        destruct (pieces_eq _ _ _ _ S Ck1) as (E1 & E2 & E3). rewrite E1, E2, E3.
        destruct l1; [|discriminate Nl]. destruct r1; [|discriminate Nr]. auto.
      + clear KN. inv_bind E.
        pose proof (proj1 (sorted_mid _ _ _) S) as (S1 & S2 & F1 & F2).
        assert (X : exists c2 l2 e2 r2, a = Node c2 l2 e2 r2 /\
                    inorder a = inorder l1 ++ e1 :: inorder r1 /\ cmp k (fst e2) <> Lt).
        { destruct (should_shift r1).
          - destruct (shift_right_inorder _ _ _ _ _ R) as (c2 & l2 & e2 & r2 & X1 & X2 & X3).
            exists c2, l2, e2, r2. repeat split; auto. destruct X3 as [->|X3]; [exact Nk1|].
            unfold all_lt in F1. rewrite Forall_forall in F1. specialize (F1 _ X3).
            intros Hc. apply Nk1. korder.
          - injection R as <-. repeat eexists. exact Nk1. }
        clear R Nk1. destruct X as (c2 & l2 & e2 & r2 & -> & X & Nk2).
        cbn [inorder right_of set_right key_is] in *. rewrite <- X in *. clear X F1 F2 S1 S2.
        pose proof (proj1 (sorted_mid _ _ _) S) as (S1 & S2 & F1 & F2).
        destruct (is_eq (cmp k (fst e2))) eqn:Ck2.
        * assert (Ck2' : cmp k (fst e2) = Eq) by (destruct (cmp k (fst e2)); simpl in Ck2; congruence).
          inv_bind E. inv_bind E. injection E as <- <-. unfold rb_combine in R. inv_bind R.
          destruct a1 as [r' mm]. injection R as <-. apply rb_remove_min_inorder in R1.
          rewrite (rb_balance_inorder _ _ R0). cbn [inorder]. rewrite <- R1.
          destruct (pieces_eq _ _ _ _ S Ck2') as (E1 & E2 & E3). rewrite E1, E2, E3. auto.
        * assert (Ck2' : cmp k (fst e2) = Gt) by (destruct (cmp k (fst e2)); simpl in *; congruence).
          inv_bind E. destruct a as [r' or]. inv_bind E. injection E as <- <-.
          destruct (IH _ _ _ _ S2 R) as [I1 I2]. rewrite (rb_balance_inorder _ _ R0). cbn [inorder].
          destruct (pieces_gt _ _ _ _ S Ck2') as (E1 & E2 & E3). rewrite E1, E2, E3, I2.
          split; [exact I1|]. lnorm. reflexivity.
  Qed.

  (** ** Part 2: shape.  Left-leaning red-black trees. *)
  (** [wf n t]: every path has [n] black nodes, red nodes have black children, no red right child. *)
  Fixpoint wf (n : nat) (t : rb) : Prop :=
    match t with
    | Leaf => n = 0
    | Node Red l _ r => is_red l = false /\ is_red r = false /\ wf n l /\ wf n r
    | Node Black l _ r => is_red r = false /\ match n with O => False | S m => wf m l /\ wf m r end
    end.

  (** Same, but a red root may have a red left child (intermediate results of insert). *)
  Definition swf (n : nat) (t : rb) : Prop :=
    match t with
    | Node Red l _ r => is_red r = false /\ wf n l /\ wf n r
    | _ => wf n t
    end.

  Lemma rb_ins_wf t : forall n k v, wf n t ->
    exists t' o, rb_ins t k v = Ok (t', o) /\ swf n t' /\ (is_red t = false -> wf n t').
  Proof.
    induction t as [|c l IHl e r IHr]; intros n k v W.
    - simpl in *. subst. do 2 eexists; split; [reflexivity|]. simpl. auto.
    - cbn [rb_ins].
      assert (Fix : forall c' l' e' r', c' = c ->
         (* what the children look like after the recursive call *)
         (c = Red -> wf n l' /\ wf n r' /\ (is_red l' = false \/ is_red r' = false)) ->
         (c = Black -> exists m, n = S m /\
             ((swf m l' /\ wf m r' /\ is_red r' = false) \/ (wf m l' /\ wf m r'))) ->
         exists t2, rb_insert_fix (Node c' l' e' r') = Ok t2 /\ swf n t2 /\ (c' = Black -> wf n t2)).
      { clear. intros c' l' e' r' -> HR HB. destruct c.
        - destruct (HR eq_refl) as (Wl & Wr & D). clear HR HB.
          destruct r' as [|[] rl re rr].
          + destruct l' as [|[] [|[] a x b] y z]; cbn in *; try tauto;
              rb_fin.
          + destruct D as [D|D]; [|discriminate D].
            destruct l' as [|[] ll le lr]; cbn in *; [| discriminate D |];
              rb_fin.
          + destruct l' as [|[] [|[] a x b] y z]; cbn in *; try tauto;
              try rb_fin.
            all: destruct Wl; discriminate.
        - destruct (HB eq_refl) as (m & -> & D). clear HR HB.
          destruct D as [(Wl & Wr & Br) | (Wl & Wr)].
          + destruct r' as [|[] rl re rr]; [|discriminate Br|];
            destruct l' as [|[] [|[] a x b] y z]; cbn in *; try tauto;
              rb_fin.
          + destruct r' as [|[] rl re rr];
            destruct l' as [|[] [|[] a x b] y z]; cbn in *; try tauto;
              try (destruct Wl; discriminate);
              rb_fin. }
      assert (Out : exists t1 o, match cmp k (fst e) with
          | Lt => let* (l', o) := rb_ins l k v in Ok (Node c l' e r, o)
          | Gt => let* (r', o) := rb_ins r k v in Ok (Node c l e r', o)
          | Eq => Ok (Node c l (k, v) r, Some e)
          end = Ok (t1, o) /\ exists t2, rb_insert_fix t1 = Ok t2 /\ swf n t2 /\ (c = Black -> wf n t2)).
      { assert (HW : (c = Red -> is_red l = false /\ is_red r = false /\ wf n l /\ wf n r) /\
                     (c = Black -> is_red r = false /\ exists m, n = S m /\ wf m l /\ wf m r)).
        { destruct c; simpl in W; split; try discriminate; intros _; [tauto|].
          destruct n as [|m]; [tauto|]. destruct W as (B & W1 & W2). split; [exact B|]. exists m. auto. }
        clear W. destruct HW as [HR HB].
        destruct (cmp k (fst e)).
        - do 2 eexists; split; [reflexivity|]. apply Fix; auto.
          + intros Ec. destruct (HR Ec) as (B1 & B2 & W1 & W2). auto.
          + intros Ec. destruct (HB Ec) as (B & m & En & W1 & W2). exists m. split; [exact En|]. right. auto.
        - destruct c.
          + destruct (HR eq_refl) as (B1 & B2 & W1 & W2). destruct (IHl n k v W1) as (l' & o & E & Sw & Bw).
            rewrite E. cbn [bind]. do 2 eexists; split; [reflexivity|]. apply Fix; auto; discriminate.
          + destruct (HB eq_refl) as (B & m & En & W1 & W2). destruct (IHl m k v W1) as (l' & o & E & Sw & Bw).
            rewrite E. cbn [bind]. do 2 eexists; split; [reflexivity|]. apply Fix; auto; try discriminate.
            intros _. exists m. split; [exact En|]. left. auto.
        - destruct c.
          + destruct (HR eq_refl) as (B1 & B2 & W1 & W2). destruct (IHr n k v W2) as (r' & o & E & Sw & Bw).
            rewrite E. cbn [bind]. do 2 eexists; split; [reflexivity|]. apply Fix; auto; discriminate.
          + destruct (HB eq_refl) as (B & m & En & W1 & W2). destruct (IHr m k v W2) as (r' & o & E & Sw & Bw).
            rewrite E. cbn [bind]. do 2 eexists; split; [reflexivity|]. apply Fix; auto; try discriminate.
            intros _. exists m. split; [exact En|]. right. auto. }
      destruct Out as (t1 & o & E1 & t2 & E2 & Sw & Bw). rewrite E1. cbn [bind]. rewrite E2. cbn [bind].
      do 2 eexists; split; [reflexivity|]. split; [exact Sw|]. destruct c; [discriminate|]. auto.
  Qed.

  Definition pre (t : rb) : Prop := t = Leaf \/ is_red t = true \/ is_red (left_of t) = true.

  Lemma wf_red_red n t : wf n t -> red_red t = false.
  Proof. destruct t as [|[] l e r]; simpl; try reflexivity. tauto. Qed.

  Lemma bal_red n l e r : wf n l -> wf n r -> is_red l = false -> is_red r = false ->
    rb_balance (Node Red l e r) = Ok (Node Red l e r).
  Proof.
    intros Wl Wr Bl Br. unfold rb_balance. cbn [right_of left_of]. rewrite Br. cbn [bind left_of right_of].
    rewrite (wf_red_red _ _ Wl). cbn [bind left_of right_of]. rewrite Bl. reflexivity.
  Qed.

  Lemma bal_black m l e r : wf m l -> wf m r ->
    exists t2, rb_balance (Node Black l e r) = Ok t2 /\ wf (S m) t2 /\
      (is_red l = false \/ is_red r = false -> is_red t2 = false).
  Proof.
    intros Wl Wr. destruct r as [|[] rl re rr].
    - unfold rb_balance. cbn [right_of left_of is_red bind]. rewrite (wf_red_red _ _ Wl).
      cbn [right_of left_of is_red bind]. rewrite andb_false_r. eexists; split; [reflexivity|].
      simpl. simpl in Wr. auto.
    - simpl in Wr. destruct Wr as (B1 & B2 & W1 & W2). unfold rb_balance.
      cbn [right_of left_of is_red bind rb_rotate_left red_red]. destruct (is_red l) eqn:Bl.
      + destruct l as [|[] ll le lr]; try discriminate Bl. cbn. simpl in Wl.
        eexists; split; [reflexivity|]. simpl. intuition congruence.
      + cbn [right_of left_of is_red bind]. rewrite B2. rewrite andb_false_r.
        eexists; split; [reflexivity|]. simpl. auto 10.
    - unfold rb_balance. cbn [right_of left_of is_red bind]. rewrite (wf_red_red _ _ Wl).
      cbn [right_of left_of is_red bind]. rewrite andb_false_r. eexists; split; [reflexivity|].
      simpl. simpl in Wr. auto.
  Qed.

  Lemma shift_left_wf n l e r : wf n (Node Red l e r) -> should_shift l = true ->
    exists c1 l1 e1 r1, shift_left (Node Red l e r) = Ok (Node c1 l1 e1 r1) /\
      ((c1 = Red /\ is_red l1 = false /\ wf n l1 /\ pre l1 /\ is_red r1 = false /\ wf n r1) \/
       (c1 = Black /\ exists m, n = S m /\ wf m l1 /\ is_red l1 = true /\ wf m r1)).
  Proof.
    intros (B1 & B2 & W1 & W2) Sh. destruct l as [|[] ll le lr]; try discriminate Sh.
    simpl in Sh. apply negb_true_iff in Sh. simpl in W1. destruct n as [|m]; [tauto|].
    destruct W1 as (Blr & Wll & Wlr). destruct r as [|[] rl re rr]; simpl in W2; try discriminate.
    destruct W2 as (Brr & Wrl & Wrr). destruct rl as [|[] a x b].
    - do 4 eexists; split; [reflexivity|]. right. split; [reflexivity|]. exists m. simpl in *. auto 10.
    - do 4 eexists; split; [reflexivity|]. left. simpl in Wrl. destruct Wrl as (Ba & Bb & Wa & Wb).
      unfold pre. simpl. auto 15.
    - do 4 eexists; split; [reflexivity|]. right. split; [reflexivity|]. exists m. simpl in *. auto 10.
  Qed.

  Lemma shift_right_wf n l e r : wf n (Node Red l e r) -> should_shift r = true ->
    exists c1 l1 e1 r1, shift_right (Node Red l e r) = Ok (Node c1 l1 e1 r1) /\
      ((c1 = Red /\ is_red l1 = false /\ wf n l1 /\ In e1 (inorder l) /\
        exists a b m, r1 = Node Black a e b /\ n = S m /\ wf m a /\ wf m b /\
                      is_red a = false /\ is_red b = true) \/
       (c1 = Black /\ exists m, n = S m /\ wf m l1 /\ is_red r1 = true /\ wf m r1)).
  Proof.
    intros (B1 & B2 & W1 & W2) Sh. destruct r as [|[] rl re rr]; try discriminate Sh.
    simpl in Sh. apply negb_true_iff in Sh. simpl in W2. destruct n as [|m]; [tauto|].
    destruct W2 as (Brr & Wrl & Wrr). destruct l as [|[] ll le lr]; simpl in W1; try discriminate.
    destruct W1 as (Blr & Wll & Wlr). destruct ll as [|[] a x b].
    - do 4 eexists; split; [reflexivity|]. right. split; [reflexivity|]. exists m. simpl in *. auto 10.
    - do 4 eexists; split; [reflexivity|]. left. simpl in Wll. destruct Wll as (Ba & Bb & Wa & Wb).
      split; [reflexivity|]. split; [reflexivity|]. split; [simpl; auto|].
      split; [simpl; rewrite in_app_iff; simpl; auto|].
      do 3 eexists; split; [reflexivity|]. simpl. auto 10.
    - do 4 eexists; split; [reflexivity|]. right. split; [reflexivity|]. exists m. simpl in *. auto 10.
  Qed.

  Lemma size_of_inorder t1 t2 : inorder t1 = inorder t2 -> size t1 = size t2.
  Proof. intros E. now rewrite <- !size_inorder, E. Qed.

  Lemma pre_not_shift n l : wf n l -> should_shift l = false -> pre l.
  Proof.
    unfold pre. destruct l as [|[] ll le lr]; simpl; auto. intros _ Sh. apply negb_false_iff in Sh. auto.
  Qed.

  (** Bound on the number of recursive calls *)
  Definition mu (n : nat) (t : rb) : nat := 2 * n + (if is_red t then 1 else 0).
  Ltac mu_lia := unfold mu in *; cbn [is_red] in *;
    repeat match goal with X : is_red ?t = _ |- _ => progress rewrite X in * end;
    repeat match goal with |- context [if is_red ?t then _ else _] => destruct (is_red t) end; lia.

  Lemma rb_remove_min_wf f : forall t n, t <> Leaf -> mu n t < f -> wf n t -> pre t ->
    exists t' mm, rb_remove_min f t = Ok (t', mm) /\ wf n t' /\ (is_red t = false -> is_red t' = false).
  Proof.
    induction f as [|f IH]; intros t n Nt Hf W P; [lia|]. cbn [rb_remove_min].
    destruct t as [|c l e r]; [congruence|]. clear Nt. destruct l as [|cl ll le lr].
    - cbn [is_none]. do 2 eexists; split; [reflexivity|].
      destruct c; simpl in *; [tauto|]. unfold pre in P. simpl in P. destruct P as [P|[P|P]]; discriminate P.
    - cbn [is_none]. remember (Node cl ll le lr) as l eqn:El.
      assert (Nl : l <> Leaf) by now subst. clear El.
      destruct (should_shift l) eqn:Sh.
      + assert (c = Red).
        { destruct c; [reflexivity|]. unfold pre in P. simpl in P. destruct P as [P|[P|P]]; try discriminate P.
          destruct l as [|[] ? ? ?]; discriminate. }
        subst c. destruct (shift_left_wf n l e r W Sh) as (c1 & l1 & e1 & r1 & E1 & D).
        rewrite E1. cbn [bind left_of set_left].
        destruct (shift_left_inorder _ _ _ _ _ E1) as (? & ? & ? & ? & E1' & I1 & _). clear E1'.
        assert (Hsz : size (Node c1 l1 e1 r1) = size (Node Red l e r)) by now apply size_of_inorder.
        simpl in Hsz.
        destruct D as [(-> & Bl & Wl & Pl & Br & Wr) | (-> & m & -> & Wl & Bl & Wr)].
        * assert (Nl1 : l1 <> Leaf).
          { intros ->. destruct l as [|[] ? ? ?]; try discriminate Sh. simpl in W, Wl. subst n. tauto. }
          destruct (IH l1 n Nl1) as (l1' & mm & E2 & W2 & B2); auto; [mu_lia|]. rewrite E2. cbn [bind].
          rewrite (bal_red n) by auto. cbn [bind]. do 2 eexists; split; [reflexivity|].
          split; [simpl; auto | discriminate].
        * assert (Nl1 : l1 <> Leaf) by (intros ->; discriminate Bl).
          destruct (IH l1 m Nl1) as (l1' & mm & E2 & W2 & B2); auto; [mu_lia | unfold pre; auto|].
          rewrite E2. cbn [bind]. destruct (bal_black m l1' e1 r1 W2 Wr) as (t2 & E3 & W3 & B3).
          rewrite E3. cbn [bind]. do 2 eexists; split; [reflexivity|]. split; [exact W3 | discriminate].
      + cbn [bind left_of set_left]. destruct c.
        * destruct W as (B1 & B2 & W1 & W2).
          destruct (IH l n Nl) as (l' & mm & E2 & W3 & B3); auto; [mu_lia | now apply pre_not_shift with n|].
          rewrite E2. cbn [bind]. rewrite (bal_red n) by auto. cbn [bind].
          do 2 eexists; split; [reflexivity|]. split; [simpl; auto | discriminate].
        * destruct n as [|m]; simpl in W; [tauto|]. destruct W as (B & W1 & W2).
          destruct (IH l m Nl) as (l' & mm & E2 & W3 & B3); auto; [mu_lia | now apply pre_not_shift with m|].
          rewrite E2. cbn [bind]. destruct (bal_black m l' e r W3 W2) as (t2 & E3 & W4 & B4).
          rewrite E3. cbn [bind]. do 2 eexists; split; [reflexivity|]. auto.
  Qed.

  (** Input of remove: as [pre], or a black node leaning right whose key is not above [k]. *)
  Definition rpre (n : nat) (t : rb) (k : K) : Prop :=
    (wf n t /\ pre t) \/
    (exists a e b m, t = Node Black a e b /\ n = S m /\ wf m a /\ wf m b /\
       is_red a = false /\ is_red b = true /\ is_lt (cmp k (fst e)) = false).

  Lemma rb_rem_wf f : forall t n k, sorted (inorder t) -> mu n t < f -> rpre n t k ->
    exists t' o, rb_rem f t k = Ok (t', o) /\ wf n t' /\ (is_red t = false -> is_red t' = false).
  Proof.
    induction f as [|f IH]; intros t n k S Hf HP; [lia|]. cbn [rb_rem].
    destruct t as [|c l e r].
    { do 2 eexists; split; [reflexivity|]. destruct HP as [[W _]|(a & e & b & m & X & _)]; [auto | discriminate X]. }
    cbn [inorder] in S. pose proof (proj1 (sorted_mid _ _ _) S) as (S1 & S2 & F1 & F2).
    (* the right part: remove from a black node whose right child is ready *)
    assert (RightBlack : forall m l2 e2 r2, n = Datatypes.S m -> wf m l2 -> wf m r2 -> pre r2 -> r2 <> Leaf ->
        sorted (inorder r2) -> mu m r2 < f ->
        exists t' o, (if key_is k (Node Black l2 e2 r2) then
             let* t3 := rb_combine f l2 r2 Black in let* t4 := rb_balance t3 in Ok (t4, Some e2)
           else let* (r', o) := rb_rem f (right_of (Node Black l2 e2 r2)) k in
                let* t3 := rb_balance (set_right (Node Black l2 e2 r2) r') in Ok (t3, o)) = Ok (t', o) /\
          wf n t' /\ (is_red l2 = false -> is_red t' = false)).
    { intros m l2 e2 r2 -> W1 W2 P2 N2 Sr Hr. destruct (key_is k (Node Black l2 e2 r2)).
      - unfold rb_combine. destruct (rb_remove_min_wf f r2 m N2 Hr W2 P2) as (r' & mm & E1 & W3 & B3).
        rewrite E1. cbn [bind]. destruct (bal_black m l2 mm r' W1 W3) as (t2 & E2 & W4 & B4).
        rewrite E2. cbn [bind]. do 2 eexists; split; [reflexivity|]. auto.
      - cbn [right_of set_right].
        destruct (IH r2 m k Sr Hr) as (r' & o & E1 & W3 & B3); [left; auto|].
        rewrite E1. cbn [bind]. destruct (bal_black m l2 e2 r' W1 W3) as (t2 & E2 & W4 & B4).
        rewrite E2. cbn [bind]. do 2 eexists; split; [reflexivity|]. auto. }
    destruct HP as [[W P] | (a & e0 & b & m & X & -> & Wa & Wb & Ba & Bb & Ck)].
    2:{ injection X as -> -> -> ->. rewrite Ck, Ba. cbn [bind right_of left_of].
        assert (Nb : is_none b = false) by (destruct b; [discriminate Bb | reflexivity]).
        rewrite Nb, andb_false_r.
        assert (Sh : should_shift b = false) by (destruct b as [|[] ? ? ?]; try discriminate Bb; reflexivity).
        rewrite Sh. cbn [bind].
        destruct (RightBlack m a e0 b) as (t' & o & E & W & B); auto; try mu_lia.
        - unfold pre; auto.
        - now destruct b.
        - exists t', o. split; [exact E|]. split; [exact W|]. auto. }
    destruct (is_lt (cmp k (fst e))) eqn:Ck.
    - (* into the left child *)
      destruct (should_shift l) eqn:Sh.
      + assert (c = Red).
        { destruct c; [reflexivity|]. unfold pre in P. simpl in P. destruct P as [P|[P|P]]; try discriminate P.
          destruct l as [|[] ? ? ?]; discriminate. }
        subst c. destruct (shift_left_wf n l e r W Sh) as (c1 & l1 & e1 & r1 & E1 & D).
        rewrite E1. cbn [bind left_of set_left].
        destruct (shift_left_inorder _ _ _ _ _ E1) as (? & ? & ? & ? & E1' & I1 & _). clear E1'.
        assert (Hsz : size (Node c1 l1 e1 r1) = size (Node Red l e r)) by now apply size_of_inorder.
        rewrite <- I1 in S. cbn [inorder] in S. simpl in Hsz.
        pose proof (proj1 (proj1 (sorted_mid _ _ _) S)) as Sl1.
        destruct D as [(-> & Bl & Wl & Pl & Br & Wr) | (-> & m & -> & Wl & Bl & Wr)].
        * destruct (IH l1 n k Sl1) as (l1' & o & E2 & W2 & B2); [mu_lia | left; auto |].
          rewrite E2. cbn [bind]. rewrite (bal_red n) by auto. cbn [bind].
          do 2 eexists; split; [reflexivity|]. split; [simpl; auto | discriminate].
        * destruct (IH l1 m k Sl1) as (l1' & o & E2 & W2 & B2); [mu_lia | left; unfold pre; auto|].
          rewrite E2. cbn [bind]. destruct (bal_black m l1' e1 r1 W2 Wr) as (t2 & E3 & W3 & B3).
          rewrite E3. cbn [bind]. do 2 eexists; split; [reflexivity|]. split; [exact W3 | discriminate].
      + cbn [bind left_of set_left]. destruct c.
        * destruct W as (B1 & B2 & W1 & W2).
          destruct (IH l n k S1) as (l' & mm & E2 & W3 & B3);
            [mu_lia | left; split; [exact W1 | now apply pre_not_shift with n] |].
          rewrite E2. cbn [bind]. rewrite (bal_red n) by auto. cbn [bind].
          do 2 eexists; split; [reflexivity|]. split; [simpl; auto | discriminate].
        * destruct n as [|m]; simpl in W; [tauto|]. destruct W as (B & W1 & W2).
          destruct (IH l m k S1) as (l' & mm & E2 & W3 & B3);
            [mu_lia | left; split; [exact W1 | now apply pre_not_shift with m] |].
          rewrite E2. cbn [bind]. destruct (bal_black m l' e r W3 W2) as (t2 & E3 & W4 & B4).
          rewrite E3. cbn [bind]. do 2 eexists; split; [reflexivity|]. auto.
    - (* not below the root key *)
      destruct (is_red l) eqn:Bl.
      + (* rotate a red left child to the right *)
        destruct l as [|[] cl ce cr]; try discriminate Bl.
        assert (c = Black) by (destruct c; [destruct W as (X & _); discriminate X | reflexivity]).
        subst c. destruct n as [|m]; simpl in W; [tauto|].
        destruct W as (B & (B1 & B2 & W1 & W2) & W3).
        cbn [rb_rotate_right bind right_of left_of is_none]. rewrite andb_false_r.
        cbn [should_shift bind].
        destruct (RightBlack m cl ce (Node Red cr e r)) as (t' & o & E & Wt & Bt); auto.
        * simpl. auto.
        * unfold pre. simpl. auto.
        * discriminate.
        * cbn [inorder] in *. lnorm_in S. apply sorted_mid in S. tauto.
        * simpl in *. mu_lia.
        * exists t', o. split; [exact E|]. auto.
      + cbn [bind right_of left_of].
        assert (c = Red).
        { destruct c; [reflexivity|]. unfold pre in P. simpl in P. destruct P as [P|[P|P]]; try discriminate P.
          congruence. }
        subst c. destruct W as (B1 & B2 & W1 & W2).
        destruct r as [|[] rl re rr]; [| discriminate B2 |].
        * (* no right child: n = 0, so no left child *)
          simpl in W2. subst n. destruct l as [|[] ? ? ?]; simpl in W1; try tauto; [|discriminate Bl].
          cbn [is_none]. rewrite andb_true_r. destruct (key_is k (Node Red Leaf e Leaf)) eqn:Kk.
          -- cbn. do 2 eexists; split; [reflexivity|]. simpl. auto.
          -- cbn [should_shift bind]. rewrite Kk. destruct f as [|f']; [mu_lia|]. cbn.
             do 2 eexists; split; [reflexivity|]. simpl. auto.
        * cbn [is_none]. rewrite andb_false_r. remember (Node Black rl re rr) as r eqn:Er.
          assert (Nr : r <> Leaf) by now subst.
          destruct (should_shift r) eqn:Sh.
          -- destruct (shift_right_wf n l e r) as (c1 & l1 & e1 & r1 & E1 & D);
               [simpl; auto | exact Sh |].
             rewrite E1. cbn [bind].
             destruct (shift_right_inorder _ _ _ _ _ E1) as (? & ? & ? & ? & E1' & I1 & _). clear E1'.
             assert (Hsz : size (Node c1 l1 e1 r1) = size (Node Red l e r)) by now apply size_of_inorder.
             rewrite <- I1 in S. cbn [inorder] in S. simpl in Hsz.
             pose proof (proj1 (proj2 (proj1 (sorted_mid _ _ _) S))) as Sr1.
             destruct D as [(-> & Bl1 & Wl1 & Ie & a & b & m & -> & -> & Wa & Wb & Ba & Bb)
                           |(-> & m & -> & Wl1 & Br1 & Wr1)].
             ++ assert (Kn : key_is k (Node Red l1 e1 (Node Black a e b)) = false).
                { unfold all_lt in F1. rewrite Forall_forall in F1. specialize (F1 _ Ie). simpl.
                  destruct (cmp k (fst e1)) eqn:Ck1; simpl; try reflexivity. exfalso.
                  destruct (cmp k (fst e)) eqn:Ck2; simpl in Ck; try discriminate; korder. }
                rewrite Kn. cbn [right_of set_right].
                destruct (IH (Node Black a e b) (Datatypes.S m) k Sr1) as (r' & o & E2 & W3 & B3).
                { simpl in *. mu_lia. }
                { right. exists a, e, b, m. auto 10. }
                rewrite E2. cbn [bind]. rewrite (bal_red (Datatypes.S m)) by auto. cbn [bind].
                do 2 eexists; split; [reflexivity|]. split; [|discriminate].
                change (wf (Datatypes.S m) (Node Red l1 e1 r')) with
                  (is_red l1 = false /\ is_red r' = false /\ wf (Datatypes.S m) l1 /\ wf (Datatypes.S m) r').
                auto.
             ++ destruct (RightBlack m l1 e1 r1) as (t' & o & E & Wt & Bt); auto.
                ** unfold pre; auto.
                ** intros ->; discriminate Br1.
                ** mu_lia.
                ** exists t', o. split; [exact E|]. split; [exact Wt | discriminate].
          -- cbn [bind]. pose proof (pre_not_shift n r W2 Sh) as Pr.
             assert (Brf : is_red r = false) by now subst.
             destruct (key_is k (Node Red l e r)).
             ++ unfold rb_combine. destruct (rb_remove_min_wf f r n Nr) as (r' & mm & E1 & W3 & B3);
                  auto; [mu_lia|].
                rewrite E1. cbn [bind]. rewrite (bal_red n) by auto. cbn [bind].
                do 2 eexists; split; [reflexivity|]. split; [simpl; auto | discriminate].
             ++ cbn [right_of set_right].
                destruct (IH r n k S2) as (r' & o & E1 & W3 & B3); [mu_lia | left; auto |].
                rewrite E1. cbn [bind]. rewrite (bal_red n) by auto. cbn [bind].
                do 2 eexists; split; [reflexivity|]. split; [simpl; auto | discriminate].
  Qed.

  (** The invariant kept between calls: black root (or empty) and well formed. *)
  Definition rb_inv (t : rb) : Prop := is_red t = false /\ exists n, wf n t.

  Lemma blacken_swf n t : swf n t -> exists m, wf m (blacken t).
  Proof.
    destruct t as [|[] l e r]; simpl; intros W.
    - exists 0. reflexivity.
    - exists (Datatypes.S n). tauto.
    - eauto.
  Qed.

  Lemma wf_swf n t : wf n t -> swf n t.
  Proof. destruct t as [|[] l e r]; simpl; tauto. Qed.

  Lemma rb_inv_blacken n t : swf n t -> rb_inv (blacken t).
  Proof.
    intros W. split; [destruct t; reflexivity|]. now apply blacken_swf with n.
  Qed.

  Lemma blacken_inorder t : inorder (blacken t) = inorder t.
  Proof. destruct t; reflexivity. Qed.

  Lemma fix_root_ok t : rb_inv t -> inorder (fix_root t) = inorder t /\ exists n, wf n (fix_root t) /\ pre (fix_root t).
  Proof.
    intros [B [n W]]. destruct t as [|[] l e r]; [|discriminate B|].
    - split; [reflexivity|]. exists n. split; [exact W|]. left; reflexivity.
    - simpl in W. destruct n as [|m]; [tauto|]. destruct W as (Br & W1 & W2). simpl. rewrite Br.
      destruct (is_red l) eqn:Bl; simpl.
      + split; [reflexivity|]. exists (Datatypes.S m). simpl. unfold pre. simpl. auto 10.
      + split; [reflexivity|]. exists m. simpl. unfold pre. simpl. auto 10.
  Qed.

  Lemma rb_insert_ok t k v : rb_inv t -> sorted (inorder t) ->
    exists t', rb_insert t k v = Ok (t', hd_error (at_key k (inorder t))) /\
      inorder t' = below k (inorder t) ++ (k, v) :: above k (inorder t) /\ rb_inv t'.
  Proof.
    intros [B [n W]] S. destruct (rb_ins_wf t n k v W) as (t' & o & E & Sw & _).
    destruct (rb_ins_inorder t k v t' o S E) as [Eo Ei]. unfold rb_insert. rewrite E. cbn [bind].
    rewrite <- Eo. eexists; split; [reflexivity|]. rewrite blacken_inorder. split; [exact Ei|].
    now apply rb_inv_blacken with n.
  Qed.

  Lemma wf_size n t : wf n t -> 2 ^ n <= S (size t).
  Proof.
    revert n. induction t as [|c l IHl e r IHr]; intros n W; cbn [wf size] in *.
    - subst n. simpl. lia.
    - destruct c.
      + destruct W as (_ & _ & W1 & W2). specialize (IHl _ W1). lia.
      + destruct n as [|m]; [tauto|]. destruct W as (_ & W1 & W2).
        specialize (IHl _ W1). specialize (IHr _ W2). rewrite Nat.pow_succ_r'. lia.
  Qed.

  Lemma pre_mu n t : wf n t -> pre t -> mu n t <= size t.
  Proof.
    intros W P. destruct t as [|[] l e r]; unfold mu; cbn [is_red size] in *.
    - simpl in W. lia.
    - destruct W as (_ & _ & W1 & W2). apply wf_size in W1, W2. pose proof (Nat.pow_gt_lin_r 2 n). lia.
    - destruct P as [P|[P|P]]; try discriminate P. cbn [left_of] in P. destruct n as [|m]; simpl in W; [tauto|]. destruct W as (_ & W1 & W2).
      destruct l as [|[] ll le lr]; try discriminate P. destruct W1 as (_ & _ & Wa & Wb). apply wf_size in Wa, Wb, W2. cbn [size].
      pose proof (Nat.pow_gt_lin_r 2 m). lia.
  Qed.

  Lemma rb_remove_ok t k : rb_inv t -> sorted (inorder t) ->
    exists t', rb_remove t k = Ok (t', hd_error (at_key k (inorder t))) /\
      inorder t' = below k (inorder t) ++ above k (inorder t) /\ rb_inv t'.
  Proof.
    intros Iv S. destruct (fix_root_ok t Iv) as (Ei & n & W & P). unfold rb_remove. rewrite <- Ei in *.
    destruct (rb_rem_wf (Datatypes.S (size (fix_root t))) (fix_root t) n k S) as (t' & o & E & W' & _);
      [pose proof (pre_mu _ _ W P); lia | left; auto |].
    destruct (rb_rem_inorder _ _ _ _ _ S E) as [Eo Er]. rewrite E. cbn [bind]. rewrite <- Eo.
    eexists; split; [reflexivity|]. rewrite blacken_inorder. split; [exact Er|].
    apply rb_inv_blacken with n. now apply wf_swf.
  Qed.

  Lemma shape_red t t' : shape t = shape t' -> is_red t = is_red t'.
  Proof.
    destruct t as [|c l e r], t' as [|c' l' e' r']; simpl; try discriminate; auto.
    intros E. injection E as -> _ _. reflexivity.
  Qed.

  Lemma wf_shape n t t' : shape t = shape t' -> wf n t -> wf n t'.
  Proof.
    revert n t'. induction t as [|c l IHl e r IHr]; intros n [|c' l' e' r'] E; simpl in E; try discriminate; auto.
    injection E as <- E1 E2. simpl. rewrite (shape_red _ _ E1), (shape_red _ _ E2). destruct c.
    - intros (B1 & B2 & W1 & W2). auto.
    - destruct n; [tauto|]. intros (B & W1 & W2). auto.
  Qed.

  Lemma rb_inv_shape t t' : shape t = shape t' -> rb_inv t -> rb_inv t'.
  Proof.
    intros E [B [n W]]. split; [now rewrite <- (shape_red _ _ E)|]. exists n. now apply wf_shape with t.
  Qed.

  Lemma rb_get_mut_ok t k v : rb_inv t -> sorted (inorder t) ->
    exists t', rb_get_mut_set t k v = Ok (t', hd_error (at_key k (inorder t))) /\
      inorder t' = below k (inorder t) ++ map (fun p => (fst p, v)) (at_key k (inorder t)) ++
                   above k (inorder t) /\ rb_inv t'.
  Proof.
    intros Iv S. destruct (bst_get_mut_set_spec t k v S) as (E1 & E2 & E3).
    exists (fst (bst_get_mut_set t k v)). unfold rb_get_mut_set. rewrite <- E1.
    split; [now destruct (bst_get_mut_set t k v)|]. split; [exact E2|].
    eapply rb_inv_shape; [symmetry; exact E3 | exact Iv].
  Qed.

  Lemma rb_inv_leaf : rb_inv Leaf.
  Proof. split; [reflexivity|]. exists 0. reflexivity. Qed.

  Lemma rb_refines (ops : list (map_op K V)) : outputs rb_step rb_new ops = Ok (map_spec_outputs ops).
  Proof.
    apply (bmap_refines rb_insert rb_remove rb_get_mut_set rb_inv);
      [apply rb_inv_leaf | apply rb_inv_shape | intros t k v; apply rb_insert_ok
      | intros t k; apply rb_remove_ok | intros t k v; apply rb_get_mut_ok].
  Qed.

  Lemma rb_reachable (ops : list (map_op K V)) (b : rb_map) outs :
    run rb_step rb_new ops = Ok (b, outs) -> rb_inv (bm_tree b).
  Proof.
    intros E. apply (bmap_reachable rb_insert rb_remove rb_get_mut_set rb_inv) in E;
      [tauto | apply rb_inv_leaf | apply rb_inv_shape | intros t k v; apply rb_insert_ok
      | intros t k; apply rb_remove_ok | intros t k v; apply rb_get_mut_ok].
  Qed.

  (** ** The invariant is the documented one, and bounds the depth. *)

  Lemma root_red_is_red t : root_red red_color t = is_red t.
  Proof. destruct t as [|[] l e r]; reflexivity. Qed.

  Lemma wf_red_ok n t : wf n t -> red_ok red_color t.
  Proof.
    revert n. induction t as [|c l IHl e r IHr]; intros n; simpl; [auto|]. rewrite !root_red_is_red.
    destruct c; simpl.
    - intros (B1 & B2 & W1 & W2). repeat split; eauto.
    - destruct n as [|m]; [tauto|]. intros (B & W1 & W2). repeat split; eauto. discriminate.
  Qed.

  Lemma wf_counts n t : wf n t -> forall x, In x (black_counts red_color t) -> x = n.
  Proof.
    revert n. induction t as [|c l IHl e r IHr]; intros n W x; simpl in *.
    - intros [<-|[]]. auto.
    - rewrite in_map_iff. setoid_rewrite in_app_iff. intros (y & Ey & Hy). destruct c; simpl in *.
      + subst y. destruct W as (_ & _ & W1 & W2). destruct Hy; eauto.
      + destruct n as [|m]; [tauto|]. destruct W as (_ & W1 & W2). subst x. f_equal. destruct Hy; eauto.
  Qed.

  Lemma wf_depth n t : wf n t -> depth t <= 2 * n + (if is_red t then 1 else 0).
  Proof.
    revert n. induction t as [|c l IHl e r IHr]; intros n W; cbn [wf depth] in *.
    - lia.
    - destruct c; cbn [is_red].
      + destruct W as (B1 & B2 & W1 & W2). specialize (IHl _ W1). specialize (IHr _ W2).
        rewrite B1 in IHl. rewrite B2 in IHr. lia.
      + destruct n as [|m]; [tauto|]. destruct W as (_ & W1 & W2).
        specialize (IHl _ W1). specialize (IHr _ W2). destruct (is_red l), (is_red r); lia.
  Qed.

  Lemma rb_inv_balanced t : rb_inv t -> rb_balanced red_color t /\ log_depth t.
  Proof.
    intros [B [n W]]. split.
    - split; [now rewrite root_red_is_red|]. split; [now apply wf_red_ok with n|].
      intros x y Hx Hy. rewrite (wf_counts _ _ W x Hx), (wf_counts _ _ W y Hy). reflexivity.
    - unfold log_depth. pose proof (wf_depth _ _ W) as D. rewrite B in D. pose proof (wf_size _ _ W) as Sz.
      apply Nat.log2_le_mono in Sz. rewrite Nat.log2_pow2 in Sz by lia. lia.
  Qed.

  Lemma rb_reachable_balanced (ops : list (map_op K V)) (b : rb_map) outs :
    run rb_step rb_new ops = Ok (b, outs) -> rb_balanced red_color (bm_tree b) /\ log_depth (bm_tree b).
  Proof. intros E. apply rb_inv_balanced. eapply rb_reachable; eauto. Qed.
End RbProofs.
