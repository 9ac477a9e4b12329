(** Proofs about AvlModel.v. *)
From Verif Require Export AvlModel BstProofs ShapeSpec.
From Verif Require Import KeyInstances.

Local Arguments Nat.max : simpl never.

Section AvlProofs.
  Context {K V : Type} `{CmpLaws K}.
  Notation avl := (tree nat K V).
  Implicit Types (t l r : avl) (e : K * V) (k : K).

  Lemma avl_update_inorder t : inorder (avl_update t) = inorder t.
  Proof. destruct t; reflexivity. Qed.

  Lemma avl_rotate_left_ok h l e r : r <> Leaf ->
    exists t', avl_rotate_left (Node h l e r) = Ok t' /\ inorder t' = inorder l ++ e :: inorder r /\ t' <> Leaf.
  Proof.
    destruct r as [|hc cl ce cr]; [congruence|]. intros _. simpl. eexists; split; [reflexivity|].
    split; [|discriminate]. simpl. rewrite <- app_assoc. reflexivity.
  Qed.

  Lemma avl_rotate_right_ok h l e r : l <> Leaf ->
    exists t', avl_rotate_right (Node h l e r) = Ok t' /\ inorder t' = inorder l ++ e :: inorder r /\ t' <> Leaf.
  Proof.
    destruct l as [|hc cl ce cr]; [congruence|]. intros _. simpl. eexists; split; [reflexivity|].
    split; [|discriminate]. simpl. rewrite <- app_assoc. reflexivity.
  Qed.

  Lemma height_pos t : 0 < height t -> t <> Leaf.
  Proof. destruct t; simpl; [lia | discriminate]. Qed.

  Lemma avl_balance_ok t : exists t', avl_balance t = Ok t' /\ inorder t' = inorder t.
  Proof.
    destruct t as [|h0 l e r]; [exists Leaf; split; reflexivity|].
    unfold avl_balance. cbn [avl_update]. set (h := S (Nat.max (height l) (height r))). clearbody h.
    change (avl_bal (Node h l e r)) with (Z.of_nat (height l) - Z.of_nat (height r))%Z. cbv zeta.
    destruct (1 <? Z.of_nat (height l) - Z.of_nat (height r))%Z eqn:B1.
    - apply Z.ltb_lt in B1.
      assert (Hl : exists l', match l with Leaf => Ok Leaf
                  | _ => if (avl_bal l <? 0)%Z then avl_rotate_left l else Ok l end = Ok l' /\
                  inorder l' = inorder l /\ l' <> Leaf).
      { destruct l as [|hl ll le lr]; [simpl in B1; lia|].
        destruct (avl_bal (Node hl ll le lr) <? 0)%Z eqn:B2.
        - apply Z.ltb_lt in B2. simpl in B2.
          apply avl_rotate_left_ok. apply height_pos. lia.
        - eexists; repeat split; discriminate. }
      destruct Hl as (l' & El & Il & Nl). rewrite El. cbn [bind].
      destruct (avl_rotate_right_ok h l' e r Nl) as (t' & E1 & E2 & _).
      rewrite E1. eexists; split; [reflexivity|]. simpl. now rewrite E2, Il.
    - destruct (Z.of_nat (height l) - Z.of_nat (height r) <? -1)%Z eqn:B2; [|eauto].
      apply Z.ltb_lt in B2.
      assert (Hr : exists r', match r with Leaf => Ok Leaf
                  | _ => if (0 <? avl_bal r)%Z then avl_rotate_right r else Ok r end = Ok r' /\
                  inorder r' = inorder r /\ r' <> Leaf).
      { destruct r as [|hl ll le lr]; [simpl in B2; lia|].
        destruct (0 <? avl_bal (Node hl ll le lr))%Z eqn:B3.
        - apply Z.ltb_lt in B3. simpl in B3.
          apply avl_rotate_right_ok. apply height_pos. lia.
        - eexists; repeat split; discriminate. }
      destruct Hr as (r' & Er & Ir & Nr). rewrite Er. cbn [bind].
      destruct (avl_rotate_left_ok h l e r' Nr) as (t' & E1 & E2 & _).
      rewrite E1. eexists; split; [reflexivity|]. simpl. now rewrite E2, Ir.
  Qed.

  Lemma avl_remove_min_ok t : t <> Leaf ->
    exists t' h m, avl_remove_min t = Ok (t', (h, m)) /\ inorder t = m :: inorder t'.
  Proof.
    induction t as [|h l IHl e r IHr]; [congruence|]. intros _. simpl.
    destruct l as [|hl ll le lr].
    - exists r, h, e. auto.
    - destruct IHl as (l' & h' & m & E1 & E2); [discriminate|]. rewrite E1. simpl.
      exists (Node h l' e r), h', m. split; [reflexivity|]. simpl in E2. rewrite E2. reflexivity.
  Qed.

  Lemma avl_insert_ok t k v : sorted (inorder t) ->
    exists t', avl_insert t k v = Ok (t', hd_error (at_key k (inorder t))) /\
      inorder t' = below k (inorder t) ++ (k, v) :: above k (inorder t).
  Proof.
    induction t as [|h l IHl e r IHr]; simpl; intros S.
    - eexists; split; [reflexivity|]. reflexivity.
    - pose proof (proj1 (sorted_mid _ _ _) S) as (S1 & S2 & F1 & F2).
      destruct (cmp k (fst e)) eqn:Ck.
      + destruct (pieces_eq _ _ _ _ S Ck) as (E1 & E2 & E3). rewrite E1, E2, E3.
        eexists; split; reflexivity.
      + destruct (pieces_lt _ _ _ _ S Ck) as (E1 & E2 & E3). rewrite E1, E2, E3.
        destruct (IHl S1) as (l' & I1 & I2). rewrite I1. cbn [bind].
        destruct (avl_balance_ok (Node h l' e r)) as (t' & B1 & B2). rewrite B1. cbn [bind].
        eexists; split; [reflexivity|]. rewrite B2. simpl. rewrite I2, <- app_assoc. reflexivity.
      + destruct (pieces_gt _ _ _ _ S Ck) as (E1 & E2 & E3). rewrite E1, E2, E3.
        destruct (IHr S2) as (r' & I1 & I2). rewrite I1. cbn [bind].
        destruct (avl_balance_ok (Node h l e r')) as (t' & B1 & B2). rewrite B1. cbn [bind].
        eexists; split; [reflexivity|]. rewrite B2. simpl. rewrite I2, <- app_assoc. reflexivity.
  Qed.

  Lemma avl_remove_ok t k : sorted (inorder t) ->
    exists t', avl_remove t k = Ok (t', hd_error (at_key k (inorder t))) /\
      inorder t' = below k (inorder t) ++ above k (inorder t).
  Proof.
    induction t as [|h l IHl e r IHr]; simpl; intros S.
    - eexists; split; reflexivity.
    - pose proof (proj1 (sorted_mid _ _ _) S) as (S1 & S2 & F1 & F2).
      destruct (cmp k (fst e)) eqn:Ck.
      + destruct (pieces_eq _ _ _ _ S Ck) as (E1 & E2 & E3). rewrite E1, E2, E3.
        assert (Hc : exists t1, match l, r with
                       | Leaf, _ => Ok r
                       | _, Leaf => Ok l
                       | _, _ => avl_combine l r
                       end = Ok t1 /\ inorder t1 = inorder l ++ inorder r).
        { destruct l as [|hl ll le lr]; [eexists; split; reflexivity|].
          destruct r as [|hr rl re rr]; [eexists; split; [reflexivity|]; now rewrite app_nil_r|].
          unfold avl_combine.
          destruct (avl_remove_min_ok (Node hr rl re rr)) as (r' & h' & m & M1 & M2); [discriminate|].
          rewrite M1. cbn [bind]. eexists; split; [reflexivity|]. rewrite M2. reflexivity. }
        destruct Hc as (t1 & C1 & C2). rewrite C1. cbn [bind].
        destruct (avl_balance_ok t1) as (t' & B1 & B2). rewrite B1. cbn [bind].
        eexists; split; [reflexivity|]. now rewrite B2.
      + destruct (pieces_lt _ _ _ _ S Ck) as (E1 & E2 & E3). rewrite E1, E2, E3.
        destruct (IHl S1) as (l' & I1 & I2). rewrite I1. cbn [bind].
        destruct (avl_balance_ok (Node h l' e r)) as (t' & B1 & B2). rewrite B1. cbn [bind].
        eexists; split; [reflexivity|]. rewrite B2. simpl. rewrite I2, <- app_assoc. reflexivity.
      + destruct (pieces_gt _ _ _ _ S Ck) as (E1 & E2 & E3). rewrite E1, E2, E3.
        destruct (IHr S2) as (r' & I1 & I2). rewrite I1. cbn [bind].
        destruct (avl_balance_ok (Node h l e r')) as (t' & B1 & B2). rewrite B1. cbn [bind].
        eexists; split; [reflexivity|]. rewrite B2. simpl. rewrite I2, <- app_assoc. reflexivity.
  Qed.

  Lemma avl_get_mut_ok t k v : sorted (inorder t) ->
    exists t', avl_get_mut_set t k v = Ok (t', hd_error (at_key k (inorder t))) /\
      inorder t' = below k (inorder t) ++ map (fun p => (fst p, v)) (at_key k (inorder t)) ++
                   above k (inorder t) /\ shape t' = shape t.
  Proof.
    intros S. destruct (bst_get_mut_set_spec t k v S) as (E1 & E2 & E3).
    exists (fst (bst_get_mut_set t k v)). unfold avl_get_mut_set. rewrite <- E1.
    destruct (bst_get_mut_set t k v); auto.
  Qed.

  Lemma avl_refines (ops : list (map_op K V)) : outputs avl_step avl_new ops = Ok (map_spec_outputs ops).
  Proof.
    apply (bmap_refines avl_insert avl_remove avl_get_mut_set (fun _ => True)); auto.
    - intros t k v _ S. destruct (avl_insert_ok t k v S) as (t' & E1 & E2). eauto.
    - intros t k _ S. destruct (avl_remove_ok t k S) as (t' & E1 & E2). eauto.
    - intros t k v _ S. destruct (avl_get_mut_ok t k v S) as (t' & E1 & E2 & _). eauto.
  Qed.

  (** ** Balance as long as nothing is removed *)
  (** Stored heights are the real ones, and the tree is balanced. *)
  Fixpoint avl_wf (t : avl) : Prop :=
    match t with
    | Leaf => True
    | Node h l _ r =>
        avl_wf l /\ avl_wf r /\ h = S (Nat.max (height l) (height r)) /\
        height l <= S (height r) /\ height r <= S (height l)
    end.

  Lemma avl_wf_height t : avl_wf t -> height t = depth t.
  Proof.
    induction t as [|h l IHl e r IHr]; simpl; [auto|]. intros (W1 & W2 & E & _). rewrite E.
    now rewrite IHl, IHr.
  Qed.

  Lemma avl_wf_balanced t : avl_wf t -> avl_balanced t.
  Proof.
    induction t as [|h l IHl e r IHr]; simpl; [auto|]. intros (W1 & W2 & E & B1 & B2).
    rewrite (avl_wf_height l W1), (avl_wf_height r W2) in *. auto.
  Qed.

  (** One side is out of balance by at most two: balance restores the invariant. *)
  Lemma avl_balance_wf h l e r t' :
    avl_wf l -> avl_wf r -> height l <= 2 + height r -> height r <= 2 + height l ->
    avl_balance (Node h l e r) = Ok t' ->
    avl_wf t' /\
    (height l <= S (height r) -> height r <= S (height l) ->
       height t' = S (Nat.max (height l) (height r))) /\
    Nat.max (height l) (height r) <= height t' <= S (Nat.max (height l) (height r)).
  Proof.
    intros Wl Wr D1 D2. unfold avl_balance. cbn [avl_update]. set (h1 := S (Nat.max (height l) (height r))).
    assert (Eh : h1 = S (Nat.max (height l) (height r))) by reflexivity. clearbody h1.
    change (avl_bal (Node h1 l e r)) with (Z.of_nat (height l) - Z.of_nat (height r))%Z. cbv zeta.
    destruct (1 <? Z.of_nat (height l) - Z.of_nat (height r))%Z eqn:B1.
    - apply Z.ltb_lt in B1. destruct l as [|hl ll le lr]; [simpl in B1; lia|].
      simpl in Wl. destruct Wl as (Wll & Wlr & Ehl & Bl1 & Bl2).
      destruct (avl_bal (Node hl ll le lr) <? 0)%Z eqn:B2; cbn [avl_bal] in B2.
      + apply Z.ltb_lt in B2. destruct lr as [|hlr lrl lre lrr]; [simpl in B2; lia|].
        simpl in Wlr. destruct Wlr as (Wlrl & Wlrr & Ehlr & Blr1 & Blr2).
        cbn. intros E. injection E as <-. simpl in *. subst.
        repeat split; auto; simpl; try lia.
      + apply Z.ltb_ge in B2. cbn. intros E. injection E as <-. simpl in *. subst.
        repeat split; auto; simpl; try lia.
    - apply Z.ltb_ge in B1.
      destruct (Z.of_nat (height l) - Z.of_nat (height r) <? -1)%Z eqn:B2.
      + apply Z.ltb_lt in B2. destruct r as [|hr rl re rr]; [simpl in B2; lia|].
        simpl in Wr. destruct Wr as (Wrl & Wrr & Ehr & Br1 & Br2).
        destruct (0 <? avl_bal (Node hr rl re rr))%Z eqn:B3; cbn [avl_bal] in B3.
        * apply Z.ltb_lt in B3. destruct rl as [|hrl rll rle rlr]; [simpl in B3; lia|].
          simpl in Wrl. destruct Wrl as (Wrll & Wrlr & Ehrl & Brl1 & Brl2).
          cbn. intros E. injection E as <-. simpl in *. subst.
          repeat split; auto; simpl; try lia.
        * apply Z.ltb_ge in B3. cbn. intros E. injection E as <-. simpl in *. subst.
          repeat split; auto; simpl; try lia.
      + apply Z.ltb_ge in B2. intros E. injection E as <-. simpl. repeat split; auto; lia.
  Qed.

  Lemma avl_insert_wf t k v t' o : avl_wf t -> avl_insert t k v = Ok (t', o) ->
    avl_wf t' /\ height t <= height t' <= S (height t).
  Proof.
    revert t' o. induction t as [|h l IHl e r IHr]; simpl; intros t' o.
    - intros _ E. injection E as <- <-. simpl. repeat split; auto; lia.
    - intros (W1 & W2 & Eh & B1 & B2). destruct (cmp k (fst e)).
      + intros E. injection E as <- <-. simpl. repeat split; auto; lia.
      + destruct (avl_insert l k v) as [[l' ol]| |] eqn:El; cbn [bind]; try discriminate.
        destruct (IHl l' ol W1 eq_refl) as (Wl' & Hl').
        destruct (avl_balance (Node h l' e r)) as [t1| |] eqn:Eb; cbn [bind]; try discriminate.
        intros E. injection E as <- <-.
        destruct (avl_balance_wf h l' e r t1) as (Wt & Hsame & Hb); auto; try lia. split; [exact Wt|]. lia.
      + destruct (avl_insert r k v) as [[r' or]| |] eqn:El; cbn [bind]; try discriminate.
        destruct (IHr r' or W2 eq_refl) as (Wr' & Hr').
        destruct (avl_balance (Node h l e r')) as [t1| |] eqn:Eb; cbn [bind]; try discriminate.
        intros E. injection E as <- <-.
        destruct (avl_balance_wf h l e r' t1) as (Wt & Hsame & Hb); auto; try lia. split; [exact Wt|]. lia.
  Qed.
  Lemma avl_wf_shape t t' : shape t = shape t' -> avl_wf t -> avl_wf t' /\ height t' = height t.
  Proof.
    revert t'. induction t as [|h l IHl e r IHr]; intros [|h' l' e' r'] E; simpl in E; try discriminate; auto.
    injection E as -> E1 E2. simpl. intros (W1 & W2 & Eh & B1 & B2).
    destruct (IHl _ E1 W1) as [W1' Hl']. destruct (IHr _ E2 W2) as [W2' Hr'].
    rewrite Hl', Hr'. repeat split; auto.
  Qed.

  Definition is_remove (o : map_op K V) : bool := match o with MRemove _ => true | _ => false end.

  Lemma avl_step_wf m o m' out : is_remove o = false -> avl_wf (bm_tree m) ->
    avl_step m o = Ok (m', out) -> avl_wf (bm_tree (K:=K) (V:=V) m').
  Proof.
    intros Nr W. unfold avl_step, bmap_step. destruct o; try discriminate Nr.
    - unfold bmap_insert. destruct (avl_insert (bm_tree m) k v) as [[t' o]| |] eqn:E; try discriminate.
      cbn [bind]. destruct (avl_insert_wf _ _ _ _ _ W E) as [W' _].
      destruct o; cbn; intros E'; injection E' as <- <-; exact W'.
    - intros E; injection E as <- <-; exact W.
    - unfold bmap_get_mut_set, avl_get_mut_set. cbn [bind].
      pose proof (bst_get_mut_set_shape (bm_tree m) k v) as Sh.
      destruct (bst_get_mut_set (bm_tree m) k v) as [t' o]. cbn. intros E; injection E as <- <-. cbn.
      eapply avl_wf_shape; [symmetry; exact Sh | exact W].
    - intros E; injection E as <- <-; exact W.
    - intros E; injection E as <- <-; exact W.
    - intros E; injection E as <- <-; exact W.
    - intros E; injection E as <- <-; exact W.
    - intros E; injection E as <- <-; exact W.
    - intros E; injection E as <- <-; exact W.
    - intros E; injection E as <- <-; exact W.
    - intros E; injection E as <- <-; exact W.
    - intros E; injection E as <- <-. exact I.
    - rewrite iter_all_spec. cbn. intros E; injection E as <- <-; exact W.
    - destruct (itermut_run_spec (bm_tree m) vs) as (t' & E1 & E2 & _). rewrite E1. cbn.
      intros E; injection E as <- <-. cbn. eapply avl_wf_shape; [symmetry; exact E2 | exact W].
    - rewrite iter_all_spec. cbn. intros E; injection E as <- <-. exact I.
  Qed.

  Lemma fib_SS n : fib (S (S n)) = fib (S n) + fib n.
  Proof. reflexivity. Qed.

  Lemma fib_mono n m : n <= m -> fib n <= fib m.
  Proof.
    induction 1 as [|m L IH]; [lia|]. destruct m as [|m]; [simpl in *; lia|]. rewrite fib_SS. lia.
  Qed.

  Lemma avl_balanced_fib t : avl_balanced t -> fib_depth t.
  Proof.
    unfold fib_depth. induction t as [|h l IHl e r IHr]; cbn [depth size avl_balanced]; [simpl; lia|].
    intros (B1 & B2 & D1 & D2). specialize (IHl B1). specialize (IHr B2).
    replace (S (Nat.max (depth l) (depth r)) + 2) with (S (S (S (Nat.max (depth l) (depth r))))) by lia.
    rewrite fib_SS.
    rewrite Nat.add_comm in IHl. rewrite (Nat.add_comm _ 2) in IHr. cbn [Nat.add] in IHl, IHr.
    destruct (Nat.le_gt_cases (depth l) (depth r)) as [L|L].
    - rewrite Nat.max_r by exact L.
      pose proof (fib_mono (S (depth r)) (S (S (depth l))) ltac:(lia)) as M. lia.
    - rewrite Nat.max_l by lia.
      pose proof (fib_mono (S (depth l)) (S (S (depth r))) ltac:(lia)) as M. lia.
  Qed.

End AvlProofs.

(** Removing a node with two children moves the successor up without rebalancing
    (avl_tree/tree.rs remove_min), after which stored heights are stale. *)
Lemma avl_unbalanced_witness : exists (ops : list (map_op nat nat)) m outs,
  run avl_step avl_new ops = Ok (m, outs) /\ ~ avl_balanced (bm_tree m) /\ ~ fib_depth (bm_tree m).
Proof.
  exists [MInsert 23 0; MInsert 28 0; MInsert 2 0; MInsert 27 0; MInsert 16 0; MRemove 23; MInsert 21 0; MInsert 24 0].
  eexists. eexists. split; [vm_compute; reflexivity|]. split.
  - intros B. vm_compute in B. firstorder lia.
  - intros B. vm_compute in B. lia.
Qed.
