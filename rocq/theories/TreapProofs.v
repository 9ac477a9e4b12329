(** Proofs about TreapModel.v. *)
From Verif Require Export TreapModel BstProofs ShapeSpec SetAlgLemmas.
From Coq Require Import NArith.

(** Priority field of a node. *)
Definition tprio (a : N * nat) : N := fst a.

Section TreapProofs.
  Context {K V : Type} `{CmpLaws K}.
  Notation treap := (tree (N * nat) K V).
  Implicit Types (t l r lt rt : treap) (e : K * V) (k : K) (p q : N).

  (** Stored lengths are the real sizes. *)
  Fixpoint len_ok (t : treap) : Prop :=
    match t with
    | Leaf => True
    | Node (_, n) l _ r => n = S (size l + size r) /\ len_ok l /\ len_ok r
    end.

  Lemma len_ok_size t : len_ok t -> t_len t = size t.
  Proof. destruct t as [|[p n] l e r]; simpl; tauto. Qed.

  Lemma t_upd_len p l e r : len_ok l -> len_ok r -> len_ok (t_upd p l e r).
  Proof. intros Hl Hr. simpl. rewrite (len_ok_size l Hl), (len_ok_size r Hr). auto. Qed.

  Notation heap := (heap_ordered tprio).
  Notation rle := (root_le tprio).

  Lemma rle_trans p q t : rle p t -> (p <= q)%N -> rle q t.
  Proof. destruct t; simpl; [auto|]. intros. eapply N.le_trans; eauto. Qed.

  Lemma t_upd_heap p l e r : rle p l -> rle p r -> heap l -> heap r -> heap (t_upd p l e r).
  Proof. simpl. auto. Qed.

  (** ** merge *)
  Lemma t_merge_eq lt rt : t_merge lt rt =
    match lt, rt with
    | Node (pl, nl) ll le lr, Node (pr, nr) rl re rr =>
        if (pr <? pl)%N then t_upd pl ll le (t_merge lr rt) else t_upd pr (t_merge lt rl) re rr
    | _, Leaf => lt
    | Leaf, _ => rt
    end.
  Proof. destruct lt as [|[pl nl] ll le lr], rt as [|[pr nr] rl re rr]; reflexivity. Qed.

  Lemma t_merge_ind (P : treap -> treap -> treap -> Prop) :
    (forall rt, P Leaf rt rt) -> (forall lt, P lt Leaf lt) ->
    (forall pl nl ll le lr pr nr rl re rr, (pr < pl)%N ->
       P lr (Node (pr, nr) rl re rr) (t_merge lr (Node (pr, nr) rl re rr)) ->
       P (Node (pl, nl) ll le lr) (Node (pr, nr) rl re rr)
         (t_upd pl ll le (t_merge lr (Node (pr, nr) rl re rr)))) ->
    (forall pl nl ll le lr pr nr rl re rr, (pl <= pr)%N ->
       P (Node (pl, nl) ll le lr) rl (t_merge (Node (pl, nl) ll le lr) rl) ->
       P (Node (pl, nl) ll le lr) (Node (pr, nr) rl re rr)
         (t_upd pr (t_merge (Node (pl, nl) ll le lr) rl) re rr)) ->
    forall lt rt, P lt rt (t_merge lt rt).
  Proof.
    intros H1 H2 H3 H4 lt. induction lt as [|[pl nl] ll IHll le lr IHlr]; intros rt.
    - rewrite t_merge_eq. destruct rt; apply H1.
    - induction rt as [|[pr nr] rl IHrl re rr IHrr].
      + rewrite t_merge_eq. apply H2.
      + rewrite t_merge_eq. destruct (pr <? pl)%N eqn:Pr.
        * apply H3; [now apply N.ltb_lt | apply IHlr].
        * apply H4; [now apply N.ltb_ge | apply IHrl].
  Qed.

  Lemma t_merge_inorder lt rt : inorder (t_merge lt rt) = inorder lt ++ inorder rt.
  Proof.
    apply (t_merge_ind (fun lt rt t => inorder t = inorder lt ++ inorder rt)).
    - reflexivity.
    - intros t. now rewrite app_nil_r.
    - intros pl nl ll le lr pr nr rl re rr _ IH. simpl in *. rewrite IH. lnorm. reflexivity.
    - intros pl nl ll le lr pr nr rl re rr _ IH. simpl in *. rewrite IH. lnorm. reflexivity.
  Qed.

  Lemma t_merge_prio lt rt :
    inorder_prio tprio (t_merge lt rt) = inorder_prio tprio lt ++ inorder_prio tprio rt.
  Proof.
    apply (t_merge_ind (fun lt rt t => inorder_prio tprio t = inorder_prio tprio lt ++ inorder_prio tprio rt)).
    - reflexivity.
    - intros t. now rewrite app_nil_r.
    - intros pl nl ll le lr pr nr rl re rr _ IH. simpl in *. rewrite IH. lnorm. reflexivity.
    - intros pl nl ll le lr pr nr rl re rr _ IH. simpl in *. rewrite IH. lnorm. reflexivity.
  Qed.

  Lemma t_merge_len lt rt : len_ok lt -> len_ok rt -> len_ok (t_merge lt rt).
  Proof.
    apply (t_merge_ind (fun lt rt t => len_ok lt -> len_ok rt -> len_ok t)); auto.
    - intros pl nl ll le lr pr nr rl re rr _ IH (E1 & L1 & L2) L3. apply t_upd_len; auto.
    - intros pl nl ll le lr pr nr rl re rr _ IH L1 (E1 & L2 & L3). apply t_upd_len; auto.
  Qed.

  Lemma t_merge_heap lt rt : heap lt -> heap rt ->
    heap (t_merge lt rt) /\ forall p, rle p lt -> rle p rt -> rle p (t_merge lt rt).
  Proof.
    apply (t_merge_ind (fun lt rt t => heap lt -> heap rt -> heap t /\ forall p, rle p lt -> rle p rt -> rle p t)).
    - intros t0 _ Hr. auto.
    - intros t0 Hl _. auto.
    - intros pl nl ll le lr pr nr rl re rr Lt IH (R1 & R2 & H1 & H2) Hr.
      destruct (IH H2 Hr) as [Hh Hb]. split; [|simpl; auto].
      apply t_upd_heap; auto. apply Hb; [exact R2|]. simpl. unfold tprio. simpl. lia.
    - intros pl nl ll le lr pr nr rl re rr Le IH Hl (R1 & R2 & H1 & H2).
      destruct (IH Hl H1) as [Hh Hb]. split; [|simpl; auto].
      apply t_upd_heap; auto.
  Qed.

  (** ** split *)
  Lemma t_split_spec t k : sorted (inorder t) ->
    let '(l, (d, g)) := t_split t k in
    inorder l = below k (inorder t) /\ inorder d = at_key k (inorder t) /\ inorder g = above k (inorder t).
  Proof.
    induction t as [|[p n] l IHl e r IHr]; simpl; intros S; [auto|].
    pose proof (proj1 (sorted_mid _ _ _) S) as (S1 & S2 & F1 & F2).
    destruct (cmp k (fst e)) eqn:Ck.
    - destruct (pieces_eq _ _ _ _ S Ck) as (E1 & E2 & E3). rewrite E1, E2, E3. auto.
    - destruct (pieces_lt _ _ _ _ S Ck) as (E1 & E2 & E3). rewrite E1, E2, E3.
      specialize (IHl S1). destruct (t_split l k) as [l' [d g]]. destruct IHl as (I1 & I2 & I3).
      simpl. rewrite I3. auto.
    - destruct (pieces_gt _ _ _ _ S Ck) as (E1 & E2 & E3). rewrite E1, E2, E3.
      specialize (IHr S2). destruct (t_split r k) as [r' [d g]]. destruct IHr as (I1 & I2 & I3).
      simpl. rewrite I1. auto.
  Qed.

  Lemma t_split_len t k : len_ok t ->
    let '(l, (d, g)) := t_split t k in len_ok l /\ len_ok d /\ len_ok g.
  Proof.
    induction t as [|[p n] l IHl e r IHr]; cbn [t_split]; intros L; [auto|].
    destruct L as (_ & L1 & L2). destruct (cmp k (fst e)).
    - simpl. auto.
    - specialize (IHl L1). destruct (t_split l k) as [l' [d g]]. destruct IHl as (I1 & I2 & I3).
      split; [exact I1|]. split; [exact I2|]. now apply t_upd_len.
    - specialize (IHr L2). destruct (t_split r k) as [r' [d g]]. destruct IHr as (I1 & I2 & I3).
      split; [|auto]. now apply t_upd_len.
  Qed.

  Lemma t_split_heap t k : heap t ->
    let '(l, (d, g)) := t_split t k in heap l /\ heap d /\ heap g /\
      forall p, rle p t -> rle p l /\ rle p d /\ rle p g.
  Proof.
    induction t as [|[q n] l IHl e r IHr]; cbn [t_split]; intros Hh; [simpl; auto 10|].
    destruct Hh as (R1 & R2 & H1 & H2). destruct (cmp k (fst e)).
    - simpl. repeat split; auto; eapply rle_trans; eauto.
    - specialize (IHl H1). destruct (t_split l k) as [l' [d g]]. destruct IHl as (I1 & I2 & I3 & I4).
      destruct (I4 _ R1) as (B1 & B2 & B3). repeat split; auto; simpl; auto;
        try (eapply rle_trans; eauto; fail).
    - specialize (IHr H2). destruct (t_split r k) as [r' [d g]]. destruct IHr as (I1 & I2 & I3 & I4).
      destruct (I4 _ R2) as (B1 & B2 & B3). repeat split; auto; simpl; auto;
        try (eapply rle_trans; eauto; fail).
  Qed.

  Lemma t_entry_single t (l : list (K * V)) : inorder t = l -> length l <= 1 -> t_entry t = hd_error l.
  Proof.
    intros <- L. destruct t as [|a tl e tr]; [reflexivity|]. simpl in *.
    destruct (inorder tl) as [|x xs]; [reflexivity|]. simpl in L. rewrite app_length in L. simpl in L. lia.
  Qed.

  Lemma at_len (l : list (K * V)) k : sorted l -> length (at_key k l) <= 1.
  Proof. intros S. destruct (at_key_cases l k S) as [->|(e & -> & _)]; simpl; lia. Qed.

  (** ** insert, remove *)
  Lemma t_insert_spec t k v p : sorted (inorder t) ->
    snd (t_insert t k v p) = hd_error (at_key k (inorder t)) /\
    inorder (fst (t_insert t k v p)) = below k (inorder t) ++ (k, v) :: above k (inorder t).
  Proof.
    induction t as [|[q n] l IHl e r IHr]; intros S; [simpl; auto|]. cbn [t_insert].
    destruct (p <=? q)%N.
    - cbn [inorder] in *. pose proof (proj1 (sorted_mid _ _ _) S) as (S1 & S2 & F1 & F2).
      destruct (cmp k (fst e)) eqn:Ck.
      + destruct (pieces_eq _ _ _ _ S Ck) as (E1 & E2 & E3). rewrite E1, E2, E3. auto.
      + destruct (pieces_lt _ _ _ _ S Ck) as (E1 & E2 & E3). rewrite E1, E2, E3.
        specialize (IHl S1). destruct (t_insert l k v p) as [l' o]. simpl in *. destruct IHl as [I1 I2].
        split; [exact I1|]. rewrite I2. lnorm. reflexivity.
      + destruct (pieces_gt _ _ _ _ S Ck) as (E1 & E2 & E3). rewrite E1, E2, E3.
        specialize (IHr S2). destruct (t_insert r k v p) as [r' o]. simpl in *. destruct IHr as [I1 I2].
        split; [exact I1|]. rewrite I2. lnorm. reflexivity.
    - pose proof (t_split_spec (Node (q, n) l e r) k S) as Sp.
      destruct (t_split (Node (q, n) l e r) k) as [l' [d g]]. destruct Sp as (I1 & I2 & I3).
      simpl fst; simpl snd. split; [apply t_entry_single; [exact I2 | now apply at_len]|].
      cbn [t_upd inorder]. now rewrite I1, I3.
  Qed.

  Lemma t_insert_len t k v p : len_ok t -> len_ok (fst (t_insert t k v p)).
  Proof.
    induction t as [|[q n] l IHl e r IHr]; intros L; [simpl; auto|]. cbn [t_insert].
    destruct (p <=? q)%N.
    - destruct L as (E & L1 & L2). destruct (cmp k (fst e)).
      + simpl. auto.
      + specialize (IHl L1). destruct (t_insert l k v p). now apply t_upd_len.
      + specialize (IHr L2). destruct (t_insert r k v p). now apply t_upd_len.
    - pose proof (t_split_len _ k L) as Sp. destruct (t_split (Node (q, n) l e r) k) as [l' [d g]].
      destruct Sp as (I1 & I2 & I3). now apply t_upd_len.
  Qed.

  Lemma t_insert_heap t k v p : heap t ->
    heap (fst (t_insert t k v p)) /\ forall q, rle q t -> (p <= q)%N -> rle q (fst (t_insert t k v p)).
  Proof.
    induction t as [|[q n] l IHl e r IHr]; intros Hh; [simpl; auto|]. cbn [t_insert].
    destruct (p <=? q)%N eqn:Pq.
    - apply N.leb_le in Pq. destruct Hh as (R1 & R2 & H1 & H2). destruct (cmp k (fst e)).
      + simpl. auto.
      + destruct (IHl H1) as [I1 I2]. destruct (t_insert l k v p) as [l' o]. simpl in *. auto 10.
      + destruct (IHr H2) as [I1 I2]. destruct (t_insert r k v p) as [r' o]. simpl in *. auto 10.
    - apply N.leb_gt in Pq. pose proof (t_split_heap _ k Hh) as Sp.
      destruct (t_split (Node (q, n) l e r) k) as [l' [d g]]. destruct Sp as (I1 & I2 & I3 & I4).
      destruct (I4 p) as (B1 & B2 & B3); [simpl; unfold tprio; simpl; lia|]. simpl. auto 10.
  Qed.

  Lemma t_remove_spec t k : sorted (inorder t) ->
    snd (t_remove t k) = hd_error (at_key k (inorder t)) /\
    inorder (fst (t_remove t k)) = below k (inorder t) ++ above k (inorder t).
  Proof.
    induction t as [|[q n] l IHl e r IHr]; intros S; [simpl; auto|].
    cbn [t_remove inorder] in *. pose proof (proj1 (sorted_mid _ _ _) S) as (S1 & S2 & F1 & F2).
    destruct (cmp k (fst e)) eqn:Ck.
    - destruct (pieces_eq _ _ _ _ S Ck) as (E1 & E2 & E3). rewrite E1, E2, E3. simpl fst; simpl snd.
      rewrite t_merge_inorder. auto.
    - destruct (pieces_lt _ _ _ _ S Ck) as (E1 & E2 & E3). rewrite E1, E2, E3.
      specialize (IHl S1). destruct (t_remove l k) as [l' o]. simpl in *. destruct IHl as [I1 I2].
      split; [exact I1|]. rewrite I2. lnorm. reflexivity.
    - destruct (pieces_gt _ _ _ _ S Ck) as (E1 & E2 & E3). rewrite E1, E2, E3.
      specialize (IHr S2). destruct (t_remove r k) as [r' o]. simpl in *. destruct IHr as [I1 I2].
      split; [exact I1|]. rewrite I2. lnorm. reflexivity.
  Qed.

  Lemma t_remove_len t k : len_ok t -> len_ok (fst (t_remove t k)).
  Proof.
    induction t as [|[q n] l IHl e r IHr]; intros L; [simpl; auto|]. cbn [t_remove].
    destruct L as (E & L1 & L2). destruct (cmp k (fst e)).
    - now apply t_merge_len.
    - specialize (IHl L1). destruct (t_remove l k). now apply t_upd_len.
    - specialize (IHr L2). destruct (t_remove r k). now apply t_upd_len.
  Qed.

  Lemma t_remove_heap t k : heap t ->
    heap (fst (t_remove t k)) /\ forall q, rle q t -> rle q (fst (t_remove t k)).
  Proof.
    induction t as [|[q n] l IHl e r IHr]; intros Hh; [simpl; auto|]. cbn [t_remove].
    destruct Hh as (R1 & R2 & H1 & H2). destruct (cmp k (fst e)).
    - destruct (t_merge_heap l r H1 H2) as [M1 M2]. simpl fst. split; [exact M1|].
      intros q' Hq. apply M2; eapply rle_trans; eauto.
    - destruct (IHl H1) as [I1 I2]. destruct (t_remove l k) as [l' o]. simpl in *. auto 10.
    - destruct (IHr H2) as [I1 I2]. destruct (t_remove r k) as [r' o]. simpl in *. auto 10.
  Qed.

  (** ** Set algebra *)
  Definition flipped (s : bool) (f : list (K * V) -> list (K * V) -> list (K * V)) :=
    fun x y => if s then f y x else f x y.

  Lemma below_split_size t k : let '(l, (d, g)) := t_split t k in size l + size d + size g = size t.
  Proof.
    induction t as [|[p n] l IHl e r IHr]; cbn [t_split]; [reflexivity|].
    destruct (cmp k (fst e)).
    - simpl. lia.
    - destruct (t_split l k) as [l' [d g]]. simpl. lia.
    - destruct (t_split r k) as [r' [d g]]. simpl. lia.
  Qed.

  (** What all three recursive functions have in common. *)
  Definition set_result (f : list (K * V) -> list (K * V) -> list (K * V)) (lt rt t : treap) : Prop :=
    pw f (inorder t) (inorder lt) (inorder rt) /\ len_ok t /\ heap t /\
    (forall p, rle p lt -> rle p rt -> rle p t).

  Lemma swap_cases lt rt (s : bool) : exists lt' rt' s',
    (if (priority lt <? priority rt)%N then (rt, lt, negb s) else (lt, rt, s)) = (lt', rt', s') /\
    ((lt' = lt /\ rt' = rt /\ s' = s) \/ (lt' = rt /\ rt' = lt /\ s' = negb s)) /\
    (priority rt' <= priority lt')%N.
  Proof.
    destruct (priority lt <? priority rt)%N eqn:Pl.
    - apply N.ltb_lt in Pl. exists rt, lt, (negb s). repeat split; auto. lia.
    - apply N.ltb_ge in Pl. exists lt, rt, s. repeat split; auto.
  Qed.

  Lemma set_result_swap f (s : bool) lt rt lt' rt' s' t :
    (lt' = lt /\ rt' = rt /\ s' = s) \/ (lt' = rt /\ rt' = lt /\ s' = negb s) ->
    set_result (flipped s' f) lt' rt' t -> set_result (flipped s f) lt rt t.
  Proof.
    intros [(-> & -> & ->)|(-> & -> & ->)]; [auto|]. intros (P & L & Hh & B). split; [|auto].
    destruct P as [S E]. split; [exact S|]. intros k. rewrite E. unfold flipped. now destruct s.
  Qed.

  (** One recursion step: [M] is the entry kept at the root, or none. *)
  Lemma set_result_node f p n l e r rt l' r' (M : list (K * V)) :
    f [] [] = [] ->
    sorted (inorder l ++ e :: inorder r) -> sorted (inorder rt) -> heap (Node (p, n) l e r) -> heap rt ->
    (priority rt <= p)%N ->
    (let '(rl, (d, rr)) := t_split rt (fst e) in
      set_result f l rl l' /\ set_result f r rr r' /\ M = f [e] (inorder d)) ->
    (M = [] -> set_result f (Node (p, n) l e r) rt (t_merge l' r')) /\
    (forall e', M = [e'] -> cmp (fst e') (fst e) = Eq -> set_result f (Node (p, n) l e r) rt (t_upd p l' e' r')).
  Proof.
    intros F0 SA SB (R1 & R2 & H1 & H2) Hr Pp.
    pose proof (t_split_spec rt (fst e) SB) as Sp. pose proof (t_split_heap rt (fst e) Hr) as Sh.
    destruct (t_split rt (fst e)) as [rl [d rr]]. destruct Sp as (I1 & I2 & I3).
    destruct Sh as (G1 & G2 & G3 & G4).
    intros ((Pl & Ll & Hl & Bl) & (Pr & Lr & Hhr & Br) & EM). rewrite I2 in EM. rewrite I1 in Pl. rewrite I3 in Pr.
    assert (RB : rle p rt) by (destruct rt as [|[q m] ? ? ?]; simpl in *; auto).
    destruct (G4 p RB) as (B1 & B2 & B3).
    split.
    - intros EM0. assert (X : pw f (inorder l' ++ M ++ inorder r') (inorder l ++ e :: inorder r) (inorder rt)).
      { apply pw_node; auto. }
      rewrite EM0 in X. simpl in X. destruct (t_merge_heap l' r' Hl Hhr) as [M1 M2].
      split; [rewrite t_merge_inorder; exact X|]. split; [now apply t_merge_len|]. split; [exact M1|].
      intros q Q1 Q2. destruct (G4 q Q2) as (C1 & C2 & C3). simpl in Q1.
      apply M2; [apply Bl | apply Br]; auto; eapply rle_trans; eauto.
    - intros e' EM1 Ce. assert (X : pw f (inorder l' ++ M ++ inorder r') (inorder l ++ e :: inorder r) (inorder rt)).
      { apply pw_node; auto. right. eauto. }
      rewrite EM1 in X. simpl in X. split; [exact X|]. split; [now apply t_upd_len|].
      split; [|simpl; auto]. apply t_upd_heap; auto.
  Qed.

  Lemma dup_entry rt k : sorted (inorder rt) ->
    let '(rl, (d, rr)) := t_split rt k in
    (d = Leaf /\ inorder d = []) \/
    (exists e', t_entry d = Some e' /\ inorder d = [e'] /\ cmp (fst e') k = Eq /\ is_none d = false).
  Proof.
    intros SB. pose proof (t_split_spec rt k SB) as Sp. destruct (t_split rt k) as [rl [d rr]].
    destruct Sp as (_ & I2 & _). destruct (at_key_cases _ k SB) as [E|(e' & E & Ce)]; rewrite E in I2.
    - left. split; [|exact I2]. destruct d as [|a dl de dr]; [reflexivity|].
      simpl in I2. destruct (inorder dl); discriminate I2.
    - right. exists e'. split; [now apply t_entry_single with (l := [e'])|]. split; [exact I2|].
      split; [now apply cmp_eq_sym|]. destruct d; [discriminate I2 | reflexivity].
  Qed.

  Definition tinv (t : treap) : Prop := sorted (inorder t) /\ len_ok t /\ heap t.

  Lemma tinv_node a l e r : tinv (Node a l e r) -> tinv l /\ tinv r.
  Proof.
    destruct a as [p n]. intros (S & (_ & L1 & L2) & (_ & _ & H1 & H2)). cbn [inorder] in S.
    apply sorted_mid in S as (S1 & S2 & _). unfold tinv. auto.
  Qed.

  Lemma tinv_split t k : tinv t -> let '(l, (d, g)) := t_split t k in tinv l /\ tinv d /\ tinv g.
  Proof.
    intros (S & L & Hh). pose proof (t_split_spec t k S) as A1. pose proof (t_split_len t k L) as A2.
    pose proof (t_split_heap t k Hh) as A3. destruct (t_split t k) as [l [d g]].
    destruct A1 as (I1 & I2 & I3), A2 as (L1 & L2 & L3), A3 as (H1 & H2 & H3 & _). unfold tinv.
    rewrite I1, I2, I3. unfold below, at_key, above. repeat split; auto; now apply sorted_filter.
  Qed.

  Lemma set_result_leaf_r f t : (forall x, f x [] = x) -> tinv t -> set_result f t Leaf t.
  Proof.
    intros F (S & L & Hh). split; [|auto]. split; [exact S|]. intros k. simpl. now rewrite F.
  Qed.

  Lemma set_result_leaf_l f t : (forall x, f [] x = x) -> tinv t -> set_result f Leaf t t.
  Proof.
    intros F (S & L & Hh). split; [|auto]. split; [exact S|]. intros k. simpl. now rewrite F.
  Qed.

  Lemma set_result_leaf_0l f t : (forall x, f [] x = []) -> set_result f Leaf t Leaf.
  Proof.
    intros F. split; [|simpl; auto]. split; [apply sorted_nil|]. intros k. simpl. now rewrite F.
  Qed.

  Lemma set_result_leaf_0r f t : (forall x, f x [] = []) -> set_result f t Leaf Leaf.
  Proof.
    intros F. split; [|simpl; auto]. split; [apply sorted_nil|]. intros k. simpl. now rewrite F.
  Qed.

  Lemma t_union_ok fuel : forall lt rt s, size lt + size rt < fuel -> tinv lt -> tinv rt ->
    exists t, t_union fuel lt rt s = Ok t /\ set_result (flipped s f_union) lt rt t.
  Proof.
    induction fuel as [|fu IH]; intros lt rt s Hf Tl Tr; [lia|]. cbn [t_union].
    destruct lt as [|a1 l1 e1 r1]; [|destruct rt as [|a2 l2 e2 r2]].
    - eexists; split; [reflexivity|]. apply set_result_leaf_l; [|exact Tr].
      intros x; unfold flipped, f_union; destruct s; destruct x; reflexivity.
    - eexists; split; [reflexivity|]. apply set_result_leaf_r; [|exact Tl].
      intros x; unfold flipped, f_union; destruct s; destruct x; reflexivity.
    - destruct (swap_cases (Node a1 l1 e1 r1) (Node a2 l2 e2 r2) s) as (lt' & rt' & s' & E & D & Pp).
      rewrite E. clear E.
      assert (X : exists t, (match lt' with
            | Leaf => Panic
            | Node (p, _) l e r =>
                let '(rl, (dup, rr)) := t_split rt' (fst e) in
                let* l' := t_union fu l rl s' in
                let* r' := t_union fu r rr s' in
                let e' := match t_entry dup with
                          | Some d => if s' then d else e
                          | None => e
                          end in
                Ok (t_upd p l' e' r')
            end) = Ok t /\ set_result (flipped s' f_union) lt' rt' t).
      { assert (Tl' : tinv lt') by (destruct D as [(-> & _)|(-> & _)]; auto).
        assert (Tr' : tinv rt') by (destruct D as [(_ & -> & _)|(_ & -> & _)]; auto).
        assert (Hsz : size lt' + size rt' < S fu) by (destruct D as [(-> & -> & _)|(-> & -> & _)]; simpl in *; lia).
        assert (Nl : lt' <> Leaf) by (destruct D as [(-> & _)|(-> & _)]; discriminate).
        clear D Hf Tl Tr. destruct lt' as [|[p n] l e r]; [congruence|].
        destruct (tinv_node _ _ _ _ Tl') as [T1 T2].
        pose proof (tinv_split rt' (fst e) Tr') as Ts. pose proof (below_split_size rt' (fst e)) as Ss.
        pose proof (dup_entry rt' (fst e) (proj1 Tr')) as Dd.
        pose proof (fun l' r' M => set_result_node (flipped s' f_union) p n l e r rt' l' r' M) as Nd.
        destruct (t_split rt' (fst e)) as [rl [d rr]]. destruct Ts as (Ts1 & Ts2 & Ts3). cbn [size] in Hsz.
        destruct (IH l rl s') as (l' & E1 & Q1); auto; [lia|].
        destruct (IH r rr s') as (r' & E2 & Q2); auto; [lia|].
        rewrite E1, E2. cbn [bind]. eexists; split; [reflexivity|].
        destruct Tl' as (Sl & _ & Hl'), Tr' as (Sr & _ & Hr').
        eapply Nd; auto; try exact Pp.
        - unfold flipped. now destruct s'.
        - unfold flipped, f_union. destruct Dd as [(-> & ->)|(e' & -> & -> & Ce & _)]; simpl.
          + destruct s'; reflexivity.
          + destruct s'; reflexivity.
        - destruct Dd as [(-> & _)|(e' & -> & _ & Ce & _)]; simpl; [apply cmp_refl|].
          destruct s'; [exact Ce | apply cmp_refl]. }
      destruct X as (t & E & Q). exists t. split; [exact E|]. eapply set_result_swap; eauto.
  Qed.

  Lemma t_inter_ok fuel : forall lt rt s, size lt + size rt < fuel -> tinv lt -> tinv rt ->
    exists t, t_inter fuel lt rt s = Ok t /\ set_result (flipped s f_inter) lt rt t.
  Proof.
    induction fuel as [|fu IH]; intros lt rt s Hf Tl Tr; [lia|]. cbn [t_inter].
    destruct lt as [|a1 l1 e1 r1]; [|destruct rt as [|a2 l2 e2 r2]].
    - eexists; split; [reflexivity|]. apply set_result_leaf_0l.
      intros x; unfold flipped, f_inter; destruct s; destruct x; reflexivity.
    - eexists; split; [reflexivity|]. apply set_result_leaf_0r.
      intros x; unfold flipped, f_inter; destruct s; destruct x; reflexivity.
    - destruct (swap_cases (Node a1 l1 e1 r1) (Node a2 l2 e2 r2) s) as (lt' & rt' & s' & E & D & Pp).
      rewrite E. clear E.
      assert (X : exists t, (match lt' with
            | Leaf => Panic
            | Node (p, _) l e r =>
                let '(rl, (dup, rr)) := t_split rt' (fst e) in
                let* l' := t_inter fu l rl s' in
                let* r' := t_inter fu r rr s' in
                match t_entry dup with
                | Some d => Ok (t_upd p l' (if s' then d else e) r')
                | None => Ok (t_merge l' r')
                end
            end) = Ok t /\ set_result (flipped s' f_inter) lt' rt' t).
      { assert (Tl' : tinv lt') by (destruct D as [(-> & _)|(-> & _)]; auto).
        assert (Tr' : tinv rt') by (destruct D as [(_ & -> & _)|(_ & -> & _)]; auto).
        assert (Hsz : size lt' + size rt' < S fu) by (destruct D as [(-> & -> & _)|(-> & -> & _)]; simpl in *; lia).
        assert (Nl : lt' <> Leaf) by (destruct D as [(-> & _)|(-> & _)]; discriminate).
        clear D Hf Tl Tr. destruct lt' as [|[p n] l e r]; [congruence|].
        destruct (tinv_node _ _ _ _ Tl') as [T1 T2].
        pose proof (tinv_split rt' (fst e) Tr') as Ts. pose proof (below_split_size rt' (fst e)) as Ss.
        pose proof (dup_entry rt' (fst e) (proj1 Tr')) as Dd.
        pose proof (fun l' r' M => set_result_node (flipped s' f_inter) p n l e r rt' l' r' M) as Nd.
        destruct (t_split rt' (fst e)) as [rl [d rr]]. destruct Ts as (Ts1 & Ts2 & Ts3). cbn [size] in Hsz.
        destruct (IH l rl s') as (l' & E1 & Q1); auto; [lia|].
        destruct (IH r rr s') as (r' & E2 & Q2); auto; [lia|].
        rewrite E1, E2. cbn [bind].
        destruct Tl' as (Sl & _ & Hl'), Tr' as (Sr & _ & Hr').
        assert (F0 : flipped s' f_inter [] [] = []) by (unfold flipped; now destruct s').
        destruct (Nd l' r' (flipped s' f_inter [e] (inorder d)) F0 Sl Sr Hl' Hr' Pp) as [N1 N2]; [auto|].
        clear Nd.
        destruct Dd as [(-> & Ed)|(e' & -> & Ed & Ce & _)]; rewrite Ed in N1, N2; simpl.
        - eexists; split; [reflexivity|]. apply N1. now destruct s'.
        - eexists; split; [reflexivity|]. apply N2; [now destruct s'|].
          destruct s'; [exact Ce | apply cmp_refl]. }
      destruct X as (t & E & Q). exists t. split; [exact E|]. eapply set_result_swap; eauto.
  Qed.

  Lemma t_diff_ok fuel : forall lt rt s sym, size lt + size rt < fuel -> tinv lt -> tinv rt ->
    exists t, t_diff fuel lt rt s sym = Ok t /\
      set_result (flipped s (if sym then f_symdiff else f_diff)) lt rt t.
  Proof.
    induction fuel as [|fu IH]; intros lt rt s sym Hf Tl Tr; [lia|]. cbn [t_diff].
    destruct lt as [|a1 l1 e1 r1]; [|destruct rt as [|a2 l2 e2 r2]].
    - eexists; split; [reflexivity|]. destruct sym.
      + rewrite t_merge_eq. destruct rt as [|a2 l2 e2 r2]; apply set_result_leaf_l; auto;
          intros x; unfold flipped, f_symdiff; destruct s; destruct x; reflexivity.
      + destruct s.
        * apply set_result_leaf_l; [|exact Tr]. intros x. reflexivity.
        * apply set_result_leaf_0l. intros x; unfold flipped, f_diff; destruct x; reflexivity.
    - eexists; split; [reflexivity|]. destruct sym.
      + rewrite t_merge_eq. assert (Em : match Node a1 l1 e1 r1 with Leaf => Leaf | Node (_, _) _ _ _ => Node a1 l1 e1 r1 end
            = Node a1 l1 e1 r1) by (destruct a1; reflexivity).
        replace (match a1 with (_, _) => Node a1 l1 e1 r1 end) with (Node a1 l1 e1 r1) by (now destruct a1).
        apply set_result_leaf_r; auto;
          intros x; unfold flipped, f_symdiff; destruct s; destruct x; reflexivity.
      + destruct s.
        * apply set_result_leaf_0r. intros x; unfold flipped, f_diff; destruct x; reflexivity.
        * apply set_result_leaf_r; [|exact Tl]. intros x. reflexivity.
    - destruct (swap_cases (Node a1 l1 e1 r1) (Node a2 l2 e2 r2) s) as (lt' & rt' & s' & E & D & Pp).
      rewrite E. clear E.
      assert (X : exists t, (match lt' with
            | Leaf => Panic
            | Node (p, _) l e r =>
                let '(rl, (dup, rr)) := t_split rt' (fst e) in
                let* l' := t_diff fu l rl s' sym in
                let* r' := t_diff fu r rr s' sym in
                if negb (is_none dup) || (s' && negb sym)
                then Ok (t_merge l' r')
                else Ok (t_upd p l' e r')
            end) = Ok t /\ set_result (flipped s' (if sym then f_symdiff else f_diff)) lt' rt' t).
      { assert (Tl' : tinv lt') by (destruct D as [(-> & _)|(-> & _)]; auto).
        assert (Tr' : tinv rt') by (destruct D as [(_ & -> & _)|(_ & -> & _)]; auto).
        assert (Hsz : size lt' + size rt' < S fu) by (destruct D as [(-> & -> & _)|(-> & -> & _)]; simpl in *; lia).
        assert (Nl : lt' <> Leaf) by (destruct D as [(-> & _)|(-> & _)]; discriminate).
        clear D Hf Tl Tr. destruct lt' as [|[p n] l e r]; [congruence|].
        destruct (tinv_node _ _ _ _ Tl') as [T1 T2].
        pose proof (tinv_split rt' (fst e) Tr') as Ts. pose proof (below_split_size rt' (fst e)) as Ss.
        pose proof (dup_entry rt' (fst e) (proj1 Tr')) as Dd.
        pose proof (fun l' r' M => set_result_node (flipped s' (if sym then f_symdiff else f_diff)) p n l e r rt' l' r' M) as Nd.
        destruct (t_split rt' (fst e)) as [rl [d rr]]. destruct Ts as (Ts1 & Ts2 & Ts3). cbn [size] in Hsz.
        destruct (IH l rl s' sym) as (l' & E1 & Q1); auto; [lia|].
        destruct (IH r rr s' sym) as (r' & E2 & Q2); auto; [lia|].
        rewrite E1, E2. cbn [bind].
        destruct Tl' as (Sl & _ & Hl'), Tr' as (Sr & _ & Hr').
        assert (F0 : flipped s' (if sym then f_symdiff else f_diff) [] [] = [])
          by (unfold flipped; destruct s', sym; reflexivity).
        destruct (Nd l' r' (flipped s' (if sym then f_symdiff else f_diff) [e] (inorder d)) F0 Sl Sr Hl' Hr' Pp)
          as [N1 N2]; [auto|].
        clear Nd.
        destruct Dd as [(-> & Ed)|(e' & _ & Ed & Ce & Hn)]; rewrite Ed in N1, N2; [simpl is_none | rewrite Hn];
          cbn [negb orb andb].
        - destruct s', sym; cbn [negb orb andb] in *; (eexists; split; [reflexivity|]);
            first [apply N1; reflexivity | apply N2; [reflexivity | apply cmp_refl]].
        - eexists; split; [reflexivity|]. apply N1. unfold flipped. destruct s', sym; reflexivity. }
      destruct X as (t & E & Q). exists t. split; [exact E|]. eapply set_result_swap; eauto.
  Qed.

  Lemma t_set_op_ok s lt rt : tinv lt -> tinv rt ->
    exists t, t_set_op s lt rt = Ok t /\ inorder t = spec_set s (inorder lt) (inorder rt) /\ tinv t.
  Proof.
    intros Tl Tr.
    assert (X : exists t, t_set_op s lt rt = Ok t /\ set_result (flipped false (f_set s)) lt rt t).
    { destruct s; unfold t_set_op, t_fuel;
        [apply t_union_ok | apply t_inter_ok | apply (t_diff_ok _ lt rt false false)
        | apply (t_diff_ok _ lt rt false true)]; auto; lia. }
    destruct X as (t & E & P & L & Hh & _). exists t. split; [exact E|]. unfold flipped in P.
    pose proof (set_pw s _ _ (proj1 Tl) (proj1 Tr)) as P2.
    assert (Ei : inorder t = spec_set s (inorder lt) (inorder rt)) by (eapply pw_unique; [exact P | exact P2]).
    split; [exact Ei|]. split; [exact (proj1 P) | auto].
  Qed.

  Lemma t_split_off_ok t k inc : tinv t ->
    let '(stay, give) := t_split_off t k inc in
    (inorder stay, inorder give) = spec_split k inc (inorder t) /\ tinv stay /\ tinv give.
  Proof.
    intros T. pose proof (t_split_spec t k (proj1 T)) as A1. pose proof (tinv_split t k T) as A2.
    unfold t_split_off. destruct (t_split t k) as [l [d g]].
    destruct A1 as (I1 & I2 & I3), A2 as ((Sl & Ll & Hl) & (Sd & Ld & Hd) & (Sg & Lg & Hg)).
    pose proof (sorted_split _ k (proj1 T)) as Ss. pose proof (proj1 T) as S0. rewrite Ss in S0.
    unfold spec_split. destruct inc.
    - rewrite t_merge_inorder, I1, I2, I3. split; [reflexivity|]. unfold tinv.
      rewrite t_merge_inorder, I1, I2. rewrite app_assoc in S0. apply sorted_app in S0 as (S1 & S2 & _).
      repeat split; auto; [now apply t_merge_len | now apply t_merge_heap].
    - rewrite t_merge_inorder, I1, I2, I3. split; [reflexivity|]. unfold tinv.
      rewrite t_merge_inorder, I2, I3. apply sorted_app in S0 as (S1 & S2 & _).
      repeat split; auto; [now apply t_merge_len | now apply t_merge_heap].
  Qed.

  (** ** One map *)
  Lemma len_ok_shape t t' : shape t = shape t' -> len_ok t -> len_ok t'.
  Proof.
    revert t'. induction t as [|[p n] l IHl e r IHr]; intros [|a' l' e' r'] E; simpl in E; try discriminate; auto.
    injection E as <- E1 E2. simpl. rewrite <- (shape_size _ _ E1), <- (shape_size _ _ E2).
    intros (En & L1 & L2). auto.
  Qed.

  Lemma rle_shape p t t' : shape t = shape t' -> rle p t -> rle p t'.
  Proof. destruct t, t'; simpl; try discriminate; auto. intros E. now injection E as -> _ _. Qed.

  Lemma heap_shape t t' : shape t = shape t' -> heap t -> heap t'.
  Proof.
    revert t'. induction t as [|a l IHl e r IHr]; intros [|a' l' e' r'] E; simpl in E; try discriminate; auto.
    injection E as <- E1 E2. simpl. intros (R1 & R2 & H1 & H2).
    repeat split; eauto using rle_shape.
  Qed.

  Lemma tinv_shape t t' : shape t = shape t' -> sorted (inorder t') -> tinv t -> tinv t'.
  Proof. intros E S (_ & L & Hh). unfold tinv. eauto using len_ok_shape, heap_shape. Qed.

  Lemma tinv_leaf : tinv Leaf.
  Proof. unfold tinv. simpl. auto using sorted_nil. Qed.

  Definition treap_rel (t : treap) (l : list (K * V)) : Prop := inorder t = l /\ tinv t.

  Lemma treap_step_ok t (l : list (K * V)) (o : map_op K V) (p : N) : treap_rel t l ->
    exists t', treap_step t (o, p) = Ok (t', snd (map_spec_step l o)) /\
               treap_rel t' (fst (map_spec_step l o)).
  Proof.
    intros (<- & T). pose proof T as (S & L & Hh). unfold treap_rel.
    destruct o as [k v|k|k|k v|k|k|k|k| | | | | | |vs|]; cbn [treap_step map_spec_step fst snd].
    - destruct (t_insert_spec t k v p S) as [E1 E2]. pose proof (t_insert_len t k v p L) as E3.
      pose proof (proj1 (t_insert_heap t k v p Hh)) as E4.
      destruct (t_insert t k v p) as [t' o]. simpl in *. rewrite <- E1. eexists; split; [reflexivity|].
      split; [exact E2|]. split; [rewrite E2; now apply sorted_insert | auto].
    - destruct (t_remove_spec t k S) as [E1 E2]. pose proof (t_remove_len t k L) as E3.
      pose proof (proj1 (t_remove_heap t k Hh)) as E4.
      destruct (t_remove t k) as [t' o]. simpl in *. rewrite <- E1. eexists; split; [reflexivity|].
      split; [exact E2|]. split; [rewrite E2; now apply sorted_delete | auto].
    - rewrite bst_get_spec by exact S. eexists; split; [reflexivity|]. auto.
    - destruct (bst_get_mut_set_spec t k v S) as (E1 & E2 & E3).
      destruct (bst_get_mut_set t k v) as [t' o]. simpl in *. rewrite <- E1. eexists; split; [reflexivity|].
      split; [exact E2|]. apply tinv_shape with t; auto. rewrite E2. now apply sorted_update.
    - rewrite bst_get_spec by exact S. eexists; split; [reflexivity|]. auto.
    - rewrite bst_get_spec by exact S. eexists; split; [destruct (at_key k (inorder t)); reflexivity|]. auto.
    - rewrite bst_floor_spec by exact S. eexists; split; [reflexivity|]. auto.
    - rewrite bst_ceil_spec by exact S. eexists; split; [reflexivity|]. auto.
    - rewrite bst_min_spec. eexists; split; [reflexivity|]. auto.
    - rewrite bst_max_spec. eexists; split; [reflexivity|]. auto.
    - rewrite (len_ok_size t L), size_inorder. eexists; split; [reflexivity|]. auto.
    - rewrite (len_ok_size t L), size_inorder. eexists; split; [reflexivity|]. auto.
    - eexists; split; [reflexivity|]. split; [reflexivity | apply tinv_leaf].
    - rewrite iter_all_spec. eexists; split; [reflexivity|]. auto.
    - destruct (itermut_run_spec t vs) as (t' & E1 & E2 & E3). rewrite E1. cbn [bind].
      eexists; split; [reflexivity|]. split; [exact E3|]. apply tinv_shape with t; auto.
      rewrite E3. now apply sorted_write_vals.
    - rewrite iter_all_spec. eexists; split; [reflexivity|]. split; [reflexivity | apply tinv_leaf].
  Qed.

  (** ** Several maps *)
  Definition regs_rel (rs : nat -> treap) (sp : nat -> list (K * V)) : Prop :=
    forall i, treap_rel (rs i) (sp i).

  Lemma regs_rel_update rs sp (i : nat) t (l : list (K * V)) : regs_rel rs sp -> treap_rel t l ->
    regs_rel (update rs i t) (update sp i l).
  Proof. intros HR Ht n. unfold update. destruct (n =? i); auto. Qed.

  Lemma treap_prog_step_ok rs sp (o : prog_op K V) p : regs_rel rs sp ->
    exists rs', treap_prog_step rs (o, p) = Ok (rs', snd (prog_spec_step sp o)) /\
                regs_rel rs' (fst (prog_spec_step sp o)).
  Proof.
    intros HR. destruct o as [i o|s d i j|d i k inc]; cbn [treap_prog_step prog_spec_step].
    - destruct (treap_step_ok (rs i) (sp i) o p (HR i)) as (t' & E & Ht). rewrite E. cbn [bind].
      destruct (map_spec_step (sp i) o) as [l out]. simpl in *. eexists; split; [reflexivity|].
      now apply regs_rel_update.
    - cbv zeta.
      assert (L0 : treap_rel Leaf []) by (split; [reflexivity | apply tinv_leaf]).
      pose proof (regs_rel_update rs sp i Leaf [] HR L0) as R1.
      pose proof (regs_rel_update _ _ j Leaf [] R1 L0) as R2.
      destruct (HR i) as [Ei Ti]. destruct (R1 j) as [Ej Tj].
      destruct (t_set_op_ok s _ _ Ti Tj) as (t & E & Et & Tt). rewrite E. cbn [bind].
      eexists; split; [reflexivity|]. simpl fst. apply regs_rel_update; [exact R2|].
      split; [|exact Tt]. rewrite Et, Ei, Ej. reflexivity.
    - destruct (HR i) as [Ei Ti]. pose proof (t_split_off_ok (rs i) k inc Ti) as X.
      destruct (t_split_off (rs i) k inc) as [stay give]. destruct X as (E & T1 & T2). rewrite Ei in E.
      destruct (spec_split k inc (sp i)) as [ls lg]. injection E as E1 E2. simpl.
      eexists; split; [reflexivity|]. apply regs_rel_update; [apply regs_rel_update|]; auto; split; auto.
  Qed.

  (** ** Traces *)
  Lemma treap_run_ok (ops : list (map_op K V * N)) :
    exists t, run treap_step (Leaf : treap) ops = Ok (t, map_spec_outputs (map fst ops)) /\ tinv t /\
      inorder t = fst (spec_run map_spec_step [] (map fst ops)).
  Proof.
    assert (R0 : treap_rel Leaf []) by (split; [reflexivity | apply tinv_leaf]).
    destruct (run_sim treap_step (fun (s : list (K * V)) o => map_spec_step s (fst o)) treap_rel
                (fun s a o HR => match o with (o', p) => treap_step_ok s a o' p HR end) ops Leaf [] R0)
      as (t & E & HR). rewrite spec_run_map in E, HR. exists t. destruct HR as [HR T]. auto.
  Qed.

  Lemma treap_refines (ops : list (map_op K V * N)) :
    outputs treap_step (Leaf : treap) ops = Ok (map_spec_outputs (map fst ops)).
  Proof. unfold outputs. destruct (treap_run_ok ops) as (t & -> & _). reflexivity. Qed.

  Lemma treap_prog_run_ok (ops : list (prog_op K V * N)) :
    exists rs, run treap_prog_step (fun _ => Leaf : treap) ops = Ok (rs, prog_spec_outputs (map fst ops)) /\
      regs_rel rs (fst (spec_run prog_spec_step (fun _ => []) (map fst ops))).
  Proof.
    assert (R0 : regs_rel (fun _ => Leaf) (fun _ => []))
      by (intros i; split; [reflexivity | apply tinv_leaf]).
    destruct (run_sim treap_prog_step (fun (s : nat -> list (K * V)) o => prog_spec_step s (fst o)) regs_rel
                (fun s a o HR => match o with (o', p) => treap_prog_step_ok s a o' p HR end) ops _ _ R0)
      as (t & E & HR). rewrite spec_run_map in E, HR. exists t. auto.
  Qed.

  Lemma treap_prog_refines (ops : list (prog_op K V * N)) :
    outputs treap_prog_step (fun _ => Leaf : treap) ops = Ok (prog_spec_outputs (map fst ops)).
  Proof. unfold outputs. destruct (treap_prog_run_ok ops) as (t & -> & _). reflexivity. Qed.

  Lemma treap_prog_inv (ops : list (prog_op K V * N)) rs outs :
    run treap_prog_step (fun _ => Leaf : treap) ops = Ok (rs, outs) ->
    forall i, heap (rs i) /\ t_len (rs i) = length (inorder (rs i)).
  Proof.
    destruct (treap_prog_run_ok ops) as (rs' & -> & HR). intros E; injection E as <- _. intros i.
    destruct (HR i) as (_ & _ & L & Hh). split; [exact Hh|]. now rewrite size_inorder, len_ok_size.
  Qed.

  (** ** Priorities *)
  Notation ip := (inorder_prio tprio).

  Lemma ip_inorder t : map (fun x => (fst x, fst (snd x))) (ip t) = inorder t.
  Proof.
    induction t as [|a l IHl e r IHr]; simpl; [reflexivity|]. rewrite map_app. simpl.
    rewrite IHl, IHr. now destruct e.
  Qed.

  Lemma ip_sorted t : sorted (inorder t) -> sorted (ip t).
  Proof.
    rewrite <- (ip_inorder t). generalize (ip t). induction l as [|x l IH]; simpl; intros S; [apply sorted_nil|].
    apply sorted_cons in S as [F S]. apply sorted_cons. split; [|auto].
    unfold all_gt in *. rewrite Forall_map in F. exact F.
  Qed.

  Lemma t_split_ip t k : sorted (inorder t) ->
    let '(l, (d, g)) := t_split t k in
    ip l = below k (ip t) /\ ip d = at_key k (ip t) /\ ip g = above k (ip t).
  Proof.
    intros S0. pose proof (ip_sorted t S0) as S. clear S0. revert S.
    induction t as [|[p n] l IHl e r IHr]; simpl; intros S; [auto|].
    pose proof (proj1 (sorted_mid _ _ _) S) as (S1 & S2 & F1 & F2).
    destruct (cmp k (fst e)) eqn:Ck.
    - destruct (pieces_eq _ _ _ _ S Ck) as (E1 & E2 & E3). rewrite E1, E2, E3. auto.
    - destruct (pieces_lt _ _ _ _ S Ck) as (E1 & E2 & E3). rewrite E1, E2, E3.
      specialize (IHl S1). destruct (t_split l k) as [l' [d g]]. destruct IHl as (I1 & I2 & I3).
      simpl. rewrite I3. auto.
    - destruct (pieces_gt _ _ _ _ S Ck) as (E1 & E2 & E3). rewrite E1, E2, E3.
      specialize (IHr S2). destruct (t_split r k) as [r' [d g]]. destruct IHr as (I1 & I2 & I3).
      simpl. rewrite I1. auto.
  Qed.

  Lemma heap_all t p : heap t -> rle p t -> Forall (fun x => (snd (snd x) <= p)%N) (ip t).
  Proof.
    induction t as [|[q n] l IHl e r IHr]; simpl; [constructor|].
    intros (R1 & R2 & H1 & H2) Hp. apply Forall_app. split; [|constructor].
    - apply IHl; auto. eapply rle_trans; eauto.
    - exact Hp.
    - apply IHr; auto. eapply rle_trans; eauto.
  Qed.

  Lemma old_prio_le k t p : heap t -> rle p t -> (old_prio k (ip t) <= p)%N.
  Proof.
    intros Hh Hp. pose proof (heap_all t p Hh Hp) as F. unfold old_prio.
    destruct (at_key k (ip t)) as [|[k' [v' q]] l] eqn:E; [lia|].
    assert (I : In (k', (v', q)) (ip t)) by (eapply in_at; rewrite E; left; reflexivity).
    rewrite Forall_forall in F. exact (F _ I).
  Qed.

  Lemma t_insert_ip t k v p : sorted (inorder t) -> heap t ->
    ip (fst (t_insert t k v p)) =
      below k (ip t) ++ (k, (v, N.max p (old_prio k (ip t)))) :: above k (ip t).
  Proof.
    intros S0. revert S0. induction t as [|[q n] l IHl e r IHr]; intros S0 Hh.
    { simpl. unfold old_prio, tprio. simpl. now rewrite N.max_0_r. }
    cbn [t_insert]. destruct (p <=? q)%N eqn:Pq.
    - apply N.leb_le in Pq. pose proof (ip_sorted _ S0) as S. cbn [inorder_prio inorder] in *.
      pose proof (proj1 (sorted_mid _ _ _) S0) as (S1 & S2 & F1 & F2).
      destruct Hh as (R1 & R2 & H1 & H2).
      destruct (cmp k (fst e)) eqn:Ck.
      + destruct (pieces_eq _ _ _ _ S Ck) as (E1 & E2 & E3). unfold old_prio. rewrite E1, E2, E3. simpl.
        unfold tprio at 2 4. simpl. rewrite N.max_r by exact Pq. reflexivity.
      + destruct (pieces_lt _ _ _ _ S Ck) as (E1 & E2 & E3). unfold old_prio in *. rewrite E1, E2, E3.
        specialize (IHl S1 H1). destruct (t_insert l k v p) as [l' o]. simpl in *. rewrite IHl. lnorm. reflexivity.
      + destruct (pieces_gt _ _ _ _ S Ck) as (E1 & E2 & E3). unfold old_prio in *. rewrite E1, E2, E3.
        specialize (IHr S2 H2). destruct (t_insert r k v p) as [r' o]. simpl in *. rewrite IHr. lnorm. reflexivity.
    - apply N.leb_gt in Pq. pose proof (t_split_ip (Node (q, n) l e r) k S0) as Sp.
      assert (Ho : (old_prio k (ip (Node (q, n) l e r)) <= q)%N)
        by (apply old_prio_le; [exact Hh | simpl; unfold tprio; simpl; lia]).
      destruct (t_split (Node (q, n) l e r) k) as [l' [d g]]. destruct Sp as (I1 & I2 & I3).
      rewrite N.max_l by lia. simpl fst. cbn [t_upd inorder_prio]. now rewrite I1, I3.
  Qed.

  Lemma t_remove_ip t k : sorted (inorder t) ->
    ip (fst (t_remove t k)) = below k (ip t) ++ above k (ip t).
  Proof.
    intros S0. pose proof (ip_sorted t S0) as S. clear S0. revert S.
    induction t as [|[q n] l IHl e r IHr]; intros S; [reflexivity|].
    cbn [t_remove inorder_prio] in *. pose proof (proj1 (sorted_mid _ _ _) S) as (S1 & S2 & F1 & F2).
    destruct (cmp k (fst e)) eqn:Ck.
    - destruct (pieces_eq _ _ _ _ S Ck) as (E1 & E2 & E3). rewrite E1, E3. simpl fst.
      apply t_merge_prio.
    - destruct (pieces_lt _ _ _ _ S Ck) as (E1 & E2 & E3). rewrite E1, E3.
      specialize (IHl S1). destruct (t_remove l k) as [l' o]. simpl in *. rewrite IHl. lnorm. reflexivity.
    - destruct (pieces_gt _ _ _ _ S Ck) as (E1 & E2 & E3). rewrite E1, E3.
      specialize (IHr S2). destruct (t_remove r k) as [r' o]. simpl in *. rewrite IHr. lnorm. reflexivity.
  Qed.

  (** A list with priorities is determined by its pairs and its priorities. *)
  Lemma ip_ext (l1 l2 : list (K * (V * N))) :
    map (fun x => (fst x, fst (snd x))) l1 = map (fun x => (fst x, fst (snd x))) l2 ->
    map (fun x => snd (snd x)) l1 = map (fun x => snd (snd x)) l2 -> l1 = l2.
  Proof.
    revert l2. induction l1 as [|[k [v p]] l1 IH]; intros [|[k' [v' p']] l2] E1 E2; simpl in *; try discriminate; auto.
    injection E1 as -> -> E1. injection E2 as -> E2. f_equal. auto.
  Qed.

  Lemma shape_prios t t' : shape t = shape t' ->
    map (fun x => snd (snd x)) (ip t) = map (fun x => snd (snd x)) (ip t').
  Proof.
    revert t'. induction t as [|a l IHl e r IHr]; intros [|a' l' e' r'] E; simpl in E; try discriminate; auto.
    injection E as <- E1 E2. simpl. rewrite !map_app. simpl. rewrite (IHl _ E1), (IHr _ E2). reflexivity.
  Qed.

  Lemma map_below {W W'} (g : W -> W') k (l : list (K * W)) :
    map (fun x => (fst x, g (snd x))) (below k l) = below k (map (fun x => (fst x, g (snd x))) l).
  Proof. induction l as [|x l IH]; [reflexivity|]. cbn [map]. rewrite !below_cons. cbn [fst]. destruct (is_lt _); simpl; now rewrite IH. Qed.
  Lemma map_at {W W'} (g : W -> W') k (l : list (K * W)) :
    map (fun x => (fst x, g (snd x))) (at_key k l) = at_key k (map (fun x => (fst x, g (snd x))) l).
  Proof. induction l as [|x l IH]; [reflexivity|]. cbn [map]. rewrite !at_cons. cbn [fst]. destruct (is_eq _); simpl; now rewrite IH. Qed.
  Lemma map_above {W W'} (g : W -> W') k (l : list (K * W)) :
    map (fun x => (fst x, g (snd x))) (above k l) = above k (map (fun x => (fst x, g (snd x))) l).
  Proof. induction l as [|x l IH]; [reflexivity|]. cbn [map]. rewrite !above_cons. cbn [fst]. destruct (is_gt _); simpl; now rewrite IH. Qed.

  Lemma treap_step_prio t (o : map_op K V) p t' out : tinv t -> treap_step t (o, p) = Ok (t', out) ->
    ip t' = prio_spec_step (ip t) (o, p).
  Proof.
    intros T. pose proof T as (S & L & Hh). unfold treap_step, prio_spec_step.
    destruct o as [k v|k|k|k v|k|k|k|k| | | | | | |vs|]; try (intros E; injection E as <- _; reflexivity).
    - pose proof (t_insert_ip t k v p S Hh) as E1. destruct (t_insert t k v p) as [t1 o].
      intros E; injection E as <- _. exact E1.
    - pose proof (t_remove_ip t k S) as E1. destruct (t_remove t k) as [t1 o].
      intros E; injection E as <- _. exact E1.
    - pose proof (bst_get_mut_set_shape t k v) as Es. pose proof (proj1 (proj2 (bst_get_mut_set_spec t k v S))) as E1.
      destruct (bst_get_mut_set t k v) as [t1 o]. simpl in *. intros E; injection E as <- _.
      pose proof (ip_sorted t S) as Si.
      apply ip_ext.
      + rewrite ip_inorder, E1, !map_app, map_map. cbn [fst snd].
        rewrite (map_below fst), (map_above fst), ip_inorder.
        do 2 f_equal. rewrite <- (ip_inorder t), <- (map_at fst), map_map. reflexivity.
      + rewrite (shape_prios _ _ Es). rewrite !map_app, map_map. cbn [fst snd].
        rewrite <- !map_app. now rewrite <- sorted_split by exact Si.
    - rewrite iter_all_spec. cbn [bind]. intros E; injection E as <- _. reflexivity.
    - destruct (itermut_run_spec t vs) as (t1 & E1 & Es & E3). rewrite E1. cbn [bind].
      intros E; injection E as <- _. apply ip_ext.
      + rewrite ip_inorder, E3, <- (ip_inorder t). generalize (ip t). clear.
        induction vs as [|v vs IH]; intros [|[k [v' p']] l]; simpl; auto. now rewrite IH.
      + rewrite (shape_prios _ _ Es). generalize (ip t). clear.
        induction vs as [|v vs IH]; intros [|[k [v' p']] l]; simpl; auto. now rewrite IH.
    - rewrite iter_all_spec. cbn [bind]. intros E; injection E as <- _. reflexivity.
  Qed.

  Lemma treap_run_prio (ops : list (map_op K V * N)) : forall t t' outs, tinv t ->
    run treap_step t ops = Ok (t', outs) -> ip t' = fold_left prio_spec_step ops (ip t) /\ tinv t'.
  Proof.
    induction ops as [|[o p] ops IH]; intros t t' outs T E; [simpl in E; injection E as <- _; auto|].
    cbn [run fold_left] in *.
    destruct (treap_step_ok t (inorder t) o p (conj eq_refl T)) as (t1 & E1 & _ & T1).
    rewrite E1 in E. cbn [bind] in E. rewrite <- (treap_step_prio _ _ _ _ _ T E1).
    destruct (run treap_step t1 ops) as [[t2 rs]| |] eqn:E2; try discriminate.
    cbn [bind] in E. injection E as <- _. now apply (IH t1 t2 rs).
  Qed.

  (** ** Canonical shape *)
  Lemma nodup_parts {X} (l r : list X) : NoDup (l ++ r) -> NoDup l /\ NoDup r.
  Proof.
    induction l as [|x l IH]; simpl; intros ND; [split; [constructor | exact ND]|].
    apply NoDup_cons_iff in ND as [Hn ND]. destruct (IH ND) as [A B]. split; [|exact B].
    constructor; [|exact A]. intros I. apply Hn. apply in_app_iff. auto.
  Qed.

  Lemma nodup_mid {X} (l1 l2 r1 r2 : list X) x : l1 ++ x :: r1 = l2 ++ x :: r2 -> NoDup (l1 ++ x :: r1) ->
    length l1 = length l2.
  Proof.
    revert l2. induction l1 as [|a l1 IH]; intros [|b l2]; simpl; intros E N; auto.
    - injection E as ->. inversion N as [|? ? Hn]; subst. exfalso. apply Hn. apply in_app_iff. simpl; auto.
    - injection E as -> E. inversion N as [|? ? Hn]; subst. exfalso. apply Hn. apply in_app_iff. simpl; auto.
    - injection E as -> E. inversion N as [|? ? Hn N']; subst. f_equal. eauto.
  Qed.

  Lemma treap_canonical t1 : forall t2, heap t1 -> heap t2 -> len_ok t1 -> len_ok t2 ->
    ip t1 = ip t2 -> NoDup (map (fun x => snd (snd x)) (ip t1)) -> t1 = t2.
  Proof.
    induction t1 as [|[p1 n1] l1 IHl e1 r1 IHr]; intros [|[p2 n2] l2 e2 r2] Hh1 Hh2 L1 L2 E ND;
      simpl in E; auto.
    - destruct (ip l2); discriminate.
    - destruct (ip l1); discriminate.
    - assert (Ep : p1 = p2).
      { pose proof (heap_all _ p1 Hh1) as F1. pose proof (heap_all _ p2 Hh2) as F2.
        simpl in F1, F2. rewrite E in F1. rewrite <- E in F2.
        specialize (F1 (N.le_refl _)). specialize (F2 (N.le_refl _)).
        apply Forall_app in F1 as [_ F1]. apply Forall_app in F2 as [_ F2].
        inversion F1 as [|? ? G1 _]; subst. inversion F2 as [|? ? G2 _]; subst.
        unfold tprio in *. simpl in *. lia. }
      subst p2. simpl in ND.
      assert (Len : length (ip l1) = length (ip l2)).
      { assert (E' : map (fun x : K * (V * N) => snd (snd x)) (ip l1) ++ p1 :: map (fun x => snd (snd x)) (ip r1)
              = map (fun x => snd (snd x)) (ip l2) ++ p1 :: map (fun x => snd (snd x)) (ip r2)).
        { apply (f_equal (map (fun x : K * (V * N) => snd (snd x)))) in E. rewrite !map_app in E. exact E. }
        rewrite map_app in ND. simpl in ND. unfold tprio in ND at 2. simpl in ND.
        apply nodup_mid in E'; [|exact ND]. now rewrite !map_length in E'. }
      assert (El : ip l1 = ip l2 /\ (fst e1, (snd e1, p1)) :: ip r1 = (fst e2, (snd e2, p1)) :: ip r2).
      { unfold tprio in E at 2 4. simpl in E. revert Len E. clear. generalize (ip l1) (ip l2).
        induction l as [|x l IH]; intros [|y l'] Len E; simpl in *; try discriminate; auto.
        injection E as -> E. injection Len as Len. destruct (IH l' Len E) as [-> ->]. auto. }
      destruct El as [El Er]. injection Er as Ek Ev Er.
      destruct Hh1 as (_ & _ & A1 & A2), Hh2 as (_ & _ & B1 & B2), L1 as (-> & C1 & C2), L2 as (-> & D1 & D2).
      rewrite map_app in ND. apply nodup_parts in ND as [N1 N2].
      simpl in N2. apply NoDup_cons_iff in N2 as [_ N2].
      rewrite (IHl l2), (IHr r2) by auto. destruct e1, e2; simpl in *; subst. reflexivity.
  Qed.

  Lemma treap_shape_history (ops1 ops2 : list (map_op K V * N)) t1 t2 outs1 outs2 :
    run treap_step (Leaf : treap) ops1 = Ok (t1, outs1) -> run treap_step (Leaf : treap) ops2 = Ok (t2, outs2) ->
    prio_spec ops1 = prio_spec ops2 -> NoDup (map (fun x => snd (snd x)) (prio_spec ops1)) -> t1 = t2.
  Proof.
    intros E1 E2 E N. destruct (treap_run_prio _ _ _ _ tinv_leaf E1) as [P1 (_ & L1 & H1)].
    destruct (treap_run_prio _ _ _ _ tinv_leaf E2) as [P2 (_ & L2 & H2)]. unfold prio_spec in *.
    simpl in P1, P2. apply treap_canonical; auto; rewrite P1; [now rewrite P2 | exact N].
  Qed.
End TreapProofs.

Lemma map_fst_draws {O} (d : nat -> N) (ops : list O) :
  map fst (combine ops (map d (seq 0 (length ops)))) = ops.
Proof.
  assert (X : forall n, map fst (combine ops (map d (seq n (length ops)))) = ops).
  { induction ops as [|o ops IH]; intros n; simpl; [reflexivity|]. now rewrite IH. }
  apply X.
Qed.

Lemma treap_refines_draws {K V} `{CmpLaws K} (d : nat -> N) (ops : list (map_op K V)) :
  outputs treap_step (Leaf : tree (N * nat) K V) (combine ops (map d (seq 0 (length ops))))
    = Ok (map_spec_outputs ops).
Proof. rewrite treap_refines, map_fst_draws. reflexivity. Qed.
