(** Proofs about the list half of TreapCostModel.v: C60. *)
From Verif Require Export TreapCostProofs.
From Coq Require Import Permutation.

Lemma recs_seen l : forall seen seen', incl seen seen' -> recs seen' l <= recs seen l.
Proof.
  induction l as [|p l IH]; intros s s' L; simpl; [lia|].
  assert (incl (s ++ [p]) (s' ++ [p])) as L' by (intros q; rewrite !in_app_iff; intros [i|i]; auto).
  specialize (IH _ _ L'). enough ((if forallb (fun q => (q <=? p)%N) s' then 1 else 0) <= (if forallb (fun q => (q <=? p)%N) s then 1 else 0)) by (unfold b2n; lia).
  destruct (forallb (fun q => (q <=? p)%N) s') eqn:E; [|lia]. rewrite forallb_forall in E.
  replace (forallb (fun q => (q <=? p)%N) s) with true; [lia|]. symmetry. apply forallb_forall. intros q i. apply E, L, i.
Qed.
Lemma recs_cons p l : recs [] (p :: l) <= 1 + recs [] l.
Proof. cbn [recs]. pose proof (recs_seen l [] ([] ++ [p]) (incl_nil_l _)). simpl in *. lia. Qed.

Section TreapListCostProofs.
  Context {T : Type}.
  Notation itree := (tree (N * nat) unit T).
  Notation heap := (heap_ordered tprio).
  Notation rle := (root_le tprio).
  Implicit Types (t l r : itree).

  Definition pri t : list N := map (fun x => snd (snd x)) (inorder_prio tprio t).
  Lemma pri_node p n l e r : pri (Node (p, n) l e r) = pri l ++ p :: pri r.
  Proof. unfold pri. simpl. now rewrite map_app. Qed.
  Lemma pri_length t : len_ok t -> length (pri t) = t_len t.
  Proof.
    intros L. rewrite (vals_length t L). clear L. induction t as [|[p n] l IHl e r IHr]; [reflexivity|].
    rewrite pri_node, vals_node, !app_length. simpl. lia.
  Qed.
  Lemma pri_below t p : heap t -> rle p t -> Forall (fun q => (q <= p)%N) (pri t).
  Proof. intros A B. unfold pri. apply Forall_map. induction t as [|[q n] l IHl e r IHr]; [constructor|].
    destruct A as (R1 & R2 & A1 & A2). simpl in B. unfold tprio in B. simpl in B. cbn [inorder_prio]. apply Forall_app. split; [|constructor].
    - apply IHl; auto. destruct l as [|[q1 n1] ? ? ?]; simpl in *; auto. unfold tprio in *. simpl in *. lia.
    - exact B.
    - apply IHr; auto. destruct r as [|[q1 n1] ? ? ?]; simpl in *; auto. unfold tprio in *. simpl in *. lia.
  Qed.

  (** ** Heap order *)
  Lemma i_split_heap t b : forall i k g, i_split t i b = Ok (k, g) -> heap t ->
    heap k /\ heap g /\ forall p, rle p t -> rle p k /\ rle p g.
  Proof.
    induction t as [|[p n] l IHl e r IHr]; intros i k g E Hh; cbn [i_split] in E; [injection E as <- <-; simpl; auto|].
    destruct Hh as (R1 & R2 & H1 & H2). destruct (_ || _) in E.
    - destruct (i_split l i b) as [[k1 g1]| |] eqn:E1; try discriminate. cbn [bind] in E. injection E as <- <-.
      destruct (IHl _ _ _ E1 H1) as (A1 & A2 & A3). destruct (A3 _ R1) as [B1 B2]. split; [exact A1|]. split; [now apply t_upd_heap|].
      intros q Hq. split; [|exact Hq]. apply A3. destruct l as [|[q1 n1] ? ? ?]; simpl in *; auto. unfold tprio in *. simpl in *. lia.
    - destruct (checked_sub i (ikey l)) as [i'| |]; try discriminate. cbn [bind] in E.
      destruct (i_split r i' b) as [[k1 g1]| |] eqn:E1; try discriminate. cbn [bind] in E. injection E as <- <-.
      destruct (IHr _ _ _ E1 H2) as (A1 & A2 & A3). destruct (A3 _ R2) as [B1 B2]. split; [now apply t_upd_heap|]. split; [exact A2|].
      intros q Hq. split; [exact Hq|]. apply A3. destruct r as [|[q1 n1] ? ? ?]; simpl in *; auto. unfold tprio in *. simpl in *. lia.
  Qed.
  Lemma i_remove_heap t : forall i t' v, i_remove t i = Ok (t', v) -> heap t -> heap t' /\ forall p, rle p t -> rle p t'.
  Proof.
    induction t as [|[p n] l IHl e r IHr]; intros i t' v E Hh; cbn [i_remove] in E; destruct (_ && _) in E; try discriminate.
    destruct Hh as (R1 & R2 & H1 & H2).
    assert (Up : forall q (s : itree), rle q (Node (p, n) l e r) -> rle p s -> rle q s).
    { intros q [|[q1 n1] ? ? ?] A B; simpl in *; auto. unfold tprio in *. simpl in *. lia. }
    destruct (Nat.compare i (ikey l)).
    - injection E as <- _. destruct (t_merge_heap l r H1 H2) as [M1 M2]. split; [exact M1|]. intros q Hq. apply M2; eapply Up; eauto.
    - destruct (i_remove l i) as [[l' v']| |] eqn:E1; try discriminate. cbn [bind] in E. injection E as <- _.
      destruct (IHl _ _ _ E1 H1) as [A1 A2]. split; [apply t_upd_heap; auto | intros q Hq; exact Hq].
    - destruct (checked_sub i (ikey l)) as [i'| |]; try discriminate. cbn [bind] in E.
      destruct (i_remove r i') as [[r' v']| |] eqn:E1; try discriminate. cbn [bind] in E. injection E as <- _.
      destruct (IHr _ _ _ E1 H2) as [A1 A2]. split; [apply t_upd_heap; auto | intros q Hq; exact Hq].
  Qed.
  Lemma shape_pri t : forall t', shape t = shape t' -> pri t = pri t'.
  Proof.
    induction t as [|[p n] l IHl e r IHr]; intros [|[p' n'] l' e' r'] E; try discriminate; [reflexivity|].
    simpl in E. injection E as -> _ E1 E2. rewrite !pri_node. f_equal; [auto|]. f_equal. auto.
  Qed.
End TreapListCostProofs.

(** ** The tree that holds the priorities as its values *)
Section Relabel.
  Context {T : Type}.
  Notation itree := (tree (N * nat) unit T).

  Fixpoint relabel (t : itree) : tree (N * nat) unit N :=
    match t with
    | Leaf => Leaf
    | Node (p, n) l e r => Node (p, n) (relabel l) (tt, p) (relabel r)
    end.
  Lemma relabel_vals (t : itree) : vals (relabel t) = pri t.
  Proof. induction t as [|[p n] l IHl e r IHr]; [reflexivity|]. cbn [relabel]. rewrite vals_node, pri_node. simpl. now rewrite IHl, IHr. Qed.
  Lemma relabel_len (t : itree) : t_len (relabel t) = t_len t.
  Proof. now destruct t as [|[p n] l e r]. Qed.
  Lemma relabel_upd p (l : itree) e r : relabel (t_upd p l e r) = t_upd p (relabel l) (tt, p) (relabel r).
  Proof. unfold t_upd. simpl. now rewrite !relabel_len. Qed.
  Lemma relabel_len_ok (t : itree) : len_ok t -> len_ok (relabel t).
  Proof.
    induction t as [|[p n] l IHl e r IHr]; [auto|]. intros (E & L1 & L2). simpl.
    assert (X : forall s : itree, size (relabel s) = size s) by (induction s as [|[q m] a IHa x b IHb]; simpl; auto).
    rewrite !X. auto.
  Qed.
  Lemma relabel_merge (l : itree) : forall r, relabel (t_merge l r) = t_merge (relabel l) (relabel r).
  Proof.
    induction l as [|[pl nl] ll IHll le lr IHlr]; intros r; [now destruct r as [|[pr nr] ? ? ?]|].
    induction r as [|[pr nr] rl IHrl re rr IHrr]; [reflexivity|].
    simpl. simpl in IHrl. destruct (pr <? pl)%N; rewrite relabel_upd; [now rewrite IHlr | now rewrite IHrl].
  Qed.
  Lemma relabel_split (t : itree) b : forall i k g, i_split t i b = Ok (k, g) -> i_split (relabel t) i b = Ok (relabel k, relabel g).
  Proof.
    induction t as [|[p n] l IHl e r IHr]; intros i k g E; cbn [i_split relabel] in *; [now injection E as <- <-|].
    unfold ikey in *. rewrite relabel_len. destruct (_ || _).
    - destruct (i_split l i b) as [[k1 g1]| |] eqn:E1; try discriminate. cbn [bind] in E. injection E as <- <-.
      rewrite (IHl _ _ _ E1). cbn [bind]. now rewrite relabel_upd.
    - destruct (checked_sub i (t_len l + 1)) as [i'| |]; try discriminate. cbn [bind] in *.
      destruct (i_split r i' b) as [[k1 g1]| |] eqn:E1; try discriminate. cbn [bind] in E. injection E as <- <-.
      rewrite (IHr _ _ _ E1). cbn [bind]. now rewrite relabel_upd.
  Qed.
  Lemma relabel_remove (t : itree) : forall i t' v, i_remove t i = Ok (t', v) -> exists q, i_remove (relabel t) i = Ok (relabel t', q).
  Proof.
    induction t as [|[p n] l IHl e r IHr]; intros i t' v E.
    - cbn in E. destruct (_ && _); discriminate.
    - cbn [i_remove] in E. cbn [relabel i_remove]. change (t_len (Node (p, n) (relabel l) (tt, p) (relabel r))) with (t_len (Node (p, n) l e r)).
      destruct (_ && _) in *; try discriminate. unfold ikey in *. rewrite relabel_len. destruct (Nat.compare i (t_len l + 1)).
      + injection E as <- _. eexists. now rewrite <- relabel_merge.
      + destruct (i_remove l i) as [[l' v']| |] eqn:E1; try discriminate. cbn [bind] in E. injection E as <- _.
        destruct (IHl _ _ _ E1) as [q Eq]. rewrite Eq. cbn [bind]. exists q. now rewrite relabel_upd.
      + destruct (checked_sub i (t_len l + 1)) as [i'| |]; try discriminate. cbn [bind] in *.
        destruct (i_remove r i') as [[r' v']| |] eqn:E1; try discriminate. cbn [bind] in E. injection E as <- _.
        destruct (IHr _ _ _ E1) as [q Eq]. rewrite Eq. cbn [bind]. exists q. now rewrite relabel_upd.
  Qed.
End Relabel.

(** ** The steps of the calls *)
Section Steps.
  Context {T : Type}.
  Notation itree := (tree (N * nat) unit T).
  Notation heap := (heap_ordered tprio).
  Implicit Types (t l r : itree).

  Lemma i_split_bound t : forall n, len_ok t -> heap t -> exists k g c, i_split_c t (S n) true = Ok ((k, g), c) /\ i_split t (S n) true = Ok (k, g) /\
    c <= 2 * (recs [] (skipn n (pri t)) + recs [] (rev (firstn n (pri t)))).
  Proof.
    induction t as [|[p m] l IHl e r IHr]; intros n L Hh.
    - exists Leaf, Leaf, 0. simpl. repeat split. lia.
    - destruct L as (_ & L1 & L2), Hh as (R1 & R2 & H1 & H2). cbn [i_split i_split_c]. unfold ikey. rewrite <- (pri_length l L1), pri_node.
      pose proof (pri_below l p H1 R1) as F1. pose proof (pri_below r p H2 R2) as F2.
      destruct ((S n <? length (pri l) + 1) || ((S n =? length (pri l) + 1) && true)) eqn:B.
      + assert (Hn : n <= length (pri l)).
        { apply Bool.orb_true_iff in B as [B|B]; [apply Nat.ltb_lt in B; lia|].
          rewrite Bool.andb_true_r in B. apply Nat.eqb_eq in B. lia. }
        destruct (IHl n L1 H1) as (k & g & c & E1 & E2 & Lc). rewrite E1, E2. cbn [bind].
        eexists _, _, _; split; [reflexivity|]. split; [reflexivity|]. rewrite firstn_app_l, skipn_app_l by exact Hn.
        assert (F1' : Forall (fun q => (q <= p)%N) (skipn n (pri l))).
        { rewrite <- (firstn_skipn n (pri l)) in F1. now apply Forall_app in F1. }
        pose proof (recs_top (skipn n (pri l)) p (pri r) F1'). lia.
      + apply Bool.orb_false_iff in B as [B1 B2]. rewrite Bool.andb_true_r in B2.
        apply Nat.ltb_ge in B1. apply Nat.eqb_neq in B2.
        rewrite checked_sub_ok by lia. cbn [bind].
        replace (S n - (length (pri l) + 1)) with (S (n - length (pri l) - 1)) by lia. set (d := n - length (pri l) - 1).
        destruct (IHr d L2 H2) as (k & g & c & E1 & E2 & Lc).
        rewrite E1, E2. cbn [bind]. eexists _, _, _; split; [reflexivity|]. split; [reflexivity|].
        replace n with (length (pri l) + S d) by (unfold d; lia).
        rewrite firstn_app_r, skipn_app_r. cbn [firstn skipn]. rewrite rev_app_distr. simpl rev. rewrite <- app_assoc. simpl app.
        assert (F2' : Forall (fun q => (q <= p)%N) (rev (firstn d (pri r)))).
        { apply Forall_rev. rewrite <- (firstn_skipn d (pri r)) in F2. now apply Forall_app in F2. }
        pose proof (recs_top (rev (firstn d (pri r))) p (rev (pri l)) F2'). lia.
  Qed.

  Lemma i_get_bound t : forall n, len_ok t -> heap t ->
    i_get_steps t (n + 1) <= 2 + 2 * (recs [] (skipn (S n) (pri t)) + recs [] (rev (firstn n (pri t)))).
  Proof.
    induction t as [|[p m] l IHl e r IHr]; intros n L Hh; [cbn [i_get_steps]; lia|].
    destruct L as (_ & L1 & L2), Hh as (R1 & R2 & H1 & H2). cbn [i_get_steps]. unfold ikey. rewrite <- (pri_length l L1), pri_node.
    pose proof (pri_below l p H1 R1) as F1. pose proof (pri_below r p H2 R2) as F2.
    destruct (Nat.compare_spec (n + 1) (length (pri l) + 1)) as [C|C|C]; [lia| |].
    - specialize (IHl n L1 H1). rewrite firstn_app_l, skipn_app_l by lia.
      assert (F1' : Forall (fun q => (q <= p)%N) (skipn (S n) (pri l))).
      { rewrite <- (firstn_skipn (S n) (pri l)) in F1. now apply Forall_app in F1. }
      pose proof (recs_top (skipn (S n) (pri l)) p (pri r) F1'). lia.
    - set (d := n - length (pri l) - 1). replace (n + 1 - (length (pri l) + 1)) with (d + 1) by (unfold d; lia). specialize (IHr d L2 H2).
      replace n with (length (pri l) + S d) by (unfold d; lia). replace (S (length (pri l) + S d)) with (length (pri l) + S (S d)) by lia.
      rewrite firstn_app_r, skipn_app_r. cbn [firstn skipn]. rewrite rev_app_distr. simpl rev. rewrite <- app_assoc. simpl app.
      assert (F2' : Forall (fun q => (q <= p)%N) (rev (firstn d (pri r)))).
      { apply Forall_rev. rewrite <- (firstn_skipn d (pri r)) in F2. now apply Forall_app in F2. }
      pose proof (recs_top (rev (firstn d (pri r))) p (rev (pri l)) F2'). cbn [skipn] in IHr. lia.
  Qed.

  Lemma i_remove_bound t : forall n x, len_ok t -> heap t -> nth_error (vals t) n = Some x -> exists t' c, i_remove_c t (n + 1) = Ok ((t', x), c) /\
    i_remove t (n + 1) = Ok (t', x) /\ c <= 2 + 2 * (recs [] (skipn (S n) (pri t)) + recs [] (rev (firstn n (pri t)))).
  Proof.
    intros n x L Hh Ex. destruct (i_remove_ok t n x L Ex) as (t' & E & _). exists t'.
    enough (exists c, i_remove_c t (n + 1) = Ok ((t', x), c) /\ c <= 2 + 2 * (recs [] (skipn (S n) (pri t)) + recs [] (rev (firstn n (pri t))))) as (c & A & B).
    { exists c. auto. }
    clear Ex. revert n x t' E L Hh. induction t as [|[p m] l IHl e r IHr]; intros n x t' E L Hh; cbn [i_remove i_remove_c] in *.
    { destruct (_ && _); discriminate. }
    destruct (_ && _); [|discriminate].
    destruct L as (_ & L1 & L2), Hh as (R1 & R2 & H1 & H2). unfold ikey in *. rewrite <- (pri_length l L1) in *. rewrite pri_node.
    pose proof (pri_below l p H1 R1) as F1. pose proof (pri_below r p H2 R2) as F2.
    destruct (Nat.compare_spec (n + 1) (length (pri l) + 1)) as [C|C|C].
    - rewrite t_merge_c_eq. injection E as <- <-. eexists; split; [reflexivity|].
      assert (En : n = length (pri l) + 0) by lia. rewrite En. replace (S (length (pri l) + 0)) with (length (pri l) + 1) by lia.
      rewrite firstn_app_r, skipn_app_r. simpl. rewrite app_nil_r.
      pose proof (merge_bound l r). pose proof (max_records l H1) as X1. pose proof (min_records r H2) as X2. fold (pri l) in X1. fold (pri r) in X2. lia.
    - destruct (i_remove l (n + 1)) as [[l' v']| |] eqn:E1; try discriminate. cbn [bind] in E. injection E as <- <-.
      destruct (IHl n _ _ E1 L1 H1) as (c & Ec & Lc). rewrite Ec. cbn [bind]. eexists; split; [reflexivity|].
      rewrite firstn_app_l, skipn_app_l by lia.
      assert (F1' : Forall (fun q => (q <= p)%N) (skipn (S n) (pri l))).
      { rewrite <- (firstn_skipn (S n) (pri l)) in F1. now apply Forall_app in F1. }
      pose proof (recs_top (skipn (S n) (pri l)) p (pri r) F1'). lia.
    - rewrite checked_sub_ok in * by lia. cbn [bind] in *. set (d := n - length (pri l) - 1).
      replace (n + 1 - (length (pri l) + 1)) with (d + 1) in * by (unfold d; lia).
      destruct (i_remove r (d + 1)) as [[r' v']| |] eqn:E1; try discriminate. cbn [bind] in E. injection E as <- <-.
      destruct (IHr d _ _ E1 L2 H2) as (c & Ec & Lc). rewrite Ec. cbn [bind]. eexists; split; [reflexivity|].
      replace n with (length (pri l) + S d) by (unfold d; lia). replace (S (length (pri l) + S d)) with (length (pri l) + S (S d)) by lia.
      rewrite firstn_app_r, skipn_app_r. cbn [firstn skipn]. rewrite rev_app_distr. simpl rev. rewrite <- app_assoc. simpl app.
      assert (F2' : Forall (fun q => (q <= p)%N) (rev (firstn d (pri r)))).
      { apply Forall_rev. rewrite <- (firstn_skipn d (pri r)) in F2. now apply Forall_app in F2. }
      pose proof (recs_top (rev (firstn d (pri r))) p (rev (pri l)) F2'). cbn [skipn] in Lc. lia.
  Qed.

  (** Where a call looks in a list of [n] elements: it leaves the elements from the first up to the second number alone. *)
  Definition place (o : seq_op T) (n : nat) : nat * nat :=
    match o with
    | QInsert i _ => (i, i)
    | QPushBack _ => (n, n)
    | QRemove i | QGet i | QGetMut i _ | QIndex i | QIndexMut i _ => (i, S i)
    | QPopFront => (0, 1)
    | QPopBack => (n - 1, S (n - 1))
    | _ => (0, 0)
    end.
  Definition around (o : seq_op T) (q : list N) : nat :=
    let (i, j) := place o (length q) in 2 + 4 * (recs [] (skipn j q) + recs [] (rev (firstn i q))).
  Definition retag {A} (a : A) (o : seq_op T) : seq_op A :=
    match o with
    | QInsert i _ => QInsert i a
    | QRemove i => QRemove i
    | QPushFront _ => QPushFront a
    | QPushBack _ => QPushBack a
    | QPopFront => QPopFront
    | QPopBack => QPopBack
    | QClear => QClear
    | QIntoIter => QIntoIter
    | _ => QLen
    end.

  Definition linv t : Prop := len_ok t /\ heap t.
  Lemma linv_pri t : linv t -> len_ok (relabel t).
  Proof. intros [L _]. now apply relabel_len_ok. Qed.
  Lemma linv_length t : linv t -> length (pri t) = length (vals t).
  Proof. intros [L _]. now rewrite (pri_length t L), (vals_length t L). Qed.

  Lemma tl_insert_bound t n v p : linv t -> n <= length (pri t) -> exists t' c, tl_insert_c t n v p = Ok (t', (QDone (Ok tt), c)) /\ linv t' /\
    vals t' = insert_nth n v (vals t) /\ pri t' = insert_nth n p (pri t) /\ c <= 2 + 4 * (recs [] (skipn n (pri t)) + recs [] (rev (firstn n (pri t)))).
  Proof.
    intros I Ln. pose proof I as [L Hh]. pose proof (linv_length t I) as El. rewrite El in Ln.
    destruct (i_insert_ok t n v p L) as [A _]. destruct (A Ln) as (t' & E & V & L'). clear A.
    unfold tl_insert_c, i_insert_c. unfold i_insert in E. destruct (_ && _); [|discriminate]. rewrite Nat.add_1_r in *.
    destruct (i_split_bound t n L Hh) as (k & g & c & E1 & E2 & Lc). rewrite E1. rewrite E2 in E. cbn [bind] in *. rewrite !t_merge_c_eq.
    injection E as Et. rewrite Et. set (s := Node (p, 1) Leaf (tt, v) Leaf : itree) in *.
    destruct (i_split_heap t true _ _ _ E2 Hh) as (Hk & Hg & _).
    assert (Hs : heap s) by (repeat split).
    pose proof (proj1 (t_merge_heap k s Hk Hs)) as Hm. pose proof (proj1 (t_merge_heap _ g Hm Hg)) as Ht. rewrite Et in Ht.
    pose proof (relabel_split t true _ _ _ E2) as R. destruct (i_split_ok (relabel t) n (relabel_len_ok t L)) as (k' & g' & R' & V1 & V2 & _).
    rewrite R in R'. injection R' as <- <-. rewrite !relabel_vals in V1, V2.
    assert (Pm : pri (t_merge k s) = firstn n (pri t) ++ [p]).
    { rewrite <- relabel_vals, relabel_merge, vals_merge, !relabel_vals, V1. reflexivity. }
    exists t', (c + merge_steps k s + merge_steps (t_merge k s) g). split; [reflexivity|]. split; [now split|]. split; [exact V|]. split.
    - rewrite <- Et. rewrite <- relabel_vals, relabel_merge, vals_merge, !relabel_vals, Pm, V2. unfold insert_nth. now rewrite <- app_assoc.
    - pose proof (merge_bound k s) as B1. pose proof (merge_bound (t_merge k s) g) as B2. pose proof (max_records k Hk) as X1. pose proof (min_records g Hg) as X2.
      pose proof (max_records _ Hm) as X3. fold (pri k) in X1. fold (pri g) in X2. fold (pri (t_merge k s)) in X3. rewrite V1 in X1. rewrite V2 in X2. rewrite Pm in X3.
      rewrite rev_app_distr in X3. simpl in X3. pose proof (recs_cons p (rev (firstn n (pri t)))) as X4. cbn [recs] in X4. simpl in X3, X4, B1. lia.
  Qed.
  Lemma tl_remove_bound t n x : linv t -> nth_error (vals t) n = Some x -> exists t' c, tl_remove_c t n = Ok (t', (QVal (Ok x), c)) /\ linv t' /\
    vals t' = remove_nth n (vals t) /\ pri t' = remove_nth n (pri t) /\ c <= 2 + 4 * (recs [] (skipn (S n) (pri t)) + recs [] (rev (firstn n (pri t)))).
  Proof.
    intros I Ex. pose proof I as [L Hh]. destruct (i_remove_bound t n x L Hh Ex) as (t' & c & E1 & E2 & Lc).
    unfold tl_remove_c. rewrite E1. exists t', c. split; [reflexivity|].
    destruct (i_remove_ok t n x L Ex) as (t1 & E3 & V & L'). rewrite E2 in E3. injection E3 as <-.
    destruct (i_remove_heap t _ _ _ E2 Hh) as [Ht _]. split; [now split|]. split; [exact V|]. split; [|lia].
    destruct (relabel_remove t _ _ _ E2) as [q Eq].
    destruct (nth_error (vals (relabel t)) n) as [q'|] eqn:En.
    - destruct (i_remove_ok (relabel t) n q' (relabel_len_ok t L) En) as (t2 & E4 & V2 & _). rewrite Eq in E4. injection E4 as <- _.
      now rewrite !relabel_vals in V2.
    - apply nth_error_None in En. rewrite (i_remove_panic _ n (relabel_len_ok t L) En) in Eq. discriminate.
  Qed.
  Lemma i_remove_c_panic t i : i_remove t i = Panic -> i_remove_c t i = Panic.
  Proof.
    revert i. induction t as [|[p m] l IHl e r IHr]; intros i E; cbn [i_remove i_remove_c] in *; [now destruct (_ && _)|].
    destruct (_ && _); [|reflexivity]. destruct (Nat.compare i (ikey l)); [discriminate| |].
    - destruct (i_remove l i) as [[? ?]| |] eqn:E1; try discriminate. now rewrite (IHl _ E1).
    - destruct (checked_sub i (ikey l)) as [i'| |]; try discriminate; [|reflexivity]. cbn [bind] in *.
      destruct (i_remove r i') as [[? ?]| |] eqn:E1; try discriminate. now rewrite (IHr _ E1).
  Qed.

  Lemma tl_step_bound t o p : linv t -> exists t' c, tl_step_c t (o, p) = Ok (t', (snd (seq_spec_step (vals t) o), c)) /\ linv t' /\
    vals t' = fst (seq_spec_step (vals t) o) /\ pri t' = fst (seq_spec_step (pri t) (retag p o)) /\ (seeks o = true -> c <= around o (pri t)).
  Proof.
    intros I. pose proof I as [L Hh]. pose proof (linv_length t I) as El. unfold around, tl_step_c. cbn [fst snd].
    assert (G : forall (o' : seq_op T) cc, (seeks o' = true -> cc <= around o' (pri t)) ->
       match o' with QInsert _ _ | QRemove _ | QPushFront _ | QPushBack _ | QPopFront | QPopBack | QClear | QIntoIter => False | _ => True end ->
       exists t' c, (let* (t', out) := tl_step t (o', p) in Ok (t', (out, cc))) = Ok (t', (snd (seq_spec_step (vals t) o'), c)) /\ linv t' /\
         vals t' = fst (seq_spec_step (vals t) o') /\ pri t' = pri t /\ (seeks o' = true -> c <= around o' (pri t))).
    { intros o' cc Lc K. destruct (tl_step_ok t (vals t) o' p (conj eq_refl L)) as (t' & E & V & L'). rewrite E. cbn [bind].
      exists t', cc. split; [reflexivity|]. assert (Sh : shape t = shape t').
      { destruct o' as [i v|i|v|v| | |i|i v|i|i v| | | | |vs|]; try contradiction; cbn [tl_step] in E.
        all: try rewrite iter_all_spec in E; cbn [bind] in E; try (assert (X : t = t') by congruence; now rewrite X).
        - rewrite (i_get_ok t i L) in E. injection E as <-. reflexivity.
        - destruct (i_get_mut_set t (i + 1) v) as [[t1 x]| |] eqn:E1; try discriminate. injection E as <- _. revert E1. generalize (i + 1). clear.
          revert t1 x. induction t as [|[p m] l IHl e r IHr]; intros t1 x n E; cbn [i_get_mut_set] in E; [now injection E as <- _|].
          destruct (Nat.compare n (ikey l)).
          + now injection E as <- _.
          + destruct (i_get_mut_set l n v) as [[l' y]| |] eqn:E1; try discriminate. injection E as <- _. simpl. f_equal. eauto.
          + destruct (checked_sub n (ikey l)) as [n'| |]; try discriminate. cbn [bind] in E.
            destruct (i_get_mut_set r n' v) as [[l' y]| |] eqn:E1; try discriminate. injection E as <- _. simpl. f_equal. eauto.
        - rewrite (i_get_ok t i L) in E. injection E as <-. reflexivity.
        - destruct (i_get_mut_set t (i + 1) v) as [[t1 x]| |] eqn:E1; try discriminate. injection E as <- _. revert E1. generalize (i + 1). clear.
          revert t1 x. induction t as [|[p m] l IHl e r IHr]; intros t1 x n E; cbn [i_get_mut_set] in E; [now injection E as <- _|].
          destruct (Nat.compare n (ikey l)).
          + now injection E as <- _.
          + destruct (i_get_mut_set l n v) as [[l' y]| |] eqn:E1; try discriminate. injection E as <- _. simpl. f_equal. eauto.
          + destruct (checked_sub n (ikey l)) as [n'| |]; try discriminate. cbn [bind] in E.
            destruct (i_get_mut_set r n' v) as [[l' y]| |] eqn:E1; try discriminate. injection E as <- _. simpl. f_equal. eauto.
        - destruct (itermut_run_spec t vs) as (t1 & E1 & S1 & _). rewrite E1 in E. cbn [bind] in E. injection E as <- _. now symmetry. }
      split; [split; [exact L' | eapply heap_shape; eauto]|]. split; [exact V|]. split; [symmetry; now apply shape_pri | exact Lc]. }
    assert (GB : forall i, i_get_steps t (i + 1) <= 2 + 4 * (recs [] (skipn (S i) (pri t)) + recs [] (rev (firstn i (pri t))))).
    { intros i. pose proof (i_get_bound t i L Hh). lia. }
    assert (PA : forall n v, length (pri t) < n -> tl_insert_c t n v p = Ok (t, (QDone Panic, 0))).
    { intros n v Ln. unfold tl_insert_c, i_insert_c. rewrite <- (pri_length t L).
      replace ((1 <=? n + 1) && (n + 1 <=? length (pri t) + 1)) with false; [reflexivity|]. symmetry. apply Bool.andb_false_iff. right. apply Nat.leb_gt. lia. }
    destruct o as [i v|i|v|v| | |i|i v|i|i v| | | | |vs|]; cbn [retag place seq_spec_step];
      try (match goal with |- context [tl_step t (?o', _)] =>
             destruct (G o' 0 ltac:(intros; discriminate) Logic.I) as (t' & c & G1 & G2 & G3 & G4 & G5); exists t', c; now auto end).
    - unfold seq_insert. rewrite <- El. destruct (Nat.leb_spec i (length (pri t))) as [Li|Li].
      + destruct (tl_insert_bound t i v p I Li) as (t' & c & A). exists t', c. intuition.
      + exists t, 0. rewrite (PA i v Li). repeat split; auto. lia.
    - unfold seq_remove. destruct (nth_error (vals t) i) as [x|] eqn:Ex.
      + destruct (nth_error (pri t) i) as [x'|] eqn:Ex'.
        * destruct (tl_remove_bound t i x I Ex) as (t' & c & A). exists t', c. intuition.
        * apply nth_error_None in Ex'. rewrite El in Ex'. apply nth_error_None in Ex'. congruence.
      + apply nth_error_None in Ex. exists t, 0. unfold tl_remove_c. rewrite (i_remove_c_panic t _ (i_remove_panic t i L Ex)).
        rewrite <- El in Ex. apply nth_error_None in Ex. rewrite Ex. repeat split; auto. lia.
    - destruct (tl_insert_bound t 0 v p I ltac:(lia)) as (t' & c & A1 & A2 & A3 & A4 & A5). exists t', c. intuition.
    - rewrite <- (pri_length t L). destruct (tl_insert_bound t _ v p I (Nat.le_refl _)) as (t' & c & A1 & A2 & A3 & A4 & A5). exists t', c.
      rewrite insert_nth_length in A4. rewrite El, insert_nth_length in A3. intuition.
    - destruct (vals t) as [|x q] eqn:Eq.
      + exists t, 0. unfold tl_remove_c. rewrite (i_remove_c_panic t _ (i_remove_panic t 0 L ltac:(now rewrite Eq))). rewrite ?Eq in El.
        destruct (pri t); [|discriminate]. repeat split; auto. lia.
      + destruct (tl_remove_bound t 0 x I ltac:(now rewrite Eq)) as (t' & c & A1 & A2 & A3 & A4 & A5). exists t', c. rewrite Eq in A3. unfold remove_nth in *.
        destruct (pri t); [now rewrite ?Eq in El|]. intuition.
    - destruct (vals t) as [|x q] eqn:Eq.
      + exists t, 0. rewrite <- (pri_length t L), El, ?Eq. simpl. rewrite ?Eq in El. destruct (pri t); [|discriminate]. repeat split; auto; try lia.
      + rewrite <- (pri_length t L), El, ?Eq. rewrite checked_sub_ok by (simpl; lia).
        destruct (@remove_nth_last T (x :: q)) as [R1 R2]; [discriminate|].
        destruct (@remove_nth_last N (pri t)) as [R3 R4]; [intros E; rewrite E, ?Eq in El; discriminate|].
        destruct (last_error (x :: q)) as [y|] eqn:El'; [|apply last_error_none in El'; discriminate].
        destruct (tl_remove_bound t (length (x :: q) - 1) y I ltac:(now rewrite Eq)) as (t' & c & A1 & A2 & A3 & A4 & A5). exists t', c.
        rewrite Eq in A3. rewrite ?Eq in El. rewrite R1 in A3. rewrite <- El, R3 in A4. rewrite <- El in *. intuition.
    - destruct (G (QGet i) (i_get_steps t (i + 1)) ltac:(intros _; apply GB) Logic.I) as (t' & c & G1 & G2 & G3 & G4 & G5). exists t', c. now auto.
    - destruct (G (QGetMut i v) (i_get_steps t (i + 1)) ltac:(intros _; apply GB) Logic.I) as (t' & c & G1 & G2 & G3 & G4 & G5). exists t', c. now auto.
    - destruct (G (QIndex i) (i_get_steps t (i + 1)) ltac:(intros _; apply GB) Logic.I) as (t' & c & G1 & G2 & G3 & G4 & G5). exists t', c. now auto.
    - destruct (G (QIndexMut i v) (i_get_steps t (i + 1)) ltac:(intros _; apply GB) Logic.I) as (t' & c & G1 & G2 & G3 & G4 & G5). exists t', c. now auto.
    - exists Leaf, 0. split; [reflexivity|]. split; [now repeat split|]. split; [reflexivity|]. split; [reflexivity | intros; lia].
    - exists Leaf, 0. cbn [tl_step]. rewrite iter_all_spec. cbn [bind]. fold (vals t). split; [reflexivity|]. split; [now repeat split|]. split; [reflexivity|]. split; [reflexivity | intros; lia].
  Qed.
End Steps.

(** ** The draws the elements carry *)
Section Tags.
  Context {T : Type}.
  Notation itree := (tree (N * nat) unit T).

  Fixpoint tags (n : nat) (l : list nat) (ops : list (seq_op T)) : list nat :=
    match ops with [] => l | o :: r => tags (S n) (fst (seq_spec_step l (retag n o))) r end.

  Lemma gap_perm {A} (l : list A) i j : i <= j -> exists r, Permutation l (r ++ firstn i l ++ skipn j l).
  Proof.
    intros L. exists (firstn (j - i) (skipn i l)).
    assert (E : l = firstn i l ++ firstn (j - i) (skipn i l) ++ skipn j l).
    { rewrite <- (firstn_skipn i l) at 1. f_equal. rewrite <- (firstn_skipn (j - i) (skipn i l)) at 1. f_equal.
      assert (X : forall a b (x : list A), skipn a (skipn b x) = skipn (b + a) x).
      { intros a b. induction b as [|b IH]; intros x; [reflexivity|]. destruct x; [now rewrite !skipn_nil|]. apply IH. }
      rewrite X. f_equal. lia. }
    rewrite E at 1. rewrite !app_assoc. apply Permutation_app_tail, Permutation_app_comm.
  Qed.

  Lemma retag_state {A} (a : A) (o : seq_op T) (l : list A) :
    Permutation (a :: l) (fst (seq_spec_step l (retag a o))) \/
    exists i j, i <= j /\ fst (seq_spec_step l (retag a o)) = firstn i l ++ skipn j l.
  Proof.
    assert (Id : l = firstn 0 l ++ skipn 0 l) by reflexivity.
    assert (In : forall i, Permutation (a :: l) (insert_nth i a l)).
    { intros i. unfold insert_nth. rewrite <- (firstn_skipn i l) at 1. apply Permutation_middle. }
    destruct o as [i v|i|v|v| | |i|i v|i|i v| | | | |vs|]; cbn [retag seq_spec_step fst].
    all: try (right; now exists 0, 0).
    - unfold seq_insert. destruct (i <=? length l); cbn [fst]; [left; auto | right; now exists 0, 0].
    - unfold seq_remove. right. destruct (nth_error l i); cbn [fst]; [exists i, (S i) | exists 0, 0]; auto.
    - left. auto.
    - left. apply Permutation_cons_append.
    - right. exists 0, 1. split; [lia|]. now destruct l.
    - right. exists (pred (length l)), (length l). split; [lia|]. now rewrite skipn_all, app_nil_r, removelast_firstn_len.
    - right. exists 0, (length l). split; [lia|]. now rewrite skipn_all.
    - right. exists 0, (length l). split; [lia|]. now rewrite skipn_all.
  Qed.

  Definition tags_ok (n : nat) (l : list nat) : Prop := NoDup l /\ forall w, In w l -> w < n.
  Lemma tags_step_ok n l (o : seq_op T) : tags_ok n l -> tags_ok (S n) (fst (seq_spec_step l (retag n o))).
  Proof.
    intros [D L]. destruct (retag_state n o l) as [P | (i & j & Lij & E)].
    - split.
      + eapply Permutation_NoDup; [exact P|]. constructor; [|exact D]. intros X. specialize (L _ X). lia.
      + intros w X. eapply Permutation_in in X; [|symmetry; exact P]. destruct X as [->|X]; [lia|]. specialize (L _ X). lia.
    - rewrite E. destruct (gap_perm l i j Lij) as [r P]. split.
      + eapply Permutation_NoDup in D; [|exact P]. now apply nodup_parts in D.
      + intros w X. enough (w < n) by lia. apply L. eapply Permutation_in; [symmetry; exact P|]. apply in_app_iff. now right.
  Qed.
  Lemma tags_all_ok ops : forall n l, tags_ok n l -> tags_ok (n + length ops) (tags n l ops).
  Proof.
    induction ops as [|o ops IH]; intros n l B; simpl; [now rewrite Nat.add_0_r|]. rewrite <- Nat.add_succ_comm. apply IH. now apply tags_step_ok.
  Qed.

  Lemma seq_step_map {A B} (f : A -> B) (a : A) (o : seq_op T) (l : list A) :
    map f (fst (seq_spec_step l (retag a o))) = fst (seq_spec_step (map f l) (retag (f a) o)).
  Proof.
    destruct o as [i v|i|v|v| | |i|i v|i|i v| | | | |vs|]; cbn [retag seq_spec_step fst]; auto.
    - unfold seq_insert. rewrite map_length. destruct (i <=? length l); cbn [fst]; [|easy]. unfold insert_nth.
      now rewrite map_app, firstn_map, skipn_map.
    - unfold seq_remove. rewrite nth_error_map. destruct (nth_error l i); cbn [fst option_map]; [|easy]. unfold remove_nth.
      now rewrite map_app, firstn_map, skipn_map.
    - now rewrite map_app.
    - now destruct l.
    - rewrite !removelast_firstn_len, map_length. now rewrite firstn_map.
  Qed.
  Lemma seq_step_length {A} (a : A) (o : seq_op T) (l : list T) (l' : list A) : length l = length l' ->
    length (fst (seq_spec_step l o)) = length (fst (seq_spec_step l' (retag a o))).
  Proof.
    intros E.
    destruct o as [i v|i|v|v| | |i|i v|i|i v| | | | |vs|]; cbn [retag seq_spec_step fst]; auto.
    - unfold seq_insert. rewrite E. destruct (i <=? length l'); cbn [fst]; [|easy]. unfold insert_nth.
      rewrite !app_length. simpl. rewrite !firstn_length, !skipn_length, E. lia.
    - unfold seq_remove. destruct (nth_error l i) eqn:E1, (nth_error l' i) eqn:E2; cbn [fst]; auto.
      + unfold remove_nth. rewrite !app_length, !firstn_length, !skipn_length, E. lia.
      + apply nth_error_None in E2. rewrite <- E in E2. apply nth_error_None in E2. congruence.
      + apply nth_error_None in E1. rewrite E in E1. apply nth_error_None in E1. congruence.
    - simpl. lia.
    - rewrite !app_length. simpl. lia.
    - destruct l, l'; try discriminate; auto.
    - rewrite !removelast_firstn_len, !firstn_length. lia.
    - unfold set_nth. destruct (Nat.ltb_spec i (length l)); [|easy]. rewrite app_length. cbn [length]. rewrite firstn_length, skipn_length. lia.
    - unfold set_nth. destruct (Nat.ltb_spec i (length l)); [|easy]. rewrite app_length. cbn [length]. rewrite firstn_length, skipn_length. lia.
    - rewrite app_length, firstn_length, skipn_length. lia.
  Qed.
  Lemma tags_length (ops : list (seq_op T)) : forall n l l' i m, length l = length l' -> nth_error (seq_lengths_before l ops) i = Some m ->
    length (tags n l' (firstn i ops)) = m.
  Proof.
    induction ops as [|o ops IH]; intros n l l' [|i] m E Ei; simpl in Ei; try discriminate.
    - injection Ei as <-. now symmetry.
    - cbn [firstn tags]. eapply IH; [|exact Ei]. now apply seq_step_length.
  Qed.

  Lemma tl_run_c ps (ops : list (seq_op T)) : forall qs n l (t : itree), length qs = length ops ->
    (forall j, j < length ops -> nth j qs 0%N = nth (n + j) ps 0%N) -> linv t -> pri t = map (fun d => nth d ps 0%N) l ->
    exists t' outs, run tl_step_c t (combine ops qs) = Ok (t', outs) /\ map fst outs = snd (spec_run seq_spec_step (vals t) ops) /\ length outs = length ops /\
    forall i o, nth_error ops i = Some o -> seeks o = true ->
      nth i (map snd outs) 0 <= around o (map (fun d => nth d ps 0%N) (tags n l (firstn i ops))).
  Proof.
    induction ops as [|o ops IH]; intros [|q qs] n l t El En I Ep; try discriminate.
    - exists t, []. repeat split; auto. intros [|i] ?; discriminate.
    - pose proof (En 0 ltac:(simpl; lia)) as E0. rewrite Nat.add_0_r in E0. cbn [nth] in E0. subst q.
      destruct (tl_step_bound t o (nth n ps 0%N) I) as (t1 & c & E1 & I1 & V1 & P1 & B1).
      assert (P1' : pri t1 = map (fun d => nth d ps 0%N) (fst (seq_spec_step l (retag n o)))).
      { rewrite P1, Ep. symmetry. apply (seq_step_map (fun d => nth d ps 0%N)). }
      destruct (IH qs (S n) (fst (seq_spec_step l (retag n o))) t1) as (t2 & outs & E2 & E3 & E4 & E5); auto.
      { intros j Lj. rewrite Nat.add_succ_comm. apply (En (S j)). simpl. lia. }
      exists t2, ((snd (seq_spec_step (vals t) o), c) :: outs). cbn [combine run]. rewrite E1. cbn [bind]. rewrite E2. cbn [bind].
      split; [easy|]. split; [|split].
      + cbn [map fst spec_run]. rewrite E3, V1. destruct (seq_spec_step (vals t) o) as [l1 r1]. cbn [fst snd]. now destruct (spec_run seq_spec_step l1 ops).
      + simpl. congruence.
      + intros [|i] o' E So.
        * injection E as <-. cbn [map nth snd firstn tags]. rewrite <- Ep. now apply B1.
        * cbn [map nth firstn tags]. now apply E5.
  Qed.

  Lemma tags_recs M t l : 0 < M -> NoDup l -> (forall w, In w l -> w < t) ->
    total (fun ps => recs [] (map (fun d => nth d ps 0%N) l)) (draws M t) <= M ^ t * S (Nat.log2 (length l)) + length l * M ^ (t - 1).
  Proof.
    intros PM D L. pose proof (recs_average M t (map (fun d => [d]) l) PM) as A.
    assert (E : concat (map (fun d => [d]) l) = l) by (clear; induction l; simpl; congruence). rewrite E in A.
    eapply Nat.le_trans; [|apply A; auto].
    - apply Nat.eq_le_incl, total_ext. intros ps _. rewrite map_map. f_equal. apply map_ext. intros d. unfold most. simpl. lia.
    - clear. induction l; simpl; constructor; auto. easy.
  Qed.

  Lemma tl_steps_average (M : nat) (ops : list (seq_op T)) : 0 < M -> exists steps : list N -> list nat,
    (forall ps, length ps = length ops -> outputs tl_step_c Leaf (combine ops ps) = Ok (combine (spec_outputs seq_spec_step [] ops) (steps ps)) /\ length (steps ps) = length ops) /\
    forall i o n, nth_error ops i = Some o -> seeks o = true -> nth_error (seq_lengths_before [] ops) i = Some n ->
      average_within M (length ops) (8 * Nat.log2 n + 10) (4 * n) (fun ps => nth i (steps ps) 0).
  Proof.
    intros PM.
    set (steps := fun ps => match run tl_step_c (Leaf : itree) (combine ops ps) with Ok (_, outs) => map snd outs | _ => [] end).
    exists steps.
    assert (A : forall ps, length ps = length ops -> outputs tl_step_c Leaf (combine ops ps) = Ok (combine (spec_outputs seq_spec_step [] ops) (steps ps)) /\
      length (steps ps) = length ops /\
      forall i o, nth_error ops i = Some o -> seeks o = true -> nth i (steps ps) 0 <= around o (map (fun d => nth d ps 0%N) (tags 0 [] (firstn i ops)))).
    { intros ps El. destruct (tl_run_c ps ops ps 0 [] Leaf El) as (t' & outs & E1 & E2 & E3 & E4); auto; [now repeat split|].
      unfold outputs, steps. rewrite E1. simpl rmap. split; [|split].
      - f_equal. unfold spec_outputs. change (vals Leaf) with (@nil T) in E2. rewrite <- E2. clear. induction outs as [|[a c] outs IH]; simpl; congruence.
      - now rewrite map_length.
      - exact E4. }
    split; [intros ps El; destruct (A ps El) as (A1 & A2 & _); auto|]. intros i o n Ei So En. unfold average_within.
    assert (Li : i < length ops) by (apply nth_error_Some; congruence).
    pose proof (tags_length ops 0 [] [] i n eq_refl En) as Et.
    pose proof (tags_all_ok (firstn i ops) 0 [] ltac:(split; [constructor | intros ? []])) as [D L]. rewrite Nat.add_0_l, firstn_length_le in L by lia.
    set (l := tags 0 [] (firstn i ops)) in *.
    destruct (place o n) as [a b] eqn:Ep.
    assert (Lab : a <= b) by (destruct o; simpl in Ep; injection Ep as <- <-; lia).
    destruct (gap_perm l a b Lab) as [r P]. pose proof (Permutation_NoDup P D) as D'. apply nodup_parts in D' as [_ D']. apply nodup_parts in D' as [D1 D2].
    pose proof (Permutation_length P) as Pl. rewrite !app_length in Pl.
    assert (L1 : forall w, In w (rev (firstn a l)) -> w < length ops).
    { intros w X. apply in_rev in X. enough (w < i) by lia. apply L. eapply Permutation_in; [symmetry; exact P|]. rewrite !in_app_iff. auto. }
    assert (L2 : forall w, In w (skipn b l) -> w < length ops).
    { intros w X. enough (w < i) by lia. apply L. eapply Permutation_in; [symmetry; exact P|]. rewrite !in_app_iff. auto. }
    pose proof (tags_recs M (length ops) (rev (firstn a l)) PM (NoDup_rev D1) L1) as T1. pose proof (tags_recs M (length ops) (skipn b l) PM D2 L2) as T2.
    rewrite rev_length in T1.
    set (x1 := length (firstn a l)) in *. set (x2 := length (skipn b l)) in *.
    pose proof (Nat.log2_le_mono x1 n ltac:(lia)) as G1. pose proof (Nat.log2_le_mono x2 n ltac:(lia)) as G2.
    assert (Le : total (fun ps => nth i (steps ps) 0) (draws M (length ops)) <= M ^ length ops * (8 * Nat.log2 n + 10) + 4 * n * M ^ (length ops - 1)).
    { eapply Nat.le_trans; [apply total_le with (g := fun ps => 2 + 4 * (recs [] (map (fun d => nth d ps 0%N) (skipn b l)) + recs [] (map (fun d => nth d ps 0%N) (rev (firstn a l)))))|].
      - intros ps ip'. apply draws_in in ip' as [El _]. destruct (A ps El) as (_ & _ & A3). specialize (A3 i o Ei So). fold l in A3.
        unfold around in A3. rewrite map_length, Et, Ep in A3. now rewrite skipn_map, firstn_map, <- map_rev in A3.
      - rewrite total_plus, total_mul, total_plus, total_const, draws_length.
        set (B := M ^ length ops) in *. set (B' := M ^ (length ops - 1)) in *.
        assert (B * S (Nat.log2 x1) <= B * S (Nat.log2 n)) by (apply Nat.mul_le_mono_l; lia). assert (B * S (Nat.log2 x2) <= B * S (Nat.log2 n)) by (apply Nat.mul_le_mono_l; lia).
        assert (x1 * B' + x2 * B' <= n * B') by (rewrite <- Nat.mul_add_distr_r; apply Nat.mul_le_mono_r; lia). nia. }
    apply (Nat.mul_le_mono_l _ _ M) in Le. replace (M ^ length ops * (M * (8 * Nat.log2 n + 10) + 4 * n))
      with (M * (M ^ length ops * (8 * Nat.log2 n + 10) + 4 * n * M ^ (length ops - 1))); [exact Le|].
    replace (M ^ length ops) with (M * M ^ (length ops - 1)); [lia|]. rewrite <- Nat.pow_succ_r'. f_equal. lia.
  Qed.
End Tags.
