(** Where a treap is deepest.  Used for C82. *)
From Verif Require Export TreapCostProofs RareSpec RareLemmas.
From Coq Require Import Permutation.

(** ** The depth of a treap *)
Section Depth.
  Context {K V : Type}.
  Notation treap := (tree (N * nat) K V).
  Notation ip := (inorder_prio tprio).
  Notation heap := (heap_ordered tprio).
  Notation prios l := (map (fun x => snd (snd x)) l).

  Lemma heap_below (t : treap) p : heap t -> root_le tprio p t -> Forall (fun q => (q <= p)%N) (prios (ip t)).
  Proof.
    revert p. induction t as [|a l IHl e r IHr]; intros p Hh R; [constructor|]. destruct Hh as (R1 & R2 & H1 & H2). cbn [root_le] in R.
    cbn [inorder_prio]. rewrite map_app. apply Forall_app. split; [|constructor].
    - eapply Forall_impl; [|exact (IHl (tprio a) H1 R1)]. cbv beta. intros q Lq. lia.
    - exact R.
    - eapply Forall_impl; [|exact (IHr (tprio a) H2 R2)]. cbv beta. intros q Lq. lia.
  Qed.

  Definition around_at (q : list N) i : nat := recs [] (skipn (S i) q) + recs [] (rev (firstn i q)).

  Lemma recs_rev_below x p y : Forall (fun q => (q <= p)%N) y -> S (recs [] (rev y)) <= recs [] (rev (x ++ p :: y)).
  Proof.
    intros F. rewrite rev_app_distr. cbn [rev]. rewrite <- app_assoc. simpl app. apply recs_top. now apply Forall_rev.
  Qed.

  Lemma deep_place (t : treap) : heap t -> t <> Leaf -> exists i, i < length (prios (ip t)) /\ depth t <= S (around_at (prios (ip t)) i).
  Proof.
    induction t as [|a l IHl e r IHr]; intros Hh N0; [easy|]. destruct Hh as (R1 & R2 & H1 & H2). cbn [depth inorder_prio].
    rewrite map_app. cbn [map snd]. set (ql := prios (ip l)) in *. set (qr := prios (ip r)) in *.
    pose proof (heap_below l (tprio a) H1 R1) as F1. pose proof (heap_below r (tprio a) H2 R2) as F2. fold ql in F1. fold qr in F2.
    destruct (Nat.eq_dec (Nat.max (depth l) (depth r)) 0) as [Z0|Z0].
    - exists (length ql). split; [rewrite app_length; simpl; lia | lia].
    - destruct (Nat.le_gt_cases (depth r) (depth l)) as [Ld|Ld].
      + destruct (IHl H1) as (i & Li & Di); [intros ->; simpl in *; lia|]. exists i. rewrite app_length. split; [lia|].
        rewrite Nat.max_l by lia. enough (S (around_at ql i) <= around_at (ql ++ tprio a :: qr) i) by lia. unfold around_at.
        rewrite skipn_app, firstn_app. replace (S i - length ql) with 0 by lia. replace (i - length ql) with 0 by lia. simpl (skipn 0 _). simpl (firstn 0 _).
        rewrite app_nil_r. assert (F : Forall (fun q => (q <= tprio a)%N) (skipn (S i) ql)).
        { rewrite <- (firstn_skipn (S i) ql) in F1. now apply Forall_app in F1. }
        pose proof (recs_top (skipn (S i) ql) (tprio a) qr F). lia.
      + destruct (IHr H2) as (i & Li & Di); [intros ->; simpl in *; lia|]. exists (S (length ql) + i). rewrite app_length. cbn [length]. split; [lia|].
        rewrite Nat.max_r by lia. enough (S (around_at qr i) <= around_at (ql ++ tprio a :: qr) (S (length ql) + i)) by lia. unfold around_at.
        assert (Ea : ql ++ tprio a :: qr = (ql ++ [tprio a]) ++ qr) by now rewrite <- app_assoc. rewrite Ea, skipn_app, firstn_app.
        assert (El : length (ql ++ [tprio a]) = S (length ql)) by (rewrite app_length; simpl; lia).
        rewrite (skipn_all2 (ql ++ [tprio a])), (firstn_all2 (ql ++ [tprio a])) by (rewrite El; lia). rewrite El.
        replace (S (S (length ql) + i) - S (length ql)) with (S i) by lia. replace (S (length ql) + i - S (length ql)) with i by lia. cbn [app].
        rewrite <- app_assoc. cbn [app]. assert (F : Forall (fun q => (q <= tprio a)%N) (firstn i qr)).
        { rewrite <- (firstn_skipn i qr) in F2. now apply Forall_app in F2. }
        pose proof (recs_rev_below ql (tprio a) (firstn i qr) F). lia.
  Qed.
End Depth.

(** ** Two lists of blocks *)
Lemma blocks_rare M t (A B : list (list nat)) n s : 0 < M -> Forall (fun b => b <> []) (A ++ B) -> NoDup (concat (A ++ B)) ->
  (forall w, In w (concat (A ++ B)) -> w < t) -> length (concat A) + length (concat B) <= n -> 2 * n <= M ->
  rarely_above M t s (2 * Nat.log2 (n + 2) + s) (fun ps => recs [] (map (most ps) A) + recs [] (map (most ps) B)).
Proof.
  intros PM F D L Ln LM. apply Forall_app in F as [F1 F2]. rewrite concat_app in D, L.
  eapply rare_le; [|exact (two_recs_rare M t (concat A) (concat B) n s PM D L Ln LM)]. cbv beta. intros ps _ Lb.
  pose proof (recs_blocks ps A F1). pose proof (recs_blocks ps B F2). lia.
Qed.

(** At a place of a list of blocks *)
Lemma place_perm {X} i (l : list X) : exists r, Permutation l (r ++ skipn (S i) l ++ rev (firstn i l)).
Proof.
  exists (firstn 1 (skipn i l)). rewrite <- (firstn_skipn i l) at 1. rewrite <- (firstn_skipn 1 (skipn i l)) at 1.
  assert (E : skipn 1 (skipn i l) = skipn (S i) l).
  { clear. revert i. induction l as [|x l IH]; intros [|i]; try reflexivity. specialize (IH i). cbn [skipn] in *. destruct i; auto. }
  rewrite E. rewrite Permutation_app_comm, <- app_assoc. apply Permutation_app_head, Permutation_app_head, Permutation_rev.
Qed.
Lemma perm_concat {X} (l l' : list (list X)) : Permutation l l' -> Permutation (concat l) (concat l').
Proof.
  induction 1; simpl; auto.
  - now apply Permutation_app_head.
  - rewrite !app_assoc. apply Permutation_app_tail, Permutation_app_comm.
  - eapply Permutation_trans; eauto.
Qed.
Lemma around_at_rare M t (bs : list (list nat)) i s : 0 < M -> Forall (fun b => b <> []) bs -> NoDup (concat bs) ->
  (forall w, In w (concat bs) -> w < t) -> 2 * length (concat bs) <= M ->
  rarely_above M t s (2 * Nat.log2 (length (concat bs) + 2) + s) (fun ps => around_at (map (most ps) bs) i).
Proof.
  intros PM F D L LM. destruct (place_perm i bs) as (r & P). pose proof (perm_concat _ _ P) as PC.
  pose proof (Permutation_Forall P F) as F'. apply Forall_app in F' as [_ F'].
  pose proof (Permutation_NoDup PC D) as D'. rewrite concat_app in D'.
  pose proof (Permutation_length PC) as Pl. rewrite !concat_app, !app_length in Pl.
  eapply rare_le; [|apply (blocks_rare M t (skipn (S i) bs) (rev (firstn i bs)) (length (concat bs)) s)]; auto; try lia.
  - cbv beta. intros ps _ Lb. unfold around_at in Lb. now rewrite skipn_map, firstn_map, <- map_rev in Lb.
  - clear -D'. induction (concat r) as [|x c IH]; [exact D'|]. inversion D'; auto.
  - intros w iw. apply L. eapply Permutation_in; [symmetry; exact PC|]. rewrite concat_app. apply in_app_iff. now right.
Qed.

Lemma depth_rare M t (bs : list (list nat)) s (d : list N -> nat) : 0 < M -> Forall (fun b => b <> []) bs -> NoDup (concat bs) ->
  (forall w, In w (concat bs) -> w < t) -> 2 * length (concat bs) <= M ->
  (forall ps, In ps (draws M t) -> 0 < d ps -> exists i, i < length bs /\ d ps <= S (around_at (map (most ps) bs) i)) ->
  rarely_above M t s (3 * Nat.log2 (length (concat bs) + 2) + s + 2) d.
Proof.
  intros PM F D L LM E. set (m := length (concat bs)) in *.
  assert (Ln : length bs <= m).
  { unfold m. clear -F. induction F as [|b bs nb F IH]; [simpl; lia|]. simpl. rewrite app_length. destruct b; [easy|]. simpl. lia. }
  assert (Lg : Nat.log2_up (length bs) <= Nat.log2 (m + 2) + 1).
  { pose proof (Nat.le_log2_up_succ_log2 (length bs)). pose proof (Nat.log2_le_mono (length bs) (m + 2) ltac:(lia)). lia. }
  apply (rare_le M t s (3 * Nat.log2 (m + 2) + s + 1) _ (fun ps => pred (d ps))); [intros ps _ X; lia|].
  apply (rare_any M t s (3 * Nat.log2 (m + 2) + s + 1) (fun i ps => around_at (map (most ps) bs) i) _ (seq 0 (length bs))).
  - intros i _. rewrite seq_length. eapply rare_le; [|exact (around_at_rare M t bs i (s + Nat.log2_up (length bs)) PM F D L LM)].
    cbv beta. fold m. intros ps _ X. lia.
  - cbv beta. intros ps ips X. destruct (E ps ips ltac:(lia)) as (i & Li & Di). exists i. split; [apply in_seq; lia | lia].
Qed.
