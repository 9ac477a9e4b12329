(** Runs of the maps under arbitrary comparisons. *)
From Verif Require Export AnyOrderModel AnyOrderSpec.
From Verif Require Import BstAnyProofs SkipAnyProofs.
From Verif Require Import PermTac.

Section AnyOrderProofs.
  Context {K V : Type}.
  Implicit Types (l : list (K * V)).

  (** ** From calls to runs. *)
  Section Sim.
    Context {S O : Type} (step : S -> Cmp K * O -> res (S * map_out K V)) (call : O -> map_op K V).
    Variable rel : S -> list (K * V) -> Prop.
    Definition calls (ops : list (Cmp K * O)) : list (Cmp K * map_op K V) := map (fun p => (fst p, call (snd p))) ops.

    Lemma any_run (ok : map_op K V -> Prop) :
      (forall s l c o, ok (call o) -> rel s l -> exists s' r l', step s (c, o) = Ok (s', r) /\ loose_step c l (call o) l' r /\ rel s' l') ->
      forall ops s l, (forall p, In p ops -> ok (call (snd p))) -> rel s l ->
      exists s' rs l', run step s ops = Ok (s', rs) /\ loose_run l (calls ops) rs l' /\ rel s' l'.
    Proof.
      intros St. induction ops as [|[c o] ops IH]; intros s l Hok R; cbn [run calls map fst snd].
      - exists s, [], l. repeat split; auto. constructor.
      - destruct (St s l c o) as (s1 & r & l1 & E1 & L1 & R1); auto; [apply (Hok (c, o)); now left|].
        destruct (IH s1 l1) as (s2 & rs & l2 & E2 & L2 & R2); auto; [intros p Hp; apply Hok; now right|].
        exists s2, (r :: rs), l2. rewrite E1. cbn [bind]. rewrite E2. split; [reflexivity|]. split; auto. econstructor; eauto.
    Qed.
    Lemma any_run_if :
      (forall s l c o s' r, rel s l -> step s (c, o) = Ok (s', r) -> exists l', loose_step c l (call o) l' r /\ rel s' l') ->
      forall ops s l s' rs, rel s l -> run step s ops = Ok (s', rs) -> exists l', loose_run l (calls ops) rs l' /\ rel s' l'.
    Proof.
      intros St. induction ops as [|[c o] ops IH]; intros s l s' rs R E; cbn [run] in E.
      - injection E as <- <-. exists l. split; auto. constructor.
      - destruct (step s (c, o)) as [[s1 r]| |] eqn:E1; try discriminate. cbn [bind] in E.
        destruct (run step s1 ops) as [[s2 rs2]| |] eqn:E2; try discriminate. cbn [bind] in E. injection E as <- <-.
        destruct (St _ _ _ _ _ _ R E1) as (l1 & L1 & R1). destruct (IH _ _ _ _ R1 E2) as (l2 & L2 & R2).
        exists l2. split; auto. econstructor; eauto.
    Qed.
    Lemma any_total (good : S -> Prop) :
      (forall s p, good s -> exists s' r, step s p = Ok (s', r) /\ good s') ->
      forall ops s, good s -> exists s' rs, run step s ops = Ok (s', rs) /\ good s'.
    Proof.
      intros St. induction ops as [|p ops IH]; intros s G; cbn [run]; [exists s, []; auto|].
      destruct (St s p G) as (s1 & r & E1 & G1). destruct (IH s1 G1) as (s2 & rs & E2 & G2).
      rewrite E1. cbn [bind]. rewrite E2. cbn [bind]. do 2 eexists. split; [reflexivity|auto].
    Qed.
  End Sim.

  Lemma calls_id (ops : list (Cmp K * map_op K V)) : calls (fun o => o) ops = ops.
  Proof. unfold calls. rewrite <- (map_id ops) at 2. apply map_ext. now intros []. Qed.

  Lemma skip_any_order (ops : list (Cmp K * (map_op K V * N))) : exists m rs l,
    run skip_any_step skip_new ops = Ok (m, rs) /\ loose_run [] (map (fun p => (fst p, fst (snd p))) ops) rs l /\
    skip_iter m = Ok l /\ sk_len m = length l /\ live_nodes (sk_heap m) = S (length l) /\
    exists h, skip_drop m = Ok (h, l) /\ live_nodes h = 0.
  Proof.
    destruct (any_run skip_any_step fst wk_rel (fun _ => True)) with (ops := ops) (s := @skip_new K V) (l := @nil (K * V))
      as (m & rs & l & E & L & R); auto.
    - intros s l c [o d] _ R. apply skip_step_any, R.
    - apply wk_rel_new.
    - exists m, rs, l. split; [exact E|]. split; [exact L|]. split; [now apply skip_iter_any|].
      split; [now destruct R as (X & g & _ & _ & _ & R)|]. split; [now apply skip_live_any|]. now apply skip_drop_any.
  Qed.

  Lemma any_rel_new {A} : @any_rel A K V bmap_new [].
  Proof. split; reflexivity. Qed.

  Lemma avl_any_order (ops : list (Cmp K * map_op K V)) : exists m rs,
    run avl_any_step bmap_new ops = Ok (m, rs) /\ loose_run [] ops rs (inorder (bm_tree m)).
  Proof.
    destruct (any_run avl_any_step (fun o => o) any_rel (fun _ => True)) with (ops := ops) (s := @bmap_new nat K V) (l := @nil (K * V))
      as (m & rs & l & E & L & R); auto.
    - intros s l c o _ R. apply avl_step_any, R.
    - apply any_rel_new.
    - exists m, rs. split; [exact E|]. rewrite calls_id in L. now rewrite (proj1 R).
  Qed.

  Lemma treap_any_order (ops : list (Cmp K * (map_op K V * N))) : exists t rs,
    run treap_any_step Leaf ops = Ok (t, rs) /\ loose_run [] (map (fun p => (fst p, fst (snd p))) ops) rs (inorder t).
  Proof.
    destruct (any_run treap_any_step fst treap_any_rel (fun _ => True)) with (ops := ops) (s := @Leaf (N * nat) K V) (l := @nil (K * V))
      as (m & rs & l & E & L & R); auto.
    - intros s l c [o d] _ R. apply treap_step_any, R.
    - split; [reflexivity|exact I].
    - exists m, rs. split; [exact E|]. now rewrite (proj1 R).
  Qed.

  Lemma rb_any_order (ops : list (Cmp K * map_op K V)) m rs :
    run rb_any_step bmap_new ops = Ok (m, rs) -> loose_run [] ops rs (inorder (bm_tree m)).
  Proof.
    intros E. destruct (any_run_if rb_any_step (fun o => o) any_rel) with (ops := ops) (s := @bmap_new color K V) (l := @nil (K * V)) (s' := m) (rs := rs)
      as (l & L & R); auto.
    - intros s l c o s' r R E1. eapply rb_step_any; eauto.
    - apply any_rel_new.
    - rewrite calls_id in L. now rewrite (proj1 R).
  Qed.

  Lemma splay_any_order (ops : list (Cmp K * map_op K V)) : (forall c k, ~ In (c, MRemove k) ops) -> exists m rs,
    run splay_any_step bmap_new ops = Ok (m, rs) /\ loose_run [] ops rs (inorder (bm_tree m)).
  Proof.
    intros Nr. destruct (any_run splay_any_step (fun o => o) any_rel (fun o => forall k, o <> MRemove k)) with (ops := ops) (s := @bmap_new unit K V) (l := @nil (K * V))
      as (m & rs & l & E & L & R); auto.
    - intros s l c o Ho R. apply splay_step_any; auto.
    - intros [c o] Hp k Ek. cbn [snd] in Ek. subst o. exact (Nr c k Hp).
    - apply any_rel_new.
    - exists m, rs. split; [exact E|]. rewrite calls_id in L. now rewrite (proj1 R).
  Qed.
  Lemma splay_any_returns (ops : list (Cmp K * map_op K V)) : exists m rs,
    run splay_any_step bmap_new ops = Ok (m, rs) /\ length (inorder (bm_tree m)) <= bm_len m.
  Proof.
    apply (any_total splay_any_step splay_over).
    - intros s [c o] G. destruct (splay_step_total s o G) as (s' & r & E & G'). eauto.
    - unfold splay_over. simpl. lia.
  Qed.

  (** ** Pairs are neither lost nor invented. *)
  Lemma loose_conserves ops rs : forall l l', loose_run l ops rs l' ->
    (forall p, In p ops -> in_place (snd p) = false) ->
    Permutation (l ++ flat_map handed_in (map snd ops)) (given_back (map snd ops) rs ++ l').
  Proof.
    intros l l' L. induction L as [|l c o l1 r ops rs l2 St _ IH]; intros Hp; cbn [map flat_map given_back snd].
    - rewrite app_nil_r. reflexivity.
    - rewrite <- app_assoc. rewrite <- IH by (intros p I; apply Hp; now right).
      specialize (Hp (c, o) (or_introl eq_refl)). cbn [snd] in Hp. set (f := flat_map handed_in (map snd ops)).
      assert (X : Permutation (l ++ handed_in o) (handed_out o r ++ l1)).
      { destruct St; cbn [handed_in handed_out app]; try (rewrite app_nil_r); try reflexivity; try discriminate Hp.
        - assert (M = match hd_error M with Some p => [p] | None => [] end) as Em by (destruct M as [|p [|q M]]; simpl in *; tauto).
          rewrite Em at 1. destruct (hd_error M); cbn [app]; rewrite <- ?app_assoc; cbn [app]; perm.
        - assert (M = match hd_error M with Some p => [p] | None => [] end) as Em by (destruct M as [|p [|q M]]; simpl in *; tauto).
          rewrite Em at 1. destruct (hd_error M); cbn [app]; perm. }
      rewrite !app_assoc. apply Permutation_app_tail. exact X.
  Qed.

  (** ** A comparison that changes within a call. *)
  Lemma remove_by_constant (C : Cmp K) (m : @skip_map K V) k : skip_remove_by (fun _ => C) m k = skip_remove m k.
  Proof. reflexivity. Qed.
End AnyOrderProofs.
