(** How many tables and levels a map with [LeveledStrategy] has *)
From Verif Require Import ListLemmas.
From Verif Require Export LsmClaims LsmGoodProofs.

Section Shape.
  Context {K V : Type} `{Cmp K} {Z : Sizes K V} (cfg : lconfig).
  Notation level := (level K V).
  Definition fits (i : nat) (l : level) : Prop := (N.of_nat (length l) <= max_len cfg i)%N.
  Definition fit (ls : list level) : Prop := forall i l, nth_error ls i = Some l -> fits i l.
  Definition fit_below (n : nat) (ls : list level) : Prop := forall i l, i < n -> nth_error ls i = Some l -> fits i l.

  Lemma nth_error_Some_lt {A} (l : list A) i x : nth_error l i = Some x -> i < length l.
  Proof. intros E. apply nth_error_Some. congruence. Qed.
  Lemma set_nth {A} (l : list A) : forall i j x y, nth_error (list_set l i x) j = Some y -> (j = i /\ y = x) \/ (j <> i /\ nth_error l j = Some y).
  Proof.
    induction l as [|a l IH]; intros i j x y E; [destruct i; destruct j; discriminate|]. destruct i as [|i], j as [|j]; cbn in *; auto.
    - left. now injection E as <-.
    - destruct (IH _ _ _ _ E) as [[-> ->]|[N E']]; auto.
  Qed.
  Lemma merge_down_below has hint id index ls ls' id' : merge_down cfg has hint id index ls = Ok (ls', id') -> fit_below index ls -> fit_below index ls'.
  Proof.
    intros E F. unfold merge_down in E. destruct (nth_error ls index) as [l|] eqn:N; [|discriminate]. cbn [expect bind] in E.
    destruct (pick l) as [t|]; [|discriminate]. cbn [expect bind] in E. destruct (level_remove (hi t) l) as [[t' l']|]; [|discriminate]. cbn [expect bind] in E.
    destruct (index + 1 =? length (list_set ls index l')).
    - injection E as <- _. intros i x Li E. assert (Q : nth_error (list_set ls index l') i = Some x).
      { rewrite nth_error_app1 in E; [exact E|]. apply nth_error_Some_lt in N. rewrite list_set_length. lia. }
      apply set_nth in Q. destruct Q as [[-> _]|[_ Q]]; [lia|]. eauto.
    - destruct (nth_error (list_set ls index l') (index + 1)); [|discriminate]. cbn [expect bind] in E. destruct (partition _ _).
      destruct (merge_into _ _ _ _ _ _ _) as [[b i0]| |]; try discriminate. cbn [bind] in E. injection E as <- _. intros i x Li E.
      apply set_nth in E. destruct E as [[-> _]|[_ E]]; [lia|]. apply set_nth in E. destruct E as [[-> _]|[_ E]]; [lia|]. eauto.
  Qed.
  Lemma inner_fit has hint index fuel : forall id ls ls' id', fit_below index ls -> inner cfg fuel has hint id index ls = Ok (ls', id') -> fit_below (S index) ls'.
  Proof.
    assert (X : forall ls, fit_below index ls -> should_merge cfg ls index = false -> fit_below (S index) ls).
    { intros ls F Sm i l Li E. destruct (Nat.eq_dec i index) as [->|Ne]; [|apply F; [lia|exact E]]. unfold should_merge in Sm. rewrite E in Sm. now apply N.ltb_ge in Sm. }
    induction fuel as [|fuel IH]; intros id ls ls' id' F E; cbn [inner] in E; destruct (should_merge cfg ls index) eqn:Sm; try discriminate; try (injection E as <- _; now apply X).
    destruct (merge_down cfg has hint id index ls) as [[ls1 id1]| |] eqn:M; try discriminate. cbn [bind] in E. eapply IH; [|exact E]. eapply merge_down_below; eauto.
  Qed.
  Lemma outer_fit has hint fuel : forall id index ls ls' id', fit_below index ls -> outer cfg fuel has hint id index ls = Ok (ls', id') -> fit ls'.
  Proof.
    induction fuel as [|fuel IH]; intros id index ls ls' id' F E; cbn [outer] in E; destruct (Nat.eqb_spec index (length ls)) as [Q|Q]; try discriminate;
      try (injection E as <- _; intros i l E; apply (F i l); [apply nth_error_Some_lt in E; lia|exact E]).
    destruct (nth_error ls index) as [l|]; [|discriminate]. cbn [expect bind] in E.
    destruct (inner cfg (length l) has hint id index ls) as [[ls1 id1]| |] eqn:M; try discriminate. cbn [bind] in E. eapply IH; [|exact E]. eapply inner_fit; eauto.
  Qed.
  Lemma compact_fit has id m m' id' : lv_compact cfg has id m = Ok (m', id') -> fit (lm_levels m').
  Proof.
    intros E. unfold lv_compact, lv_compact_fuel in E. destruct (nth_error _ 0) as [l0|]; [|discriminate]. cbn [expect bind] in E.
    destruct (merge_into _ _ _ _ _ _ []) as [[l1 i1]| |]; try discriminate. cbn [bind] in E.
    destruct (outer _ _ _ _ _ _ _) as [[ls2 i2]| |] eqn:O; try discriminate. cbn [bind] in E. injection E as <- _. cbn [lm_levels].
    eapply outer_fit; [|exact O]. intros i l Li. lia.
  Qed.
  Definition lgood (m : lmeta K V) : Prop := fit (lm_levels m).
  Lemma fit_laws : good_laws (leveled cfg) lgood.
  Proof.
    constructor; cbn [st_meta st_new st_push st_compact st_replace leveled]; unfold lgood.
    - intros [|i] l E; discriminate.
    - intros m id hint es t G _. exact G.
    - intros has id m m' id' _ E. eapply compact_fit; eauto.
    - intros c m _ G. exact G.
  Qed.
  Theorem levels_fit ops s outs : run (lsm_step (leveled cfg)) (lsm_new (leveled cfg)) ops = Ok (s, outs) ->
    forall m, m = cur s \/ nxt s = Some m -> forall i l, nth_error (lm_levels m) i = Some l -> (N.of_nat (length l) <= limit cfg i)%N.
  Proof.
    intros E m R i l N. pose proof (run_g _ _ fit_laws ops _ _ _ (new_g _ _ fit_laws) E) as G. rewrite <- limit_eq.
    destruct R as [->|R]; [apply (g_cur _ _ _ G) in N|apply (g_nxt _ _ _ G _ R) in N]; exact N.
  Qed.
End Shape.

Section Levels.
  Context {K V : Type} `{CmpLaws K} {Z : Sizes K V} (cfg : lconfig).
  Context (Ksize : forall k k' : K, cmp k k' = Eq -> ksize k = ksize k').
  (** No overflow before the limits exceed [n]. *)
  Lemma limit_exact n i : (1 <= lc_initial cfg)%N -> (2 <= lc_growth cfg)%N -> (lc_initial cfg * lc_growth cfg ^ (N.log2 n + 1) < 2 ^ 64)%N ->
    i <= N.to_nat (N.log2 n + 1) -> limit cfg i = (lc_initial cfg * lc_growth cfg ^ N.of_nat i)%N /\ (2 ^ N.of_nat i <= limit cfg i)%N.
  Proof.
    intros L1 L2 Lt Li. assert (M : (lc_growth cfg ^ N.of_nat i <= lc_growth cfg ^ (N.log2 n + 1))%N) by (apply N.pow_le_mono_r; lia).
    assert (E : limit cfg i = (lc_initial cfg * lc_growth cfg ^ N.of_nat i)%N) by (unfold limit; apply N.mod_small; nia).
    split; [exact E|]. rewrite E. assert ((2 ^ N.of_nat i <= lc_growth cfg ^ N.of_nat i)%N) by (apply N.pow_le_mono_l; lia). nia.
  Qed.
  Lemma depth_bound n i : (1 <= lc_initial cfg)%N -> (2 <= lc_growth cfg)%N -> (lc_initial cfg * lc_growth cfg ^ (N.log2 n + 1) < 2 ^ 64)%N ->
    (forall j, j < i -> (limit cfg j < n)%N) -> i <= N.to_nat (N.log2 n + 1).
  Proof.
    intros L1 L2 Lt F. destruct (Nat.le_gt_cases i (N.to_nat (N.log2 n + 1))) as [L|L]; [exact L|exfalso].
    specialize (F _ L). destruct (limit_exact n (N.to_nat (N.log2 n + 1)) L1 L2 Lt (le_n _)) as [_ G]. rewrite N2Nat.id in G.
    assert (Pn : (0 < n)%N) by lia. pose proof (N.log2_spec n Pn) as [_ X]. rewrite <- N.add_1_r in X. lia.
  Qed.
  Lemma limits_log n : (1 <= lc_initial cfg)%N -> (2 <= lc_growth cfg)%N -> (lc_initial cfg * lc_growth cfg ^ (N.log2 n + 1) < 2 ^ 64)%N -> limits_positive cfg n.
  Proof.
    intros L1 L2 Lt i F. destruct (limit_exact n i L1 L2 Lt (depth_bound n i L1 L2 Lt F)) as [_ G].
    pose proof (N.pow_nonzero 2 (N.of_nat i)). lia.
  Qed.
  Theorem levels_few (ops : list (lsm_op K V)) s outs :
    (1 <= lc_initial cfg)%N -> (2 <= lc_growth cfg)%N -> (lc_initial cfg * lc_growth cfg ^ (N.log2 (N.of_nat (length ops)) + 1) < 2 ^ 64)%N ->
    well_used sp_new ops -> run (lsm_step (leveled cfg)) (lsm_new (leveled cfg)) ops = Ok (s, outs) ->
    (N.of_nat (length (lm_levels (cur s))) <= N.log2 (N.of_nat (length ops)) + 2)%N.
  Proof.
    intros L1 L2 Lt W E. pose proof (limits_log _ L1 L2 Lt) as L. 
    destruct (total_run (leveled cfg) (vinv cfg) lcomp (fun _ => True) (llim cfg) shrink (leveled_laws cfg) Ksize ops (limits_lim _ _ L) W (covered_all ops)) as (s' & outs' & E' & _ & I & _ & Ti).
    rewrite E in E'. injection E' as <- <-. pose proof (iv_inv _ _ _ _ _ _ I) as Iv. pose proof (vi_lvl _ _ _ Iv) as Lv.
    destruct (lm_levels (cur s)) as [|l ls] eqn:El; [cbn; lia|]. cbn [length] in *.
    assert (D : length ls <= N.to_nat (N.log2 (N.of_nat (length ops)) + 1)).
    { apply depth_bound; auto. intros j Hj. specialize (Lv (length ls) ltac:(lia) j Hj). rewrite limit_eq in Lv. lia. }
    lia.
  Qed.
End Levels.
