(** Concrete maps for PropertiesLsmRead.v. *)
From Verif Require Import RunLemmas.
From Verif Require Export LsmReadProofs TieredCountProofs LeveledLooseInstances SizeTieredInstances.

(** [SizeTieredStrategy::new(_, 100, 1, 1000, 0.5, 1.5)] *)
Definition small_tiers : sconfig := mkSc 100 1 1000 (rational 1 2 3 2).
Notation Sz := (size_tiered (K := nat) (V := nat) small_tiers).

Lemma rational_grows (ln ld hn hd p q : N) : (p * ln <= q * ld)%N -> (p * hd <= q * hn)%N -> grows p q (rational ln ld hn hd).
Proof.
  intros L1 L2 f c sum n Pn Fc L H E. unfold rational in E. apply andb_false_iff in E. destruct E as [E|E]; apply N.leb_gt in E.
  - assert (X : (f * ld < c * ln)%N) by nia. assert (P : (0 < ln)%N) by nia. 
    assert (p * f * ln <= q * c * ln)%N; [|nia]. transitivity (q * (f * ld))%N; [|nia]. nia.
  - assert (X : (f * hn < c * hd)%N) by nia. assert (P : (0 < hd)%N) by nia.
    assert (p * f * hd <= q * c * hd)%N; [|nia]. transitivity (q * (f * hn))%N; [|nia]. nia.
Qed.

(** *** Nothing but removals, with [LeveledStrategy] *)
Lemma all_candidates (ts : list (table nat nat)) : Forall (fun t => t_range t = (1, 1)) ts -> candidates (fun _ _ => true) 1 ts = ts.
Proof.
  unfold candidates. induction 1 as [|t ts Q F IH]; cbn [filter]; [reflexivity|]. rewrite IH. unfold LsmReadSpec.covers. rewrite Q. reflexivity.
Qed.
Lemma always_sound (k : nat) (ts : list (table nat nat)) : sound (fun _ _ => true) k ts.
Proof. intros t _ _. reflexivity. Qed.
Lemma get_quiet {K V} `{Cmp K} `{Sizes K V} (St : strategy K V) s k s' v : mem s = [] -> nxt s = None -> lsm_step St s (LGet k) = Ok (s', OVal v) -> s' = s.
Proof.
  intros M N Es. cbn [lsm_step] in Es. unfold get in Es. rewrite M in Es. cbn [find_version] in Es. unfold try_replace in Es. rewrite N in Es. cbn [bind] in Es.
  destruct (st_get St _ _ _) as [o| |]; try discriminate. cbn [bind] in Es. now injection Es as <-.
Qed.
Lemma memory_empty {K V M} `{Cmp K} (s : lsm K V M) k : mem s = [] -> in_memory s k = false.
Proof. unfold in_memory. now intros ->. Qed.
Lemma bare_opens (m : lmeta nat nat) : level_tables (lm_levels m) = [] -> Forall (fun t => t_range t = (1, 1)) (lm_tabs m) -> leveled_opens (fun _ _ => true) 1 m = lm_tabs m.
Proof.
  intros Lv F. unfold leveled_opens. rewrite (all_candidates _ F).
  assert (X : flat_map (fun l => candidates (fun _ _ => true) 1 (map snd l)) (lm_levels m) = []).
  { revert Lv. generalize (lm_levels m). induction l as [|l ls IH]; [reflexivity|]. unfold level_tables. cbn [flat_map]. intros Q.
    apply app_eq_nil in Q. destruct Q as [Q1 Q2]. rewrite Q1. cbn. now apply IH. }
  rewrite X. cbn [until_first]. rewrite app_nil_r. now destruct (existsb _ _).
Qed.
Lemma bare_reads n : exists s outs v ids, well_used sp_new (bare_ops n) /\ run (lsm_step St) (lsm_new St) (bare_ops n) = Ok (s, outs) /\
  lsm_step St s (LGet 1) = Ok (s, OVal v) /\ get_r St (lv_get_r (fun _ _ => true)) s 1 = Ok (s, v, ids) /\ length ids = n.
Proof.
  destruct (bare_run n) as (s & outs & E & B). destruct (leveled_lookup same_size (fun _ _ => true) bare_cfg (bare_ops n) s outs 1) as (s' & v & Es & Eg).
  - apply bare_limits.
  - apply always_used, bare_all.
  - exact E.
  - specialize (Eg (always_sound _ _)). assert (Q : s' = s).
    { exact (get_quiet St s 1 s' v (ba_mem _ _ B) (ba_nxt _ _ B) Es). }
    subst s'.
    assert (M : in_memory s 1 = false) by (exact (memory_empty s 1 (ba_mem _ _ B))).
    match type of Eg with context [if ?b then _ else _] => replace b with false in Eg by (symmetry; exact M) end.
    exists s, outs, v. eexists. split; [apply always_used, bare_all|]. split; [exact E|]. split; [exact Es|]. split; [exact Eg|].
    rewrite map_length. transitivity (length (lm_tabs (cur s))); [|exact (ba_tabs _ _ B)]. exact (f_equal (@length _) (bare_opens (cur s) (ba_lvl _ _ B) (ba_key _ _ B))).
Qed.

(** *** ... and with [SizeTieredStrategy] *)
Record arid (n : nat) (s : lsm nat nat (list (table nat nat))) : Prop := mkArid {
  ar_mem : mem s = []; ar_usage : usage s = 0%N; ar_thr : thr s = TIdle; ar_nxt : nxt s = None; ar_iters : iters s = []; ar_join : joinable s = false;
  ar_tabs : length (cur s) = n; ar_none : forall e, In e (run_entries (cur s)) -> has_data e = false;
  ar_key : Forall (fun t => t_range t = (1, 1)) (cur s); ar_size : Forall (fun t => t_size t = 43%N) (cur s) }.
Lemma small_range (ts : list (table nat nat)) : forall curr first sum, Forall (fun t => t_size t = 43%N) ts ->
  find_range small_tiers 0 curr first sum ts = if 1 <? curr + length ts then Some (0, curr + length ts) else None.
Proof.
  induction ts as [|t r IH]; intros curr first sum F; cbn [find_range length].
  - rewrite Nat.add_0_r, Nat.sub_0_r. reflexivity.
  - inversion F; subst. rewrite H1. cbn [sc_min_size small_tiers N.leb orb]. change (43 <=? 1000)%N with true. cbn [orb]. rewrite IH by assumption. replace (S curr + length r) with (curr + S (length r)) by lia. reflexivity.
Qed.
Lemma compact_arid has id (ts m' : list (table nat nat)) id' : Forall tab_ok ts -> Forall (t_ok has) ts -> Forall (fun t => t_size t = 43%N) ts ->
  (forall e, In e (run_entries ts) -> has_data e = false) -> sz_compact small_tiers has id ts = Ok (m', id') -> m' = [].
Proof.
  intros Tk Th Ts Nd E. unfold sz_compact, compaction_range in E. rewrite small_range in E by (rewrite (by_size_perm ts); exact Ts).
  pose proof (by_size_perm ts) as P. set (l := by_size ts) in *. cbn [Nat.add] in E. destruct (1 <? length l); [|discriminate].
  unfold merge_range in E. cbn [fst snd] in E. rewrite Nat.sub_0_r in E. cbn [skipn firstn app] in E. rewrite firstn_all, skipn_all in E.
  destruct (merge_tables_ok has (map (fun t => [t]) l)) as (es & Em & M).
  { apply Forall_map. rewrite P. eapply Forall_impl; [|exact Th]. intros t X. repeat constructor. exact X. }
  { apply Forall_map. rewrite P. eapply Forall_impl; [|exact Tk]. intros t X. cbn. rewrite app_nil_r. apply X. }
  rewrite Em in E. rewrite runs_single in M. cbn [bind] in E.
  assert (X : filter (fun e => negb (purgeable l []) || has_data e) es = []).
  { cbn [purgeable forallb negb orb]. apply filter_none. intros e Je. destruct M as (_ & Ml & _). apply Ml in Je. destruct Je as [Je _]. apply Nd.
    apply (Permutation_in _ (run_entries_perm _ _ P)). exact Je. }
  rewrite X in E. cbn in E. now injection E as <- _.
Qed.
Lemma arid_run n : exists s outs, run (lsm_step Sz) (lsm_new Sz) (bare_ops n) = Ok (s, outs) /\ arid n s.
Proof.
  induction n as [|n (s & outs & E & B)].
  - eexists _, _. split; [reflexivity|]. constructor; try reflexivity; cbn; auto; try constructor. intros e [].
  - cbn [bare_ops].
    destruct s as [me us ti cu nx th jo it fr lo]. destruct B as [B1 B2 B3 B4 B5 B6 B7 B8 B9 B10]. cbn [mem usage time cur nxt thr joinable iters fresh log] in *. subst me us nx th jo it.
    set (s := mkLsm _ _ _ _ _ _ _ _ _ _) in *.
    set (s0 := mkLsm [(1, del ti)] 10 (ti + 1) cu None TIdle false [] fr (lo ++ [ETime (ti + 1)])).
    assert (E1 : lsm_step Sz s (LRemove 1) = Ok (s0, OUnit)).
    { reflexivity. }
    assert (R1 : run (lsm_step Sz) s [LRemove 1] = Ok (s0, [OUnit])) by (cbn [run]; rewrite E1; reflexivity).
    pose proof (run_app_ok _ _ _ _ _ _ _ _ E R1) as R0. set (ops := bare_ops n ++ [LRemove 1]) in *. pose proof (loose_laws _ (inserted_key ops) small_tiers) as Lw.
    destruct (loose_run Sz zinv (fun _ _ => True) (allows (inserted ops)) (fun _ => True) loose (revived (inserted ops)) Lw same_size ops Logic.I) as (s1 & o1 & a & E0 & _ & I & J & Ti).
    { apply always_used, Forall_app. split; [apply bare_all|repeat constructor]. }
    { eapply Forall_impl; [|apply inserted_all]. intros o. apply allows_covered. apply inserted_key. }
    rewrite R0 in E0. injection E0 as <- <-.
    assert (Ne : mem s0 <> []) by discriminate.
    destruct (tb_build_ok (fresh s0) (length (mem s0)) (mem s0) Ne (iv_mem _ _ _ _ _ _ I)) as (t & Et & Ot & Es & It).
    assert (Sz10 : t_size t = 43%N) by (cbn in Et; injection Et as <-; reflexivity).
    destruct (push_ok _ _ _ _ _ _ _ _ Lw _ s0 t I Ne Ot Es It) as [I1 _]. cbn [mem usage time cur nxt thr joinable iters fresh log s0] in I1.
    set (m1 := st_push Sz cu t) in *. set (s1 := mkLsm _ _ _ _ _ _ _ _ _ _) in I1.
    assert (Tm : forall e, In e (run_entries m1) -> has_data e = false).
    { intros e Je. apply in_run in Je. destruct Je as (u & Ju & Je). cbn in Ju. apply in_app_iff in Ju. destruct Ju as [Ju|[<-|[]]].
      - apply B8. apply in_run. eauto.
      - rewrite Es in Je. destruct Je as [<-|[]]. reflexivity. }
    assert (Tr : Forall (fun t => t_range t = (1, 1)) m1).
    { cbn. apply Forall_app. split; [exact B9|]. repeat constructor. pose proof (ta_lo _ Ot) as Lo. pose proof (ta_hi _ Ot) as Hi. rewrite Es in Lo, Hi. cbn in Lo, Hi.
      destruct (t_range t). cbn in Lo, Hi. congruence. }
    assert (Ts : Forall (fun t => t_size t = 43%N) m1) by (cbn; apply Forall_app; auto).
    assert (Ln : length m1 = S n) by (cbn; rewrite app_length, B7; cbn; lia).
    assert (F : exists s2, flush Sz s0 = Ok s2 /\ arid (S n) s2).
    { assert (Tc : try_compact Sz s0 = Ok (if st_due Sz (cur s1) then mkLsm [] 0 (time s1) m1 None (TRun m1) true [] (fresh s1) (log s1) else s1)).
      { unfold try_compact. rewrite Et. reflexivity. }
      unfold flush. change (match mem s0 with [] => Ok s0 | _ => try_compact Sz s0 end) with (try_compact Sz s0). rewrite Tc. cbn [bind].
      destruct (st_due Sz (cur s1)) eqn:D; cbn [joinable s1].
      - pose proof (set_join_inv _ _ _ _ _ _ true (set_thr_inv _ _ _ _ _ s1 (TRun (cur s1)) I1 (or_intror (or_intror (or_intror (conj eq_refl (conj eq_refl (conj D (unlocked_idle _ _ _ _ _ _ I1 eq_refl))))))))) as I3.
        cbn [mem usage time cur nxt thr joinable iters fresh log set_thr s1] in I3. cbn [time fresh log s1]. set (s3 := mkLsm _ _ _ _ _ (TRun m1) _ _ _ _) in *.
        destruct (thread_ok _ _ _ _ _ _ _ _ Lw _ s3 m1 I3 eq_refl Logic.I) as [[[] _]|([m' fr'] & Ec & _ & Cm & Im & Sh & _)].
        pose proof (zi_tabs _ _ (iv_inv _ _ _ _ _ _ I3)) as Tk. change (cur s3) with m1 in Tk.
        assert (X : m' = []); [refine (compact_arid _ _ m1 m' fr' Tk _ Ts Tm Ec)|subst m'].
        + pose proof (iv_has _ _ _ _ _ _ I3) as Hh. change (cur s3) with m1 in Hh. cbn [st_tables size_tiered] in Hh.
          eapply Forall_impl; [|exact Hh]. intros u. unfold t_ok. intros ->. reflexivity.
        + unfold join. cbn [joinable s3 thr bind]. unfold work. rewrite Ec. cbn [bind]. unfold try_replace, unjoin. cbn [mem usage time cur nxt thr joinable iters fresh log s3].
          assert (Rp : st_replace Sz m1 [] = m1).
          { cbn [st_replace size_tiered]. unfold sz_replace. cbn [newest fold_left app]. now apply filter_all. }
          rewrite Rp. replace (filter _ (map t_id (st_tables Sz m1))) with (@nil nat).
          * cbn [remove_dirs bind]. eexists. split; [reflexivity|]. constructor; cbn [mem usage thr nxt iters joinable cur]; auto.
          * cbn [st_tables size_tiered]. 
            symmetry. set (l := map t_id m1). assert (X : forall l', incl l' l -> filter (fun id => negb (existsb (Nat.eqb id) l)) l' = []); [|apply X, incl_refl].
            induction l' as [|x l' IH]; intros S; cbn [filter]; [reflexivity|]. rewrite IH by (intros y Jy; apply S; now right).
            replace (existsb (Nat.eqb x) l) with true; [reflexivity|]. symmetry. apply existsb_exists. exists x. split; [apply S; now left|apply Nat.eqb_refl].
      - eexists. split; [reflexivity|]. constructor; cbn [mem usage thr nxt iters joinable cur s1]; auto. }
    destruct F as (s2 & F & B'). assert (R2 : run (lsm_step Sz) s [LRemove 1; LFlush] = Ok (s2, [OUnit; OUnit])).
    { cbn [run]. rewrite E1. cbn [bind run]. cbn [lsm_step]. rewrite F. reflexivity. }
    eexists s2, _. split; [exact (run_app_ok _ _ _ _ _ _ _ _ E R2)|exact B'].
Qed.
Lemma arid_reads n : exists s outs v ids, well_used sp_new (bare_ops n) /\ run (lsm_step Sz) (lsm_new Sz) (bare_ops n) = Ok (s, outs) /\
  calm s /\ nxt s = None /\ length (cur s) = n /\
  lsm_step Sz s (LGet 1) = Ok (s, OVal v) /\ get_r Sz (sz_get_r (fun _ _ => true)) s 1 = Ok (s, v, ids) /\ length ids = n.
Proof.
  destruct (arid_run n) as (s & outs & E & B). destruct (tiered_lookup same_size (fun _ _ => true) small_tiers (bare_ops n) s outs 1) as (s' & v & Es & Eg).
  - apply always_used, bare_all.
  - exact E.
  - specialize (Eg (always_sound _ _)). assert (Q : s' = s).
    { exact (get_quiet Sz s 1 s' v (ar_mem _ _ B) (ar_nxt _ _ B) Es). }
    subst s'.
    assert (M : in_memory s 1 = false) by (exact (memory_empty s 1 (ar_mem _ _ B))).
    match type of Eg with context [if ?b then _ else _] => replace b with false in Eg by (symmetry; exact M) end.
    exists s, outs, v. eexists. split; [apply always_used, bare_all|]. split; [exact E|].
    split; [split; [apply B|pose proof (ar_iters _ _ B) as Q; destruct s; cbn in *; subst; intros o []]|]. split; [apply B|]. split; [apply B|]. split; [exact Es|]. split; [exact Eg|].
    rewrite map_length. transitivity (length (cur s)); [|exact (ar_tabs _ _ B)]. exact (f_equal (@length _) (all_candidates (cur s) (ar_key _ _ B))).
Qed.

(** A table outside of the levels and three levels *)
Definition wide_cfg : lconfig := mkLc 1000 1 60 1 3.
Definition wide_ops : list (lsm_op nat nat) :=
  [LInsert 5 50; LInsert 6 60; LInsert 7 70; LInsert 8 80; LInsert 9 90; LInsert 10 100; LInsert 11 110; LInsert 20 200; LFlush; LInsert 2 20; LInsert 8 80; LInsert 12 120; LFlush;
   LInsert 0 1; LInsert 23 70; LFlush; LInsert 1 40; LInsert 24 60; LFlush; LInsert 3 40; LInsert 26 60; LFlush; LInsert 5 51].
(** Four tables in three size classes, ten entries in memory *)
Definition class_ops : list (lsm_op nat nat) := firstn 35 tier_bad ++ puts 31 10.
Definition ids_of {M V} (r : res (M * V * list nat)) : option (list nat) := match r with Ok (_, _, l) => Some l | _ => None end.
Definition val_of {M V} (r : res (M * V * list nat)) : option V := match r with Ok (_, v, _) => Some v | _ => None end.
