(** Removals and flushes only: every flush leaves one more table. *)
From Verif Require Import RunLemmas.
From Verif Require Export LeveledLooseProofs LsmInstances.

Definition bare_cfg : lconfig := mkLc 100 1 30 3 3.
Fixpoint bare_ops (n : nat) : list (lsm_op nat nat) := match n with 0 => [] | S n => bare_ops n ++ [LRemove 1; LFlush] end.
Notation St := (leveled (K := nat) (V := nat) bare_cfg).
Record barren (n : nat) (s : lsm nat nat (lmeta nat nat)) : Prop := mkBarren {
  ba_mem : mem s = []; ba_usage : usage s = 0%N; ba_thr : thr s = TIdle; ba_nxt : nxt s = None; ba_iters : iters s = []; ba_join : joinable s = false;
  ba_tabs : length (lm_tabs (cur s)) = n; ba_lvl : level_tables (lm_levels (cur s)) = []; ba_one : length (lm_levels (cur s)) <= 1;
  ba_none : forall e, In e (run_entries (lm_tabs (cur s))) -> has_data e = false; ba_key : Forall (fun t => t_range t = (1, 1)) (lm_tabs (cur s)) }.
Lemma bare_limits n : limits_positive bare_cfg n.
Proof. now apply limits_odd. Qed.
Lemma always_used (ops : list (lsm_op nat nat)) : Forall (fun o => forall s, allowed s o = true) ops -> forall s, well_used s ops.
Proof. induction 1 as [|o ops A F IH]; intros s; [exact Logic.I|]. split; [apply A|apply IH]. Qed.
Lemma bare_all n : Forall (fun o : lsm_op nat nat => forall s, allowed s o = true) (bare_ops n).
Proof. induction n as [|n IH]; cbn [bare_ops]; [constructor|]. apply Forall_app. split; [exact IH|]. repeat constructor. Qed.
Lemma same_size (k k' : nat) : cmp k k' = Eq -> ksize (V := nat) k = ksize (V := nat) k'.
Proof. reflexivity. Qed.
Lemma bare_run n : exists s outs, run (lsm_step St) (lsm_new St) (bare_ops n) = Ok (s, outs) /\ barren n s.
Proof.
  induction n as [|n (s & outs & E & B)].
  - eexists _, _. split; [reflexivity|]. constructor; try reflexivity; cbn; auto; try constructor. intros e [].
  - cbn [bare_ops].
    destruct s as [me us ti cu nx th jo it fr lo]. destruct B as [B1 B2 B3 B4 B5 B6 B7 B8 B9 B10 B11]. cbn [mem usage time cur nxt thr joinable iters fresh log] in *. subst me us nx th jo it.
    set (s := mkLsm _ _ _ _ _ _ _ _ _ _) in *.
    set (s0 := mkLsm [(1, del ti)] 10 (ti + 1) cu None TIdle false [] fr (lo ++ [ETime (ti + 1)])).
    assert (E1 : lsm_step St s (LRemove 1) = Ok (s0, OUnit)).
    { reflexivity. }
    assert (R1 : run (lsm_step St) s [LRemove 1] = Ok (s0, [OUnit])) by (cbn [run]; rewrite E1; reflexivity).
    pose proof (run_app_ok _ _ _ _ _ _ _ _ E R1) as R0.
    destruct (total_run St (vinv bare_cfg) lcomp (fun _ => True) (llim bare_cfg) shrink (leveled_laws bare_cfg) same_size (bare_ops n ++ [LRemove 1])
      (limits_lim _ _ (bare_limits _))) as (s1 & o1 & E0 & _ & I & J & Ti).
    { apply always_used, Forall_app. split; [apply bare_all|repeat constructor]. }
    { apply covered_all. }
    rewrite R0 in E0. injection E0 as <- <-.
    assert (Lt : llim bare_cfg (time s0)) by (apply limits_lim, bare_limits).
    assert (Ne : mem s0 <> []) by discriminate.
    destruct (tb_build_ok (fresh s0) (length (mem s0)) (mem s0) Ne (iv_mem _ _ _ _ _ _ I)) as (t & Et & Ot & Es & It).
    destruct (push_ok _ _ _ _ _ _ _ _ (leveled_laws bare_cfg) _ s0 t I Ne Ot Es It) as [I1 _]. cbn [mem usage time cur nxt thr joinable iters fresh log s0] in I1.
    set (m1 := st_push St cu t) in *. set (s1 := mkLsm _ _ _ _ _ _ _ _ _ _) in I1.
    assert (Tm : forall e, In e (run_entries (lm_tabs m1)) -> has_data e = false).
    { intros e Je. apply in_run in Je. destruct Je as (u & Ju & Je). cbn in Ju. apply in_app_iff in Ju. destruct Ju as [Ju|[<-|[]]].
      - apply B10. apply in_run. eauto.
      - rewrite Es in Je. destruct Je as [<-|[]]. reflexivity. }
    assert (Tr : Forall (fun t => t_range t = (1, 1)) (lm_tabs m1)).
    { cbn. apply Forall_app. split; [exact B11|]. repeat constructor. pose proof (ta_lo _ Ot) as Lo. pose proof (ta_hi _ Ot) as Hi. rewrite Es in Lo, Hi. cbn in Lo, Hi.
      destruct (t_range t). cbn in Lo, Hi. congruence. }
    assert (F : exists s2, flush St s0 = Ok s2 /\ barren (S n) s2).
    { assert (Tc : try_compact St s0 = Ok (if st_due St (cur s1) then mkLsm [] 0 (time s1) m1 None (TRun m1) true [] (fresh s1) (log s1) else s1)).
      { unfold try_compact. rewrite Et. reflexivity. }
      unfold flush. change (match mem s0 with [] => Ok s0 | _ => try_compact St s0 end) with (try_compact St s0). rewrite Tc. cbn [bind].
      destruct (st_due St (cur s1)) eqn:D; cbn [joinable s1].
      - pose proof (set_join_inv _ _ _ _ _ _ true (set_thr_inv _ _ _ _ _ s1 (TRun (cur s1)) I1 (or_intror (or_intror (or_intror (conj eq_refl (conj eq_refl (conj D (unlocked_idle _ _ _ _ _ _ I1 eq_refl))))))))) as I3.
        cbn [mem usage time cur nxt thr joinable iters fresh log set_thr s1] in I3. cbn [time fresh log s1]. set (s3 := mkLsm _ _ _ _ _ (TRun m1) _ _ _ _) in *.
        destruct (thread_ok _ _ _ _ _ _ _ _ (leveled_laws bare_cfg) _ s3 m1 I3 eq_refl ltac:(apply limits_lim, bare_limits)) as [[[] _]|([m' fr'] & Ec & _ & Cm & Im & Sh & _)].
        pose proof (vi_tabs _ _ _ (iv_inv _ _ _ _ _ _ I3)) as Tk. change (cur s3) with m1 in Tk.
        assert (X : level_tables (lm_levels m') = [] /\ length (lm_levels m') <= 1 /\ lm_tabs m' = []); [refine (compact_barren bare_cfg _ _ m1 m' fr' Tk _ _ _ _ Ec)|destruct X as (C1 & C2 & C3)].
        + pose proof (iv_has _ _ _ _ _ _ I3) as Hh. change (cur s3) with m1 in Hh. cbn [st_tables leveled] in Hh. unfold lv_tables in Hh. apply Forall_app in Hh. destruct Hh as [Hh _].
          eapply Forall_impl; [|exact Hh]. intros u. unfold t_ok. intros ->. reflexivity.
        + exact B8.
        + exact B9.
        + exact Tm.
        + unfold join. cbn [joinable s3 thr bind]. unfold work. rewrite Ec. cbn [bind]. unfold try_replace, unjoin. cbn [mem usage time cur nxt thr joinable iters fresh log s3].
          assert (Rp : st_replace St m1 m' = mkLm (lm_tabs m1) (lm_levels m')).
          { cbn [st_replace leveled]. unfold lv_replace. rewrite C1, C3. cbn [newest fold_left app]. f_equal. clear. induction (lm_tabs m1) as [|u us IH]; cbn; [reflexivity|now rewrite IH]. }
          rewrite Rp. replace (filter _ (map t_id (st_tables St m1))) with (@nil nat).
          * cbn [remove_dirs bind]. eexists. split; [reflexivity|]. constructor; cbn [mem usage thr nxt iters joinable cur lm_tabs lm_levels]; auto.
            cbn. rewrite app_length. cbn. lia.
          * cbn [st_tables leveled]. unfold lv_tables. cbn [lm_levels lm_tabs]. rewrite C1. change (lm_levels m1) with (lm_levels cu). rewrite B8, app_nil_r.
            symmetry. set (l := map t_id (lm_tabs m1)). assert (X : forall l', incl l' l -> filter (fun id => negb (existsb (Nat.eqb id) l)) l' = []); [|apply X, incl_refl].
            induction l' as [|x l' IH]; intros S; cbn [filter]; [reflexivity|]. rewrite IH by (intros y Jy; apply S; now right).
            replace (existsb (Nat.eqb x) l) with true; [reflexivity|]. symmetry. apply existsb_exists. exists x. split; [apply S; now left|apply Nat.eqb_refl].
      - eexists. split; [reflexivity|]. constructor; cbn [mem usage thr nxt iters joinable cur s1]; auto. cbn. rewrite app_length. cbn. lia. }
    destruct F as (s2 & F & B'). assert (R2 : run (lsm_step St) s [LRemove 1; LFlush] = Ok (s2, [OUnit; OUnit])).
    { cbn [run]. rewrite E1. cbn [bind run]. cbn [lsm_step]. rewrite F. reflexivity. }
    eexists s2, _. split; [exact (run_app_ok _ _ _ _ _ _ _ _ E R2)|exact B'].
Qed.
Lemma bare_bad n : exists s outs, well_used sp_new (bare_ops n) /\ run (lsm_step St) (lsm_new St) (bare_ops n) = Ok (s, outs) /\ calm s /\ length (lm_tabs (cur s)) = n.
Proof.
  destruct (bare_run n) as (s & outs & E & B). exists s, outs. split; [apply always_used, bare_all|]. split; [exact E|]. split; [|apply B].
  split; [apply B|]. pose proof (ba_iters _ _ B) as Q. destruct s. cbn in *. subst. intros o [].
Qed.

(** A map with three levels *)
Definition deep_cfg : lconfig := mkLc 20 1 10 1 2.
Definition deep_ops : list (lsm_op nat nat) :=
  [LInsert 1 10; LInsert 2 20; LInsert 3 30; LFlush; LInsert 4 40; LInsert 5 50; LInsert 6 60; LFlush; LInsert 7 70; LFlush; LInsert 8 80].
