(** A property of metadata that every call keeps *)
From Verif Require Import ListLemmas.
From Verif Require Export LsmMapModel.

Section Good.
  Context {K V : Type} `{Cmp K} {Z : Sizes K V}.
  Context (St : strategy K V).
  Notation lsm := (lsm K V (st_meta St)).
  Context (good : st_meta St -> Prop).
  Record good_laws : Prop := mkGoodLaws {
    gl_new : good (st_new St);
    gl_push : forall m id hint es t, good m -> tb_build id hint es = Ok t -> good (st_push St m t);
    gl_compact : forall has id m m' id', good m -> st_compact St has id m = Ok (m', id') -> good m';
    gl_replace : forall c m, good c -> good m -> good (st_replace St c m) }.
  Context (L : good_laws).
  Record ginv (s : lsm) : Prop := mkG {
    g_cur : good (cur s);
    g_nxt : forall m, nxt s = Some m -> good m;
    g_thr : forall m, thr s = TRun m -> good m;
    g_log : forall m, In (EMeta m) (log s) -> good m }.
  Lemma removes_meta (d : disk (st_meta St)) ids : forall es m, remove_dirs d ids = Ok es -> ~ In (EMeta m) es.
  Proof.
    revert d. induction ids as [|i ids IH]; intros d es m E; cbn [remove_dirs] in E; [injection E as <-; intros []|].
    destruct (has_dir d i); [|discriminate]. destruct (remove_dirs _ ids) as [es'| |] eqn:R; try discriminate. cbn [bind] in E. injection E as <-.
    intros [Q|J]; [discriminate|]. eapply IH; eauto.
  Qed.
  Lemma removes_inv (s : lsm) es r : ginv s -> good r -> (forall m, ~ In (EMeta m) es) -> forall m, In (EMeta m) (log s ++ es ++ [EMeta r]) -> good m.
  Proof.
    intros G Gr N m J. apply in_app_iff in J. destruct J as [J|J]; [now apply (g_log _ G)|]. apply in_app_iff in J. destruct J as [J|[J|[]]]; [now apply N in J|].
    injection J as <-. exact Gr.
  Qed.
  Lemma try_replace_g s s' : ginv s -> try_replace St s = Ok s' -> ginv s'.
  Proof.
    intros G E. unfold try_replace in E. destruct (nxt s) as [m|] eqn:N; [|now injection E as <-].
    destruct (remove_dirs _ _) as [es| |] eqn:R; try discriminate. cbn [bind] in E. injection E as <-.
    assert (Gr : good (st_replace St (cur s) m)) by (apply (gl_replace L); [apply (g_cur _ G)|now apply (g_nxt _ G)]).
    constructor; cbn [cur nxt thr log]; [exact Gr|discriminate|apply (g_thr _ G)|]. apply removes_inv; auto. intros x. eapply removes_meta; eauto.
  Qed.
  Lemma try_compact_g s s' : ginv s -> try_compact St s = Ok s' -> ginv s'.
  Proof.
    intros G E. unfold try_compact in E. destruct (tb_build _ _ _) as [t| |] eqn:B; try discriminate. cbn [bind] in E.
    set (s1 := mkLsm _ _ _ _ _ _ _ _ _ _) in E. assert (Gp : good (st_push St (cur s) t)) by (eapply (gl_push L); [apply (g_cur _ G)|eauto]).
    assert (G1 : ginv s1).
    { constructor; cbn [s1 cur nxt thr log]; [exact Gp|apply (g_nxt _ G)|apply (g_thr _ G)|]. intros m J. apply in_app_iff in J. destruct J as [J|[J|[J|[]]]]; [now apply (g_log _ G)|discriminate|].
      injection J as <-. exact Gp. }
    destruct (busy St s1 || locked St s1); [now injection E as <-|]. destruct (try_replace St s1) as [s2| |] eqn:R; try discriminate. cbn [bind] in E. injection E as <-.
    pose proof (try_replace_g _ _ G1 R) as G2. destruct (st_due St (cur s2)); [|exact G2].
    constructor; cbn [cur nxt thr log]; try apply G2. intros m Q. injection Q as <-. apply (g_cur _ G2).
  Qed.
  Lemma work_g s m a s' : ginv s -> good m -> (forall x, a <> TRun x) -> work St s m a = Ok s' -> ginv s'.
  Proof.
    intros G Gm Na E. unfold work in E. destruct (st_compact St _ _ m) as [[m' fr]| |] eqn:C'; try discriminate; injection E as <-.
    - constructor; cbn [cur nxt thr log]; [apply (g_cur _ G)|intros x Q; injection Q as <-; eapply (gl_compact L); eauto|intros x Q; now apply Na in Q|].
      intros x J. apply in_app_iff in J. destruct J as [J|J]; [now apply (g_log _ G)|]. apply in_map_iff in J. destruct J as (i & Q & _). discriminate.
    - constructor; cbn [cur nxt thr log]; [apply (g_cur _ G)|apply (g_nxt _ G)|discriminate|apply (g_log _ G)].
  Qed.
  Lemma set_thr_g s t : ginv s -> (forall x, t <> TRun x) -> ginv (set_thr St s t).
  Proof. intros G N. constructor; cbn [set_thr cur nxt thr log]; [apply (g_cur _ G)|apply (g_nxt _ G)|intros m Q; now apply N in Q|apply (g_log _ G)]. Qed.
  Lemma join_g s s' : ginv s -> join St s = Ok s' -> ginv s'.
  Proof.
    intros G E. unfold join in E. destruct (joinable s); [|now injection E as <-].
    destruct (thr s) as [|m| |] eqn:T.
    - cbn [bind] in E. injection E as <-. destruct G. now constructor.
    - destruct (work St s m TIdle) as [s1| |] eqn:W; try discriminate. cbn [bind] in E. injection E as <-.
      assert (G1 : ginv s1) by (eapply (work_g s m); eauto; [now apply (g_thr _ G)|discriminate]). destruct G1. now constructor.
    - cbn [bind] in E. injection E as <-. destruct (set_thr_g s TIdle G) as [A1 A2 A3 A4]; [discriminate|]. now constructor.
    - cbn [bind] in E. injection E as <-. destruct G. now constructor.
  Qed.
  Lemma flush_g s s' : ginv s -> LsmMapModel.flush St s = Ok s' -> ginv s'.
  Proof.
    intros G E. unfold LsmMapModel.flush in E. assert (X : exists s1, match mem s with [] => Ok s | _ => try_compact St s end = Ok s1 /\ ginv s1).
    { destruct (mem s); [eauto|]. destruct (try_compact St s) as [s1| |] eqn:T; try discriminate. exists s1. split; [reflexivity|]. eapply try_compact_g; eauto. }
    destruct X as (s1 & E1 & G1). rewrite E1 in E. cbn [bind] in E. destruct (joinable s1); [|now injection E as <-].
    destruct (join St s1) as [s2| |] eqn:J; try discriminate. cbn [bind] in E. eapply try_replace_g; [|exact E]. eapply join_g; eauto.
  Qed.
  Lemma write_g s k d s' : ginv s -> write St s k d = Ok s' -> ginv s'.
  Proof.
    intros G E. unfold write in E. destruct (match find_version (mem s) k with Some _ => _ | None => _ end) as [u| |]; try discriminate. cbn [bind] in E.
    set (s1 := mkLsm _ _ _ _ _ _ _ _ _ _) in E. assert (G1 : ginv s1).
    { constructor; cbn [s1 cur nxt thr log]; [apply (g_cur _ G)|apply (g_nxt _ G)|apply (g_thr _ G)|]. intros m J. apply in_app_iff in J. destruct J as [J|[J|[]]]; [now apply (g_log _ G)|discriminate]. }
    destruct (st_max_mem St <? usage s1)%N; [eapply try_compact_g; eauto|now injection E as <-].
  Qed.
  Lemma disk_iter_g s s' it : ginv s -> disk_iter St s = Ok (s', it) -> ginv s'.
  Proof.
    intros G E. unfold disk_iter in E. destruct (try_replace St s) as [s1| |] eqn:R; try discriminate. cbn [bind] in E.
    destruct (mi_new _ _); try discriminate. cbn [bind] in E. injection E as <- _. eapply try_replace_g; eauto.
  Qed.
  Lemma all_g s s' l : ginv s -> all St s = Ok (s', l) -> ginv s'.
  Proof.
    intros G E. unfold all in E. destruct (LsmMapModel.flush St s) as [s1| |] eqn:F; try discriminate. cbn [bind] in E.
    destruct (disk_iter St s1) as [[s2 it]| |] eqn:D; try discriminate. cbn [bind] in E. destruct (live_collect _ it); try discriminate. cbn [bind] in E. injection E as <- _.
    eapply disk_iter_g; [|exact D]. eapply flush_g; eauto.
  Qed.
  Lemma set_iters_g s l : ginv s -> ginv (set_iters St s l).
  Proof. intros []. now constructor. Qed.
  Lemma last_meta (l : list (effect (st_meta St))) m : d_meta (disk_of l) = Some m -> In (EMeta m) l.
  Proof.
    induction l as [|e l IH] using rev_ind; [discriminate|]. unfold disk_of. rewrite fold_left_app. cbn [fold_left]. fold (disk_of l). intros E. apply in_app_iff.
    destruct e; cbn [apply d_meta] in E; auto. injection E as ->. right. now left.
  Qed.
  Lemma step_g s o s' out : ginv s -> lsm_step St s o = Ok (s', out) -> ginv s'.
  Proof.
    intros G E. destruct o; cbn [lsm_step] in E.
    - destruct (write St s k (Some v)) as [s1| |] eqn:W; try discriminate. cbn [bind] in E. injection E as <- _. eapply write_g; eauto.
    - destruct (write St s k None) as [s1| |] eqn:W; try discriminate. cbn [bind] in E. injection E as <- _. eapply write_g; eauto.
    - destruct (get St s k) as [[s1 v]| |] eqn:W; try discriminate. cbn [bind] in E. injection E as <- _. unfold get in W.
      destruct (find_version (mem s) k); [now injection W as <- _|]. destruct (try_replace St s) as [s2| |] eqn:R; try discriminate. cbn [bind] in W.
      destruct (st_get St _ _ k); try discriminate. cbn [bind] in W. injection W as <- _. eapply try_replace_g; eauto.
    - destruct (get St s k) as [[s1 v]| |] eqn:W; try discriminate. cbn [bind] in E. injection E as <- _. unfold get in W.
      destruct (find_version (mem s) k); [now injection W as <- _|]. destruct (try_replace St s) as [s2| |] eqn:R; try discriminate. cbn [bind] in W.
      destruct (st_get St _ _ k); try discriminate. cbn [bind] in W. injection W as <- _. eapply try_replace_g; eauto.
    - destruct (all St s) as [[s1 l]| |] eqn:W; try discriminate. cbn [bind] in E. injection E as <- _. eapply all_g; eauto.
    - destruct (all St s) as [[s1 l]| |] eqn:W; try discriminate. cbn [bind] in E. injection E as <- _. eapply all_g; eauto.
    - destruct (len_hint St s) as [[s1 l]| |] eqn:W; try discriminate. cbn [bind] in E. injection E as <- _. unfold len_hint in W.
      destruct (try_replace St s) as [s2| |] eqn:R; try discriminate. cbn [bind] in W. destruct (sum_hints _); try discriminate. cbn [bind] in W. injection W as <- _.
      eapply try_replace_g; eauto.
    - destruct (clear St s) as [s1| |] eqn:W; try discriminate. cbn [bind] in E. injection E as <- _. unfold clear in W.
      destruct (join St s) as [s2| |] eqn:J; try discriminate. cbn [bind] in W. destruct (remove_dirs _ _) as [es| |] eqn:R; try discriminate. cbn [bind] in W. injection W as <-.
      pose proof (join_g _ _ G J) as G2. constructor; cbn [cur nxt thr log]; [apply (gl_new L)|discriminate|apply (g_thr _ G2)|]. apply removes_inv; auto; try exact (gl_new L).
      intros x. eapply removes_meta; eauto.
    - destruct (min St s) as [[s1 l]| |] eqn:W; try discriminate. cbn [bind] in E. injection E as <- _. unfold min in W.
      destruct (disk_iter St s) as [[s2 it]| |] eqn:D; try discriminate. cbn [bind] in W. destruct (live_next _ it) as [[x y]| |]; try discriminate. cbn [bind] in W.
      injection W as <- _. eapply disk_iter_g; eauto.
    - destruct (max St s) as [[s1 l]| |] eqn:W; try discriminate. cbn [bind] in E. injection E as <- _. unfold max in W.
      destruct (disk_iter St s) as [[s2 it]| |] eqn:D; try discriminate. cbn [bind] in W. destruct (live_collect _ it); try discriminate. cbn [bind] in W.
      injection W as <- _. eapply disk_iter_g; eauto.
    - destruct (LsmMapModel.flush St s) as [s1| |] eqn:W; try discriminate. cbn [bind] in E. injection E as <- _. eapply flush_g; eauto.
    - destruct (all St s) as [[s1 l]| |] eqn:W; try discriminate. cbn [bind] in E. injection E as <- _. eapply all_g; eauto.
    - destruct (LsmMapModel.flush St s) as [s1| |] eqn:W; try discriminate. cbn [bind] in E. destruct (disk_iter St s1) as [[s2 it]| |] eqn:D; try discriminate.
      cbn [bind] in E. injection E as <- _. apply set_iters_g. eapply disk_iter_g; [|exact D]. eapply flush_g; eauto.
    - destruct (nth_error (iters s) i) as [[it|]|]; try (injection E as <- _; exact G). destruct (live_next _ it) as [[x y]| |]; try discriminate. cbn [bind] in E.
      injection E as <- _. now apply set_iters_g.
    - injection E as <- _. now apply set_iters_g.
    - unfold lsm_open in E. destruct (d_meta _) as [m|] eqn:M; [|discriminate]. cbn [expect bind] in E. destruct (d_time _); [|discriminate]. cbn [expect bind] in E.
      destruct (forallb _ _); [|discriminate]. cbn [bind] in E. injection E as <- _. constructor; cbn [cur nxt thr log]; [|discriminate|discriminate|apply (g_log _ G)].
      apply (g_log _ G). now apply last_meta.
    - destruct (thr s) as [|m| |] eqn:T; try (injection E as <- _; exact G). destruct (work St s m TPub) as [s1| |] eqn:W; try discriminate. cbn [bind] in E.
      injection E as <- _. eapply (work_g s m); eauto; [now apply (g_thr _ G)|discriminate].
    - destruct (thr s); injection E as <- _; try exact G. apply set_thr_g; [exact G|discriminate].
    - destruct (thr s); injection E as <- _; try exact G. apply set_thr_g; [exact G|discriminate].
    - destruct (thr s); injection E as <- _; try exact G. apply set_thr_g; [exact G|discriminate].
  Qed.
  Lemma new_g : ginv (lsm_new St).
  Proof.
    constructor; cbn; [apply (gl_new L)|discriminate|discriminate|]. intros m [Q|[]]. injection Q as <-. apply (gl_new L).
  Qed.
  Lemma run_g ops : forall s s' outs, ginv s -> run (lsm_step St) s ops = Ok (s', outs) -> ginv s'.
  Proof.
    induction ops as [|o ops IH]; intros s s' outs G E; cbn [run] in E; [now injection E as <- _|].
    destruct (lsm_step St s o) as [[s1 r]| |] eqn:Q; try discriminate. cbn [bind] in E. destruct (run (lsm_step St) s1 ops) as [[s2 rs]| |] eqn:R; try discriminate.
    cbn [bind] in E. injection E as <- _. eapply IH; [|exact R]. eapply step_g; eauto.
  Qed.
End Good.
