(** Strategies that leave nothing behind *)
From Coq Require Import Relations.
From Verif Require Import ListLemmas OrdLemmas.
From Verif Require Export LsmSpaceProofs LeveledModel.

Section Steady.
  Context {K V : Type} `{Cmp K} {Z : Sizes K V}.
  Context (St : strategy K V).
  Notation lsm := (lsm K V (st_meta St)).
  Notation ids := (ids St).
  Notation dirs s := (d_dirs (disk_of (log s))).
  Implicit Types s : lsm.
  Context (good : st_meta St -> Prop).
  Notation data es := (Forall (fun e : K * sval V => has_data e = true) es).

  Record steady_laws : Prop := mkSteady {
    sl_new : good (st_new St);
    sl_push : forall m t, good m -> t_es t <> [] -> data (t_es t) -> good (st_push St m t);
    sl_ids : forall m t i, In i (ids (st_push St m t)) <-> i = t_id t \/ In i (ids m);
    sl_replace : forall c m, good c -> good m -> good (st_replace St c m) /\ incl (ids m) (ids (st_replace St c m));
    sl_compact : forall has id m m' id', good m -> st_compact St has id m = Ok (m', id') -> good m' /\ forall i, id <= i < id' -> In i (ids m') }.
  Context (L : steady_laws).
  Record sinv (s : lsm) : Prop := mkS {
    s_meta : d_meta (disk_of (log s)) = Some (cur s);
    s_mem : data (mem s);
    s_cur : good (cur s);
    s_nxt : forall m, nxt s = Some m -> good m;
    s_thr : forall m, thr s = TRun m -> good m /\ nxt s = None;
    s_join : joinable s = false -> nxt s = None /\ done St (thr s);
    s_used : forall i, In i (dirs s) -> In i (in_use St s) }.
  Ltac keep R := try exact (s_meta _ R); try exact (s_mem _ R); try exact (s_cur _ R); try exact (s_nxt _ R); try exact (s_thr _ R); try exact (s_join _ R); try exact (s_used _ R).
  Lemma bt_data k v (l : list (K * sval V)) : (forall k : K, has_data (k, v) = true) -> data l -> data (bt_insert k v l).
  Proof.
    intros Hv. induction l as [|[k' v'] l IH]; intros D; cbn [bt_insert]; [constructor; auto|]. inversion D as [|e r D1 D2]; subst. destruct (cmp k k'); constructor; auto.
  Qed.
  Lemma tb_build_ne id hint (es : list (K * sval V)) t : tb_build id hint es = Ok t -> es <> [].
  Proof. intros E ->. discriminate. Qed.
  Lemma sinv_replace s s' : sinv s -> try_replace St s = Ok s' -> sinv s'.
  Proof.
    intros R E. destruct (nxt s) as [m|] eqn:N; [|now rewrite (replace_same _ _ _ N E)].
    destruct (replace_disk _ _ _ _ N E) as (Ec & En & Ef & Em & Ed & El). destruct (replace_keeps _ _ _ E) as (Et & _ & Ej & Ee).
    destruct (sl_replace L _ _ (s_cur _ R) (s_nxt _ R _ N)) as [G Inc]. constructor; rewrite ?Et, ?Ej, ?Ee, ?En; auto; try discriminate; try apply (s_mem _ R).
    - now rewrite Ec.
    - intros x T. split; [|reflexivity]. apply (s_thr _ R _ T).
    - intros J. split; [reflexivity|apply (s_join _ R J)].
    - intros i J. apply Ed in J. destruct J as [J Ng]. apply (s_used _ R) in J. unfold in_use in *. rewrite N in J. rewrite En, app_nil_r. rewrite Ec. apply in_app_iff in J.
      destruct J as [J|J]; [|now apply Inc]. destruct (in_dec Nat.eq_dec i (ids (st_replace St (cur s) m))) as [Y|Y]; [exact Y|]. destruct Ng. apply gone_in. auto.
  Qed.
  Lemma sinv_push s t : sinv s -> tb_build (fresh s) (length (mem s)) (mem s) = Ok t -> sinv (pushed St s t).
  Proof.
    intros R E. destruct (pushed_disk St s t) as (Em & Ed & El). pose proof (tb_build_ne _ _ _ _ E) as Ne. apply tb_build_fields in E. destruct E as [Ei Ee].
    constructor; cbn [pushed mem cur nxt thr joinable]; keep R; auto.
    - apply (sl_push L); [apply R|now rewrite Ee|rewrite Ee; apply R].
    - intros i J. apply Ed in J. unfold in_use. cbn [pushed cur nxt]. apply in_app_iff. rewrite (sl_ids L). destruct J as [->|J]; [auto|].
      apply (s_used _ R) in J. apply in_app_iff in J. tauto.
  Qed.
  Lemma sinv_wrote s k v u : sinv s -> sinv (wrote St s k (Some v) u).
  Proof.
    intros R. destruct (wrote_disk St s k (Some v) u) as [E El]. constructor; rewrite ?E; cbn [wrote cur nxt thr fresh d_meta d_dirs mem joinable]; keep R.
    apply bt_data; [reflexivity|apply R].
  Qed.
  Definition calls (o : lsm_op K V) : Prop := match o with LRemove _ | LReopen => False | _ => True end.
  Lemma sinv_prim o s s' : calls o -> sinv s -> prim St o s s' -> sinv s'.
  Proof.
    intros Co R P. destruct P as [s k d u W B Le|s k d u t W B Lt T|s t Ne T|s s' E|s s' J D E|s T Lo N D|s m m' fr a T A E|s t D|s es O J E|s l|s m t O M T Fa].
    - destruct o; cbn in W, Co; try contradiction. destruct W as [-> ->]. now apply sinv_wrote.
    - destruct o; cbn in W, Co; try contradiction. destruct W as [-> ->]. apply sinv_push; [now apply sinv_wrote|]. exact T.
    - now apply sinv_push.
    - eapply sinv_replace; eauto.
    - assert (X : sinv (unjoin St s) \/ nxt s <> None).
      { destruct (nxt s) eqn:N; [right; discriminate|left]. destruct R. constructor; auto. }
      destruct X as [X|X]; [exact (sinv_replace _ _ X E)|].
      destruct (nxt s) as [m|] eqn:N; [|congruence]. destruct (try_replace St s) as [s2| |] eqn:E2; unfold try_replace in E, E2; cbn [unjoin nxt cur log mem usage time thr joinable iters fresh] in E; rewrite N in E, E2;
        destruct (remove_dirs _ _) as [es| |] eqn:Rd; try discriminate; cbn [bind] in E, E2. injection E as <-.
      assert (E3 : try_replace St s = Ok s2) by (unfold try_replace; rewrite N, Rd; exact E2). pose proof (sinv_replace _ _ R E3) as R2. injection E2 as <-.
      destruct R2. constructor; auto.
    - constructor; cbn [spawned cur nxt thr log mem joinable]; keep R; auto; try discriminate. intros m [= <-]. split; [apply R|exact N].
    - destruct (worked_disk St s m' fr a) as (Em & Ed & El). destruct (s_thr _ R _ T) as [Gm Nn]. destruct (sl_compact L _ _ _ _ _ Gm E) as [G' U].
      constructor; cbn [worked cur nxt thr mem joinable]; keep R; auto.
      + rewrite Em. apply R.
      + now intros x [= <-].
      + destruct A as [->| ->]; discriminate.
      + intros J. destruct (s_join _ R J) as [_ D]. rewrite T in D. destruct D; discriminate.
      + intros i J. unfold in_use. cbn [worked cur nxt]. apply in_app_iff. apply Ed in J. destruct J as [J|J]; [right; auto|]. apply (s_used _ R) in J. unfold in_use in J. rewrite Nn, app_nil_r in J. auto.
    - constructor; cbn [set_thr cur nxt thr log mem joinable]; keep R; auto.
      + destruct D as [->| ->]; discriminate.
      + intros J. split; [apply (s_join _ R J)|exact D].
    - destruct (cleared_disk St s es E) as (Em & Ed & El). constructor; cbn [cleared cur nxt thr mem joinable]; auto; try discriminate.
      + apply (sl_new L).
      + intros m X. split; [apply (s_thr _ R _ X)|reflexivity].
      + intros _. split; [reflexivity|]. destruct J as [J|J]; [apply (s_join _ R J)|exact J].
      + intros i X. now apply Ed in X.
    - destruct R. now constructor.
    - subst o. destruct Co.
  Qed.
  Lemma sinv_new : sinv (lsm_new St).
  Proof.
    constructor; cbn [lsm_new cur nxt thr mem joinable log]; try discriminate; try constructor; auto.
    - apply (sl_new L).
    - now left.
    - intros i [].
  Qed.
  Lemma sinv_open s s' out : sinv s -> nxt s = None -> lsm_step St s LReopen = Ok (s', out) -> sinv s'.
  Proof.
    intros R N E. cbn [lsm_step] in E. unfold lsm_open in E. rewrite (s_meta _ R) in E. cbn [expect bind] in E. destruct (d_time _); [|discriminate]. cbn [expect bind] in E.
    destruct (forallb _ _); [|discriminate]. cbn [bind] in E. injection E as <- _. constructor; cbn [cur nxt thr mem joinable log]; keep R; auto; try discriminate.
    - intros _. split; [reflexivity|now left].
    - intros i J. apply (s_used _ R) in J. unfold in_use in *. rewrite N in J. exact J.
  Qed.
  Lemma flush_settled s s' : sinv s -> LsmMapModel.flush St s = Ok s' -> nxt s' = None.
  Proof.
    intros R E. unfold LsmMapModel.flush in E. destruct (match mem s with [] => Ok s | _ => try_compact St s end) as [s1| |] eqn:E1; try discriminate. cbn [bind] in E.
    assert (R1 : sinv s1).
    { destruct (mem s) as [|e l] eqn:M; [now injection E1 as <-|]. assert (X : clos_refl_trans _ (prim St LFlush) s s1) by (apply try_compact_star; [rewrite M; discriminate|exact E1]).
      eapply (star_kept St calls sinv sinv_prim); eauto. exact Logic.I. }
    destruct (joinable s1) eqn:J; [|injection E as <-; now apply (s_join _ R1)]. destruct (join St s1) as [s2| |]; try discriminate. cbn [bind] in E. apply (replace_none St LFlush) in E. apply E.
  Qed.
  Lemma steady_run ops : forall fl s s' outs, sinv s -> (fl = true -> nxt s = None) -> steady fl ops -> run (lsm_step St) s ops = Ok (s', outs) -> sinv s'.
  Proof.
    induction ops as [|o ops IH]; intros fl s s' outs R F Sd E; cbn [run] in E; [now injection E as <- _|]. destruct Sd as [So Sd].
    destruct (lsm_step St s o) as [[s1 r]| |] eqn:W; try discriminate. cbn [bind] in E. destruct (run (lsm_step St) s1 ops) as [[s2 rs]| |] eqn:Rn; try discriminate. cbn [bind] in E. injection E as <- _.
    apply (IH (match o with LFlush => true | _ => false end) s1 s2 rs); auto.
    - destruct o; try (eapply (step_kept St calls sinv sinv_prim); [|exact R|exact W]; exact Logic.I || contradiction). eapply sinv_open; eauto.
    - destruct o; try discriminate. intros _. cbn [lsm_step] in W. destruct (LsmMapModel.flush St s) as [s3| |] eqn:Fl; try discriminate. cbn [bind] in W. injection W as <- _.
      eapply flush_settled; eauto.
  Qed.
  Lemma steady_clean ops s outs : steady false ops -> run (lsm_step St) (lsm_new St) ops = Ok (s, outs) -> left_behind St s = [].
  Proof.
    intros Sd E. assert (R : sinv s) by (eapply (steady_run ops false); eauto; [exact sinv_new|discriminate]). unfold left_behind.
    assert (X : forall l, (forall i, In i l -> In i (in_use St s)) -> filter (fun i => negb (existsb (Nat.eqb i) (in_use St s))) l = []).
    { induction l as [|i l IHl]; intros F; cbn [filter]; [reflexivity|]. replace (existsb (Nat.eqb i) (in_use St s)) with true; [apply IHl; intros; apply F; now right|].
      symmetry. apply existsb_exists. exists i. split; [apply F; now left|apply Nat.eqb_refl]. }
    apply X. apply R.
  Qed.
End Steady.
