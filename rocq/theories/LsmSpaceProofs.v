(** Which directories are on disk *)
From Verif Require Import ListLemmas OrdLemmas.
From Verif Require Export LsmSpaceSpec LsmPrimProofs LsmMapLemmas LsmTableProofs LsmGoodProofs.

Lemma tb_flush_fields {K V} (b : tbuilder K V) t : tb_flush b = Ok t -> t_id t = tb_id b /\ t_es t = tb_es b.
Proof. unfold tb_flush. destruct (tb_range b); cbn [expect bind]; [|discriminate]. destruct (tb_times b); cbn [expect bind]; [|discriminate]. now intros [= <-]. Qed.
Lemma tb_append_id {K V} {Z : Sizes K V} (b : tbuilder K V) e : tb_id (tb_append b e) = tb_id b /\ tb_es (tb_append b e) = tb_es b ++ [e].
Proof. destruct e. unfold tb_append. destruct (_ =? _); now split. Qed.
Lemma tb_appends {K V} {Z : Sizes K V} es : forall b : tbuilder K V, tb_id (fold_left tb_append es b) = tb_id b /\ tb_es (fold_left tb_append es b) = tb_es b ++ es.
Proof.
  induction es as [|e es IH]; intros b; cbn [fold_left]; [now rewrite app_nil_r|]. destruct (IH (tb_append b e)) as [-> ->], (tb_append_id b e) as [-> ->]. now rewrite <- app_assoc.
Qed.
Lemma tb_build_fields {K V} {Z : Sizes K V} id hint (es : list (K * sval V)) t : tb_build id hint es = Ok t -> t_id t = id /\ t_es t = es.
Proof. unfold tb_build. intros E. apply tb_flush_fields in E. destruct E as [-> ->]. destruct (tb_appends es (tb_new id hint)) as [-> ->]. now split. Qed.

Lemma remove_dirs_effects {M} l : forall (d : disk M) es, remove_dirs d l = Ok es -> es = map ERemove l.
Proof.
  induction l as [|i l IH]; intros d es E; cbn [remove_dirs] in E; [now injection E as <-|]. destruct (has_dir d i); [|discriminate].
  destruct (remove_dirs _ l) as [es'| |] eqn:R; try discriminate. cbn [bind] in E. injection E as <-. cbn [map]. f_equal. eapply IH; eauto.
Qed.
Lemma removed_in {M} l : forall (d : disk M) i, In i (d_dirs (fold_left apply (map ERemove l) d)) <-> In i (d_dirs d) /\ ~ In i l.
Proof.
  induction l as [|x l IH]; intros d i; cbn [map fold_left In]; [tauto|]. rewrite IH. cbn [apply d_dirs]. rewrite filter_In. destruct (Nat.eqb_spec i x) as [->|Ne]; cbn; [intuition congruence|].
  intuition congruence.
Qed.
Lemma tables_in {M} l : forall (d : disk M) i, In i (d_dirs (fold_left apply (map ETable l) d)) <-> In i l \/ In i (d_dirs d).
Proof. induction l as [|x l IH]; intros d i; cbn [map fold_left In]; [tauto|]. rewrite IH. cbn [apply d_dirs In]. tauto. Qed.
Lemma tables_meta {M} l : forall d : disk M, d_meta (fold_left apply (map ETable l) d) = d_meta d.
Proof. induction l as [|x l IH]; intros d; cbn [map fold_left]; [reflexivity|]. now rewrite IH. Qed.
Lemma seq_in a n i : In i (seq a n) <-> a <= i < a + n.
Proof. apply in_seq. Qed.

Section Space.
  Context {K V : Type} `{Cmp K} {Z : Sizes K V}.
  Context (St : strategy K V).
  Notation lsm := (lsm K V (st_meta St)).
  Notation ids := (ids St).
  Notation dirs s := (d_dirs (disk_of (log s))).
  Implicit Types s : lsm.

  Definition gone s m : list nat := filter (fun i => negb (existsb (Nat.eqb i) (ids (st_replace St (cur s) m)))) (ids (cur s)).
  Lemma replace_disk s m s' : nxt s = Some m -> try_replace St s = Ok s' ->
    cur s' = st_replace St (cur s) m /\ nxt s' = None /\ fresh s' = fresh s /\ d_meta (disk_of (log s')) = Some (cur s') /\
    (forall i, In i (dirs s') <-> In i (dirs s) /\ ~ In i (gone s m)) /\ (forall x, In (EMeta x) (log s') -> In (EMeta x) (log s) \/ x = cur s').
  Proof.
    intros N E. unfold try_replace in E. rewrite N in E. fold (ids (cur s)) (ids (st_replace St (cur s) m)) in E. change (filter _ (ids (cur s))) with (gone s m) in E.
    destruct (remove_dirs _ _) as [es| |] eqn:R; try discriminate. cbn [bind] in E. injection E as <-. cbn [cur nxt fresh log].
    apply remove_dirs_effects in R. subst es. unfold disk_of. rewrite !fold_left_app. cbn [fold_left apply d_dirs d_meta]. repeat (split; [reflexivity|]).
    split; [intros i; apply removed_in|]. intros x J. apply in_app_iff in J. destruct J as [J|J]; [now left|]. apply in_app_iff in J. destruct J as [J|[[= <-]|[]]]; [|now right].
    apply in_map_iff in J. destruct J as (y & Q & _). discriminate.
  Qed.
  Lemma gone_in s m i : In i (gone s m) <-> In i (ids (cur s)) /\ ~ In i (ids (st_replace St (cur s) m)).
  Proof.
    unfold gone. rewrite filter_In. destruct (existsb (Nat.eqb i) _) eqn:X.
    - apply existsb_exists in X. destruct X as (y & J & Q). apply Nat.eqb_eq in Q. subst y. cbn. intuition congruence.
    - cbn. split; [|tauto]. intros [J _]. split; [exact J|]. intros J'. enough (existsb (Nat.eqb i) (ids (st_replace St (cur s) m)) = true) by congruence.
      apply existsb_exists. exists i. split; [exact J'|apply Nat.eqb_refl].
  Qed.
  Lemma pushed_disk s t : d_meta (disk_of (log (pushed St s t))) = Some (cur (pushed St s t)) /\ (forall i, In i (dirs (pushed St s t)) <-> i = t_id t \/ In i (dirs s)) /\
    (forall x, In (EMeta x) (log (pushed St s t)) -> In (EMeta x) (log s) \/ x = cur (pushed St s t)).
  Proof.
    cbn [pushed log cur]. unfold disk_of. rewrite fold_left_app. cbn [fold_left apply d_meta d_dirs]. split; [reflexivity|]. split; [intros i; cbn; intuition congruence|].
    intros x J. apply in_app_iff in J. destruct J as [J|[J|[[= <-]|[]]]]; auto. discriminate.
  Qed.
  Lemma wrote_disk s k d u : disk_of (log (wrote St s k d u)) = mkDisk (Some (time s + 1)%N) (d_meta (disk_of (log s))) (dirs s) /\
    (forall x, In (EMeta x) (log (wrote St s k d u)) -> In (EMeta x) (log s)).
  Proof.
    cbn [wrote log]. unfold disk_of. rewrite fold_left_app. split; [reflexivity|]. intros x J. apply in_app_iff in J. destruct J as [J|[J|[]]]; [exact J|discriminate].
  Qed.
  Lemma worked_disk s m' fr a : d_meta (disk_of (log (worked St s m' fr a))) = d_meta (disk_of (log s)) /\
    (forall i, In i (dirs (worked St s m' fr a)) <-> fresh s <= i < fr \/ In i (dirs s)) /\ (forall x, In (EMeta x) (log (worked St s m' fr a)) -> In (EMeta x) (log s)).
  Proof.
    cbn [worked log]. unfold disk_of. rewrite fold_left_app. split; [apply tables_meta|]. split.
    - intros i. rewrite tables_in, in_seq. assert (fresh s <= i < fresh s + (fr - fresh s) <-> fresh s <= i < fr) by lia. tauto.
    - intros x J. apply in_app_iff in J. destruct J as [J|J]; [exact J|]. apply in_map_iff in J. destruct J as (y & Q & _). discriminate.
  Qed.
  Lemma cleared_disk s es : remove_dirs (disk_of (log s)) (nodup Nat.eq_dec (dirs s)) = Ok es ->
    d_meta (disk_of (log (cleared St s es))) = Some (st_new St) /\ (forall i, ~ In i (dirs (cleared St s es))) /\
    (forall x, In (EMeta x) (log (cleared St s es)) -> In (EMeta x) (log s) \/ x = st_new St).
  Proof.
    intros R. apply remove_dirs_effects in R. subst es. cbn [cleared log]. rewrite disk_app, fold_left_app. cbn [fold_left apply d_dirs d_meta]. split; [reflexivity|]. split.
    - intros i J. apply removed_in in J. destruct J as [J N]. apply N. apply nodup_In. exact J.
    - intros x J. apply in_app_iff in J. destruct J as [J|J]; [now left|]. apply in_app_iff in J. destruct J as [J|[[= <-]|[]]]; [|now right].
      apply in_map_iff in J. destruct J as (y & Q & _). discriminate.
  Qed.
  Lemma replace_same s s' : nxt s = None -> try_replace St s = Ok s' -> s' = s.
  Proof. unfold try_replace. intros ->. now intros [= <-]. Qed.
  Lemma replace_thr s s' : try_replace St s = Ok s' -> thr s' = thr s.
  Proof. intros E. now apply (replace_keeps St) in E. Qed.

  (** *** A directory that was in use and no longer is has been removed. *)
  Record files_laws : Prop := mkFiles {
    fl_new : ids (st_new St) = [];
    fl_push : forall m t i, In i (ids (st_push St m t)) <-> i = t_id t \/ In i (ids m);
    fl_replace : forall c m i, In i (ids (st_replace St c m)) -> In i (ids c) \/ In i (ids m);
    fl_compact : forall has id m m' id', st_compact St has id m = Ok (m', id') -> id <= id' /\ forall i, In i (ids m') -> In i (ids m) \/ id <= i < id' }.
  Context (FL : files_laws).
  Record rinv (s : lsm) : Prop := mkR {
    r_meta : d_meta (disk_of (log s)) = Some (cur s);
    r_log : forall m i, In (EMeta m) (log s) -> In i (ids m) -> i < fresh s /\ (In i (dirs s) -> In i (ids (cur s)));
    r_nxt : forall m i, nxt s = Some m -> In i (ids m) -> i < fresh s;
    r_thr : forall m i, thr s = TRun m -> In i (ids m) -> i < fresh s }.
  Lemma r_cur s : rinv s -> forall i, In i (ids (cur s)) -> i < fresh s.
  Proof. intros R i J. apply (r_log _ R (cur s)); [|exact J]. apply last_meta, R. Qed.
  Lemma rinv_replace s s' : rinv s -> try_replace St s = Ok s' -> rinv s'.
  Proof.
    intros R E. destruct (nxt s) as [m|] eqn:N; [|now rewrite (replace_same _ _ N E)].
    destruct (replace_disk _ _ _ N E) as (Ec & En & Ef & Em & Ed & El). constructor.
    - exact Em.
    - assert (X : forall i, In i (ids (cur s')) -> i < fresh s').
      { intros i J. rewrite Ef. rewrite Ec in J. apply (fl_replace FL) in J. destruct J as [J|J]; [now apply (r_cur _ R)|now apply (r_nxt _ R m)]. }
      intros x i J Ji. destruct (El x J) as [Jl| ->]; [|auto]. destruct (r_log _ R x i Jl Ji) as [L D]. rewrite Ef. split; [exact L|]. intros Jd. apply Ed in Jd. destruct Jd as [Jd Ng].
      specialize (D Jd). destruct (in_dec Nat.eq_dec i (ids (cur s'))) as [Y|Y]; [exact Y|]. destruct Ng. apply gone_in. rewrite <- Ec. auto.
    - rewrite En. discriminate.
    - rewrite (replace_thr _ _ E), Ef. apply R.
  Qed.
  Lemma rinv_push s t : rinv s -> t_id t = fresh s -> rinv (pushed St s t).
  Proof.
    intros R E. destruct (pushed_disk s t) as (Em & Ed & El). assert (X : forall i, In i (ids (cur (pushed St s t))) -> i < S (fresh s)).
    { intros i J. cbn [pushed cur] in J. apply (fl_push FL) in J. destruct J as [->|J]; [lia|]. apply (r_cur _ R) in J. lia. }
    constructor; [exact Em| | |].
    - intros x i J Ji. cbn [pushed fresh]. destruct (El x J) as [Jl| ->]; [|auto]. destruct (r_log _ R x i Jl Ji) as [L D]. split; [lia|].
      intros Jd. apply Ed in Jd. destruct Jd as [->|Jd]; [lia|]. apply (fl_push FL). right. auto.
    - intros m i N J. apply (r_nxt _ R _ _ N) in J. cbn. lia.
    - intros m i N J. apply (r_thr _ R _ _ N) in J. cbn. lia.
  Qed.
  Lemma rinv_wrote s k d u : rinv s -> rinv (wrote St s k d u).
  Proof.
    intros R. destruct (wrote_disk s k d u) as [E El]. constructor; rewrite ?E; cbn [wrote cur nxt thr fresh d_meta d_dirs]; try apply R.
    intros x i J Ji. apply El in J. now apply (r_log _ R x).
  Qed.
  Lemma rinv_prim o s s' : True -> rinv s -> prim St o s s' -> rinv s'.
  Proof.
    intros _ R P. destruct P as [s k d u W B Le|s k d u t W B Lt T|s t Ne T|s s' E|s s' J D E|s T L N D|s m m' fr a T A E|s t D|s es O J E|s l|s m t O M T Fa].
    - now apply rinv_wrote.
    - apply rinv_push; [now apply rinv_wrote|]. apply tb_build_fields in T. apply T.
    - apply rinv_push; [exact R|]. apply tb_build_fields in T. apply T.
    - eapply rinv_replace; eauto.
    - apply (rinv_replace (unjoin St s)); [|exact E]. destruct R. now constructor.
    - constructor; cbn [spawned cur nxt thr fresh log]; try apply R. intros m i [= <-]. now apply r_cur.
    - destruct (worked_disk s m' fr a) as (Em & Ed & El). destruct (fl_compact FL _ _ _ _ _ E) as [Le In']. constructor.
      + rewrite Em. apply R.
      + intros x i J Ji. apply El in J. destruct (r_log _ R x i J Ji) as [L Di]. cbn [worked fresh cur]. split; [lia|]. intros Jd. apply Ed in Jd. destruct Jd as [Jd|Jd]; [lia|auto].
      + cbn [worked nxt fresh]. intros x i [= <-] Ji. apply In' in Ji. destruct Ji as [Ji|Ji]; [|lia]. apply (r_thr _ R _ _ T) in Ji. lia.
      + cbn [worked thr]. destruct A as [->| ->]; discriminate.
    - constructor; cbn [set_thr cur nxt thr fresh log]; try apply R. destruct D as [->| ->]; discriminate.
    - destruct (cleared_disk s es E) as (Em & Ed & El). constructor; [exact Em| | |].
      + intros x i Jx Ji. cbn [cleared fresh]. split; [|intros Jd; now apply Ed in Jd]. destruct (El x Jx) as [Jl| ->]; [now apply (r_log _ R x)|]. rewrite (fl_new FL) in Ji. destruct Ji.
      + discriminate.
      + cbn [cleared thr fresh]. apply R.
    - destruct R. now constructor.
    - rewrite (r_meta _ R) in M. injection M as <-. constructor; cbn [opened cur nxt thr fresh log]; try apply R; discriminate.
  Qed.
  Lemma rinv_new : rinv (lsm_new St).
  Proof. constructor; cbn [lsm_new cur nxt thr fresh log]; try discriminate; [reflexivity|]. intros m i [[= <-]|[]]. rewrite (fl_new FL). intros []. Qed.
  Lemma run_rinv ops s outs : run (lsm_step St) (lsm_new St) ops = Ok (s, outs) -> rinv s.
  Proof. intros E. eapply (run_kept St (fun _ => True) rinv rinv_prim); [now apply Forall_forall|exact rinv_new|exact E]. Qed.
  Lemma retired_removed ops s outs : run (lsm_step St) (lsm_new St) ops = Ok (s, outs) ->
    forall m i, In (EMeta m) (log s) -> In i (ids m) -> In i (on_disk St s) -> In i (ids (cur s)).
  Proof. intros E m i J Ji. apply (r_log _ (run_rinv _ _ _ E) m i J Ji). Qed.
  Lemma clear_empties s s' out : lsm_step St s LClear = Ok (s', out) -> on_disk St s' = [].
  Proof.
    intros E. cbn [lsm_step] in E. unfold clear in E. destruct (join St s) as [s1| |]; try discriminate. cbn [bind] in E.
    destruct (remove_dirs _ _) as [es| |] eqn:R; try discriminate. cbn [bind] in E. injection E as <- _. apply (cleared_disk s1 es) in R. destruct R as (_ & R & _).
    unfold on_disk. cbn [log]. cbn [cleared log] in R. destruct (d_dirs _) as [|i l]; [reflexivity|]. destruct (R i). now left.
  Qed.
End Space.
