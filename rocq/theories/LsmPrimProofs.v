(** Every call of an [LsmMap] is a sequence of small changes of its state; what each of them keeps, every call keeps. *)
From Coq Require Import Relations.
From Verif Require Import ListLemmas.
From Verif Require Export LsmMapModel.

Section Prim.
  Context {K V : Type} `{Cmp K} {Z : Sizes K V}.
  Context (St : strategy K V).
  Notation lsm := (lsm K V (st_meta St)).

  Definition before (s : lsm) (k : K) : res N :=
    match find_version (mem s) k with
    | Some old => let size := (ksize k + vsize old)%N in if (size <=? usage s)%N then Ok (usage s - size)%N else Panic
    | None => Ok (usage s)
    end.
  Definition wrote (s : lsm) (k : K) (d : option V) (u : N) : lsm :=
    mkLsm (bt_insert k (mkSval d (time s)) (mem s)) (u + (ksize k + vsize (mkSval d (time s))))%N (time s + 1) (cur s) (nxt s) (thr s) (joinable s) (iters s) (fresh s)
          (log s ++ [ETime (time s + 1)]).
  Definition pushed (s : lsm) (t : table K V) : lsm :=
    mkLsm [] 0 (time s) (st_push St (cur s) t) (nxt s) (thr s) (joinable s) (iters s) (S (fresh s)) (log s ++ [ETable (t_id t); EMeta (st_push St (cur s) t)]).
  Definition spawned (s : lsm) : lsm :=
    mkLsm (mem s) (usage s) (time s) (cur s) (nxt s) (TRun (cur s)) true (iters s) (fresh s) (log s).
  Definition worked (s : lsm) (m' : st_meta St) (fr : nat) (a : thread (st_meta St)) : lsm :=
    mkLsm (mem s) (usage s) (time s) (cur s) (Some m') a (joinable s) (iters s) fr (log s ++ map ETable (seq (fresh s) (fr - fresh s))).
  Definition cleared (s : lsm) (es : list (effect (st_meta St))) : lsm :=
    mkLsm [] (usage s) (time s) (st_new St) None (thr s) false (iters s) (fresh s) (log s ++ es ++ [EMeta (st_new St)]).
  Definition opened (s : lsm) (m : st_meta St) (t : N) : lsm := mkLsm [] 0 t m None TIdle false [] (fresh s) (log s).
  Definition done (t : thread (st_meta St)) : Prop := t = TIdle \/ t = TDead.
  Definition writes (o : lsm_op K V) (k : K) (d : option V) : Prop :=
    match o with LInsert k' v => k = k' /\ d = Some v | LRemove k' => k = k' /\ d = None | _ => False end.

  Inductive prim (o : lsm_op K V) : lsm -> lsm -> Prop :=
  | p_put s k d u : writes o k d -> before s k = Ok u -> (usage (wrote s k d u) <= st_max_mem St)%N -> prim o s (wrote s k d u)
  | p_put_push s k d u t : writes o k d -> before s k = Ok u -> (st_max_mem St < usage (wrote s k d u))%N ->
      tb_build (fresh s) (length (mem (wrote s k d u))) (mem (wrote s k d u)) = Ok t -> prim o s (pushed (wrote s k d u) t)
  | p_push s t : mem s <> [] -> tb_build (fresh s) (length (mem s)) (mem s) = Ok t -> prim o s (pushed s t)
  | p_replace s s' : try_replace St s = Ok s' -> prim o s s'
  | p_settle s s' : joinable s = true -> done (thr s) -> try_replace St (unjoin St s) = Ok s' -> prim o s s'
  | p_spawn s : thr s = TIdle -> locked St s = false -> nxt s = None -> st_due St (cur s) = true -> prim o s (spawned s)
  | p_work s m m' fr a : thr s = TRun m -> a = TIdle \/ a = TPub ->
      st_compact St (fun id => has St s id || (fresh s <=? id)) (fresh s) m = Ok (m', fr) -> prim o s (worked s m' fr a)
  | p_thr s t : done t -> prim o s (set_thr St s t)
  | p_clear s es : o = LClear -> (joinable s = false \/ done (thr s)) ->
      remove_dirs (disk_of (log s)) (nodup Nat.eq_dec (d_dirs (disk_of (log s)))) = Ok es -> prim o s (cleared s es)
  | p_iters s l : prim o s (set_iters St s l)
  | p_open s m t : o = LReopen -> d_meta (disk_of (log s)) = Some m -> d_time (disk_of (log s)) = Some t ->
      forallb (fun x => has St s (t_id x)) (st_tables St m) = true -> prim o s (opened s m t).
  Notation star o := (clos_refl_trans lsm (prim o)).
  Ltac bd E := cbn [bind] in E; try discriminate E.
  Ltac one := apply rt_step.
  Ltac tr s1 := apply rt_trans with s1.

  Lemma replace_none o s s' : try_replace St s = Ok s' -> star o s s' /\ nxt s' = None.
  Proof.
    intros E. split; [one; now apply p_replace|]. unfold try_replace in E. destruct (nxt s) eqn:N; [|now injection E as <-]. destruct (remove_dirs _ _); bd E. now injection E as <-.
  Qed.
  Lemma replace_keeps s s' : try_replace St s = Ok s' -> thr s' = thr s /\ iters s' = iters s /\ joinable s' = joinable s /\ mem s' = mem s.
  Proof. unfold try_replace. destruct (nxt s); [|now intros [= <-]]. destruct (remove_dirs _ _); cbn [bind]; try discriminate. now intros [= <-]. Qed.
  Lemma after_push o s s' : (if busy St s || locked St s then Ok s
    else let* s := try_replace St s in
         Ok (if st_due St (cur s) then spawned s else s)) = Ok s' -> star o s s'.
  Proof.
    intros E. destruct (busy St s) eqn:B; cbn [orb] in E; [injection E as <-; apply rt_refl|]. destruct (locked St s) eqn:L; [injection E as <-; apply rt_refl|].
    destruct (try_replace St s) as [s1| |] eqn:R; bd E. injection E as <-. destruct (replace_none o _ _ R) as [P N]. destruct (replace_keeps _ _ R) as (T & I & _ & _).
    destruct (st_due St (cur s1)) eqn:D; [|exact P]. tr s1; [exact P|]. one. apply p_spawn; auto.
    - rewrite T. unfold busy in B. destruct (thr s); try discriminate. reflexivity.
    - unfold locked in *. now rewrite I.
  Qed.
  Lemma try_compact_star o s s' : mem s <> [] -> try_compact St s = Ok s' -> star o s s'.
  Proof.
    intros Ne E. unfold try_compact in E. destruct (tb_build _ _ _) as [t| |] eqn:B; bd E. tr (pushed s t); [one; now apply p_push|]. apply after_push. exact E.
  Qed.
  Lemma write_star o s k d s' : writes o k d -> write St s k d = Ok s' -> star o s s'.
  Proof.
    intros W E. unfold write in E. fold (before s k) in E. destruct (before s k) as [u| |] eqn:B; bd E.
    change (mkLsm _ _ _ _ _ _ _ _ _ _) with (wrote s k d u) in E. destruct (N.ltb_spec (st_max_mem St) (usage (wrote s k d u))) as [L|L].
    - unfold try_compact in E. destruct (tb_build _ _ _) as [t| |] eqn:T; bd E. tr (pushed (wrote s k d u) t); [one; now apply p_put_push|]. apply after_push. exact E.
    - injection E as <-. one. now apply p_put.
  Qed.
  Lemma join_work o s s1 : match thr s with TRun m => work St s m TIdle | TPub => Ok (set_thr St s TIdle) | _ => Ok s end = Ok s1 ->
    star o s s1 /\ done (thr s1) /\ joinable s1 = joinable s.
  Proof.
    intros E. destruct (thr s) as [|m| |] eqn:T.
    - injection E as <-. repeat split; [apply rt_refl|now left].
    - unfold work in E. destruct (st_compact St _ _ m) as [[m' fr]| |] eqn:C'; try discriminate; injection E as <-.
      + split; [|split; [now left|reflexivity]]. one. apply (p_work o s m m' fr TIdle); auto.
      + split; [|split; [now left|reflexivity]]. one. apply (p_thr o s TIdle). now left.
    - injection E as <-. repeat split; [|now left]. one. apply p_thr. now left.
    - injection E as <-. repeat split; [apply rt_refl|now right].
  Qed.
  Lemma flush_star o s s' : LsmMapModel.flush St s = Ok s' -> star o s s'.
  Proof.
    intros E. unfold LsmMapModel.flush in E. destruct (match mem s with [] => Ok s | _ => try_compact St s end) as [s1| |] eqn:E1; bd E.
    assert (P1 : star o s s1).
    { destruct (mem s) as [|e l] eqn:M; [injection E1 as <-; apply rt_refl|]. apply try_compact_star; [rewrite M; discriminate|exact E1]. }
    tr s1; [exact P1|]. destruct (joinable s1) eqn:J; [|injection E as <-; apply rt_refl]. unfold join in E. rewrite J in E.
    destruct (match thr s1 with TRun m => _ | TPub => _ | _ => _ end) as [s2| |] eqn:E2; bd E. destruct (join_work o _ _ E2) as (P2 & D2 & J2). tr s2; [exact P2|].
    one. apply p_settle; auto. now rewrite J2.
  Qed.
  Lemma clear_star s s' : clear St s = Ok s' -> star LClear s s'.
  Proof.
    intros E. unfold clear, join in E. destruct (joinable s) eqn:J.
    - destruct (match thr s with TRun m => _ | TPub => _ | _ => _ end) as [s2| |] eqn:E2; bd E. destruct (join_work LClear _ _ E2) as (P2 & D2 & J2). tr s2; [exact P2|].
      cbn [log unjoin usage time thr joinable iters fresh] in E. destruct (remove_dirs _ _) as [es| |] eqn:R; bd E. injection E as <-. one. apply p_clear; auto.
    - bd E. destruct (remove_dirs _ _) as [es| |] eqn:R; bd E. injection E as <-. one. rewrite J. apply (p_clear LClear s es); auto.
  Qed.
  Lemma disk_iter_star o s s' it : disk_iter St s = Ok (s', it) -> star o s s'.
  Proof.
    intros E. unfold disk_iter in E. destruct (try_replace St s) as [s1| |] eqn:R; bd E. destruct (mi_new _ _); bd E. injection E as <- _. now apply replace_none.
  Qed.
  Lemma all_star o s s' l : all St s = Ok (s', l) -> star o s s'.
  Proof.
    intros E. unfold all in E. destruct (LsmMapModel.flush St s) as [s1| |] eqn:F; bd E. destruct (disk_iter St s1) as [[s2 it]| |] eqn:D; bd E.
    destruct (live_collect _ it); bd E. injection E as <- _. tr s1; [now apply flush_star|]. eapply disk_iter_star; eauto.
  Qed.
  Lemma get_star o s k s' v : get St s k = Ok (s', v) -> star o s s'.
  Proof.
    intros W. unfold get in W. destruct (find_version (mem s) k); [injection W as <- _; apply rt_refl|]. destruct (try_replace St s) as [s2| |] eqn:R; bd W.
    destruct (st_get St _ _ k); bd W. injection W as <- _. now apply replace_none.
  Qed.
  Lemma step_prims s o s' out : lsm_step St s o = Ok (s', out) -> star o s s'.
  Proof.
    intros E. destruct o; cbn [lsm_step] in E.
    - destruct (write St s k (Some v)) as [s1| |] eqn:W; bd E. injection E as <- _. eapply write_star; [|exact W]. now split.
    - destruct (write St s k None) as [s1| |] eqn:W; bd E. injection E as <- _. eapply write_star; [|exact W]. now split.
    - destruct (get St s k) as [[s1 v]| |] eqn:W; bd E. injection E as <- _. eapply get_star; eauto.
    - destruct (get St s k) as [[s1 v]| |] eqn:W; bd E. injection E as <- _. eapply get_star; eauto.
    - destruct (all St s) as [[s1 l]| |] eqn:W; bd E. injection E as <- _. eapply all_star; eauto.
    - destruct (all St s) as [[s1 l]| |] eqn:W; bd E. injection E as <- _. eapply all_star; eauto.
    - destruct (len_hint St s) as [[s1 l]| |] eqn:W; bd E. injection E as <- _. unfold len_hint in W.
      destruct (try_replace St s) as [s2| |] eqn:R; bd W. destruct (sum_hints _); bd W. injection W as <- _. now apply replace_none.
    - destruct (clear St s) as [s1| |] eqn:W; bd E. injection E as <- _. now apply clear_star.
    - destruct (min St s) as [[s1 l]| |] eqn:W; bd E. injection E as <- _. unfold min in W. destruct (disk_iter St s) as [[s2 it]| |] eqn:D; bd W.
      destruct (live_next _ it) as [[x y]| |]; bd W. injection W as <- _. eapply disk_iter_star; eauto.
    - destruct (max St s) as [[s1 l]| |] eqn:W; bd E. injection E as <- _. unfold max in W. destruct (disk_iter St s) as [[s2 it]| |] eqn:D; bd W.
      destruct (live_collect _ it); bd W. injection W as <- _. eapply disk_iter_star; eauto.
    - destruct (LsmMapModel.flush St s) as [s1| |] eqn:W; bd E. injection E as <- _. now apply flush_star.
    - destruct (all St s) as [[s1 l]| |] eqn:W; bd E. injection E as <- _. eapply all_star; eauto.
    - destruct (LsmMapModel.flush St s) as [s1| |] eqn:W; bd E. destruct (disk_iter St s1) as [[s2 it]| |] eqn:D; bd E. injection E as <- _.
      tr s1; [now apply flush_star|]. tr s2; [eapply disk_iter_star; eauto|]. one. apply p_iters.
    - destruct (nth_error (iters s) i) as [[it|]|]; try (injection E as <- _; apply rt_refl). destruct (live_next _ it) as [[x y]| |]; bd E.
      injection E as <- _. one. apply p_iters.
    - injection E as <- _. one. apply p_iters.
    - unfold lsm_open in E. destruct (d_meta _) as [m|] eqn:M; [|discriminate]. cbn [expect] in E. bd E. destruct (d_time _) as [t|] eqn:T; [|discriminate]. cbn [expect] in E. bd E.
      destruct (forallb _ _) eqn:F; [|discriminate]. bd E. injection E as <- _. one. now apply (p_open LReopen s m t).
    - destruct (thr s) as [|m| |] eqn:T; try (injection E as <- _; apply rt_refl). unfold work in E.
      destruct (st_compact St _ _ m) as [[m' fr]| |] eqn:C'; bd E; injection E as <- _; one.
      + apply (p_work BgPublish s m m' fr TPub); auto.
      + apply (p_thr BgPublish s TIdle). now left.
    - destruct (thr s); injection E as <- _; try apply rt_refl. one. apply p_thr. now left.
    - destruct (thr s); injection E as <- _; try apply rt_refl. one. apply p_thr. now left.
    - destruct (thr s); injection E as <- _; try apply rt_refl. one. apply p_thr. now right.
  Qed.

  (** Properties kept by all changes that a call [o] with [P o] makes *)
  Section Kept.
    Context (P : lsm_op K V -> Prop) (Q : lsm -> Prop).
    Context (kept : forall o s s', P o -> Q s -> prim o s s' -> Q s').
    Lemma star_kept o s s' : P o -> star o s s' -> Q s -> Q s'.
    Proof. intros Po. induction 1; eauto. Qed.
    Lemma step_kept o s s' out : P o -> Q s -> lsm_step St s o = Ok (s', out) -> Q s'.
    Proof. intros Po Qs E. eapply star_kept; eauto. eapply step_prims; eauto. Qed.
    Lemma run_kept ops : forall s s' outs, Forall P ops -> Q s -> run (lsm_step St) s ops = Ok (s', outs) -> Q s'.
    Proof.
      induction ops as [|o ops IH]; intros s s' outs F G E; cbn [run] in E; [now injection E as <- _|]. inversion F; subst.
      destruct (lsm_step St s o) as [[s1 r]| |] eqn:W; bd E. destruct (run (lsm_step St) s1 ops) as [[s2 rs]| |] eqn:R; bd E. injection E as <- _.
      eapply IH; [eassumption| |exact R]. eapply step_kept; eauto.
    Qed.
  End Kept.
End Prim.
