(** The entries in memory, and the size that is kept of them *)
From Verif Require Import ListLemmas OrdLemmas.
From Verif Require Export LsmSpaceSpec LsmPrimProofs LsmMapLemmas LsmTableProofs.

Section Mem.
  Context {K V : Type} `{CmpLaws K} {Z : Sizes K V}.
  Context (St : strategy K V).
  Notation lsm := (lsm K V (st_meta St)).
  Implicit Types s : lsm.

  Lemma held_app (a b : list (K * sval V)) : held_bytes (a ++ b) = (held_bytes a + held_bytes b)%N.
  Proof. unfold held_bytes. induction a as [|e a IH]; cbn; [reflexivity|]. rewrite IH. lia. Qed.
  Lemma bt_put (k : K) (v : sval V) l : sorted l -> bt_insert k v l = mem_put k v l.
  Proof.
    unfold mem_put. induction l as [|[k' v'] l IH]; intros S; cbn [bt_insert]; [reflexivity|]. apply sorted_cons in S. destruct S as [F S]. cbn [fst] in F.
    rewrite below_cons, at_cons, above_cons. cbn [fst]. destruct (cmp k k') eqn:Q.
    - replace (cmp k' k) with Eq by (symmetry; now apply cmp_eq_sym). cbn [is_lt is_eq is_gt fst].
      assert (G : all_gt l k). { eapply Forall_impl; [|exact F]. intros p Y. cbn in *. korder. }
      now rewrite (below_all_gt _ _ G), (above_all_gt _ _ G).
    - assert (Q' : cmp k' k = Gt) by korder. rewrite Q'. cbn [is_lt is_eq is_gt].
      assert (G : all_gt l k). { eapply Forall_impl; [|exact F]. intros p Y. cbn in *. korder. }
      now rewrite (below_all_gt _ _ G), (above_all_gt _ _ G), (at_all_gt _ _ G).
    - assert (Q' : cmp k' k = Lt) by korder. rewrite Q'. cbn [is_lt is_eq is_gt app]. now rewrite IH.
  Qed.
  Lemma put_bytes s k v u : sorted (mem s) -> before St s k = Ok u ->
    (held_bytes (bt_insert k v (mem s)) + usage s = u + (ksize k + vsize v) + held_bytes (mem s))%N.
  Proof.
    intros S E. unfold before in E. destruct (bt_insert_cases k v (mem s) S) as [(l1 & k' & v' & l2 & Em & Qk & E')|(l1 & l2 & Em & E' & N)]; rewrite E'.
    - rewrite (find_version_in (mem s) (k', v') k S) in E; [|rewrite Em; apply in_app_iff; right; now left|now apply cmp_eq_sym]. cbn zeta in E. cbn [snd] in E.
      destruct (N.leb_spec (ksize k + vsize v') (usage s)) as [L|L]; [|discriminate]. injection E as <-. rewrite Em, !held_app. cbn [held_bytes fold_right fst snd]. fold (held_bytes l2). lia.
    - rewrite (proj2 (find_version_none (mem s) k) N) in E. injection E as <-. rewrite Em, !held_app. cbn [held_bytes fold_right fst snd]. fold (held_bytes l2). lia.
  Qed.

  Record minv (s : lsm) : Prop := mkM { m_sorted : sorted (mem s); m_use : (held_bytes (mem s) <= usage s)%N; m_max : (usage s <= st_max_mem St)%N }.
  Lemma replace_frame s s' : try_replace St s = Ok s' -> mem s' = mem s /\ usage s' = usage s.
  Proof. unfold try_replace. destruct (nxt s); [|now intros [= <-]]. destruct (remove_dirs _ _); cbn [bind]; try discriminate. now intros [= <-]. Qed.
  Lemma sorted_nil : sorted (@nil (K * sval V)).
  Proof. constructor. Qed.
  Lemma minv_prim o s s' : True -> minv s -> prim St o s s' -> minv s'.
  Proof.
    intros _ M P. destruct M as [M1 M2 M3]. destruct P as [s k d u W B Le|s k d u t W B Lt T|s t Ne T|s s' R|s s' J D R|s|s m m' fr a|s t|s es|s l|s m t];
      try (now constructor); try (constructor; cbn [mem usage pushed opened cleared held_bytes fold_right]; [apply sorted_nil|lia|lia]).
    - constructor; [now apply bt_insert_sorted| |exact Le]. cbn [wrote mem usage]. pose proof (put_bytes _ _ (mkSval d (time s)) _ M1 B). lia.
    - destruct (replace_frame _ _ R) as [E1 E2]. constructor; rewrite ?E1, ?E2; auto.
    - destruct (replace_frame _ _ R) as [E1 E2]. constructor; rewrite ?E1, ?E2; auto.
  Qed.
  Lemma minv_new : minv (lsm_new St).
  Proof. constructor; cbn; [apply sorted_nil|lia|lia]. Qed.
  Lemma mem_bounded ops s outs : run (lsm_step St) (lsm_new St) ops = Ok (s, outs) -> (held_bytes (mem s) <= usage s <= st_max_mem St)%N.
  Proof.
    intros E. assert (M : minv s) by (eapply (run_kept St (fun _ => True) minv minv_prim); [now apply Forall_forall|exact minv_new|exact E]). split; apply M.
  Qed.

  (** Without [clear] the size is exact. *)
  Record xinv (s : lsm) : Prop := mkX { x_sorted : sorted (mem s); x_use : held_bytes (mem s) = usage s }.
  Lemma xinv_prim o s s' : no_clear o -> xinv s -> prim St o s s' -> xinv s'.
  Proof.
    intros Nc M P. destruct M as [M1 M2]. destruct P as [s k d u W B Le|s k d u t W B Lt T|s t Ne T|s s' R|s s' J D R|s|s m m' fr a|s t|s es O|s l|s m t];
      try (now constructor); try (constructor; cbn [mem usage pushed opened cleared held_bytes fold_right]; [apply sorted_nil|lia]).
    - constructor; [now apply bt_insert_sorted|]. cbn [wrote mem usage]. pose proof (put_bytes _ _ (mkSval d (time s)) _ M1 B). lia.
    - destruct (replace_frame _ _ R) as [E1 E2]. constructor; rewrite ?E1, ?E2; auto.
    - destruct (replace_frame _ _ R) as [E1 E2]. constructor; rewrite ?E1, ?E2; auto.
    - subst o. destruct Nc.
  Qed.
  Lemma mem_exact ops s outs o k d s' out : Forall no_clear ops -> run (lsm_step St) (lsm_new St) ops = Ok (s, outs) ->
    written_by o = Some (k, d) -> lsm_step St s o = Ok (s', out) ->
    mem s' = let m := mem_put k (mkSval d (time s)) (mem s) in if (st_max_mem St <? held_bytes m)%N then [] else m.
  Proof.
    intros F E W Eo. assert (X : xinv s). { eapply (run_kept St no_clear xinv xinv_prim); [exact F| |exact E]. constructor; [apply sorted_nil|reflexivity]. }
    assert (Y : write St s k d = Ok s').
    { destruct o; try discriminate; cbn [written_by] in W; injection W as <- <-; cbn [lsm_step] in Eo; (destruct (write _ _ _ _) as [s1| |]; try discriminate; cbn [bind] in Eo; injection Eo as <- _; reflexivity). }
    cbv zeta. unfold write in Y. fold (before St s k) in Y. destruct (before St s k) as [u| |] eqn:B; try discriminate. cbn [bind] in Y.
    change (mkLsm _ _ _ _ _ _ _ _ _ _) with (wrote St s k d u) in Y. pose proof (put_bytes _ _ (mkSval d (time s)) _ (x_sorted _ X) B) as Pb. rewrite (x_use _ X) in Pb.
    rewrite <- bt_put by apply X. cbn [wrote usage] in Y. replace (held_bytes _) with (u + (ksize k + vsize (mkSval d (time s))))%N by lia.
    destruct (st_max_mem St <? _)%N; [|injection Y as <-; reflexivity]. unfold try_compact in Y. destruct (tb_build _ _ _) as [t| |]; try discriminate. cbn [bind] in Y.
    destruct (busy St _ || locked St _); [injection Y as <-; reflexivity|]. destruct (try_replace St _) as [s1| |] eqn:R; try discriminate. cbn [bind] in Y. injection Y as <-.
    apply replace_frame in R. destruct R as [R _]. destruct (st_due _ _); exact R.
  Qed.
End Mem.
