(** What the laws of the size-tiered strategy mean for a sequence of calls. *)
From Verif Require Export SizeTieredProofs LsmClaims.

Section SizeTieredClaims.
  Context {K V : Type} `{CmpLaws K} {Z : Sizes K V} (cfg : sconfig).
  Notation St := (size_tiered cfg).
  Context (Ksize : forall k k' : K, cmp k k' = Eq -> ksize k = ksize k').
  Notation live := (fun e : K * sval V => has_data e = true).

  Lemma removal_covered (o : lsm_op K V) : no_removal o -> covered live o.
  Proof. destruct o; cbn; tauto. Qed.
  Lemma no_removal_unhurt (ops : list (lsm_op K V)) : Forall no_removal ops -> well_used sp_new ops -> unhurt cfg ops.
  Proof.
    intros F W. assert (L : laws (watched cfg) zinv zcomp live False (fun _ => True) shrink eq).
    { apply watched_laws. intros ts Q R. rewrite (no_risk cfg ts Q) in R. discriminate. }
    destruct (outputs_ok (watched cfg) zinv zcomp live False (fun _ => True) shrink L Ksize ops Logic.I W) as [[[] _]|(outs & E & _)].
    - eapply Forall_impl; [|exact F]. apply removal_covered.
    - unfold unhurt. now rewrite E.
  Qed.
  Lemma tiered_outputs (ops : list (lsm_op K V)) : well_used sp_new ops -> unhurt cfg ops -> exists outs, outputs (lsm_step St) (lsm_new St) ops = Ok outs /\ agree sp_new ops outs.
  Proof.
    intros W U. assert (L : laws (watched cfg) zinv zcomp (fun _ : K * sval V => True) True (fun _ => True) shrink eq) by (apply watched_laws; auto).
    destruct (outputs_ok (watched cfg) zinv zcomp _ True (fun _ => True) shrink L Ksize ops Logic.I W (covered_all ops)) as [[_ E]|(outs & E & A)]; [now destruct (U E)|].
    exists outs. split; [|exact A]. unfold outputs, rmap in *. revert E. apply ok_bind; [|auto]. intros r. apply run_same.
  Qed.
  Lemma tiered_survives n : survives St no_removal intact n sp_new (lsm_new St).
  Proof.
    destruct (new_inv St zinv zcomp live False (fun _ => True) shrink eq (size_tiered_laws cfg)) as [I0 J0].
    apply (total_survives St zinv zcomp live (fun _ => True) shrink (size_tiered_laws cfg) Ksize); auto using removal_covered.
  Qed.
  Lemma tiered_min_max (ops : list (lsm_op K V)) : well_used sp_new ops -> sp_removed (sp_after ops) = false -> unhurt cfg (ops ++ [LMin]) -> unhurt cfg (ops ++ [LMax]) ->
    (exists outs k, outputs (lsm_step St) (lsm_new St) (ops ++ [LMin]) = Ok (outs ++ [OKey k]) /\
       same_opt (fun a b => cmp a b = Eq) k (option_map fst (hd_error (sp_map (sp_after ops))))) /\
    (exists outs k, outputs (lsm_step St) (lsm_new St) (ops ++ [LMax]) = Ok (outs ++ [OKey k]) /\
       same_opt (fun a b => cmp a b = Eq) k (option_map fst (last_error (sp_map (sp_after ops))))).
  Proof.
    intros W R U1 U2. split.
    - destruct (tiered_outputs _ (used_last ops LMin W eq_refl) U1) as (os & E & A). destruct (last_agrees _ _ _ A) as (outs & out & -> & So); [cbn; now rewrite R|].
      destruct out; try now destruct So. exists outs, k. split; [exact E|exact So].
    - destruct (tiered_outputs _ (used_last ops LMax W eq_refl) U2) as (os & E & A). destruct (last_agrees _ _ _ A) as (outs & out & -> & So); [cbn; now rewrite R|].
      destruct out; try now destruct So. exists outs, k. split; [exact E|exact So].
  Qed.
  Lemma tiered_min_max_all (ops : list (lsm_op K V)) : well_used sp_new ops -> unhurt cfg (ops ++ [LMin]) -> unhurt cfg (ops ++ [LMax]) ->
    (exists outs k m, outputs (lsm_step St) (lsm_new St) (ops ++ [LMin]) = Ok (outs ++ [OKey k]) /\
       In m (sp_recover (sp_after ops)) /\ smallest (sp_map (sp_after ops) ++ m) k) /\
    (exists outs k m, outputs (lsm_step St) (lsm_new St) (ops ++ [LMax]) = Ok (outs ++ [OKey k]) /\
       In m (sp_recover (sp_after ops)) /\ largest (sp_map (sp_after ops) ++ m) k).
  Proof.
    intros W U1 U2. split.
    - destruct (tiered_outputs _ (used_last ops LMin W eq_refl) U1) as (os & E & A). destruct (extreme_agrees _ _ _ A) as (outs & out & -> & k & m & -> & X). eauto.
    - destruct (tiered_outputs _ (used_last ops LMax W eq_refl) U2) as (os & E & A). destruct (extreme_agrees _ _ _ A) as (outs & out & -> & k & m & -> & X). eauto.
  Qed.
  Lemma tiered_hint (ops : list (lsm_op K V)) : well_used sp_new ops -> unhurt cfg (ops ++ [LLenHint]) ->
    exists outs n, outputs (lsm_step St) (lsm_new St) (ops ++ [LLenHint]) = Ok (outs ++ [OHint n]) /\ length (sp_map (sp_after ops)) <= n.
  Proof.
    intros W U. destruct (tiered_outputs _ (used_last ops LLenHint W eq_refl) U) as (os & E & A). destruct (last_agrees _ _ _ A) as (outs & out & -> & So); [reflexivity|].
    destruct out; try now destruct So. exists outs, n. split; [exact E|exact So].
  Qed.
  Lemma tiered_reopen (ops ops' : list (lsm_op K V)) : well_used sp_new ops -> sp_written (sp_after ops) = true ->
    well_used (reopened (sp_map (sp_after ops))) ops' -> unhurt cfg (ops ++ LFlush :: LReopen :: ops') ->
    exists outs outs', outputs (lsm_step St) (lsm_new St) (ops ++ LFlush :: LReopen :: ops') = Ok (outs ++ OUnit :: OUnit :: outs') /\ length outs = length ops /\
      agree (reopened (sp_map (sp_after ops))) ops' outs'.
  Proof.
    intros W Wr W' U. destruct (tiered_outputs _ (reopen_used _ _ W Wr W') U) as (os & E & A). destruct (reopen_agrees _ _ _ A Wr) as (o & o' & -> & X). eauto.
  Qed.
  Lemma tiered_iter (ops ops' : list (lsm_op K V)) : well_used sp_new (ops ++ LIterOpen :: ops') -> Forall (keeps (length (sp_iters (sp_after ops)))) ops' ->
    unhurt cfg (ops ++ LIterOpen :: ops') ->
    exists outs outs', outputs (lsm_step St) (lsm_new St) (ops ++ LIterOpen :: ops') = Ok (outs ++ OUnit :: outs') /\ length outs = length ops /\
      forall j e, nth_error (nexts (length (sp_iters (sp_after ops))) ops' outs') j = Some e -> same_opt same_pair e (nth_error (sp_map (sp_after ops)) j).
  Proof.
    intros W Ke U. destruct (tiered_outputs _ W U) as (os & E & A). destruct (iter_agrees _ _ _ A Ke) as (o & o' & -> & X). eauto.
  Qed.
End SizeTieredClaims.
