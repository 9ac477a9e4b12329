(** What the refinement of the map means for a sequence of calls. *)
From Verif Require Export LsmMapProofs LeveledLaws LeveledSpec.
From Verif Require Import OrdLemmas.

Section SpecLemmas.
  Context {K V : Type} `{CmpLaws K} {Z : Sizes K V}.
  Notation op := (lsm_op K V).
  Notation out := (lsm_out K V).

  Lemma agree_app (ops ops' : list op) : forall a outs, agree a (ops ++ ops') outs ->
    exists o o', outs = o ++ o' /\ length o = length ops /\ agree a ops o /\ agree (fst (spec_run lsm_spec_step a ops)) ops' o'.
  Proof.
    induction ops as [|x ops IH]; intros a outs A; cbn [app] in A.
    - exists [], outs. cbn. auto.
    - destruct outs as [|r outs]; [destruct A|]. destruct A as [R A]. destruct (IH _ _ A) as (o & o' & -> & Lo & A1 & A2). exists (r :: o), o'.
      cbn [app length agree spec_run]. destruct (lsm_spec_step a x) as [a1 r1]. cbn [fst snd] in *. destruct (spec_run lsm_spec_step a1 ops) as [a2 rs]. cbn [fst] in *. auto.
  Qed.
  Lemma well_used_app (ops ops' : list op) : forall a, well_used a (ops ++ ops') <-> well_used a ops /\ well_used (fst (spec_run lsm_spec_step a ops)) ops'.
  Proof.
    induction ops as [|x ops IH]; intros a; cbn [app well_used spec_run].
    - tauto.
    - rewrite IH. destruct (lsm_spec_step a x) as [a1 r1]. cbn [fst]. destruct (spec_run lsm_spec_step a1 ops) as [a2 rs]. cbn [fst]. tauto.
  Qed.
  Lemma nexts_ok i (ops : list op) : forall a outs l, agree a ops outs -> nth_error (sp_iters a) i = Some (IOpen l) -> Forall (keeps i) ops ->
    forall j e, nth_error (nexts i ops outs) j = Some e -> same_opt same_pair e (nth_error l j).
  Proof.
    induction ops as [|x ops IH]; intros a outs l A E F j e J; cbn [nexts] in J; [destruct outs; destruct j; discriminate|].
    destruct outs as [|r outs]; [destruct A|]. destruct A as [R A]. apply Forall_cons_iff in F. destruct F as [Kx F].
    assert (Go : forall l', nth_error (sp_iters (fst (lsm_spec_step a x))) i = Some (IOpen l') -> forall j e, nth_error (nexts i ops outs) j = Some e -> same_opt same_pair e (nth_error l' j)).
    { intros l' E' j' e' J'. apply (IH _ outs l' A E' F j' e' J'). }
    assert (Set_ne : forall (ls : list (sp_iter K V)) q y, i <> q -> nth_error (list_set ls q y) i = nth_error ls i).
    { clear. intros ls. revert i. induction ls as [|z ls IH]; intros i q y Ne; [reflexivity|]. destruct q, i; cbn [list_set nth_error]; auto; congruence. }
    assert (Set_eq : forall (ls : list (sp_iter K V)) y, nth_error ls i <> None -> nth_error (list_set ls i y) i = Some y).
    { clear. intros ls. revert i. induction ls as [|z ls IH]; intros [|i] y Ne; cbn in *; try congruence. now apply IH. }
    destruct x; cbn [lsm_spec_step fst snd promised keeps sp_iters written flushed set_sp_iters] in *; try (now apply (Go l E j e)); try (now destruct Kx).
    - apply (Go l); [|destruct r; exact J]. rewrite nth_error_app1; [exact E|]. apply nth_error_Some. congruence.
    - rename i0 into q. destruct (i =? q) eqn:Q.
      + apply Nat.eqb_eq in Q. subst q. apply (fun x => proj1 x eq_refl) in R. cbn [lsm_spec_step] in R. rewrite E in R, Go. cbn [fst snd set_sp_iters sp_iters] in *. rewrite Set_eq in Go by congruence.
        specialize (Go _ eq_refl). destruct r; cbn [same_out] in R; try destruct R. destruct j as [|j]; cbn [nth_error] in J.
        * injection J as <-. destruct l; exact R.
        * specialize (Go _ _ J). destruct l as [|p l]; [now destruct j|exact Go].
      + apply Nat.eqb_neq in Q. apply (Go l); [|destruct r; exact J].
        destruct (nth_error (sp_iters a) q) as [[m| |]|]; cbn [fst set_sp_iters sp_iters]; rewrite ?Set_ne by exact Q; exact E.
    - apply (Go l); [|destruct r; exact J]. rewrite Set_ne by exact Kx. exact E.
  Qed.
  (** What agreement says about the last call, about an iterator, and about a reopening *)
  Lemma last_agrees (ops : list op) o os : agree sp_new (ops ++ [o]) os -> promised (sp_after ops) o = true ->
    exists outs out, os = outs ++ [out] /\ same_out out (snd (lsm_spec_step (sp_after ops) o)).
  Proof.
    intros A Pr. destruct (agree_app _ _ _ _ A) as (o1 & o2 & -> & _ & _ & A2). destruct o2 as [|x [|y o2]]; [destruct A2| |destruct A2 as [_ []]].
    exists o1, x. split; [reflexivity|]. now apply (proj1 (proj1 A2)).
  Qed.
  Lemma extreme_agrees (ops : list op) o os : agree sp_new (ops ++ [o]) os -> exists outs out, os = outs ++ [out] /\ extreme (sp_after ops) o out.
  Proof.
    intros A. destruct (agree_app _ _ _ _ A) as (o1 & o2 & -> & _ & _ & A2). destruct o2 as [|x [|y o2]]; [destruct A2| |destruct A2 as [_ []]].
    exists o1, x. split; [reflexivity|]. exact (proj2 (proj1 A2)).
  Qed.
  Lemma iter_agrees (ops ops' : list op) os : agree sp_new (ops ++ LIterOpen :: ops') os -> Forall (keeps (length (sp_iters (sp_after ops)))) ops' ->
    exists outs outs', os = outs ++ OUnit :: outs' /\ length outs = length ops /\
      forall j e, nth_error (nexts (length (sp_iters (sp_after ops))) ops' outs') j = Some e -> same_opt same_pair e (nth_error (sp_map (sp_after ops)) j).
  Proof.
    intros A Ke. destruct (agree_app _ _ _ _ A) as (o1 & o2 & -> & Lo & _ & A2). destruct o2 as [|x o2]; [destruct A2|]. destruct A2 as [R A2]. apply (fun x => proj1 x eq_refl) in R.
    cbn [lsm_spec_step snd same_out] in R. destruct x; try destruct R. exists o1, o2. split; [reflexivity|]. split; [exact Lo|].
    change (fst (spec_run lsm_spec_step sp_new ops)) with (sp_after ops) in A2. cbn [lsm_spec_step fst] in A2.
    apply (nexts_ok _ _ _ _ _ A2); [|exact Ke]. unfold set_sp_iters. cbn [sp_iters flushed]. rewrite nth_error_app2, Nat.sub_diag by lia. reflexivity.
  Qed.
  Lemma after_reopen (ops : list op) : sp_written (sp_after ops) = true -> set_sp_iters (flushed (sp_after ops)) [] = reopened (sp_map (sp_after ops)).
  Proof. intros Wr. unfold set_sp_iters, flushed, reopened. cbn. now rewrite Wr. Qed.
  Lemma reopen_used (ops ops' : list op) : well_used sp_new ops -> sp_written (sp_after ops) = true -> well_used (reopened (sp_map (sp_after ops))) ops' ->
    well_used sp_new (ops ++ LFlush :: LReopen :: ops').
  Proof.
    intros Wu Wr Wu'. apply well_used_app. split; [exact Wu|]. change (fst (spec_run lsm_spec_step sp_new ops)) with (sp_after ops).
    cbn [well_used allowed lsm_spec_step fst flushed sp_clean sp_written]. split; [reflexivity|]. split; [exact Wr|]. fold (flushed (sp_after ops)). now rewrite after_reopen.
  Qed.
  Lemma reopen_agrees (ops ops' : list op) os : agree sp_new (ops ++ LFlush :: LReopen :: ops') os -> sp_written (sp_after ops) = true ->
    exists outs outs', os = outs ++ OUnit :: OUnit :: outs' /\ length outs = length ops /\ agree (reopened (sp_map (sp_after ops))) ops' outs'.
  Proof.
    intros A Wr. destruct (agree_app _ _ _ _ A) as (o1 & o2 & -> & Lo & _ & A2). destruct o2 as [|x [|y o2]]; [destruct A2|destruct A2 as [_ []]|].
    destruct A2 as (R & R' & A2). apply (fun x => proj1 x eq_refl) in R. apply (fun x => proj1 x eq_refl) in R'. cbn [lsm_spec_step snd same_out] in R, R'. destruct x; try destruct R. destruct y; try destruct R'.
    exists o1, o2. split; [reflexivity|]. split; [exact Lo|]. change (fst (spec_run lsm_spec_step sp_new ops)) with (sp_after ops) in A2. cbn [lsm_spec_step fst] in A2.
    fold (flushed (sp_after ops)) in A2. now rewrite after_reopen in A2.
  Qed.
  Lemma used_last (ops : list op) o : well_used sp_new ops -> allowed (sp_after ops) o = true -> well_used sp_new (ops ++ [o]).
  Proof. intros W A. apply well_used_app. split; [exact W|]. split; [exact A|exact I]. Qed.
End SpecLemmas.

Section Loose.
  Context {K V : Type} `{CmpLaws K} {Z : Sizes K V} (St : strategy K V) (Inv : N -> st_meta St -> Prop) (Comp : st_meta St -> st_meta St -> Prop)
          (qd : K * sval V -> Prop) (lim : N -> Prop) (less : list (K * sval V) -> list (K * sval V) -> Prop) (slip : sp K V -> sp K V -> Prop).
  Context (L : laws St Inv Comp qd False lim less slip) (Ksize : forall k k' : K, cmp k k' = Eq -> ksize k = ksize k').
  Lemma loose_run ops : lim (N.of_nat (length ops)) -> well_used sp_new ops -> Forall (covered qd) ops ->
    exists s outs a, run (lsm_step St) (lsm_new St) ops = Ok (s, outs) /\ loosely slip sp_new ops outs a /\
      inv St Inv Comp qd a s /\ jn St s /\ (time s <= N.of_nat (length ops))%N.
  Proof.
    intros Li Wu Cv. destruct (new_inv St Inv Comp _ False lim less slip L) as [I0 J0].
    destruct (run_ok St Inv Comp _ False lim less slip L Ksize ops sp_new (lsm_new St) I0 J0 Li Wu Cv) as [[[] _]|([s outs] & E & a & A & I & J & Ti)]; eauto 10.
  Qed.
  Lemma loose_outputs ops : lim (N.of_nat (length ops)) -> well_used sp_new ops -> Forall (covered qd) ops ->
    exists outs a, outputs (lsm_step St) (lsm_new St) ops = Ok outs /\ loosely slip sp_new ops outs a.
  Proof.
    intros Li Wu Cv. destruct (loose_run ops Li Wu Cv) as (s & outs & a & E & A & _). exists outs, a. unfold outputs. rewrite E. auto.
  Qed.
  Lemma loose_survives (may : lsm_op K V -> Prop) n : (forall o, may o -> covered qd o) -> forall a s, inv St Inv Comp qd a s -> jn St s -> lim (time s + N.of_nat n) ->
    survives_loosely St may intact slip n a s.
  Proof.
    intros Cm. induction n as [|n IH]; intros a s I J Li; [exact Logic.I|]. cbn [survives_loosely]. intros o Mo Al.
    assert (Lt : lim (time s)) by (apply (lw_lim _ _ _ _ _ _ _ _ L _ _ Li); lia).  pose proof (Cm o Mo) as Co.
    destruct (step_ok St Inv Comp _ False lim less slip L Ksize a s o I J Lt Al Co) as [[[] _]|([s' out] & E & a1 & a2 & Sl1 & So & Sl2 & I' & J' & Ti & M)].
    exists s', out, a1, a2. split; [exact E|]. split; [exact Sl1|]. split; [exact So|]. split; [exact Sl2|]. split.
    - apply IH; auto. apply (lw_lim _ _ _ _ _ _ _ _ L _ _ Li). lia.
    - intros p q El Len [Se Dt]. destruct (crash_ok St Inv Comp qd s _ s' M p q El Len Se Dt) as (s2 & m & Eo & Jm & I2 & J2 & T2).
      exists s2, m. split; [exact Eo|]. split; [exact Jm|]. apply IH; auto. apply (lw_lim _ _ _ _ _ _ _ _ L _ _ Li). lia.
  Qed.
End Loose.

Section Total.
  Context {K V : Type} `{CmpLaws K} {Z : Sizes K V} (St : strategy K V) (Inv : N -> st_meta St -> Prop) (Comp : st_meta St -> st_meta St -> Prop)
          (qd : K * sval V -> Prop) (T : Prop) (lim : N -> Prop) (less : list (K * sval V) -> list (K * sval V) -> Prop).
  Context (L : laws St Inv Comp qd T lim less eq) (Ksize : forall k k' : K, cmp k k' = Eq -> ksize k = ksize k').

  Lemma outputs_ok ops : lim (N.of_nat (length ops)) -> well_used sp_new ops -> Forall (covered qd) ops ->
    fine T (outputs (lsm_step St) (lsm_new St) ops) (agree sp_new ops).
  Proof.
    intros Li Wu Cv. destruct (new_inv St Inv Comp qd T lim less eq L) as [I0 J0]. unfold outputs, rmap.
    eapply fine_bind; [apply (run_ok St Inv Comp qd T lim less eq L Ksize ops sp_new (lsm_new St)); auto|].
    intros [s outs] (a & A & _). apply fine_ok. exact (proj1 (strict_agree _ _ _ _ A)).
  Qed.
End Total.
Section Total.
  Context {K V : Type} `{CmpLaws K} {Z : Sizes K V} (St : strategy K V) (Inv : N -> st_meta St -> Prop) (Comp : st_meta St -> st_meta St -> Prop)
          (qd : K * sval V -> Prop) (lim : N -> Prop) (less : list (K * sval V) -> list (K * sval V) -> Prop).
  Context (L : laws St Inv Comp qd False lim less eq) (Ksize : forall k k' : K, cmp k k' = Eq -> ksize k = ksize k').
  Lemma total_run ops : lim (N.of_nat (length ops)) -> well_used sp_new ops -> Forall (covered qd) ops ->
    exists s outs, run (lsm_step St) (lsm_new St) ops = Ok (s, outs) /\ agree sp_new ops outs /\
      inv St Inv Comp qd (sp_after ops) s /\ jn St s /\ (time s <= N.of_nat (length ops))%N.
  Proof.
    intros Li Wu Cv. destruct (loose_run St Inv Comp qd lim less eq L Ksize ops Li Wu Cv) as (s & outs & a & E & A & I & J & Ti).
    destruct (strict_agree _ _ _ _ A) as [A' ->]. eauto 10.
  Qed.
  Lemma total_outputs ops : lim (N.of_nat (length ops)) -> well_used sp_new ops -> Forall (covered qd) ops ->
    exists outs, outputs (lsm_step St) (lsm_new St) ops = Ok outs /\ agree sp_new ops outs.
  Proof.
    intros Li Wu Cv. destruct (total_run ops Li Wu Cv) as (s & outs & E & A & _). exists outs. unfold outputs. rewrite E. auto.
  Qed.
  Lemma strict_survives (may : lsm_op K V -> Prop) n : forall a s, survives_loosely St may intact eq n a s -> survives St may intact n a s.
  Proof.
    induction n as [|n IH]; intros a s X; [exact Logic.I|]. cbn [survives survives_loosely] in *. intros o Mo Al.
    destruct (X o Mo Al) as (s' & out & a1 & a2 & E & <- & So & <- & S1 & S2). exists s', out. split; [exact E|]. split; [exact So|]. split; [auto|].
    intros p q El Len Pp. destruct (S2 p q El Len Pp) as (s2 & m & Eo & Jm & S3). eauto 10.
  Qed.
  Lemma total_survives (may : lsm_op K V -> Prop) n : (forall o, may o -> covered qd o) -> forall a s, inv St Inv Comp qd a s -> jn St s -> lim (time s + N.of_nat n) -> survives St may intact n a s.
  Proof. intros Cm a s I J Li. apply strict_survives. now apply (loose_survives St Inv Comp qd lim less eq L Ksize). Qed.
End Total.

Section Leveled.
  Context {K V : Type} `{CmpLaws K} {Z : Sizes K V} (cfg : lconfig).
  Notation St := (leveled cfg).
  Context (Ksize : forall k k' : K, cmp k k' = Eq -> ksize k = ksize k').

  Lemma covered_one (o : lsm_op K V) : covered (fun _ => True) o.
  Proof. destruct o; cbn; auto. Qed.
  Lemma covered_all (ops : list (lsm_op K V)) : Forall (covered (fun _ => True)) ops.
  Proof. apply Forall_forall. intros o _. apply covered_one. Qed.
  Lemma limit_eq i : max_len cfg i = limit cfg i.
  Proof. unfold max_len, limit, wrap. rewrite N.mul_mod_idemp_r; [reflexivity|discriminate]. Qed.
  Lemma limits_lim n : limits_positive cfg n -> llim cfg n.
  Proof.
    intros L i X. rewrite limit_eq. apply L. intros j Hj. rewrite <- limit_eq. now apply X.
  Qed.

  Lemma leveled_outputs ops : limits_positive cfg (N.of_nat (length ops)) -> well_used sp_new ops ->
    exists outs, outputs (lsm_step St) (lsm_new St) ops = Ok outs /\ agree sp_new ops outs.
  Proof.
    intros L W. apply (total_outputs St (vinv cfg) lcomp (fun _ => True) (llim cfg) shrink (leveled_laws cfg) Ksize); [now apply limits_lim|exact W|apply covered_all].
  Qed.
  Lemma leveled_survives n : limits_positive cfg (N.of_nat n) -> survives St any_call intact n sp_new (lsm_new St).
  Proof.
    intros L. destruct (new_inv St (vinv cfg) lcomp (fun _ => True) False (llim cfg) shrink eq (leveled_laws cfg)) as [I0 J0].
    apply (total_survives St (vinv cfg) lcomp (fun _ => True) (llim cfg) shrink (leveled_laws cfg) Ksize); auto; [intros; apply covered_one|]. now apply limits_lim.
  Qed.
  Lemma leveled_last ops o : limits_positive cfg (N.of_nat (S (length ops))) -> well_used sp_new (ops ++ [o]) -> promised (sp_after ops) o = true ->
    exists outs out, outputs (lsm_step St) (lsm_new St) (ops ++ [o]) = Ok (outs ++ [out]) /\ same_out out (snd (lsm_spec_step (sp_after ops) o)).
  Proof.
    intros L W Pr. destruct (leveled_outputs (ops ++ [o])) as (os & E & A); [rewrite app_length, Nat.add_comm; exact L|exact W|].
    destruct (last_agrees _ _ _ A Pr) as (outs & out & -> & So). eauto.
  Qed.
  Lemma leveled_min_max ops : limits_positive cfg (N.of_nat (S (length ops))) -> well_used sp_new ops -> sp_removed (sp_after ops) = false ->
    (exists outs k, outputs (lsm_step St) (lsm_new St) (ops ++ [LMin]) = Ok (outs ++ [OKey k]) /\
       same_opt (fun a b => cmp a b = Eq) k (option_map fst (hd_error (sp_map (sp_after ops))))) /\
    (exists outs k, outputs (lsm_step St) (lsm_new St) (ops ++ [LMax]) = Ok (outs ++ [OKey k]) /\
       same_opt (fun a b => cmp a b = Eq) k (option_map fst (last_error (sp_map (sp_after ops))))).
  Proof.
    intros L W R. split.
    - destruct (leveled_last ops LMin L) as (outs & out & E & So); [now apply used_last|cbn; now rewrite R|]. destruct out; try now destruct So. exists outs, k. split; [exact E|exact So].
    - destruct (leveled_last ops LMax L) as (outs & out & E & So); [now apply used_last|cbn; now rewrite R|]. destruct out; try now destruct So. exists outs, k. split; [exact E|exact So].
  Qed.
  Lemma leveled_min_max_all ops : limits_positive cfg (N.of_nat (S (length ops))) -> well_used sp_new ops ->
    (exists outs k m, outputs (lsm_step St) (lsm_new St) (ops ++ [LMin]) = Ok (outs ++ [OKey k]) /\
       In m (sp_recover (sp_after ops)) /\ smallest (sp_map (sp_after ops) ++ m) k) /\
    (exists outs k m, outputs (lsm_step St) (lsm_new St) (ops ++ [LMax]) = Ok (outs ++ [OKey k]) /\
       In m (sp_recover (sp_after ops)) /\ largest (sp_map (sp_after ops) ++ m) k).
  Proof.
    intros L W. split.
    - destruct (leveled_outputs (ops ++ [LMin])) as (os & E & A); [rewrite app_length, Nat.add_comm; exact L|now apply used_last|].
      destruct (extreme_agrees _ _ _ A) as (outs & out & -> & k & m & -> & X). eauto.
    - destruct (leveled_outputs (ops ++ [LMax])) as (os & E & A); [rewrite app_length, Nat.add_comm; exact L|now apply used_last|].
      destruct (extreme_agrees _ _ _ A) as (outs & out & -> & k & m & -> & X). eauto.
  Qed.
  Lemma leveled_hint ops : limits_positive cfg (N.of_nat (S (length ops))) -> well_used sp_new ops ->
    exists outs n, outputs (lsm_step St) (lsm_new St) (ops ++ [LLenHint]) = Ok (outs ++ [OHint n]) /\ length (sp_map (sp_after ops)) <= n.
  Proof.
    intros L W. destruct (leveled_last ops LLenHint L) as (outs & out & E & So); [now apply used_last|reflexivity|]. destruct out; try now destruct So. exists outs, n. split; [exact E|exact So].
  Qed.
  Lemma leveled_reopen ops ops' : limits_positive cfg (N.of_nat (length ops + S (S (length ops')))) -> well_used sp_new ops -> sp_written (sp_after ops) = true ->
    well_used (reopened (sp_map (sp_after ops))) ops' ->
    exists outs outs', outputs (lsm_step St) (lsm_new St) (ops ++ LFlush :: LReopen :: ops') = Ok (outs ++ OUnit :: OUnit :: outs') /\ length outs = length ops /\
      agree (reopened (sp_map (sp_after ops))) ops' outs'.
  Proof.
    intros L W Wr W'. destruct (leveled_outputs (ops ++ LFlush :: LReopen :: ops')) as (os & E & A); [rewrite app_length; exact L|now apply reopen_used|].
    destruct (reopen_agrees _ _ _ A Wr) as (o & o' & -> & X). eauto.
  Qed.
  Lemma leveled_iter ops ops' : limits_positive cfg (N.of_nat (length ops + S (length ops'))) -> well_used sp_new (ops ++ LIterOpen :: ops') ->
    Forall (keeps (length (sp_iters (sp_after ops)))) ops' ->
    exists outs outs', outputs (lsm_step St) (lsm_new St) (ops ++ LIterOpen :: ops') = Ok (outs ++ OUnit :: outs') /\ length outs = length ops /\
      forall j e, nth_error (nexts (length (sp_iters (sp_after ops))) ops' outs') j = Some e -> same_opt same_pair e (nth_error (sp_map (sp_after ops)) j).
  Proof.
    intros L W Ke. destruct (leveled_outputs (ops ++ LIterOpen :: ops')) as (os & E & A); [rewrite app_length; exact L|exact W|].
    destruct (iter_agrees _ _ _ A Ke) as (o & o' & -> & X). eauto.
  Qed.

  Lemma level_disjoint W (m : lmeta K V) : vinv cfg W m -> levels_disjoint m.
  Proof.
    intros I l a b x y Jl Ne Ex Ey. pose proof (proj1 (Forall_forall _ _) (vi_ok _ _ _ I) l Jl) as [_ Ss]. clear - Ss Ne Ex Ey. unfold apart.
    revert a b Ne Ex Ey. induction Ss as [|z l Ss IH F]; intros a b Ne Ex Ey; [destruct a; discriminate|]. destruct a as [|a], b as [|b]; cbn [nth_error] in *.
    - congruence.
    - left. injection Ex as <-. exact (proj1 (Forall_forall _ _) F y (nth_error_In _ _ Ey)).
    - right. injection Ey as <-. exact (proj1 (Forall_forall _ _) F x (nth_error_In _ _ Ex)).
    - apply (IH a b); auto.
  Qed.
  Lemma leveled_disjoint ops s outs : limits_positive cfg (N.of_nat (length ops)) -> well_used sp_new ops -> run (lsm_step St) (lsm_new St) ops = Ok (s, outs) ->
    levels_disjoint (cur s) /\ forall m, nxt s = Some m -> levels_disjoint m.
  Proof.
    intros L W E. destruct (total_run St (vinv cfg) lcomp (fun _ => True) (llim cfg) shrink (leveled_laws cfg) Ksize ops (limits_lim _ L) W (covered_all ops)) as (s' & outs' & E' & _ & I & _).
    rewrite E in E'. injection E' as <- <-. split; [exact (level_disjoint _ _ (iv_inv _ _ _ _ _ _ I))|]. intros m Em. destruct (iv_nxt _ _ _ _ _ _ I m Em) as (m0 & ts & _ & _ & X & _).
    exact (level_disjoint _ _ X).
  Qed.
  Lemma leveled_terminates ops : limits_positive cfg (N.of_nat (length ops)) -> well_used sp_new ops ->
    exists s outs, run (lsm_step St) (lsm_new St) ops = Ok (s, outs) /\
      forall m, thr s = TRun m -> exists m' id, lv_compact cfg (fun i => has St s i || (fresh s <=? i)) (fresh s) m = Ok (m', id).
  Proof.
    intros L W. destruct (total_run St (vinv cfg) lcomp (fun _ => True) (llim cfg) shrink (leveled_laws cfg) Ksize ops (limits_lim _ L) W (covered_all ops)) as (s & outs & E & _ & I & _ & Ti).
    exists s, outs. split; [exact E|]. intros m Em. destruct (iv_thr _ _ _ _ _ _ I m Em) as (_ & _ & ts & G & Im & _).
    assert (Lt : llim cfg (time s)) by (apply (lw_lim _ _ _ _ _ _ _ _ (leveled_laws cfg) _ _ (limits_lim _ L)); exact Ti).
    destruct (thread_ok St (vinv cfg) lcomp _ False (llim cfg) shrink eq (leveled_laws cfg) _ s m I Em Lt) as [[[] _]|([m' id] & Ec & _)]. eauto.
  Qed.
End Leveled.

(** *** Configurations *)
Lemma limits_small cfg n : (0 < lc_initial cfg < 2 ^ 64)%N -> (0 < lc_growth cfg)%N -> (n * lc_growth cfg <= 2 ^ 64)%N -> limits_positive cfg n.
Proof.
  intros Hc Hg Hn i. unfold limit. enough (X : (forall j, j < i -> ((lc_initial cfg * lc_growth cfg ^ N.of_nat j) mod 2 ^ 64 < n)%N) -> (lc_initial cfg * lc_growth cfg ^ N.of_nat i < 2 ^ 64)%N).
  { intros Y. specialize (X Y). rewrite N.mod_small by exact X. assert (lc_growth cfg ^ N.of_nat i <> 0)%N by (apply N.pow_nonzero; lia). nia. }
  induction i as [|i IH]; intros Y.
  - cbn [N.of_nat]. rewrite N.pow_0_r. lia.
  - assert (B : (lc_initial cfg * lc_growth cfg ^ N.of_nat i < 2 ^ 64)%N) by (apply IH; intros j Hj; apply Y; lia).
    pose proof (Y i (Nat.lt_succ_diag_r i)) as X. rewrite N.mod_small in X by exact B. rewrite Nat2N.inj_succ, N.pow_succ_r'. 
    rewrite (N.mul_comm (lc_growth cfg)), N.mul_assoc. apply N.lt_le_trans with (n * lc_growth cfg)%N; [|exact Hn]. now apply N.mul_lt_mono_pos_r.
Qed.
Lemma odd_mul a b : N.odd a = true -> N.odd b = true -> N.odd (a * b) = true.
Proof. intros A B. now rewrite N.odd_mul, A, B. Qed.
Lemma limits_odd cfg n : N.odd (lc_initial cfg) = true -> N.odd (lc_growth cfg) = true -> limits_positive cfg n.
Proof.
  intros Oc Og i _. assert (O : N.odd (lc_initial cfg * lc_growth cfg ^ N.of_nat i) = true).
  { apply odd_mul; [exact Oc|]. induction i as [|i IH]; [reflexivity|]. rewrite Nat2N.inj_succ, N.pow_succ_r'. now apply odd_mul. }
  unfold limit. set (x := (lc_initial cfg * lc_growth cfg ^ N.of_nat i)%N) in *. destruct (N.eq_0_gt_0_cases (x mod 2 ^ 64)) as [Z|Z]; [|exact Z].
  exfalso. apply N.mod_divide in Z; [|discriminate]. destruct Z as [y E]. rewrite E in O. change (2 ^ 64)%N with (2 * 2 ^ 63)%N in O.
  rewrite N.odd_mul, N.odd_mul in O. cbn in O. now rewrite andb_false_r in O.
Qed.

(** With limits of 0 from some level on, a table that gets there is moved down for ever. *)
Section Endless.
  Context {K V : Type} `{CmpLaws K} {Z : Sizes K V} (cfg : lconfig).
  Lemma outer_endless fuel : forall has hint id (A : list (level K V)) (t : table K V), (forall j, length A <= j -> limit cfg j = 0%N) ->
    outer cfg fuel has hint id (length A) (A ++ [[(hi t, t)]]) = Timeout.
  Proof.
    induction fuel as [|fuel IH]; intros has hint id A t Z0; cbn [outer].
    - rewrite app_length. cbn [length]. destruct (length A =? length A + 1) eqn:E; [apply Nat.eqb_eq in E; lia|reflexivity].
    - rewrite app_length. cbn [length]. destruct (length A =? length A + 1) eqn:E; [apply Nat.eqb_eq in E; lia|].
      assert (N1 : forall (l : level K V) B, nth_error (A ++ l :: B) (length A) = Some l) by (intros; rewrite nth_error_app2, Nat.sub_diag by lia; reflexivity).
      rewrite N1. cbn [expect bind length inner]. unfold should_merge at 1. rewrite N1, limit_eq, Z0 by lia. cbn [length N.of_nat N.ltb N.compare].
      assert (M : merge_down cfg has hint id (length A) (A ++ [[(hi t, t)]]) = Ok ((A ++ [[]]) ++ [[(hi t, t)]], S id)).
      { unfold merge_down. rewrite N1. cbn [expect bind pick fold_left snd level_remove]. rewrite cmp_refl. cbn [is_eq expect bind].
        assert (Ls : list_set (A ++ [[(hi t, t)]]) (length A) [] = A ++ [[]]) by (clear; induction A as [|x A IH]; cbn [app length list_set]; [reflexivity|now rewrite IH]).
        rewrite Ls, app_length. cbn [length]. now rewrite Nat.eqb_refl. }
      rewrite M. cbn [bind]. unfold should_merge. rewrite <- app_assoc. cbn [app]. rewrite N1, limit_eq, Z0 by lia. cbn [length N.of_nat N.ltb N.compare bind].
      specialize (IH has hint (S id) (A ++ [[]]) t). rewrite app_length, <- app_assoc in IH. cbn [length app] in IH. rewrite Nat.add_1_r in IH. apply IH. intros j Hj. apply Z0. lia.
  Qed.
  Definition first_hint (m : lmeta K V) : nat := list_sum (map t_count (lm_tabs m)).
  Lemma compact_endless_0 has id (m : lmeta K V) k t id' : lm_levels m = [] ->
    merge_into cfg has true (first_hint m) id (map (fun t => [t]) (lm_tabs m) ++ [[]]) [] = Ok ([(k, t)], id') -> k = hi t -> (forall j, limit cfg j = 0%N) ->
    forall fuel, lv_compact_fuel cfg fuel has id m = Timeout.
  Proof.
    intros E M -> Z0 fuel. unfold lv_compact_fuel. rewrite E. cbn [nth_error expect bind fold_left length Nat.eqb map]. unfold first_hint in M. rewrite M. cbn [bind list_set].
    pose proof (outer_endless fuel has (list_sum (map t_count (lm_tabs m))) id' [] t) as X. cbn [app length] in X. rewrite X; [reflexivity|]. auto.
  Qed.
  Lemma compact_endless_1 has id (m : lmeta K V) l k t id' l0 id'' : lm_levels m = [] ->
    merge_into cfg has true (first_hint m) id (map (fun t => [t]) (lm_tabs m) ++ [[]]) [] = Ok (l, id') ->
    inner cfg (length l) has (first_hint m) id' 0 [l] = Ok ([l0; [(k, t)]], id'') -> k = hi t -> (forall j, 1 <= j -> limit cfg j = 0%N) ->
    forall fuel, lv_compact_fuel cfg fuel has id m = Timeout.
  Proof.
    intros E M I -> Z0 fuel. unfold lv_compact_fuel. rewrite E. cbn [nth_error expect bind fold_left length Nat.eqb map]. unfold first_hint in *. rewrite M. cbn [bind list_set].
    destruct fuel as [|fuel]; [reflexivity|]. cbn [outer length Nat.eqb nth_error expect bind]. unfold level in *. rewrite I. cbn [bind].
    pose proof (outer_endless fuel has (list_sum (map t_count (lm_tabs m))) id'' [l0] t) as X. cbn [app length] in X. unfold level in *. rewrite X; [reflexivity|]. exact Z0.
  Qed.
End Endless.
Lemma limit_initial_0 a b c g j : limit (mkLc a b c 0 g) j = 0%N.
Proof. reflexivity. Qed.
Lemma limit_growth_0 a b c i j : 1 <= j -> limit (mkLc a b c i 0) j = 0%N.
Proof. intros Hj. unfold limit. cbn [lc_initial lc_growth]. rewrite N.pow_0_l by lia. now rewrite N.mul_0_r. Qed.
Lemma limit_growth_wraps a b c j : 1 <= j -> limit (mkLc a b c 2 (2 ^ 63)) j = 0%N.
Proof.
  intros Hj. unfold limit. cbn [lc_initial lc_growth]. destruct j as [|j]; [lia|]. rewrite Nat2N.inj_succ, N.pow_succ_r'. rewrite N.mul_assoc.
  change (2 * 2 ^ 63)%N with (2 ^ 64)%N. rewrite N.mul_comm. apply N.mod_mul. discriminate.
Qed.

(** *** Deciding whether a directory is intact *)
Definition settledb {M} (l : list (effect M)) : bool :=
  fold_left (fun ok e => match e with EMeta _ => true | ERemove _ => false | _ => ok end) l true.
Lemma nil_or_snoc {A} (l : list A) : l = [] \/ exists l' x, l = l' ++ [x].
Proof. destruct l as [|x l]; [now left|]. right. destruct (@exists_last _ (x :: l)) as (l' & y & ->); [discriminate|]. eauto. Qed.
Lemma settledb_ok {M} (l : list (effect M)) : settledb l = true -> settled l.
Proof.
  induction l as [|e l IH] using rev_ind; intros E a b Q B.
  - symmetry in Q. apply app_eq_nil in Q. now destruct Q as [-> ->].
  - destruct (nil_or_snoc b) as [->|(b' & x & ->)]; [reflexivity|].
    rewrite app_assoc in Q. apply app_inj_tail in Q. destruct Q as [-> <-]. rewrite existsb_app in B |- *. apply orb_false_iff in B. destruct B as [B Be].
    unfold settledb in E. rewrite fold_left_app in E. cbn [fold_left] in E. destruct e; cbn in Be |- *; try discriminate; rewrite orb_false_r; apply (IH E a b' eq_refl B).
Qed.
Lemma intactb {M} (l : list (effect M)) : settledb l = true -> d_time (disk_of l) <> None -> intact l.
Proof. intros X Y. split; [now apply settledb_ok|exact Y]. Qed.
