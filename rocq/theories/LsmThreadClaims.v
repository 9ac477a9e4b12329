(** What the interleaving of calls and thread means for the two strategies. *)
From Verif Require Import ListLemmas OrdLemmas.
From Verif Require Export LsmThreadProofs SizeTieredClaims SizeTieredLoose.

Section Claims.
  Context {K V : Type} `{CmpLaws K} {Z : Sizes K V} (St : strategy K V) (Inv : N -> st_meta St -> Prop) (Comp : st_meta St -> st_meta St -> Prop)
          (qd : K * sval V -> Prop) (lim : N -> Prop) (less : list (K * sval V) -> list (K * sval V) -> Prop) (slip : sp K V -> sp K V -> Prop).
  Context (L : laws St Inv Comp qd False lim less slip) (Ksize : forall k k' : K, cmp k k' = Eq -> ksize k = ksize k').
  Notation op := (lsm_op K V).

  (** A bound on the time *)
  Lemma laws_upto T : laws St Inv Comp qd False (fun t => lim t /\ (t <= T)%N) less slip.
  Proof.
    destruct L. constructor; auto.
    - intros t t' [X Y] Le. split; [eapply lw_lim; eauto|lia].
    - intros. eapply lw_compact; eauto. tauto.
  Qed.

  Section Upto.
    Context (T : N).
    Let lim' t := lim t /\ (t <= T)%N.
    Let L' := laws_upto T.
    Notation wok := (wok St Inv Comp qd lim' slip).
    Lemma wok_time n a ops w : wok n a ops w -> lim' (time (w_map St w)).
    Proof.
      intros [a0 ops0 s I J Li|n0 o a0 ops0 s t p X Li]; cbn [w_map].
      - apply (lw_lim _ _ _ _ _ _ _ _ L' _ _ Li). lia.
      - destruct (ok_J _ _ _ _ _ _ _ (X s (env_refl _ s))) as (b & _ & _ & Lb). exact Lb.
    Qed.
    Lemma crash_turn n a ops w t : wok n a ops w -> well_used a ops -> Forall (covered qd) ops -> forall w' o p q, take_turn St w t = Ok (w', o) -> log (w_map St w') = p ++ q ->
      length (log (w_map St w)) <= length p -> intact p ->
      exists s2 m x, lsm_open St p (fresh (w_map St w')) = Ok s2 /\ midway slip a (hd_error ops) x /\ In m (sp_recover x) /\
        inv St Inv Comp qd (reopened m) s2 /\ jn St s2 /\ (time s2 <= T)%N.
    Proof.
      intros W Wu Co w' o p q E El Len [Se Dt].
      destruct (turn_ok St Inv Comp qd lim' less slip L' Ksize n a ops w t W Wu Co) as (w1 & o1 & E1 & (R & Rx & M) & X). rewrite E in E1. injection E1 as <- <-.
      assert (Lw : lim' (time (w_map St w'))).
      { destruct X as [(_ & n' & W1 & _)|(o' & ops' & r & a1 & a2 & _ & _ & _ & _ & _ & W1)]; exact (wok_time _ _ _ _ W1). }
      destruct (crash_ok St Inv Comp qd _ _ _ M p q El Len Se Dt) as (s2 & m & Eo & Jm & I2 & J2 & T2). destruct (Rx m Jm) as (x & Mx & Jx).
      exists s2, m, x. split; [exact Eo|]. split; [exact Mx|]. split; [exact Jx|]. split; [exact I2|]. split; [exact J2|]. destruct Lw. lia.
    Qed.
  End Upto.
  Lemma hd_skipn {A} n : forall l : list A, hd_error (skipn n l) = nth_error l n.
  Proof. induction n as [|n IH]; intros [|x l]; cbn; auto. Qed.
  Lemma loose_endures (may : op -> Prop) c : (forall o, may o -> covered qd o) -> forall b a s, inv St Inv Comp qd a s -> jn St s -> lim (time s + N.of_nat b) ->
    endures_loosely St may slip c b a s.
  Proof.
    intros Cm. induction c as [|c IH]; intros b a s I J Li; cbn [endures_loosely]; intros ops ts Fm Le Wu.
    all: set (T := (time s + N.of_nat (length ops))%N); assert (LT : lim T) by (apply (lw_lim _ _ _ _ _ _ _ _ L _ _ Li); subst T; lia).
    all: assert (Co : Forall (covered qd) ops) by (eapply Forall_impl; [exact Cm|exact Fm]).
    all: destruct (turns_ok St Inv Comp qd _ less slip (laws_upto T) Ksize ts _ a ops (mkWorld St s None ops) (wok_idle _ _ _ _ _ _ a ops s I J (conj LT (N.le_refl T))) Wu Co) as (w & outs & a' & n & E & Lo & W & Wu' & Co').
    all: exists w, outs, a'; split; [exact E|]; split; [exact Lo|]; try exact Logic.I.
    intros t w' o p q Et El Len In. destruct (crash_turn T n a' _ w t W Wu' Co' w' o p q Et El Len In) as (s2 & m & x & Eo & Mx & Jx & I2 & J2 & T2). rewrite hd_skipn in Mx.
    exists s2, m, x. split; [exact Eo|]. split; [exact Mx|]. split; [exact Jx|]. apply IH; auto. apply (lw_lim _ _ _ _ _ _ _ _ L _ _ Li). subst T. lia.
  Qed.
  Lemma every_returns ops ts w outs k : lim (N.of_nat (length ops)) -> well_used sp_new ops -> Forall (covered qd) ops -> take_turns St (start St ops) ts = Ok (w, outs) ->
    14 * k <= cycles 0 ts -> k <= length ops -> k <= length outs.
  Proof.
    intros Li Wu Co E Cy Le. destruct k as [|k]; [lia|]. destruct (new_inv St Inv Comp _ False lim less slip L) as [I0 J0].
    apply (cycles_ok St Inv Comp qd lim less slip L Ksize ts 0 14 sp_new ops (start St ops) w outs k); auto; [|cbn; lia|unfold longest; lia].
    exact (wok_idle _ _ _ _ _ _ sp_new ops _ I0 J0 Li).
  Qed.
  Lemma tables_stay ops ts w outs m t : lim (N.of_nat (length ops)) -> well_used sp_new ops -> Forall (covered qd) ops -> take_turns St (start St ops) ts = Ok (w, outs) ->
    thr (w_map St w) = TRun m -> In t (st_tables St m) -> In (t_id t) (d_dirs (disk_of (log (w_map St w)))).
  Proof.
    intros Li Wu Co E Et Jt. destruct (new_inv St Inv Comp _ False lim less slip L) as [I0 J0].
    destruct (turns_ok St Inv Comp qd _ less slip L Ksize ts _ sp_new ops (start St ops) (wok_idle _ _ _ _ _ _ sp_new ops _ I0 J0 Li) Wu Co) as (w' & outs' & a' & n & E' & _ & W & _).
    rewrite E in E'. injection E' as <- <-. exact (thread_tables St Inv Comp qd lim less slip L _ _ _ _ m W Et t Jt).
  Qed.
End Claims.

Section Strict.
  Context {K V : Type} `{CmpLaws K} {Z : Sizes K V} (St : strategy K V) (may : lsm_op K V -> Prop).
  Lemma loosely_length (slip : sp K V -> sp K V -> Prop) a ops outs a' : loosely slip a ops outs a' -> length outs = length ops.
  Proof. induction 1; cbn; congruence. Qed.
  Lemma after_snoc (a : sp K V) ops o : after a (ops ++ [o]) = fst (lsm_spec_step (after a ops) o).
  Proof.
    unfold after. revert a. induction ops as [|x ops IH]; intros a; cbn [app spec_run].
    - cbn [fst]. now destruct (lsm_spec_step a o).
    - destruct (lsm_spec_step a x) as [a1 r]. specialize (IH a1). destruct (spec_run lsm_spec_step a1 (ops ++ [o])), (spec_run lsm_spec_step a1 ops). exact IH.
  Qed.
  Lemma firstn_S (ops : list (lsm_op K V)) n o : nth_error ops n = Some o -> firstn (S n) ops = firstn n ops ++ [o].
  Proof. revert ops. induction n as [|n IH]; intros [|x ops] E; cbn in *; try discriminate; [now injection E as ->|]. now rewrite <- IH. Qed.
  Lemma strict_endures c : forall b a s, endures_loosely St may eq c b a s -> endures St may c b a s.
  Proof.
    induction c as [|c IH]; intros b a s X; cbn [endures endures_loosely] in *; intros ops ts Fm Le Wu; destruct (X ops ts Fm Le Wu) as (w & outs & a' & E & Lo & R);
      destruct (strict_agree _ _ _ _ Lo) as [Ag Ea]; exists w, outs; (split; [exact E|]); (split; [exact Ag|]); [exact Logic.I|].
    intros t w' o p q Et El Len In. destruct (R t w' o p q Et El Len In) as (s2 & m & x & Eo & Mx & Jx & Y). exists s2, m. split; [exact Eo|]. split; [|now apply IH].
    fold (after a (firstn (length outs) ops)) in Ea. apply in_app_iff. destruct Mx as [<-|(a1 & o' & En & <- & <-)]; [left; now rewrite <- Ea|]. right. rewrite (firstn_S _ _ _ En), after_snoc, <- Ea. exact Jx.
  Qed.
End Strict.

Section Leveled.
  Context {K V : Type} `{CmpLaws K} {Z : Sizes K V} (cfg : lconfig) (Ksize : forall k k' : K, cmp k k' = Eq -> ksize k = ksize k').
  Notation St := (leveled cfg).
  Notation op := (lsm_op K V).
  Lemma leveled_endures c b : limits_positive cfg (N.of_nat b) -> endures (K := K) (V := V) St any_call c b sp_new (lsm_new St).
  Proof.
    intros Li. destruct (new_inv St (vinv cfg) lcomp (fun _ => True) False (llim cfg) shrink eq (leveled_laws cfg)) as [I0 J0]. apply strict_endures.
    apply (loose_endures St (vinv cfg) lcomp (fun _ => True) (llim cfg) shrink eq (leveled_laws cfg) Ksize); auto; [intros o _; apply covered_one|now apply limits_lim].
  Qed.
  Lemma leveled_interleaved (ops : list op) ts : limits_positive cfg (N.of_nat (length ops)) -> well_used sp_new ops ->
    exists w outs, take_turns St (start St ops) ts = Ok (w, outs) /\ agree sp_new (firstn (length outs) ops) outs.
  Proof.
    intros Li Wu. destruct (leveled_endures 0 (length ops) Li ops ts) as (w & outs & E & A & _); eauto. apply Forall_forall. intros. exact Logic.I.
  Qed.
  Lemma leveled_returns (ops : list op) ts w outs k : limits_positive cfg (N.of_nat (length ops)) -> well_used sp_new ops -> take_turns St (start St ops) ts = Ok (w, outs) ->
    14 * k <= cycles 0 ts -> k <= length ops -> k <= length outs.
  Proof.
    intros Li Wu. apply (every_returns St (vinv cfg) lcomp (fun _ => True) (llim cfg) shrink eq (leveled_laws cfg) Ksize); auto; [now apply limits_lim|apply covered_all].
  Qed.
  Lemma leveled_tables (ops : list op) ts w outs m t : limits_positive cfg (N.of_nat (length ops)) -> well_used sp_new ops -> take_turns St (start St ops) ts = Ok (w, outs) ->
    thr (w_map St w) = TRun m -> In t (st_tables St m) -> In (t_id t) (d_dirs (disk_of (log (w_map St w)))).
  Proof.
    intros Li Wu. apply (tables_stay St (vinv cfg) lcomp (fun _ => True) (llim cfg) shrink eq (leveled_laws cfg) Ksize); auto; [now apply limits_lim|apply covered_all].
  Qed.
End Leveled.

Section Tiered.
  Context {K V : Type} `{CmpLaws K} {Z : Sizes K V} (cfg : sconfig) (Ksize : forall k k' : K, cmp k k' = Eq -> ksize k = ksize k').
  Notation St := (size_tiered cfg).
  Notation op := (lsm_op K V).
  Lemma tiered_endures c b : endures (K := K) (V := V) St no_removal c b sp_new (lsm_new St).
  Proof.
    destruct (new_inv St zinv zcomp (fun e : K * sval V => has_data e = true) False (fun _ => True) shrink eq (size_tiered_laws cfg)) as [I0 J0]. apply strict_endures.
    apply (loose_endures St zinv zcomp (fun e : K * sval V => has_data e = true) (fun _ => True) shrink eq (size_tiered_laws cfg) Ksize); auto using removal_covered.
  Qed.
  Lemma tiered_endures_loosely (P : K -> V -> Prop) c b : (forall k k' v, cmp k k' = Eq -> P k v -> P k' v) ->
    endures_loosely St (inserts_only P) (revived P) c b sp_new (lsm_new St).
  Proof.
    intros Pk. pose proof (loose_laws P Pk cfg) as L. destruct (new_inv St zinv _ _ _ _ _ _ L) as [I0 J0].
    apply (loose_endures St zinv _ _ _ _ _ L Ksize); auto. intros o. now apply allows_covered.
  Qed.
  Lemma tiered_interleaved (ops : list op) ts : Forall no_removal ops -> well_used sp_new ops ->
    exists w outs, take_turns St (start St ops) ts = Ok (w, outs) /\ agree sp_new (firstn (length outs) ops) outs.
  Proof. intros F Wu. destruct (tiered_endures 0 (length ops) ops ts) as (w & outs & E & A & _); eauto. Qed.
  Lemma tiered_interleaved_loose (ops : list op) ts : well_used sp_new ops ->
    exists w outs a, take_turns St (start St ops) ts = Ok (w, outs) /\ loosely (revived (inserted ops)) sp_new (firstn (length outs) ops) outs a.
  Proof. intros Wu. destruct (tiered_endures_loosely (inserted ops) 0 (length ops) (inserted_key ops) ops ts) as (w & outs & a & E & A & _); eauto using inserted_all. Qed.
  Lemma tiered_returns (ops : list op) ts w outs k : well_used sp_new ops -> take_turns St (start St ops) ts = Ok (w, outs) ->
    14 * k <= cycles 0 ts -> k <= length ops -> k <= length outs.
  Proof.
    intros Wu. pose proof (loose_laws (inserted ops) (inserted_key ops) cfg) as L. apply (every_returns St zinv _ _ _ _ _ L Ksize); auto.
    eapply Forall_impl; [|apply inserted_all]. intros o. apply allows_covered, inserted_key.
  Qed.
  Lemma tiered_tables (ops : list op) ts w outs m t : well_used sp_new ops -> take_turns St (start St ops) ts = Ok (w, outs) ->
    thr (w_map St w) = TRun m -> In t (st_tables St m) -> In (t_id t) (d_dirs (disk_of (log (w_map St w)))).
  Proof.
    intros Wu. pose proof (loose_laws (inserted ops) (inserted_key ops) cfg) as L. apply (tables_stay St zinv _ _ _ _ _ L Ksize); auto.
    eapply Forall_impl; [|apply inserted_all]. intros o. apply allows_covered, inserted_key.
  Qed.
End Tiered.
