(** Maps whose directory is a directory of bytes *)
From Verif Require Import LsmClaims SizeTieredClaims SizeTieredLoose LsmBytesFinalProofs OrdLemmas.
From Verif Require Export LsmMetaProofs.

Section Final.
  Context {K V : Type} `{CmpLaws K} {CK : Codec K} {CV : Codec V} {LK : CodecLaws K} {LV : CodecLaws V}.
  Context {B : Bloom K} {BL : BloomLaws K}.
  #[local] Existing Instance encoded_sizes.
  Context (Ksize : forall k k' : K, cmp k k' = Eq -> length (enc k) = length (enc k')).
  Context (name : nat -> path) (dirs : path -> option files).

  Section Strategy.
    Context (St : strategy K V) (Inv : N -> st_meta St -> Prop) (Comp : st_meta St -> st_meta St -> Prop)
            (qd : K * sval V -> Prop) (lim : N -> Prop) (less : list (K * sval V) -> list (K * sval V) -> Prop) (slip : sp K V -> sp K V -> Prop).
    Context (L : laws St Inv Comp qd False lim less slip).
    Lemma disk_facts ops s outs : lim (N.of_nat (length ops)) -> well_used sp_new ops -> Forall (covered qd) ops ->
      (N.of_nat (length ops) < 2 ^ 64)%N -> run (lsm_step St) (lsm_new St) ops = Ok (s, outs) ->
      forall m t, d_meta (disk_of (log s)) = Some m -> d_time (disk_of (log s)) = Some t -> Inv t m /\ (t < 2 ^ 64)%N /\ m = cur s /\
        Forall (fun x => small_times (t_es x) /\ strictly_ascending (t_es x)) (st_tables St m) /\ lsm_open St (log s) (fresh s) = Ok (mkLsm [] 0 t m None TIdle false [] (fresh s) (log s)).
    Proof.
      intros Li Wu Cv Le E m t Em Et. destruct (loose_run St Inv Comp qd lim less slip L (ksize_eq Ksize) ops Li Wu Cv) as (s' & outs' & a & E' & _ & I & _ & Ti).
      rewrite E in E'. injection E' as <- <-. pose proof Em as Em0. rewrite (iv_meta _ _ _ _ _ _ I) in Em. injection Em as <-.
      pose proof Et as Et0. rewrite (iv_time _ _ _ _ _ _ I) in Et. destruct (sp_written a); [|discriminate]. injection Et as <-.
      pose proof (iv_inv _ _ _ _ _ _ I) as Im. destruct (lw_basic _ _ _ _ _ _ _ _ L _ _ Im) as (Tk & _ & _ & Tm). split; [exact Im|]. split; [lia|]. split; [reflexivity|]. split.
      - apply Forall_forall. intros x J. split; [|apply (proj1 (Forall_forall _ _) Tk x J)].
        apply Forall_forall. intros e Je. assert (Y : (sv_time (snd e) < time s)%N) by (apply Tm; unfold cont; apply in_run; eauto). lia.
      - unfold lsm_open. rewrite Em0, Et0. cbn [expect bind]. rewrite (proj2 (forallb_forall _ _)); [reflexivity|].
        intros x J. apply (proj1 (Forall_forall _ _) (iv_has _ _ _ _ _ _ I) x J).
    Qed.
  End Strategy.

  Lemma level_keys (l : level K V) : level_ok l -> sorted l.
  Proof.
    intros [G S]. induction S as [|a l S IH F]; [apply sorted_nil|]. apply Forall_cons_iff in G. destruct G as [Ga G]. apply sorted_cons. split; [|auto].
    unfold all_gt. rewrite Forall_forall in *. intros b J. destruct Ga as [-> Oa]. destruct (G b J) as [-> Ob]. specialize (F b J). unfold before in F.
    destruct (hi_in _ Ob) as (e & Je & Qe). pose proof (lo_le _ e Ob Je) as P. rewrite Qe in P.
    destruct (cmp (lo (snd b)) (hi (snd b))) eqn:X; [eapply cmp_lt_eq_trans; eauto|eapply cmp_lt_trans; eauto|congruence].
  Qed.
  Lemma legible_of (l : list (table K V)) : Forall (fun x => small_times (t_es x) /\ strictly_ascending (t_es x)) l -> Forall (stored name dirs) l ->
    Forall (legible name dirs) l.
  Proof. rewrite !Forall_forall. intros F G x J. destruct (F x J). split; [assumption|]. split; auto. Qed.
  Lemma known_of (l : list (table K V)) : Forall (fun x => small_times (t_es x) /\ strictly_ascending (t_es x)) l ->
    Forall (fun t => dirs (path_of name t) = None \/ stored name dirs t) l -> Forall (known name dirs) l.
  Proof. rewrite !Forall_forall. intros F G x J. destruct (F x J). destruct (G x J); [now left|]. right. split; [assumption|]. split; auto. Qed.

  Theorem leveled_directory cfg (ops : list (lsm_op K V)) s outs m t old old' :
    limits_positive cfg (N.of_nat (length ops)) -> (N.of_nat (length ops) < 2 ^ 64)%N -> well_used sp_new ops ->
    run (lsm_step (leveled cfg)) (lsm_new (leveled cfg)) ops = Ok (s, outs) ->
    d_meta (disk_of (log s)) = Some m -> d_time (disk_of (log s)) = Some t -> small_lconfig cfg -> small_meta name m ->
    Forall (stored name dirs) (lv_tables m) ->
    exists ms, open_leveled dirs (overwrite old (enc_leveled cfg (paths name m))) (overwrite old' (enc_be64 t)) = Ok (cfg, ms, t) /\
      Forall2 (opened name) (lm_tabs m) (ts_tabs ms) /\ Forall2 (Forall2 (opened_at name)) (lm_levels m) (ts_levels ms).
  Proof.
    intros Li Le Wu E Em Et Sc Sm F.
    destruct (disk_facts (leveled cfg) (vinv cfg) lcomp (fun _ => True) (llim cfg) shrink eq (leveled_laws cfg) ops s outs (limits_lim _ _ Li) Wu (covered_all _) Le E m t Em Et) as (Im & Lt & _ & G & _).
    apply open_leveled_ok; auto; [|now apply legible_of]. eapply Forall_impl; [|apply (vi_ok _ _ _ Im)]. apply level_keys.
  Qed.
  Theorem leveled_lost cfg (ops : list (lsm_op K V)) s outs m t old old' :
    limits_positive cfg (N.of_nat (length ops)) -> (N.of_nat (length ops) < 2 ^ 64)%N -> well_used sp_new ops ->
    run (lsm_step (leveled cfg)) (lsm_new (leveled cfg)) ops = Ok (s, outs) ->
    d_meta (disk_of (log s)) = Some m -> d_time (disk_of (log s)) = Some t -> small_lconfig cfg -> small_meta name m ->
    Forall (fun x => dirs (path_of name x) = None \/ stored name dirs x) (lv_tables m) -> Exists (fun x => dirs (path_of name x) = None) (lv_tables m) ->
    open_leveled dirs (overwrite old (enc_leveled cfg (paths name m))) (overwrite old' (enc_be64 t)) = Panic.
  Proof.
    intros Li Le Wu E Em Et Sc Sm F X.
    destruct (disk_facts (leveled cfg) (vinv cfg) lcomp (fun _ => True) (llim cfg) shrink eq (leveled_laws cfg) ops s outs (limits_lim _ _ Li) Wu (covered_all _) Le E m t Em Et) as (Im & Lt & _ & G & _).
    apply open_leveled_lost; auto; [|now apply known_of]. eapply Forall_impl; [|apply (vi_ok _ _ _ Im)]. apply level_keys.
  Qed.
  Theorem tiered_directory scfg cfg (ops : list (lsm_op K V)) s outs m t old old' : (N.of_nat (length ops) < 2 ^ 64)%N -> well_used sp_new ops ->
    run (lsm_step (size_tiered scfg)) (lsm_new (size_tiered scfg)) ops = Ok (s, outs) ->
    d_meta (disk_of (log s)) = Some m -> d_time (disk_of (log s)) = Some t -> small_bconfig cfg -> small_tables name m ->
    Forall (stored name dirs) m ->
    exists xs, open_tiered dirs (overwrite old (enc_tiered cfg (map (path_of name) m))) (overwrite old' (enc_be64 t)) = Ok (cfg, xs, t) /\ Forall2 (opened name) m xs.
  Proof.
    intros Le Wu E Em Et Sc Sm F.
    destruct (disk_facts (size_tiered scfg) _ _ _ _ _ _ (loose_laws (inserted ops) (inserted_key ops) scfg) ops s outs Logic.I Wu (covered_list _ _ (inserted_key _) (inserted_all ops)) Le E m t Em Et) as (_ & Lt & _ & G & _).
    apply open_tiered_ok; auto. now apply legible_of.
  Qed.
  Theorem tiered_lost scfg cfg (ops : list (lsm_op K V)) s outs m t old old' : (N.of_nat (length ops) < 2 ^ 64)%N -> well_used sp_new ops ->
    run (lsm_step (size_tiered scfg)) (lsm_new (size_tiered scfg)) ops = Ok (s, outs) ->
    d_meta (disk_of (log s)) = Some m -> d_time (disk_of (log s)) = Some t -> small_bconfig cfg -> small_tables name m ->
    Forall (fun x => dirs (path_of name x) = None \/ stored name dirs x) m -> Exists (fun x => dirs (path_of name x) = None) m ->
    open_tiered (K := K) dirs (overwrite old (enc_tiered cfg (map (path_of name) m))) (overwrite old' (enc_be64 t)) = Panic.
  Proof.
    intros Le Wu E Em Et Sc Sm F X.
    destruct (disk_facts (size_tiered scfg) _ _ _ _ _ _ (loose_laws (inserted ops) (inserted_key ops) scfg) ops s outs Logic.I Wu (covered_list _ _ (inserted_key _) (inserted_all ops)) Le E m t Em Et) as (_ & Lt & _ & G & _).
    apply open_tiered_lost; auto. now apply known_of.
  Qed.
End Final.
