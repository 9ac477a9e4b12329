(** Proofs about which tables a lookup opens. *)
From Verif Require Import ListLemmas OrdLemmas RunLemmas LsmClaims LeveledShapeProofs SizeTieredLoose.
From Verif Require Export LsmReadSpec.

Section LsmRead.
  Context {K V : Type} `{CmpLaws K} {Z : Sizes K V}.
  Notation sval := (sval V).
  Notation entry := (K * sval)%type.
  Notation table := (table K V).
  Notation level := (level K V).
  Implicit Types (t : table) (k : K).
  Context (sieve : nat -> K -> bool).

  Lemma outside_covers t k : is_lt (cmp k (fst (t_range t))) || is_gt (cmp k (snd (t_range t))) = negb (covers k t).
  Proof.
    unfold covers. rewrite negb_andb, !negb_involutive. f_equal. destruct (cmp k (fst (t_range t))) eqn:A; cbn.
    - now rewrite (cmp_eq_sym _ _ A).
    - now rewrite (cmp_lt_gt _ _ A).
    - now rewrite (cmp_gt_lt _ _ A).
  Qed.
  Lemma holds_find t k : holds k t = match find_version (t_es t) k with Some _ => true | None => false end.
  Proof. unfold holds. induction (t_es t) as [|[k' v] r IH]; cbn; [reflexivity|]. destruct (is_eq (cmp k' k)); [reflexivity|exact IH]. Qed.
  Lemma holds_covers t k : tab_ok t -> holds k t = true -> covers k t = true.
  Proof.
    intros O E. apply existsb_exists in E. destruct E as (e & J & Q). pose proof (lo_le t e O J) as L. pose proof (hi_ge t e O J) as G.
    unfold covers. fold (lo t) (hi t). destruct (cmp (fst e) k) eqn:Qe; try discriminate. apply andb_true_iff. split.
    - destruct (cmp (lo t) k) eqn:Cv; cbn; auto. destruct L. korder.
    - destruct (cmp k (hi t)) eqn:Cv; cbn; auto. destruct G. korder.
  Qed.

  Lemma tab_get_r_ok (has : nat -> bool) t k : tab_ok t -> t_ok has t -> (holds k t = true -> sieve (t_id t) k = true) ->
    tab_get_r sieve has t k = Ok (find_version (t_es t) k, map t_id (candidates sieve k [t])).
  Proof.
    intros O Ho So. unfold tab_get_r, candidates. cbn [filter]. rewrite outside_covers.
    assert (N : holds k t = false -> find_version (t_es t) k = None) by (rewrite holds_find; now destruct (find_version _ _)).
    destruct (covers k t) eqn:Cv; cbn [negb andb].
    - destruct (sieve (t_id t) k) eqn:S; cbn [negb].
      + unfold read. rewrite Ho. reflexivity.
      + rewrite N; [reflexivity|]. destruct (holds k t); [|reflexivity]. now discriminate So.
    - rewrite N; [reflexivity|]. destruct (holds k t) eqn:E; [|reflexivity]. rewrite (holds_covers _ _ O E) in Cv. discriminate.
  Qed.
  Lemma candidates_app k (a b : list table) : candidates sieve k (a ++ b) = candidates sieve k a ++ candidates sieve k b.
  Proof. apply filter_app. Qed.

  Lemma newest_r_ok (has : nat -> bool) k : forall (ts : list table) ret, Forall tab_ok ts -> Forall (t_ok has) ts -> sound sieve k ts ->
    exists o, newest_version has ts k ret = Ok o /\ newest_version_r sieve has ts k ret = Ok (o, map t_id (candidates sieve k ts)) /\
      (o = None <-> ret = None /\ existsb (holds k) ts = false).
  Proof.
    induction ts as [|t ts IH]; intros ret O Ho So; cbn [newest_version newest_version_r existsb].
    - exists ret. split; [reflexivity|]. split; [reflexivity|]. tauto.
    - apply Forall_cons_iff in O. destruct O as [O1 O]. apply Forall_cons_iff in Ho. destruct Ho as [Ho1 Ho].
      rewrite tab_get_r_ok; [|exact O1|exact Ho1|intros X; apply So; [now left|exact X]]. rewrite tab_get_ok by assumption. cbn [bind].
      match goal with |- context [newest_version has ts k ?r] => destruct (IH r O Ho) as (o & E1 & E2 & E3); [intros u J; apply So; now right|] end.
      rewrite E1, E2. cbn [bind]. exists o. split; [reflexivity|]. split.
      + change (t :: ts) with ([t] ++ ts). now rewrite candidates_app, map_app.
      + rewrite E3, holds_find. destruct (find_version (t_es t) k) as [v|]; cbn [orb]; [|tauto].
        destruct ret as [w|]; [destruct (is_lt (sv_cmp v w))|]; intuition discriminate.
  Qed.

  (** The candidates of a level *)
  Lemma level_candidates (l : level) k : level_ok l -> candidates sieve k (map snd l) =
    match find (fun kt => negb (is_lt (cmp (fst kt) k))) l with Some (_, t) => candidates sieve k [t] | None => [] end.
  Proof.
    induction l as [|kt l IH]; intros L; [reflexivity|]. apply (level_ok_app [kt] l) in L. destruct L as (L1 & Ll & Bf).
    destruct L1 as [G _]. apply Forall_cons_iff in G. destruct G as [[Ek O] _]. destruct kt as [k0 t]. cbn [fst snd] in *.
    cbn [map find fst]. change (snd (k0, t) :: map snd l) with ([t] ++ map snd l). rewrite candidates_app.
    assert (After : cmp (hi t) k <> Lt -> candidates sieve k (map snd l) = []).
    { intros Nl. apply filter_none. intros u J. apply in_map_iff in J. destruct J as (x & <- & J).
      specialize (Bf _ _ (or_introl eq_refl) J). cbn [snd] in Bf. unfold before in Bf. unfold covers. fold (lo (snd x)).
      replace (cmp (lo (snd x)) k) with Gt; [reflexivity|]. symmetry. apply cmp_lt_gt. destruct (cmp (hi t) k) eqn:Cv; [|congruence|]; korder. }
    subst k0. destruct (cmp (hi t) k) eqn:Cv; cbn [is_lt negb].
    - rewrite After by discriminate. now rewrite app_nil_r.
    - rewrite IH by exact Ll. replace (candidates sieve k [t]) with (@nil table); [reflexivity|]. unfold candidates. cbn [filter].
      unfold covers. fold (hi t). rewrite (cmp_lt_gt _ _ Cv). cbn. now rewrite andb_false_r.
    - rewrite After by discriminate. now rewrite app_nil_r.
  Qed.
  Lemma until_app {A} (p : A -> bool) (a b : list A) : until_first p (a ++ b) = if existsb p a then until_first p a else a ++ until_first p b.
  Proof. induction a as [|x a IH]; cbn; [reflexivity|]. destruct (p x); cbn; [reflexivity|]. rewrite IH. now destruct (existsb p a). Qed.
  Lemma one_candidate k t : candidates sieve k [t] = [] \/ candidates sieve k [t] = [t].
  Proof. unfold candidates. cbn. destruct (covers k t && sieve (t_id t) k); auto. Qed.

  Lemma levels_r_ok (has : nat -> bool) k : forall ls : list level, Forall level_ok ls -> Forall (t_ok has) (level_tables ls) -> sound sieve k (level_tables ls) ->
    exists o, levels_get has ls k = Ok o /\
      levels_get_r sieve has ls k = Ok (o, map t_id (until_first (holds k) (flat_map (fun l => candidates sieve k (map snd l)) ls))).
  Proof.
    induction ls as [|l ls IH]; intros O Ho So; cbn [levels_get levels_get_r flat_map].
    - exists None. split; reflexivity.
    - apply Forall_cons_iff in O. destruct O as [Ol O]. rewrite tables_cons in Ho. apply Forall_app in Ho. destruct Ho as [Hl Ho].
      destruct (IH O Ho) as (o & E1 & E2); [intros u J; apply So; rewrite tables_cons; apply in_app_iff; now right|].
      rewrite level_candidates by exact Ol. destruct (find _ l) as [[k' t]|] eqn:F.
      2:{ exists o. now rewrite E1, E2. }
      apply find_some in F. destruct F as [J _]. pose proof (level_good l _ Ol J) as [_ Ot]. cbn [snd] in Ot.
      assert (Jt : In t (map snd l)) by (apply in_map_iff; exists (k', t); auto).
      assert (Ht : t_ok has t) by (now apply (proj1 (Forall_forall _ _) Hl)).
      assert (St : holds k t = true -> sieve (t_id t) k = true) by (apply So; rewrite tables_cons; apply in_app_iff; now left).
      rewrite tab_get_ok by assumption. rewrite tab_get_r_ok by assumption. cbn [bind]. rewrite until_app.
      destruct (find_version (t_es t) k) as [v|] eqn:Fv.
      + exists (Some v). split; [reflexivity|]. assert (Hd : holds k t = true) by (now rewrite holds_find, Fv).
        assert (Cv : candidates sieve k [t] = [t]) by (unfold candidates; cbn; now rewrite (holds_covers _ _ Ot Hd), (St Hd)).
        rewrite Cv. cbn [existsb until_first]. now rewrite Hd.
      + assert (Hd : holds k t = false) by (now rewrite holds_find, Fv). exists o. rewrite E1, E2. split; [reflexivity|]. cbn [bind].
        destruct (one_candidate k t) as [-> | ->]; cbn [existsb until_first app map]; [reflexivity|]. rewrite Hd. reflexivity.
  Qed.
  Lemma lv_get_r_ok (has : nat -> bool) k (m : lmeta K V) : Forall tab_ok (lm_tabs m) -> Forall level_ok (lm_levels m) -> Forall (t_ok has) (lv_tables m) ->
    sound sieve k (lv_tables m) -> exists o, lv_get has m k = Ok o /\ lv_get_r sieve has m k = Ok (o, map t_id (leveled_opens sieve k m)).
  Proof.
    intros O Ol Ho So. unfold lv_tables in *. apply Forall_app in Ho. destruct Ho as [Ht Hl].
    destruct (newest_r_ok has k (lm_tabs m) None O Ht) as (o & E1 & E2 & E3); [intros u J; apply So; apply in_app_iff; now left|].
    destruct (levels_r_ok has k (lm_levels m) Ol Hl) as (o' & E4 & E5); [intros u J; apply So; apply in_app_iff; now right|].
    unfold lv_get, lv_get_r, leveled_opens. rewrite E1, E2. cbn [bind].
    assert (X : existsb (holds k) (candidates sieve k (lm_tabs m)) = existsb (holds k) (lm_tabs m)).
    { unfold candidates. apply eq_true_iff_eq. rewrite !existsb_exists. split.
      - intros (t & J & Q). apply filter_In in J. destruct J as [J _]. eauto.
      - intros (t & J & Q). exists t. split; [|exact Q]. apply filter_In. split; [exact J|].
        rewrite (holds_covers _ _ (proj1 (Forall_forall _ _) O _ J) Q). cbn. apply So; [apply in_app_iff; now left|exact Q]. }
    rewrite X. destruct o as [v|].
    - exists (Some v). split; [reflexivity|]. destruct (existsb (holds k) (lm_tabs m)); [reflexivity|]. destruct E3 as [_ E3]. now discriminate E3.
    - destruct E3 as [E3 _]. destruct (E3 eq_refl) as [_ ->]. exists o'. rewrite E4, E5. cbn [bind]. split; [reflexivity|]. now rewrite map_app.
  Qed.

  Lemma until_length {A} (p : A -> bool) (l : list A) : length (until_first p l) <= length l.
  Proof. induction l as [|x l IH]; cbn; [lia|]. destruct (p x); cbn; lia. Qed.
  Lemma candidates_length k (ts : list table) : length (candidates sieve k ts) <= length ts.
  Proof. apply filter_length_le. Qed.
  Lemma level_one k (l : level) : level_ok l -> length (candidates sieve k (map snd l)) <= 1.
  Proof. intros L. rewrite level_candidates by exact L. destruct (find _ l) as [[k' t]|]; [|cbn; lia]. destruct (one_candidate k t) as [-> | ->]; cbn; lia. Qed.
  Lemma levels_length k (ls : list level) : Forall level_ok ls -> length (flat_map (fun l => candidates sieve k (map snd l)) ls) <= length ls.
  Proof. induction 1 as [|l ls L1 L IH]; cbn [flat_map length]; [lia|]. rewrite app_length. pose proof (level_one k l L1). lia. Qed.
  Lemma opens_length k (m : lmeta K V) : Forall level_ok (lm_levels m) ->
    length (leveled_opens sieve k m) <= length (lm_tabs m) + length (lm_levels m).
  Proof.
    intros L. unfold leveled_opens. pose proof (candidates_length k (lm_tabs m)). destruct (existsb _ _); [lia|]. rewrite app_length.
    match goal with |- context [until_first ?p ?l] => pose proof (until_length p l) end. pose proof (levels_length k _ L). lia.
  Qed.

  (** *** The call *)
  Section Call.
    Context (St : strategy K V) (Inv : N -> st_meta St -> Prop) (Comp : st_meta St -> st_meta St -> Prop) (qd : entry -> Prop) (lim : N -> Prop)
            (less : list entry -> list entry -> Prop) (slip : sp K V -> sp K V -> Prop).
    Context (L : laws St Inv Comp qd False lim less slip).
    Context (look : (nat -> bool) -> st_meta St -> K -> res (option sval * list nat)) (opens : st_meta St -> list table) (k : K).
    Context (Look : forall W m (has : nat -> bool), Inv W m -> Forall (t_ok has) (st_tables St m) -> sound sieve k (st_tables St m) ->
      exists o, st_get St has m k = Ok o /\ look has m k = Ok (o, map t_id (opens m))).

    Lemma get_r_ok a s : inv St Inv Comp qd a s -> exists s' v, lsm_step St s (LGet k) = Ok (s', OVal v) /\ (exists a', inv St Inv Comp qd a' s') /\ time s' = time s /\
      (sound sieve k (st_tables St (cur s')) -> get_r St look s k = Ok (s', v, if in_memory s k then [] else map t_id (opens (cur s')))).
    Proof.
      intros I. cbn [lsm_step]. unfold get, get_r.
      assert (M : in_memory s k = match find_version (mem s) k with Some _ => true | None => false end).
      { unfold in_memory. induction (mem s) as [|[k' v] r IH]; cbn; [reflexivity|]. destruct (is_eq (cmp k' k)); [reflexivity|exact IH]. }
      rewrite M. destruct (find_version (mem s) k) as [v|] eqn:F.
      - exists s, (sv_data v). cbn [bind]. eauto 6.
      - destruct (try_replace_ok St Inv Comp qd False lim less slip L a s I) as [[[] _]|(s1 & E & a1 & _ & I1 & _ & _ & _ & _ & Tm & _)]. rewrite E. cbn [bind].
        destruct (lw_get _ _ _ _ _ _ _ _ L _ _ (has St s1) k (iv_inv _ _ _ _ _ _ I1) (iv_has _ _ _ _ _ _ I1)) as (o & Eo & _). rewrite Eo. cbn [bind].
        eexists _, _. split; [reflexivity|]. split; [eauto|]. split; [exact Tm|]. intros So.
        destruct (Look _ _ _ (iv_inv _ _ _ _ _ _ I1) (iv_has _ _ _ _ _ _ I1) So) as (o' & Eo' & El). rewrite Eo in Eo'. injection Eo' as <-.
        rewrite El. reflexivity.
    Qed.
  End Call.
End LsmRead.

Section Claims.
  Context {K V : Type} `{CmpLaws K} {Z : Sizes K V} (Ksize : forall k k' : K, cmp k k' = Eq -> ksize k = ksize k').
  Context (sieve : nat -> K -> bool).

  Lemma leveled_step (cfg : lconfig) (ops : list (lsm_op K V)) s outs k :
    limits_positive cfg (N.of_nat (length ops)) -> well_used sp_new ops -> run (lsm_step (leveled cfg)) (lsm_new (leveled cfg)) ops = Ok (s, outs) ->
    exists s' v, lsm_step (leveled cfg) s (LGet k) = Ok (s', OVal v) /\ Forall level_ok (lm_levels (cur s')) /\
      (sound sieve k (lv_tables (cur s')) ->
       get_r (leveled cfg) (lv_get_r sieve) s k = Ok (s', v, if in_memory s k then [] else map t_id (leveled_opens sieve k (cur s')))).
  Proof.
    intros Li W E. destruct (total_run (leveled cfg) (vinv cfg) lcomp (fun _ => True) (llim cfg) shrink (leveled_laws cfg) Ksize ops (limits_lim _ _ Li) W (covered_all ops))
      as (s0 & outs0 & E0 & _ & I & _). rewrite E in E0. injection E0 as <- <-.
    destruct (get_r_ok sieve (leveled cfg) (vinv cfg) lcomp (fun _ => True) (llim cfg) shrink eq (leveled_laws cfg) (lv_get_r sieve) (leveled_opens sieve k) k) with (a := sp_after ops) (s := s)
      as (s' & v & Es & (a' & I') & _ & Eg); auto.
    - intros W0 m has Iv Ho So. apply lv_get_r_ok; auto; apply Iv.
    - exists s', v. split; [exact Es|]. split; [exact (vi_ok _ _ _ (iv_inv _ _ _ _ _ _ I'))|exact Eg].
  Qed.
  Theorem leveled_lookup (cfg : lconfig) (ops : list (lsm_op K V)) s outs k :
    limits_positive cfg (N.of_nat (length ops)) -> well_used sp_new ops -> run (lsm_step (leveled cfg)) (lsm_new (leveled cfg)) ops = Ok (s, outs) ->
    exists s' v, lsm_step (leveled cfg) s (LGet k) = Ok (s', OVal v) /\
      (sound sieve k (lv_tables (cur s')) ->
       get_r (leveled cfg) (lv_get_r sieve) s k = Ok (s', v, if in_memory s k then [] else map t_id (leveled_opens sieve k (cur s')))).
  Proof. intros Li W E. destruct (leveled_step cfg ops s outs k Li W E) as (s' & v & E1 & _ & E2). eauto. Qed.
  Theorem leveled_reads (cfg : lconfig) (ops : list (lsm_op K V)) s outs k s' v ids :
    limits_positive cfg (N.of_nat (length ops)) -> well_used sp_new ops -> run (lsm_step (leveled cfg)) (lsm_new (leveled cfg)) ops = Ok (s, outs) ->
    sound sieve k (lv_tables (cur s')) -> get_r (leveled cfg) (lv_get_r sieve) s k = Ok (s', v, ids) -> lsm_step (leveled cfg) s (LGet k) = Ok (s', OVal v) ->
    length ids <= length (lm_tabs (cur s')) + length (lm_levels (cur s')).
  Proof.
    intros Li W E So G Es. destruct (leveled_step cfg ops s outs k Li W E) as (s1 & v1 & E1 & Lv & E2). rewrite Es in E1. injection E1 as <- <-.
    rewrite (E2 So) in G. injection G as <-. match goal with |- length (if ?b then _ else _) <= _ => destruct b end; [apply Nat.le_0_l|]. rewrite map_length. now apply opens_length.
  Qed.
  Theorem leveled_reads_few (cfg : lconfig) (ops : list (lsm_op K V)) s outs k s' v ids :
    (1 <= lc_initial cfg)%N -> (2 <= lc_growth cfg)%N -> (lc_initial cfg * lc_growth cfg ^ (N.log2 (N.of_nat (S (length ops))) + 1) < 2 ^ 64)%N ->
    well_used sp_new ops -> run (lsm_step (leveled cfg)) (lsm_new (leveled cfg)) ops = Ok (s, outs) ->
    sound sieve k (lv_tables (cur s')) -> get_r (leveled cfg) (lv_get_r sieve) s k = Ok (s', v, ids) -> lsm_step (leveled cfg) s (LGet k) = Ok (s', OVal v) ->
    (N.of_nat (length ids) <= N.of_nat (length (lm_tabs (cur s'))) + N.log2 (N.of_nat (S (length ops))) + 2)%N.
  Proof.
    intros L1 L2 Lt W E So G Es. assert (Ll : length (ops ++ [LGet (V := V) k]) = S (length ops)) by (rewrite app_length; cbn; lia).
    assert (R : run (lsm_step (leveled cfg)) (lsm_new (leveled cfg)) (ops ++ [LGet k]) = Ok (s', outs ++ [OVal v])).
    { eapply run_app_ok; [exact E|]. cbn [run]. rewrite Es. reflexivity. }
    assert (Wu : well_used sp_new (ops ++ [LGet (V := V) k])) by (apply used_last; auto).
    assert (Lt' : (lc_initial cfg * lc_growth cfg ^ (N.log2 (N.of_nat (length (ops ++ [LGet (V := V) k]))) + 1) < 2 ^ 64)%N) by (rewrite Ll; exact Lt).
    pose proof (levels_few cfg Ksize _ _ _ L1 L2 Lt' Wu R) as Fw. rewrite Ll in Fw.
    pose proof (limits_log _ _ L1 L2 Lt') as Lp. rewrite Ll in Lp.
    assert (Li : limits_positive cfg (N.of_nat (length ops))).
    { intros i Hi. apply Lp. intros j Hj. specialize (Hi j Hj). lia. }
    pose proof (leveled_reads cfg ops s outs k s' v ids Li W E So G Es) as B. remember (length (lm_levels (cur s'))) as a eqn:Ea.
    assert (Fw' : (N.of_nat a <= N.log2 (N.of_nat (S (length ops))) + 2)%N) by (rewrite Ea; exact Fw). lia.
  Qed.

  Theorem tiered_lookup (cfg : sconfig) (ops : list (lsm_op K V)) s outs k :
    well_used sp_new ops -> run (lsm_step (size_tiered cfg)) (lsm_new (size_tiered cfg)) ops = Ok (s, outs) ->
    exists s' v, lsm_step (size_tiered cfg) s (LGet k) = Ok (s', OVal v) /\
      (sound sieve k (cur s') -> get_r (size_tiered cfg) (sz_get_r sieve) s k = Ok (s', v, if in_memory s k then [] else map t_id (candidates sieve k (cur s')))).
  Proof.
    intros W E. destruct (loose_run (size_tiered cfg) zinv (fun _ _ => True) (allows (inserted ops)) (fun _ => True) loose (revived (inserted ops))
      (loose_laws _ (inserted_key ops) cfg) Ksize ops Logic.I W) as (s0 & outs0 & a & E0 & _ & I & _).
    { eapply Forall_impl; [|apply inserted_all]. intros o. apply allows_covered. apply inserted_key. }
    rewrite E in E0. injection E0 as <- <-.
    destruct (get_r_ok sieve (size_tiered cfg) zinv (fun _ _ => True) (allows (inserted ops)) (fun _ => True) loose (revived (inserted ops)) (loose_laws _ (inserted_key ops) cfg)
      (sz_get_r sieve) (candidates sieve k) k) with (a := a) (s := s) as (s' & v & Es & _ & _ & Eg); eauto.
    intros W0 m has Iv Ho So. destruct (newest_r_ok sieve has k m None (zi_tabs _ _ Iv) Ho So) as (o & E1 & E2 & _). eauto.
  Qed.
End Claims.
