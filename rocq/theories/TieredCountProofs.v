(** How many tables a map with [SizeTieredStrategy] keeps *)
From Verif Require Import ListLemmas OrdLemmas RunLemmas.
From Verif Require Export TieredCountSpec SizeTieredLoose LeveledShapeSpec.

Section Groups.
  Context {K V : Type} `{CmpLaws K} {Z : Sizes K V} (cfg : sconfig).
  Notation table := (table K V).

  Fixpoint rising (prev : N) (l : list table) : Prop := match l with [] => True | t :: r => (prev <= t_size t)%N /\ rising (t_size t) r end.
  Lemma rising_le a b l : (a <= b)%N -> rising b l -> rising a l.
  Proof. destruct l as [|t r]; cbn; [auto|]. intros L [X Y]. split; [lia|exact Y]. Qed.
  Lemma insert_rising t l : forall a, (a <= t_size t)%N -> rising a l -> rising a (size_insert t l).
  Proof.
    induction l as [|x r IH]; intros a L R; cbn [size_insert]; [now repeat split|]. destruct R as [R1 R2]. destruct (t_size t <=? t_size x)%N eqn:E.
    - apply N.leb_le in E. repeat split; auto.
    - apply N.leb_gt in E. split; [exact R1|]. apply IH; [lia|exact R2].
  Qed.
  Lemma by_size_rising (l : list table) : rising 0 (by_size l).
  Proof. induction l as [|t r IH]; [exact Logic.I|]. cbn [by_size fold_right]. apply insert_rising; [lia|exact IH]. Qed.

  Context (p q : N) (Gr : grows p q (sc_in_bucket cfg)).
  Lemma groups (top : N) (ts : list table) : forall start curr first sum prev, start <= curr -> rising prev ts -> (prev <= top)%N -> Forall (fun t => (t_size t <= top)%N) ts ->
    match first with
    | None => curr = start /\ sum = 0%N
    | Some f => start < curr /\ (f <= prev)%N /\ (f * N.of_nat (curr - start) <= sum)%N /\ (sum <= prev * N.of_nat (curr - start))%N
    end -> find_range cfg start curr first sum ts = None ->
    exists G, curr - start + length ts <= sc_max_count cfg * G /\ (curr - start + length ts = 0 -> G = 0) /\
      (1 <= G -> (match first, ts with Some f, _ => f | None, t :: _ => t_size t | None, [] => 0 end * p ^ N.of_nat (G - 1) <= top * q ^ N.of_nat (G - 1))%N) /\
      (2 <= G -> ((sc_min_size cfg + 1) * p ^ N.of_nat (G - 2) <= top * q ^ N.of_nat (G - 2))%N).
  Proof.
    induction ts as [|t r IH]; intros start curr first sum prev Le Ri Lt Ft Fi E; cbn [find_range] in E.
    - destruct (sc_max_count cfg <? curr - start) eqn:X; [discriminate|]. apply Nat.ltb_ge in X. cbn [length]. rewrite Nat.add_0_r.
      destruct first as [f|].
      + exists 1. split; [lia|]. split; [lia|]. split; [|lia]. intros _. cbn. lia.
      + exists 0. destruct Fi as [-> _]. split; [lia|]. split; [auto|]. split; lia.
    - cbn [rising] in Ri. destruct Ri as [R1 R2]. apply Forall_cons_iff in Ft. destruct Ft as [F1 F2]. set (size := t_size t) in *.
      set (f := match first with Some f => f | None => size end) in *.
      assert (Bd : (f <= size)%N /\ (f * N.of_nat (curr - start + 1) <= sum + size)%N /\ (sum + size <= size * N.of_nat (curr - start + 1))%N).
      { destruct first as [f0|]; unfold f.
        - destruct Fi as (F0 & G1 & G2 & G3). split; [lia|]. rewrite Nat2N.inj_add. nia.
        - destruct Fi as [-> ->]. rewrite Nat.sub_diag. cbn. lia. }
      destruct Bd as (B1 & B2 & B3).
      assert (Hf : match first with Some f => f | None => size end = f) by reflexivity.
      destruct ((size <=? sc_min_size cfg)%N || _) eqn:Fit.
      + destruct (IH start (S curr) (Some f) (sum + size)%N size) as (G & G1 & G2 & G3 & G4); auto; [replace (S curr - start) with (curr - start + 1) by lia; repeat split; auto; lia|].
        exists G. cbn [length]. split; [lia|]. split; [lia|]. split; [|exact G4]. exact G3.
      + apply orb_false_iff in Fit. destruct Fit as [M1 M2]. apply N.leb_gt in M1.
        destruct (sc_max_count cfg <? S curr - start) eqn:X; [discriminate|]. apply Nat.ltb_ge in X.
        destruct (IH (S curr) (S curr) None 0%N size) as (G & G1 & G2 & G3 & G4); auto.
        pose proof (Gr f size (sum + size)%N (curr - start + 1) ltac:(lia) B1 B2 B3 M2) as Pq. rewrite Nat.sub_diag in *. cbn [Nat.add] in *.
        exists (S G). cbn [length]. split; [lia|]. split; [lia|]. change (match first with Some f => f | None => size end) with f.
        assert (Nx : 1 <= G -> exists t' r', r = t' :: r' /\ (size <= t_size t')%N).
        { intros L. destruct r as [|t' r']; [specialize (G2 eq_refl); lia|]. exists t', r'. split; [reflexivity|apply R2]. }
        split.
        * intros _. replace (S G - 1) with G by lia. destruct G as [|G]; [cbn; lia|]. destruct (Nx ltac:(lia)) as (t' & r' & -> & L').
          specialize (G3 ltac:(lia)). replace (S G - 1) with G in G3 by lia. rewrite Nat2N.inj_succ, !N.pow_succ_r'.
          set (a := (p ^ N.of_nat G)%N) in *. set (b := (q ^ N.of_nat G)%N) in *.
          transitivity (q * (t_size t' * a))%N; [|transitivity (q * (top * b))%N; [now apply N.mul_le_mono_l|lia]].
          replace (f * (p * a))%N with (p * f * a)%N by lia. replace (q * (t_size t' * a))%N with (q * t_size t' * a)%N by lia. apply N.mul_le_mono_r. nia.
        * intros L. destruct (Nx ltac:(lia)) as (t' & r' & -> & L'). specialize (G3 ltac:(lia)). replace (S G - 2) with (G - 1) by lia. nia.
  Qed.
  Theorem tiered_count (ts : list table) top : Forall (fun t => (t_size t <= top)%N) ts -> compaction_range cfg ts = None ->
    exists G, length ts <= sc_max_count cfg * G /\ (2 <= G -> ((sc_min_size cfg + 1) * p ^ N.of_nat (G - 2) <= top * q ^ N.of_nat (G - 2))%N).
  Proof.
    intros F E. destruct (groups top (by_size ts) 0 0 None 0%N 0%N) as (G & G1 & _ & _ & G4); auto.
    - apply by_size_rising.
    - lia.
    - rewrite (by_size_perm ts). exact F.
    - exists G. split; [|exact G4]. rewrite <- (Permutation_length (by_size_perm ts)). cbn in G1. lia.
  Qed.
End Groups.

Section Flush.
  Context {K V : Type} `{CmpLaws K} {Z : Sizes K V} (cfg : sconfig).
  Context (P : K -> V -> Prop) (Pk : forall k k' v, cmp k k' = Eq -> P k v -> P k' v).
  Notation St := (size_tiered cfg).
  Notation table := (table K V).
  Notation entry := (K * sval V)%type.
  Notation inv := (inv St zinv (fun _ _ => True) (allows P)).
  Notation L := (loose_laws P Pk cfg).
  Notation cont := (cont St).
  Notation tm e := (sv_time (snd e)).

  Lemma find_range_big (ts : list table) : forall start curr first sum a b, find_range cfg start curr first sum ts = Some (a, b) -> sc_max_count cfg < b - a.
  Proof.
    induction ts as [|t r IH]; intros start curr first sum a b E; cbn [find_range] in E.
    - destruct (sc_max_count cfg <? curr - start) eqn:X; [|discriminate]. injection E as <- <-. now apply Nat.ltb_lt.
    - destruct (_ || _); [eauto|]. destruct (sc_max_count cfg <? S curr - start) eqn:X; [|eauto]. injection E as <- <-. now apply Nat.ltb_lt.
  Qed.
  Lemma compact_shorter has id (ts m' : list table) id' : sz_compact cfg has id ts = Ok (m', id') -> length m' + sc_max_count cfg <= length ts.
  Proof.
    unfold sz_compact. destruct (compaction_range cfg ts) as [[a b]|] eqn:R; [|discriminate]. intros E.
    pose proof (find_range_big _ _ _ _ _ _ _ R) as Bg. pose proof (find_range_le cfg _ 0 0 None 0%N a b (le_n _) R) as [Lab Lb]. cbn in Lb.
    rewrite (Permutation_length (by_size_perm ts)) in Lb. pose proof (Permutation_length (by_size_perm ts)) as Pl.
    assert (Rl : length (firstn a (by_size ts) ++ skipn b (by_size ts)) + (b - a) = length ts) by (rewrite app_length, firstn_length, skipn_length; lia).
    unfold merge_range in E. cbn [fst snd] in E. set (rest := firstn a (by_size ts) ++ skipn b (by_size ts)) in *.
    destruct (merge_tables _ _) as [es| |]; try discriminate. cbn [bind] in E. destruct (tb_range _).
    - destruct (tb_flush _) as [t| |]; try discriminate. cbn [bind] in E. injection E as <- _. rewrite app_length. cbn. lia.
    - injection E as <- _. lia.
  Qed.
  Lemma flush_count a s s' : inv a s -> jn St s -> calm s -> nxt s = None -> ends_in_insertion s -> flush St s = Ok s' ->
    calm s' /\ nxt s' = None /\ (length (cur s') + sc_max_count cfg <= S (length (cur s)) \/ cur s' <> [] /\ compaction_range cfg (cur s') = None).
  Proof.
    intros I J [Ct Ci] N0 (e & Je & De' & Me) E.
    assert (De : has_data e = true) by (unfold has_data; destruct (sv_data (snd e)); congruence).
    assert (Cb : busy St s = false) by (unfold busy; now rewrite Ct).
    assert (Cl : locked St s = false).
    { unfold locked. destruct (existsb _ (iters s)) eqn:X; [|reflexivity]. apply existsb_exists in X. destruct X as (o & Jo & Q). now rewrite (Ci _ Jo) in Q. }
    unfold flush in E.
    assert (Ne : mem s <> []) by (intros X; now rewrite X in Je).
    replace (match mem s with [] => Ok s | _ => try_compact St s end) with (try_compact St s) in E by (destruct (mem s); [congruence|reflexivity]).
    unfold try_compact in E. destruct (tb_build_ok (fresh s) (length (mem s)) (mem s) Ne (iv_mem _ _ _ _ _ _ I)) as (t & Et & Ot & Es & It). rewrite Et in E. cbn [bind] in E.
    destruct (push_ok _ _ _ _ _ _ _ _ L a s t I Ne Ot Es It) as [I1 _]. set (s1 := mkLsm _ _ _ _ _ _ _ _ _ _) in *.
    change (busy St s1) with (busy St s) in E. change (locked St s1) with (locked St s) in E. rewrite Cb, Cl in E. cbn [orb] in E.
    assert (E2 : try_replace St s1 = Ok s1) by (unfold try_replace; change (nxt s1) with (nxt s); now rewrite N0). rewrite E2 in E. cbn [bind] in E.
    assert (Cu : cur s1 = cur s ++ [t]) by reflexivity.
    assert (La : latest (cont (cur s1)) e).
    { split; [apply (cont_push _ _ _ _ _ _ _ _ L); left; now rewrite Es|]. intros e' J' _. apply (cont_push _ _ _ _ _ _ _ _ L) in J'. destruct J' as [J'|J'].
      - rewrite Es in J'. now apply Me.
      - pose proof (iv_newer _ _ _ _ _ _ I e e' Je J'). lia. }
    assert (Bound : forall x, In x (cont (cur s1)) -> (tm x <= tm e)%N).
    { intros e' J'. apply (cont_push _ _ _ _ _ _ _ _ L) in J'. destruct J' as [J'|J'].
      - rewrite Es in J'. now apply Me.
      - pose proof (iv_newer _ _ _ _ _ _ I e e' Je J'). lia. }
    destruct (st_due St (cur s1)) eqn:D.
    - pose proof (set_join_inv _ _ _ _ a _ true (set_thr_inv _ _ _ _ a s1 (TRun (cur s1)) I1 (or_intror (or_intror (or_intror (conj eq_refl (conj N0 (conj D (unlocked_idle _ _ _ _ _ _ I1 Cl))))))))) as I3.
      cbn [mem usage time cur nxt thr joinable iters fresh log set_thr] in I3. set (s3 := mkLsm (mem s1) _ _ _ _ _ _ _ _ _) in *.
      change (joinable s3) with true in E. cbn iota in E. unfold join in E. change (joinable s3) with true in E. change (thr s3) with (TRun (cur s1)) in E. cbn iota in E.
      destruct (thread_ok _ _ _ _ _ _ _ _ L a s3 (cur s1) I3 eq_refl Logic.I) as [[[] _]|([m' fr] & Ec & _ & _ & Im & Sh & _)].
      unfold work in E. rewrite Ec in E. cbn [bind] in E. unfold try_replace, unjoin in E. cbn [mem usage time cur nxt thr joinable iters fresh log] in E.
      destruct (remove_dirs _ _) as [es| |]; try discriminate. cbn [bind] in E. injection E as <-. cbn [cur].
      split; [split; [reflexivity|exact Ci]|]. split; [reflexivity|]. left.
      change (cur s3) with (cur s1). cbn [st_replace size_tiered]. unfold sz_replace.
      pose proof (compact_shorter _ _ _ _ _ Ec) as Sl. rewrite Cu, app_length in Sl. cbn [length] in Sl.
      assert (Jm : In e (cont m')). { destruct Sh as [S1 S2]. destruct (S2 _ La) as [Jx|[Dx _]]; [exact Jx|congruence]. }
      destruct (newest_spec m' (zi_tabs _ _ Im) e Jm) as (x & Ex & Lx). rewrite Ex. rewrite app_length.
      rewrite filter_none; [cbn [length]; lia|]. intros u Ju. apply N.ltb_ge.
      pose proof (zi_tabs _ _ (iv_inv _ _ _ _ _ _ I1)) as Tk. rewrite Forall_forall in Tk. destruct (ta_last _ (Tk _ Ju)) as (y & Jy & <-).
      assert (Jc : In y (cont (cur s1))) by (apply in_run; eauto). pose proof (Bound y Jc). lia.
    - assert (X : s' = unjoin St s1 \/ s' = s1).
      { destruct (joinable s1) eqn:Jb; [|injection E as <-; now right]. left. unfold join in E. rewrite Jb in E. change (thr s1) with (thr s) in E. rewrite Ct in E. cbn [bind] in E.
        unfold try_replace in E. change (nxt (unjoin St s1)) with (nxt s) in E. rewrite N0 in E. now injection E as <-. }
      assert (Q : cur s' = cur s1 /\ thr s' = thr s /\ nxt s' = nxt s /\ iters s' = iters s) by (destruct X as [-> | ->]; repeat split).
      destruct Q as (Q1 & Q2 & Q3 & Q4). rewrite Q1, Q3. split; [split; [congruence|rewrite Q4; exact Ci]|]. split; [exact N0|]. right. split.
      + rewrite Cu. now destruct (cur s).
      + cbn [st_due size_tiered] in D. destruct (compaction_range cfg (cur s1)); [discriminate|reflexivity].
  Qed.
End Flush.

Section Calls.
  Context {K V : Type} `{CmpLaws K} {Z : Sizes K V} (cfg : sconfig).
  Notation St := (size_tiered cfg).
  Context (Ksize : forall k k' : K, cmp k k' = Eq -> ksize k = ksize k').
  Theorem tiered_flush (ops : list (lsm_op K V)) s outs s' out :
    well_used sp_new ops -> run (lsm_step St) (lsm_new St) ops = Ok (s, outs) ->
    calm s -> nxt s = None -> ends_in_insertion s -> lsm_step St s LFlush = Ok (s', out) ->
    calm s' /\ nxt s' = None /\ (length (cur s') + sc_max_count cfg <= S (length (cur s)) \/ cur s' <> [] /\ compaction_range cfg (cur s') = None).
  Proof.
    intros W E Cm Nx Ew E'. destruct (loose_run St zinv (fun _ _ => True) (allows (inserted ops)) (fun _ => True) loose (revived (inserted ops))
      (loose_laws _ (inserted_key ops) cfg) Ksize ops Logic.I W) as (s0 & outs0 & a & E0 & _ & I & J & _).
    { eapply Forall_impl; [|apply inserted_all]. intros o. apply allows_covered. apply inserted_key. }
    rewrite E in E0. injection E0 as <- <-. cbn [lsm_step] in E'. destruct (flush St s) as [s1| |] eqn:F; try discriminate. cbn [bind] in E'. injection E' as <- _.
    eapply (flush_count cfg (inserted ops) (inserted_key ops) a s); eauto.
  Qed.
End Calls.
