(** Programs over several [SkipMap]s whose generators start at the same state: C70. *)
From Verif Require Export SkipProgCostProofs TreapSeedProofs.
Notation tags := SkipCostProofs.tags.

Lemma skip_seeded_plain {K V} `{Cmp K} (f : nat -> N) (ops : list (prog_op K V)) : forall rs g, exists ps, length ps = length ops /\
  outputs (skip_seeded_step f) (rs, g) ops = outputs skip_prog_step_c rs (combine ops ps).
Proof.
  induction ops as [|o ops IH]; intros rs g; [now exists []|].
  set (p := match o with POp i _ => f (g i) | _ => 0%N end).
  destruct (skip_prog_step_c rs (o, p)) as [[rs1 out]| |] eqn:E.
  - destruct (IH rs1 (skip_generators g o)) as (ps & L & X). exists (p :: ps). split; [simpl; now rewrite L|].
    unfold outputs in *. cbn [combine run skip_seeded_step]. fold p. rewrite E. cbn [bind].
    destruct (run (skip_seeded_step f) (rs1, skip_generators g o) ops) as [[? ?]| |], (run skip_prog_step_c rs1 (combine ops ps)) as [[? ?]| |]; cbn [rmap bind snd] in *; congruence.
  - exists (p :: repeat 0%N (length ops)). split; [simpl; now rewrite repeat_length|]. unfold outputs. cbn [combine run skip_seeded_step]. fold p. now rewrite E.
  - exists (p :: repeat 0%N (length ops)). split; [simpl; now rewrite repeat_length|]. unfold outputs. cbn [combine run skip_seeded_step]. fold p. now rewrite E.
Qed.
Lemma skip_seeded_right (K V : Type) (C : Cmp K) (L : CmpLaws K) (f : nat -> N) (ops : list (prog_op K V)) : prog_allowed (fun _ => []) ops ->
  rmap (map fst) (outputs (skip_seeded_step f) skip_seeded ops) = Ok (prog_spec_outputs ops).
Proof.
  intros Al. destruct (skip_seeded_plain f ops (fun _ => skip_new) (fun _ => 0)) as (ps & Lp & E). unfold skip_seeded. rewrite E.
  destruct (SkipProgCostProofs.prog_run_c ps ops ps 0 (fun _ => []) (fun _ => skip_new) (fun _ => [])) as (rs' & outs & E1 & E2 & _); auto.
  - intros u. exists []. split; [apply skip_at_new|auto].
  - unfold outputs. rewrite E1. cbn [rmap bind snd]. now rewrite E2.
Qed.

(** ** A map whose nodes all have the same height is searched node by node. *)
Section Flat.
  Context {K V : Type} `{CmpLaws K}.
  Notation item := (sitem (K * V)).
  Lemma tall_flat h s l : Forall (fun x => x = h) l -> s <= h -> tall s l = length l.
  Proof. intros F L. induction F as [|x l -> F IH]; [reflexivity|]. rewrite tall_cons, IH, (proj2 (Nat.leb_le s h) L). reflexivity. Qed.
  Lemma run_flat h l : Forall (fun x => x = h) l -> run_at h l = length l.
  Proof. induction 1 as [|x l -> F IH]; [reflexivity|]. cbn [run_at]. now rewrite Nat.ltb_irrefl, Nat.eqb_refl, IH. Qed.
  Lemma first_flat h i (X : list item) : Forall (fun x => ht x = h) X -> h < i -> first_or i X None = None.
  Proof. intros F L. destruct (first_or_in i X None) as [E|(y & iy & _ & Ly)]; [exact E|]. rewrite Forall_forall in F. rewrite (F y iy) in Ly. lia. Qed.

  Lemma find_flat hp0 (X : list item) g Lo M Hi (k : K) h : sk_ok hp0 X g -> X = Lo ++ M ++ Hi -> lt_all k Lo -> eq_opt k M -> gt_all k Hi ->
    Forall (fun x => ht x = h) X ->
    forall i c w, i <= 32 -> start i c w Lo -> h < i \/ length Lo <= w -> forall r n, find_loop_c i hp0 c k = Ok (r, n) -> length Lo <= n.
  Proof.
    intros HO EX HL HM HH F.
    assert (FL : Forall (fun x => x = h) (rev (map ht Lo))) by (apply Forall_rev, Forall_map; rewrite EX in F; now apply Forall_app in F as [F _]).
    assert (FR : Forall (fun x => ht x = h) (M ++ Hi)) by (rewrite EX in F; now apply Forall_app in F as [_ F]).
    induction i as [|i IH]; intros c w Li Hs Q r n; cbn [find_loop_c];
      rewrite (walk_c_good hp0 X g _ (fun z => is_lt (cmp z k)) Lo (M ++ Hi) c w HO EX Li Hs HL (not_lt_rest k M Hi HM HH)); cbn [bind].
    - destruct Q as [Q|Q]; [lia|]. destruct (match first_or 0 (M ++ Hi) None with Some _ => _ | None => _ end) as [[y|]| |]; try discriminate;
        cbn [bind]; intros E; injection E as _ <-; lia.
    - destruct Q as [Q|Q].
      + rewrite (first_flat h (S i) _ FR Q). cbn [bind]. destruct (find_loop_c i hp0 _ k) as [[r' c']| |] eqn:E'; try discriminate. cbn [bind].
        intros E. injection E as _ <-. assert (length Lo <= c'); [|lia]. refine (IH _ _ _ (start_next i Lo) _ _ _ E'); [lia|].
        destruct (Nat.eq_dec h i) as [<-|N]; [right|left; lia]. now rewrite (run_flat h _ FL), rev_length, map_length.
      + destruct (match first_or (S i) (M ++ Hi) None with Some _ => _ | None => _ end) as [[y|]| |]; try discriminate; cbn [bind]; [intros E; injection E as _ <-; lia|].
        destruct (find_loop_c i hp0 _ k) as [[r' c']| |]; try discriminate. cbn [bind]. intros E. injection E as _ <-. lia.
  Qed.
  Lemma skip_find_flat m (X : list item) (k : K) h r n : sk_at m X -> Forall (fun x => snd x = h) (tags X) -> skip_find_c m k = Ok (r, n) ->
    length (below k (tags X)) <= n.
  Proof.
    intros (g & HO & Sl & Ln) F E. destruct (split_items X k Sl) as (Lo & M & Hi & EX & E1 & E2 & E3 & HL & HM & HH).
    destruct (tags_parts k Lo M Hi HL HM HH) as (T1 & _). rewrite <- EX in T1. rewrite T1. unfold tags at 1. rewrite map_length.
    unfold tags in F. rewrite Forall_map in F. cbn [snd] in F.
    refine (find_flat _ X g Lo M Hi k h HO EX HL HM HH F _ _ _ (starting_height_le _) (or_introl (conj eq_refl eq_refl)) _ _ _ E).
    destruct (Nat.le_gt_cases (starting_height (sk_len m)) h) as [Q|Q]; [right|now left]. rewrite (tall_flat h), map_length; auto.
    apply Forall_map. rewrite EX in F. now apply Forall_app in F as [F _].
  Qed.
End Flat.

(** ** Maps with one key each, joined one after the other *)
Notation flats h n := (map (fun k : nat => (k, h)) (seq 0 n)).
Lemma flats_union {W} (h : W) n : spec_union (flats h n) [(n, h)] = flats h (S n).
Proof.
  rewrite seq_S, map_app. cbn [map Nat.add]. unfold spec_union. assert (G : forall len a, a + len <= n ->
    fold_right insert_pair [(n, h)] (map (fun k => (k, h)) (seq a len)) = map (fun k => (k, h)) (seq a len) ++ [(n, h)]); [|now apply G].
  induction len as [|len IH]; intros a L; [reflexivity|]. cbn [seq map fold_right]. rewrite IH by lia. unfold insert_pair. cbn [fst].
  destruct (above_all a (map (fun k => (k, h)) (seq (S a) len) ++ [(n, h)])) as [B1 B2].
  - intros x. rewrite in_app_iff, in_map_iff. intros [(y & <- & X)|[<-|[]]]; [apply in_seq in X|]; simpl; lia.
  - now rewrite B1, B2.
Qed.

Lemma skip_joins_run (f : nat -> N) n : exists rs g outs X, run (skip_seeded_step f) skip_seeded (joins n) = Ok ((rs, g), outs) /\
  sk_at (rs 0) X /\ tags X = flats (height_of (f 0)) n /\ rs 1 = skip_new /\ g 1 = 0.
Proof.
  induction n as [|n IH].
  - exists (fun _ => skip_new), (fun _ => 0), [], []. repeat split. apply skip_at_new.
  - destruct IH as (rs & g & outs & X & E & A & T & E1 & Eg). rewrite joins_S.
    destruct (skip_step_c_ok (skip_new : skip_map nat unit) [] (MInsert n tt) (f 0) skip_at_new) as (m1 & X1 & c1 & Q1 & A1 & _ & T1 & _).
    cbn [put_step tags map below above filter app] in T1.
    destruct (skip_set_c_ok SUnion (rs 0) m1 X X1 A A1 I) as (hl & hr & m2 & Y & c2 & Q2 & A2 & _ & T2 & _).
    assert (R : run (skip_seeded_step f) (rs, g) [POp 1 (MInsert n tt); PSet SUnion 0 0 1] =
      Ok ((update (update (update (update rs 1 m1) 0 skip_new) 1 skip_new) 0 m2, update (update (update (update g 1 1) 0 0) 1 0) 0 0), [(RPair None, c1); (RUnit, c2)])).
    { cbn [run skip_seeded_step skip_prog_step_c]. rewrite E1, Eg, Q1. cbn [bind skip_seeded_step skip_prog_step_c skip_generators].
      change (update rs 1 m1 0) with (rs 0). change (update (update rs 1 m1) 0 skip_new 1) with m1. rewrite Q2, Eg. reflexivity. }
    eexists _, _, _, Y. split; [exact (run_app_ok _ _ _ _ _ _ _ _ E R)|]. split; [exact A2|]. split; [|split; reflexivity].
    rewrite T2, T, T1. apply flats_union.
Qed.

Lemma joins_keys n : let st := fst (spec_run prog_spec_step (fun _ => []) (joins n)) in st 0 = flats tt n /\ st 1 = [].
Proof.
  cbv zeta. induction n as [|n [IH0 IH1]]; [now split|]. rewrite joins_S, spec_run_app. set (st := fst (spec_run prog_spec_step (fun _ => []) (joins n))) in *.
  cbn [spec_run prog_spec_step map_spec_step fst]. rewrite IH1. cbn [at_key below above filter hd_error app fst].
  split; [|reflexivity]. change (spec_set SUnion (st 0) [(n, tt)] = flats tt (S n)). rewrite IH0. apply flats_union.
Qed.

Lemma skip_seeded_slow (f : nat -> N) (n : nat) : exists (ops : list (prog_op nat unit)) outs out steps,
  outputs (skip_seeded_step f) skip_seeded (ops ++ [POp 0 (MGet n)]) = Ok (outs ++ [(out, steps)]) /\
  prog_allowed (fun _ => []) ops /\ length (fst (spec_run prog_spec_step (fun _ => []) ops) 0) = S n /\ n <= steps.
Proof.
  destruct (skip_joins_run f (S n)) as (rs & g & outs & X & E & A & T & _ & _).
  destruct (skip_step_c_ok (rs 0) X (MGet n) (f (g 0)) A) as (m' & X' & c & Q & _). eexists (joins (S n)), outs, _, c. split; [|split; [|split]].
  - apply (outputs_app _ _ _ _ _ _ _ E). unfold outputs. cbn [run skip_seeded_step skip_prog_step_c]. rewrite Q. reflexivity.
  - unfold joins. generalize (seq 0 (S n)), (fun _ : nat => @nil (nat * unit)). intros l. induction l as [|k l IH]; intros st; [exact I|].
    cbn [flat_map app prog_allowed set_allowed]. repeat (split; [exact I|]). apply IH.
  - destruct (joins_keys (S n)) as [-> _]. now rewrite map_length, seq_length.
  - unfold skip_step_c in Q. cbn [fst snd] in Q. destruct (skip_find_c (rs 0) n) as [[r c']| |] eqn:Ef; try discriminate. cbn [bind] in Q.
    destruct (skip_step (rs 0) _) as [[m2 o2]| |]; try discriminate. cbn [bind] in Q. injection Q as _ _ ->.
    pose proof (skip_find_flat (rs 0) X n (height_of (f 0)) r c A) as L. rewrite T in L.
    destruct (parts_less n (flats (height_of (f 0)) n) [(n, height_of (f 0))]) as (P1 & _).
    + intros x ix. apply in_map_iff in ix as (j & <- & ix). apply in_seq in ix. simpl. lia.
    + intros x [<-|[]]. simpl. lia.
    + rewrite seq_S, map_app in L. cbn [map Nat.add] in L. rewrite P1, map_length, seq_length in L. apply L; [|exact Ef].
      apply Forall_forall. intros x ix. apply in_app_iff in ix as [ix|[<-|[]]]; [|reflexivity]. apply in_map_iff in ix as (j & <- & _). reflexivity.
Qed.
