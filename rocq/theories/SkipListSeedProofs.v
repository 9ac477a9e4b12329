(** Programs over several [SkipList]s whose generators start at the same state: C71. *)
From Verif Require Export SkipListProgCostProofs SkipSeedProofs.

Lemma slist_seeded_plain {T} (f : nat -> N) (ops : list (sprog_op T)) : forall rs g, exists ps, length ps = length ops /\
  outputs (slist_seeded_step f) (rs, g) ops = outputs slist_prog_step_c rs (combine ops ps).
Proof.
  induction ops as [|o ops IH]; intros rs g; [now exists []|].
  set (p := match o with QPOp i _ => f (g i) | _ => 0%N end).
  destruct (slist_prog_step_c rs (o, p)) as [[rs1 out]| |] eqn:E.
  - destruct (IH rs1 (slist_generators rs g o)) as (ps & L & X). exists (p :: ps). split; [simpl; now rewrite L|].
    unfold outputs in *. cbn [combine run slist_seeded_step]. fold p. rewrite E. cbn [bind].
    destruct (run (slist_seeded_step f) (rs1, slist_generators rs g o) ops) as [[? ?]| |], (run slist_prog_step_c rs1 (combine ops ps)) as [[? ?]| |]; cbn [rmap bind snd] in *; congruence.
  - exists (p :: repeat 0%N (length ops)). split; [simpl; now rewrite repeat_length|]. unfold outputs. cbn [combine run slist_seeded_step]. fold p. now rewrite E.
  - exists (p :: repeat 0%N (length ops)). split; [simpl; now rewrite repeat_length|]. unfold outputs. cbn [combine run slist_seeded_step]. fold p. now rewrite E.
Qed.
Lemma slist_seeded_right (T : Type) (f : nat -> N) (ops : list (sprog_op T)) : joins_fresh (fun _ => []) (fun _ => false) ops = true ->
  rmap (map fst) (outputs (slist_seeded_step f) slist_seeded ops) = Ok (sprog_spec_outputs ops).
Proof.
  intros Al. destruct (slist_seeded_plain f ops (fun _ => slist_new) (fun _ => 0)) as (ps & Lp & E). unfold slist_seeded. rewrite E.
  destruct (slist_prog_run_c ps ops ps 0 (fun _ => false) (fun _ => []) (fun _ => slist_new) (fun _ => [])) as (rs' & outs & E1 & E2 & _); auto using slrel_new.
  unfold outputs. rewrite E1. cbn [rmap bind snd]. now rewrite E2.
Qed.

(** ** A list whose nodes all have the same height is searched node by node. *)
Section Flat.
  Context {T : Type}.
  Lemma lfind_flat h (X : list (sitem T)) g e P Y (c : nat) : srep h X g -> (forall j, j <= 32 -> links_ok g j (e j) 0 X) -> X = P ++ Y ->
    Forall (fun x => ht x = c) X -> forall i, c <= i <= 32 -> forall r n, lfind_loop_c i h (last_at (S i) 0 P) (gap_at (S i) 0 P) = Ok (r, n) -> length P <= n.
  Proof.
    intros Rp HL EX F.
    assert (FP : Forall (fun x => x = c) (rev (hs P))) by (apply Forall_rev; unfold hs; apply Forall_map; rewrite EX in F; now apply Forall_app in F as [F _]).
    assert (B : forall r n, lfind_loop_c c h (last_at (S c) 0 P) (gap_at (S c) 0 P) = Ok (r, n) -> c <= 32 -> length P <= n).
    { intros r n E Lc. destruct (lfind_loop_c_count h X g e P Y 0 Rp HL EX (or_introl eq_refl) c Lc) as (n' & E' & L & _). rewrite Nat.add_0_r, E in E'. cbn in E'. injection E' as <-.
      rewrite (run_flat c _ FP), rev_length, hs_length in L. lia. }
    induction i as [|i IH]; intros Li r n E; [replace c with 0 in B by lia; now apply (B r n)|].
    destruct (Nat.eq_dec c (S i)) as [->|Nc]; [apply (B r n E); lia|].
    cbn [lfind_loop_c] in E. pose proof (srep_length _ _ _ Rp) as Hl.
    pose proof (lwalk_c_level h X g (S i) (e (S i)) P Y 0 ltac:(lia) Rp) as W. rewrite <- EX, !Nat.add_0_r in W. rewrite W in E; auto using incl_refl.
    2: { rewrite EX, app_length in Hl. lia. }
    2: { apply HL. lia. }
    cbn [bind] in E. clear W.
    assert (Lw : low (S i) Y) by (intros y iy; rewrite Forall_forall in F; rewrite (F y); [lia|]; rewrite EX; apply in_app_iff; auto).
    pose proof (HL (S i) ltac:(lia)) as L. rewrite EX in L. rewrite (links_last _ _ _ _ _ L), (first_low _ _ _ Lw) in E. cbn [fst] in E.
    destruct (lfind_loop_c i h _ _) as [[r' c']| |] eqn:E'; try discriminate. cbn [bind] in E. injection E as <- <-.
    specialize (IH ltac:(lia) _ _ eq_refl). lia.
  Qed.
  Lemma find_32 (m : skip_list T) k : slist_find_c m k = lfind_loop_c 32 (sl_heap m) 0 k.
  Proof. reflexivity. Qed.
  Lemma get_c (m : skip_list T) k d : slist_step_c m (QGet k, d) = let* (_, c) := slist_find_c m k in let* (m, out) := slist_step m (QGet k, d) in Ok (m, (out, c)).
  Proof. reflexivity. Qed.
  Lemma slist_find_flat w m (X : list (sitem T)) (k c : nat) r n : sl_at w m X -> Forall (fun x => x = c) (hs X) -> k <= length X -> c <= 32 -> slist_find_c m k = Ok (r, n) -> k <= n.
  Proof.
    intros (g & e & (Rp & _ & HL) & Ln & _) F Lk Lc E. rewrite find_32 in E.
    assert (EP : length (firstn k X) = k) by (apply firstn_length_le; auto).
    assert (IP : incl (firstn k X) X) by (rewrite <- (firstn_skipn k X) at 2; intros x Hx; apply in_app_iff; auto).
    destruct (top_start _ _ _ (firstn k X) (length (firstn k X)) Rp IP eq_refl) as [T1 T2].
    assert (Q : forall a b, a = 0 -> b = k -> lfind_loop_c 32 (sl_heap m) a b = Ok (r, n)) by (intros a b -> ->; exact E). clear E.
    assert (E := Q _ _ T1 (eq_trans T2 EP)). clear Q. rewrite <- EP.
    apply Forall_map in F. refine (lfind_flat _ X g e (firstn k X) (skipn k X) c Rp HL _ F 32 _ r n E); [now rewrite firstn_skipn|lia].
  Qed.
  Lemma bind2 {A B D} (a : res (A * nat)) (b : res (B * D)) x y n : (let* (_, c) := a in let* (m, out) := b in Ok (m, (out, c))) = Ok (x, (y, n)) -> exists r, a = Ok (r, n).
  Proof. destruct a as [[r c]| |]; try discriminate. destruct b as [[? ?]| |]; try discriminate. cbn. intros E. injection E as _ _ ->. now exists r. Qed.
  Lemma get_flat w m (X : list (sitem T)) (k : nat) d (c : nat) m' out n : sl_at w m X -> hs X = repeat c (S k) -> c <= 32 ->
    slist_step_c m (QGet k, d) = Ok (m', (out, n)) -> k <= n.
  Proof.
    intros A Hx Lc Q. rewrite get_c in Q. apply bind2 in Q as [r Ef].
    assert (Lx : length X = S k) by (rewrite <- (hs_length X), Hx; apply repeat_length).
    refine (slist_find_flat w m X k c r n A _ _ Lc Ef); [|lia].
    rewrite Hx. apply Forall_forall. intros x ix. now apply repeat_spec in ix.
  Qed.
End Flat.

(** ** Lists with one element each, joined one after the other *)
Lemma slist_joins_run (f : nat -> N) n : exists rs g outs X, run (slist_seeded_step f) slist_seeded (ljoins n) = Ok ((rs, g), outs) /\
  sl_at false (rs 0) X /\ hs X = repeat (height_of (f 0)) n /\ rs 1 = slist_new /\ g 1 = 0.
Proof.
  induction n as [|n IH].
  - exists (fun _ => slist_new), (fun _ => 0), [], []. repeat split. apply slist_at_new.
  - destruct IH as (rs & g & outs & X & E & A & Hx & E1 & Eg). rewrite ljoins_S.
    destruct (slist_step_c_ok false (slist_new : skip_list unit) [] (QPushBack tt) (f 0) slist_at_new) as (m1 & X1 & c1 & Q1 & A1 & _ & H1 & _).
    destruct (slist_add_c_ok _ _ (rs 0) m1 X X1 A A1 (or_introl eq_refl)) as (m2 & Y' & Q2 & A2 & _ & H2).
    assert (R : run (slist_seeded_step f) (rs, g) [QPOp 1 (QPushBack tt); QPAdd 0 0 1] =
      Ok ((update (update (update (update rs 1 m1) 0 slist_new) 1 slist_new) 0 m2, update (update (update (update g 1 1) 0 0) 1 0) 0 (g 0)),
          [(QDone (Ok tt), c1); (QDone (Ok tt), 66 + passes 32 (rev (hs X)))])).
    { cbn [run slist_seeded_step slist_prog_step_c]. rewrite E1, Eg, Q1. cbn [bind slist_seeded_step slist_prog_step_c slist_generators].
      change (update rs 1 m1 0) with (rs 0). change (update (update rs 1 m1) 0 slist_new 1) with m1. rewrite Q2, Eg. reflexivity. }
    eexists _, _, _, (X ++ Y'). split; [exact (run_app_ok _ _ _ _ _ _ _ _ E R)|]. split; [exact A2|]. split; [|split; reflexivity].
    unfold hs in *. rewrite map_app, Hx, H2, H1. cbn [retag seq_spec_step fst map app]. now rewrite <- repeat_cons.
Qed.

Lemma slist_seeded_slow (f : nat -> N) (n : nat) : exists (ops : list (sprog_op unit)) outs out steps,
  outputs (slist_seeded_step f) slist_seeded (ops ++ [QPOp 0 (QGet n)]) = Ok (outs ++ [(out, steps)]) /\
  joins_fresh (fun _ => []) (fun _ => false) ops = true /\ length (fst (spec_run sprog_spec_step (fun _ => []) ops) 0) = S n /\ n <= steps.
Proof.
  destruct (slist_joins_run f (S n)) as (rs & g & outs & X & E & A & Hx & _ & _).
  destruct (slist_step_c_ok false (rs 0) X (QGet n) (f (g 0)) A) as (m' & X' & c & Q & _). eexists (ljoins (S n)), outs, _, c. split; [|split; [|split]].
  - apply (outputs_app _ _ _ _ _ _ _ E). unfold outputs. cbn [run slist_seeded_step slist_prog_step_c]. rewrite Q. reflexivity.
  - unfold ljoins. assert (G : forall l (st : nat -> list unit) (ws : nat -> bool), ws 0 = false -> ws 1 = false ->
      joins_fresh st ws (flat_map (fun _ : nat => [QPOp 1 (QPushBack tt); QPAdd 0 0 1]) l) = true); [|now apply G].
    induction l as [|k l IH]; intros st ws W0 W1; [reflexivity|]. cbn [flat_map app joins_fresh worn_after]. cbv zeta.
    change (update ws 1 (ws 1) 0) with (ws 0). rewrite W0. cbn [negb orb andb]. apply IH; [|reflexivity]. cbn. now rewrite W1.
  - apply ljoins_length.
  - apply (get_flat false (rs 0) X n (f (g 0)) (height_of (f 0)) _ _ _ A) with (3 := Q); [|apply height_of_le].
    exact Hx.
Qed.
