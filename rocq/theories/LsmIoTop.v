(** LsmIoProofs.v for the two strategies; a map whose lock count was left raised starts no compaction. *)
From Verif Require Import ListLemmas.
From Verif Require Export LsmIoProofs LsmClaims SizeTieredClaims SizeTieredLoose.

Section Leveled.
  Context {K V : Type} `{CmpLaws K} {Z : Sizes K V} (cfg : lconfig) (Ksize : forall k k' : K, cmp k k' = Eq -> ksize k = ksize k').
  Lemma leveled_persists n : limits_positive cfg (N.of_nat n) -> persists (leveled (K := K) (V := V) cfg) any_call eq n io_new (lsm_new (leveled cfg)).
  Proof.
    intros Li. apply (persist_new (leveled cfg) (vinv cfg) lcomp (fun _ => True) (llim cfg) shrink eq (leveled_laws cfg) Ksize); [intros; apply covered_one|]. now apply limits_lim.
  Qed.
End Leveled.
Section Tiered.
  Context {K V : Type} `{CmpLaws K} {Z : Sizes K V} (cfg : sconfig) (Ksize : forall k k' : K, cmp k k' = Eq -> ksize k = ksize k').
  Lemma tiered_persists n : persists (size_tiered (K := K) (V := V) cfg) no_removal eq n io_new (lsm_new (size_tiered cfg)).
  Proof.
    apply (persist_new (size_tiered cfg) zinv zcomp (fun e : K * sval V => has_data e = true) (fun _ => True) shrink eq (size_tiered_laws cfg) Ksize); auto using removal_covered.
  Qed.
  Lemma tiered_persists_loosely (P : K -> V -> Prop) n : (forall k k' v, cmp k k' = Eq -> P k v -> P k' v) ->
    persists (size_tiered (K := K) (V := V) cfg) (inserts_only P) (revived P) n io_new (lsm_new (size_tiered cfg)).
  Proof.
    intros Pk. pose proof (loose_laws P Pk cfg) as L. apply (persist_new (size_tiered cfg) zinv _ _ _ _ _ L Ksize); auto. intros o. now apply allows_covered.
  Qed.
End Tiered.

(** *** Nothing is compacted while an iterator is kept *)
Section Stuck.
  Context {K V : Type} `{Cmp K} {Z : Sizes K V} (St : strategy K V) (took : bool).
  Notation state := (lsm K V (st_meta St)).
  Notation io := (@io K V St).
  Definition held (s : state) (i : nat) : Prop := exists it, nth_error (iters s) i = Some (Some it).
  Lemma held_locked s i : held s i -> locked St s = true.
  Proof. intros (it & E). apply existsb_exists. exists (Some it). split; [now apply nth_error_In in E|reflexivity]. Qed.
  Definition kept (s s' : state) : Prop := (exists l, iters s' = iters s ++ l) /\ (thr s = TIdle -> locked St s = true -> thr s' = TIdle).
  Lemma kept_refl s : kept s s.
  Proof. split; [exists []; now rewrite app_nil_r|auto]. Qed.
  Lemma kept_same s s' : iters s' = iters s -> thr s' = thr s -> kept s s'.
  Proof. intros E1 E2. split; [exists []; now rewrite app_nil_r|]. rewrite E2. auto. Qed.
  Lemma kept_trans s s1 s2 : kept s s1 -> kept s1 s2 -> kept s s2.
  Proof.
    intros [(l1 & E1) T1] [(l2 & E2) T2]. split; [exists (l1 ++ l2); now rewrite E2, E1, app_assoc|]. intros T Lk. apply T2; [auto|].
    unfold locked in *. now rewrite E1, existsb_app, Lk.
  Qed.
  Lemma kept_held s s' i : kept s s' -> held s i -> thr s = TIdle -> held s' i /\ thr s' = TIdle.
  Proof.
    intros [(l & E) T] Hi Ti. split; [|apply T; [exact Ti|now apply (held_locked s i)]]. destruct Hi as (it & Ei). exists it. rewrite E, nth_error_app1; [exact Ei|]. apply nth_error_Some. congruence.
  Qed.
  Definition keeps {A} (st : A -> state) (s : state) (x : res (io A)) : Prop :=
    match x with Ok (Went _ a) => kept s (st a) | Ok (Failed s') => kept s s' | _ => True end.
  Lemma keeps_attempt {A} (st : A -> state) s n f go : kept s f -> (forall n, keeps st s (go n)) -> keeps st s (attempt St n f go).
  Proof. intros Kf Kg. destruct n as [[|n]|]; cbn [attempt]; [exact Kf|apply Kg|apply Kg]. Qed.
  Lemma keeps_then {A B} (st : A -> state) (st' : B -> state) s x f : keeps st s x -> (forall n a, keeps st' (st a) (f n a)) -> keeps st' s (and_then St x f).
  Proof.
    intros Kx Kf. unfold and_then. destruct x as [[n a|s1]| |]; cbn [bind keeps] in *; auto. specialize (Kf n a). destruct (f n a) as [[n' b|s1]| |]; cbn [keeps] in *; auto; eapply kept_trans; eauto.
  Qed.
  Lemma keeps_pure {A B} (st : B -> state) s (x : res A) f : (forall a, x = Ok a -> keeps st s (f a)) -> keeps st s (bind x f).
  Proof. destruct x; cbn [bind]; [auto|reflexivity|reflexivity]. Qed.
  Notation id := (fun s : state => s).

  Lemma replace_keeps n s : keeps id s (replace_io St took n s).
  Proof.
    unfold replace_io. destruct (nxt s) as [m|]; [|apply kept_refl]. cbv zeta. apply keeps_pure. intros [es [n1|]] _; [|now apply kept_same].
    apply keeps_attempt; [now apply kept_same|]. intros n2. now apply kept_same.
  Qed.
  Lemma compact_keeps n s : keeps id s (compact_io St took n s).
  Proof.
    unfold compact_io. apply keeps_attempt; [now apply kept_same|]. intros n1. apply keeps_attempt; [now apply kept_same|]. intros n2. apply keeps_pure. intros t _. cbv zeta.
    apply keeps_attempt; [now apply kept_same|]. intros n3. set (s1 := mkLsm [] 0 _ _ _ _ _ _ _ _). destruct (busy St s1 || locked St s1) eqn:B; [now apply kept_same|].
    apply orb_false_iff in B. destruct B as [_ B]. unfold and_then. pose proof (replace_keeps n3 s1) as R. destruct (replace_io St took n3 s1) as [[n4 s4|s4]| |]; cbn [bind keeps] in *; auto.
    - destruct R as [(l & E) T]. split; [exists l; destruct (st_due St (cur s4)); exact E|]. intros _ Lk. change (locked St s) with (locked St s1) in Lk. congruence.
  Qed.
  Lemma join_keeps s s' : join St s = Ok s' -> kept s s'.
  Proof.
    unfold join. destruct (joinable s); [|intros E; injection E as <-; apply kept_refl]. destruct (thr s) eqn:Th; cbn [bind].
    - intros E. injection E as <-. split; [exists []; now rewrite app_nil_r|auto].
    - unfold work. destruct (st_compact St _ _ _) as [[m' fr]| |]; cbn [bind]; try discriminate; intros E; injection E as <-; (split; [exists []; now rewrite app_nil_r|congruence]).
    - intros E. injection E as <-. split; [exists []; now rewrite app_nil_r|congruence].
    - intros E. injection E as <-. split; [exists []; now rewrite app_nil_r|auto].
  Qed.
  Lemma flush_keeps n s : keeps id s (flush_io St took n s).
  Proof.
    unfold flush_io. apply (keeps_then id); [destruct (mem s); [apply kept_refl|apply compact_keeps]|]. intros n1 s1. destruct (joinable s1); [|apply kept_refl].
    apply keeps_pure. intros s2 E. apply join_keeps in E. pose proof (replace_keeps n1 s2) as R. destruct (replace_io St took n1 s2) as [[n4 s4|s4]| |]; cbn [keeps] in *; auto; eapply kept_trans; eauto.
  Qed.
  Lemma write_keeps n s k d : keeps id s (write_io St took n s k d).
  Proof.
    unfold write_io. cbv zeta. apply keeps_attempt; [now apply kept_same|]. intros n1. apply keeps_pure. intros u _. destruct (_ <? _)%N; [|now apply kept_same].
    set (s1 := mkLsm _ _ _ _ _ _ _ _ _ _). pose proof (compact_keeps n1 s1) as R. destruct (compact_io St took n1 s1) as [[n4 s4|s4]| |]; cbn [keeps] in *; auto; (eapply kept_trans; [|exact R]; now apply kept_same).
  Qed.
  Lemma get_keeps n s k : keeps fst s (get_io St took n s k).
  Proof.
    unfold get_io. destruct (find_version (mem s) k); [apply kept_refl|]. apply (keeps_then id); [apply replace_keeps|]. intros n1 s1. apply keeps_attempt; [apply kept_refl|].
    intros n2. apply keeps_pure. intros o _. apply kept_refl.
  Qed.
  Lemma hint_keeps n s : keeps fst s (hint_io St took n s).
  Proof. unfold hint_io. apply (keeps_then id); [apply replace_keeps|]. intros n1 s1. apply keeps_pure. intros o _. apply kept_refl. Qed.
  Lemma iter_keeps n s : keeps fst s (iter_io St took n s).
  Proof.
    unfold iter_io. apply (keeps_then id); [apply replace_keeps|]. intros n1 s1. apply keeps_attempt; [split; [eexists; reflexivity|auto]|]. intros n2. apply keeps_pure. intros o _. apply kept_refl.
  Qed.
  Lemma all_keeps n s : keeps fst s (all_io St took n s).
  Proof.
    unfold all_io. apply (keeps_then id); [apply flush_keeps|]. intros n1 s1. apply (keeps_then fst); [apply iter_keeps|]. intros n2 [s2 it]. apply keeps_pure. intros o _. apply kept_refl.
  Qed.
  Lemma min_keeps n s : keeps fst s (min_io St took n s).
  Proof.
    unfold min_io. cbv zeta. apply (keeps_then fst); [apply iter_keeps|]. intros n2 [s2 it]. apply keeps_attempt; [apply kept_refl|]. intros n3. apply keeps_pure. intros [b r] _. apply kept_refl.
  Qed.
  Lemma max_keeps n s : keeps fst s (max_io St took n s).
  Proof. unfold max_io. cbv zeta. apply (keeps_then fst); [apply iter_keeps|]. intros n2 [s2 it]. apply keeps_pure. intros o _. apply kept_refl. Qed.
  Lemma clear_keeps n s : keeps id s (clear_io St took n s).
  Proof.
    unfold clear_io. apply keeps_pure. intros s1 E. apply join_keeps in E. cbv zeta.
    assert (X : forall es, kept s (mkLsm [] (usage s1) (time s1) (st_new St) None (thr s1) (joinable s1) (iters s1) (fresh s1) (log s1 ++ es))) by (intros es; eapply kept_trans; [exact E|now apply kept_same]).
    apply keeps_attempt; [apply X|]. intros n1. apply keeps_pure. intros [es [n2|]] _; [|apply X]. apply keeps_attempt; [apply X|]. intros n3. apply X.
  Qed.
  Lemma iteropen_keeps n s : keeps (fun x => set_iters St (fst x) (iters (fst x) ++ [Some (snd x)])) s (and_then St (flush_io St took n s) (iter_io St took)).
  Proof.
    unfold and_then. pose proof (flush_keeps n s) as F. destruct (flush_io St took n s) as [[n1 s1|s1]| |]; cbn [bind keeps] in *; auto.
    pose proof (iter_keeps n1 s1) as R. destruct (iter_io St took n1 s1) as [[n2 [s2 it]|s2]| |]; cbn [keeps fst snd] in *; auto; [|eapply kept_trans; eauto].
    eapply kept_trans; [exact F|]. eapply kept_trans; [exact R|]. split; [eexists; reflexivity|auto].
  Qed.
  Lemma list_set_ne {A} (l : list A) : forall i j x, i <> j -> nth_error (list_set l j x) i = nth_error l i.
  Proof. induction l as [|y l IH]; intros [|i] [|j] x Ne; cbn; auto; congruence. Qed.
  Lemma list_set_open {A} (l : list (option A)) : forall i j x y, nth_error l i = Some (Some x) -> exists z, nth_error (list_set l j (Some y)) i = Some (Some z).
  Proof. induction l as [|o l IH]; intros [|i] [|j] x y E; cbn in *; try discriminate; eauto. Qed.

  Definition harmless (i : nat) (o : lsm_op K V) : Prop := o <> LReopen /\ o <> LIterDrop i.
  Lemma call_held n s o s' r i : held s i -> thr s = TIdle -> harmless i o -> call_io St took n s o = Ok (s', r) -> held s' i /\ thr s' = TIdle.
  Proof.
    intros Hi Ti [N1 N2] E.
    assert (G : forall A (st : A -> state) (x : res (io A)) f, (forall a, fst (f a) = st a) -> keeps st s x -> finish St x f = Ok (s', r) -> held s' i /\ thr s' = TIdle).
    { intros A st x f Fs Kx Ex. apply (kept_held s); auto. unfold finish in Ex. destruct x as [[n1 a|s1]| |]; cbn [bind keeps] in *; try discriminate; [|now injection Ex as <- _].
      specialize (Fs a). destruct (f a) as [s1 r1]. cbn in Fs. injection Ex as <- _. now rewrite Fs. }
    destruct o; cbn [call_io] in E;
      try (now (eapply (G _ id); [|apply write_keeps|exact E])); try (now (eapply (G _ id); [|apply flush_keeps|exact E])); try (now (eapply (G _ id); [|apply clear_keeps|exact E])).
    - eapply (G _ fst _ _); [|apply get_keeps|exact E]. now intros [].
    - eapply (G _ fst _ _); [|apply get_keeps|exact E]. now intros [].
    - eapply (G _ fst _ _); [|apply all_keeps|exact E]. now intros [].
    - eapply (G _ fst _ _); [|apply all_keeps|exact E]. now intros [].
    - eapply (G _ fst _ _); [|apply hint_keeps|exact E]. now intros [].
    - eapply (G _ fst _ _); [|apply min_keeps|exact E]. now intros [].
    - eapply (G _ fst _ _); [|apply max_keeps|exact E]. now intros [].
    - eapply (G _ fst _ _); [|apply all_keeps|exact E]. now intros [].
    - eapply (G _ _ _ _); [|apply iteropen_keeps|exact E]. now intros [].
    - cbn [lsm_step] in E. destruct (nth_error (iters s) i0) as [[it|]|] eqn:Ei; cbn [bind] in E; try (injection E as <- _; auto).
      destruct (live_next (has St s) it) as [[e it']| |]; cbn [bind] in E; try discriminate. injection E as <- _. split; [|exact Ti]. destruct Hi as (x & Ex). exact (list_set_open _ _ _ _ _ Ex).
    - cbn in E. injection E as <- _. split; [|exact Ti]. destruct Hi as (x & Ex). exists x. cbn. rewrite list_set_ne; [exact Ex|congruence].
    - congruence.
    - cbn [lsm_step] in E. rewrite Ti in E. cbn in E. injection E as <- _. auto.
    - cbn [lsm_step] in E. rewrite Ti in E. cbn in E. injection E as <- _. auto.
    - cbn [lsm_step] in E. rewrite Ti in E. cbn in E. injection E as <- _. auto.
    - cbn [lsm_step] in E. rewrite Ti in E. cbn in E. injection E as <- _. auto.
  Qed.
End Stuck.
Lemma stuck {K V : Type} `{Cmp K} {Z : Sizes K V} (St : strategy K V) i calls : forall (s : lsm K V (st_meta St)) s' outs, held St s i -> thr s = TIdle -> Forall (fun c => harmless i (fst c)) calls ->
  run (io_step St) s calls = Ok (s', outs) -> thr s' = TIdle.
Proof.
  induction calls as [|[o f] calls IH]; intros s s' outs Hi Ti F E; cbn [run] in E; [now injection E as <- _|]. inversion F; subst.
  destruct (io_step St s (o, f)) as [[s1 r]| |] eqn:Es; cbn [bind] in E; try discriminate. destruct (run (io_step St) s1 calls) as [[s2 rs]| |] eqn:R; cbn [bind] in E; try discriminate. injection E as <- _.
  assert (X : held St s1 i /\ thr s1 = TIdle). { destruct f as [[n took]|]; cbn [io_step] in Es; eapply call_held; eauto. }
  destruct X as [X1 X2]. eapply IH; eauto.
Qed.
