(** A map that returned an [Err] behaves like one with another log: the lemmas behind LsmIoProofs.v. *)
From Verif Require Import ListLemmas OrdLemmas.
From Verif Require Export LsmMapProofs LsmIoSpec.

Section Patch.
  Context {K V : Type} `{Cmp K} {Z : Sizes K V} (St : strategy K V).
  Notation meta := (st_meta St).
  Notation state := (lsm K V meta).
  Notation eff := (effect meta).
  Definition patch (s : state) (l : list eff) (u : N) : state :=
    mkLsm (mem s) u (time s) (cur s) (nxt s) (thr s) (joinable s) (iters s) (fresh s) l.
  Definition same (l l' : list eff) : Prop := d_dirs (disk_of l) = d_dirs (disk_of l').
  Definition same_meta (l l' : list eff) : Prop := d_meta (disk_of l) = d_meta (disk_of l').
  Definition same_time (l l' : list eff) : Prop := d_time (disk_of l) = d_time (disk_of l').
  Definition is_time (e : eff) : bool := match e with ETime _ => true | _ => false end.

  Lemma same_app l l' es : same l l' -> same (l ++ es) (l' ++ es).
  Proof.
    unfold same. rewrite !disk_app. generalize (disk_of l) (disk_of l'). induction es as [|e es IH]; intros d d' E; [exact E|].
    cbn [fold_left]. apply IH. destruct e; cbn; congruence.
  Qed.
  Lemma meta_app l l' es : same_meta l l' -> same_meta (l ++ es) (l' ++ es).
  Proof.
    unfold same_meta. rewrite !disk_app. generalize (disk_of l) (disk_of l'). induction es as [|e es IH]; intros d d' E; [exact E|].
    cbn [fold_left]. apply IH. destruct e; cbn; congruence.
  Qed.
  Lemma time_app l l' es : same_time l l' -> same_time (l ++ es) (l' ++ es).
  Proof.
    unfold same_time. rewrite !disk_app. generalize (disk_of l) (disk_of l'). induction es as [|e es IH]; intros d d' E; [exact E|].
    cbn [fold_left]. apply IH. destruct e; cbn; congruence.
  Qed.
  Lemma meta_set l l' es : existsb is_meta es = true -> same_meta (l ++ es) (l' ++ es).
  Proof.
    intros E. apply existsb_exists in E. destruct E as (e & J & E). apply in_split in J. destruct J as (p & q & ->). destruct e; try discriminate.
    change (p ++ EMeta m :: q) with (p ++ [EMeta m] ++ q). rewrite !app_assoc. apply meta_app. unfold same_meta. rewrite !disk_app. reflexivity.
  Qed.
  Lemma time_set l l' es : existsb is_time es = true -> same_time (l ++ es) (l' ++ es).
  Proof.
    intros E. apply existsb_exists in E. destruct E as (e & J & E). apply in_split in J. destruct J as (p & q & ->). destruct e; try discriminate.
    change (p ++ ETime t :: q) with (p ++ [ETime t] ++ q). rewrite !app_assoc. apply time_app. unfold same_time. rewrite !disk_app. reflexivity.
  Qed.
  Lemma has_same s l u : same (log s) l -> has St (patch s l u) = has St s.
  Proof. intros E. unfold has, has_dir, patch. cbn [log]. unfold same in E. now rewrite E. Qed.
  Lemma has_dir_same l l' : same l l' -> has_dir (disk_of l) = has_dir (disk_of l').
  Proof. intros E. unfold has_dir. unfold same in E. now rewrite E. Qed.
  Lemma remove_same ids : forall (d d' : disk meta), d_dirs d = d_dirs d' -> remove_dirs d ids = remove_dirs d' ids.
  Proof.
    induction ids as [|i ids IH]; intros d d' E; [reflexivity|]. cbn [remove_dirs]. unfold has_dir. rewrite E.
    destruct (existsb _ _); [|reflexivity]. rewrite (IH (apply d (ERemove i)) (apply d' (ERemove i))); [reflexivity|]. cbn. now rewrite E.
  Qed.

  (** *** [y] is what [x] is, with the log [l] and the usage [u] to begin with *)
  Definition mirrored {A} (st : A -> state) (pt : A -> list eff -> N -> A) (P : list eff -> A -> Prop) (s : state) (l : list eff) (u : N) (x y : res A) : Prop :=
    match x with
    | Ok a => exists es u', log (st a) = log s ++ es /\ y = Ok (pt a (l ++ es) u') /\ (u = usage s -> u' = usage (st a)) /\ P es a
    | Panic => y = Panic
    | Timeout => y = Timeout
    end.
  Notation mirrors := (mirrored (fun s => s) patch).
  Definition ppatch {A} (x : state * A) (l : list eff) (u : N) : state * A := (patch (fst x) l u, snd x).
  Notation pmirrors := (mirrored fst ppatch).
  Lemma mirrored_bind {A B} (st : A -> state) pt (st' : B -> state) pt' P Q s l u x y f f' : mirrored st pt P s l u x y -> same (log s) l ->
    (forall a es u', log (st a) = log s ++ es -> same (log (st a)) (l ++ es) -> P es a ->
       mirrored st' pt' (fun es' b => Q (es ++ es') b) (st a) (l ++ es) u' (f a) (f' (pt a (l ++ es) u'))) ->
    mirrored st' pt' Q s l u (bind x f) (bind y f').
  Proof.
    intros M Sm F. destruct x as [a| |]; cbn [mirrored] in M; [|subst y; reflexivity|subst y; reflexivity].
    destruct M as (es & u' & El & -> & U & p). cbn [bind]. assert (Sm' : same (log (st a)) (l ++ es)) by (rewrite El; now apply same_app).
    specialize (F a es u' El Sm' p). destruct (f a) as [b| |]; cbn [mirrored] in *; auto. destruct F as (es' & u2 & El' & -> & U' & q).
    exists (es ++ es'), u2. split; [rewrite El', El; symmetry; apply app_assoc|]. split; [now rewrite app_assoc|]. split; auto.
  Qed.
  Lemma mirrored_ok {A} (st : A -> state) pt (P : _ -> _ -> Prop) s l u a : log (st a) = log s -> usage (st a) = usage s -> P [] a ->
    mirrored st pt P s l u (Ok a) (Ok (pt a l u)).
  Proof. intros El Eu p. exists [], u. rewrite !app_nil_r. split; [exact El|]. split; [reflexivity|]. split; [congruence|exact p]. Qed.
  Lemma mirrored_id (P : _ -> _ -> Prop) s l u : P [] s -> mirrors P s l u (Ok s) (Ok (patch s l u)).
  Proof. intros p. apply (mirrored_ok (fun s => s) patch); auto. Qed.
  (** Something that does not depend on the log *)
  Lemma mirrored_pure {A B} (st : B -> state) (pt : B -> list eff -> N -> B) P s l u (x : res A) f f' : (forall a, x = Ok a -> mirrored st pt P s l u (f a) (f' a)) ->
    mirrored st pt P s l u (bind x f) (bind x f').
  Proof. destruct x; cbn [bind]; [auto|reflexivity|reflexivity]. Qed.
  Lemma mirrored_impl {A} (st : A -> state) pt (P Q : _ -> _ -> Prop) s l u x y : mirrored st pt P s l u x y -> (forall es a, P es a -> Q es a) -> mirrored st pt Q s l u x y.
  Proof. destruct x as [a| |]; cbn [mirrored]; auto. intros (es & u' & E1 & E2 & E3 & p) F. exists es, u'. auto. Qed.

  Lemma replace_mirror s l u : same (log s) l -> mirrors (fun _ s' => mem s' = mem s) s l u (try_replace St s) (try_replace St (patch s l u)).
  Proof.
    intros Sm. unfold try_replace. cbn [patch nxt cur log mem usage time thr joinable iters fresh]. destruct (nxt s) as [m|]; [|now apply mirrored_id].
    rewrite <- (remove_same _ (disk_of (log s)) (disk_of l) Sm). apply mirrored_pure. intros es _.
    exists (es ++ [EMeta (st_replace St (cur s) m)]), u. cbn. auto.
  Qed.
  Lemma compact_mirror s l u : same (log s) l -> mirrors (fun es _ => existsb is_meta es = true) s l u (try_compact St s) (try_compact St (patch s l u)).
  Proof.
    intros Sm. unfold try_compact. cbn [patch nxt cur log mem usage time thr joinable iters fresh]. apply mirrored_pure. intros t _.
    set (m := st_push St (cur s) t). set (s1 := mkLsm [] 0 (time s) m _ _ _ _ _ (log s ++ _)). 
    change (mkLsm [] 0 (time s) m (nxt s) (thr s) (joinable s) (iters s) (S (fresh s)) (l ++ [ETable (t_id t); EMeta m])) with (patch s1 (l ++ [ETable (t_id t); EMeta m]) 0).
    assert (Sm1 : same (log s1) (l ++ [ETable (t_id t); EMeta m])) by now apply same_app.
    change (busy St (patch s1 (l ++ [ETable (t_id t); EMeta m]) 0)) with (busy St s1). change (locked St (patch s1 (l ++ [ETable (t_id t); EMeta m]) 0)) with (locked St s1).
    destruct (busy St s1 || locked St s1).
    - exists [ETable (t_id t); EMeta m], 0%N. split; [reflexivity|]. split; [reflexivity|]. split; reflexivity.
    - assert (M : mirrors (fun _ _ => True) s1 (l ++ [ETable (t_id t); EMeta m]) 0
        (let* s2 := try_replace St s1 in Ok (if st_due St (cur s2) then mkLsm (mem s2) (usage s2) (time s2) (cur s2) (nxt s2) (TRun (cur s2)) true (iters s2) (fresh s2) (log s2) else s2))
        (let* s2 := try_replace St (patch s1 (l ++ [ETable (t_id t); EMeta m]) 0) in Ok (if st_due St (cur s2) then mkLsm (mem s2) (usage s2) (time s2) (cur s2) (nxt s2) (TRun (cur s2)) true (iters s2) (fresh s2) (log s2) else s2))).
      { apply (mirrored_bind (fun s => s) patch _ _ _ _ s1 _ 0 _ _ _ _ (replace_mirror s1 _ 0 Sm1) Sm1). intros s2 es u' El Sm2 _. cbn [patch cur].
        exists [], u'. rewrite !app_nil_r. destruct (st_due St (cur s2)); cbn; auto. }
      destruct (let* s2 := try_replace St s1 in _) as [s3| |]; cbn [mirrored] in M |- *; auto. destruct M as (es & u' & El & -> & U & _).
      exists ([ETable (t_id t); EMeta m] ++ es), u'. split; [rewrite El; unfold s1; cbn [log]; now rewrite <- app_assoc|]. split; [now rewrite <- app_assoc|]. split; [intros _; now apply U|reflexivity].
  Qed.
  Lemma work_mirror s l u m th : same (log s) l -> mirrors (fun _ s' => mem s' = mem s) s l u (work St s m th) (work St (patch s l u) m th).
  Proof.
    intros Sm. unfold work. rewrite (has_same s l u Sm). cbn [patch nxt cur log mem usage time thr joinable iters fresh].
    destruct (st_compact St _ (fresh s) m) as [[m' fr]| |]; [|now apply mirrored_id with (s := mkLsm (mem s) (usage s) (time s) (cur s) (nxt s) TIdle (joinable s) (iters s) (fresh s) (log s))|reflexivity].
    eexists; exists u. cbn. auto.
  Qed.
  Lemma join_mirror s l u : same (log s) l -> mirrors (fun _ s' => mem s' = mem s) s l u (join St s) (join St (patch s l u)).
  Proof.
    intros Sm. unfold join. cbn [patch joinable]. fold (patch s l u). destruct (joinable s); [|now apply mirrored_id].
    eapply (mirrored_bind (fun s => s) patch _ _ (fun _ s' => mem s' = mem s)); [|exact Sm|].
    - cbn [patch thr]. fold (patch s l u). destruct (thr s); [now apply mirrored_id|now apply work_mirror| |now apply mirrored_id].
      exists [], u. rewrite !app_nil_r. cbn. auto.
    - intros s1 es u' El Sm1 E. exists [], u'. rewrite !app_nil_r. cbn. auto.
  Qed.
  Lemma flush_mirror s l u : same (log s) l -> mirrors (fun es _ => mem s = [] \/ existsb is_meta es = true) s l u (flush St s) (flush St (patch s l u)).
  Proof.
    intros Sm. unfold flush. cbn [patch mem]. fold (patch s l u).
    eapply (mirrored_bind (fun s => s) patch _ _ (fun es _ => mem s = [] \/ existsb is_meta es = true)); [|exact Sm|].
    - destruct (mem s) eqn:Em; [apply mirrored_id; auto|]. eapply mirrored_impl; [now apply compact_mirror|]. auto.
    - intros s1 es u1 E1 Sm1 X1. cbn [patch joinable]. fold (patch s1 (l ++ es) u1).
      assert (Y : forall es', mem s = [] \/ existsb is_meta (es ++ es') = true). { intros es'. destruct X1 as [X|X]; [auto|]. rewrite existsb_app, X. auto. }
      destruct (joinable s1).
      + eapply (mirrored_bind (fun s => s) patch); [now apply join_mirror|exact Sm1|]. intros s2 es2 u2 E2 Sm2 X2. eapply mirrored_impl; [now apply replace_mirror|]. intros es3 s3 _. cbn beta. auto.
      + now apply mirrored_id.
  Qed.
  Lemma write_mirror s l k d : same (log s) l ->
    mirrors (fun es s' => existsb is_time es = true /\ (mem s' <> [] \/ existsb is_meta es = true)) s l (usage s) (write St s k d) (write St (patch s l (usage s)) k d).
  Proof.
    intros Sm. unfold write. cbn [patch nxt cur log mem usage time thr joinable iters fresh]. apply mirrored_pure. intros u _. cbv zeta.
    set (v := mkSval d (time s)). set (s1 := mkLsm (bt_insert k v (mem s)) _ _ _ _ _ _ _ _ (log s ++ _)). set (es := [ETime (time s + 1)]).
    change (mkLsm (bt_insert k v (mem s)) _ _ _ _ _ _ _ _ (l ++ _)) with (patch s1 (l ++ es) (usage s1)).
    assert (Sm1 : same (log s1) (l ++ es)) by now apply same_app.
    assert (Ne : mem s1 <> []). { cbn [s1 mem]. destruct (mem s) as [|[k' v'] r]; [discriminate|]. cbn [bt_insert]. destruct (cmp k k'); discriminate. }
    change (usage (patch s1 (l ++ es) (usage s1))) with (usage s1).
    assert (G : forall x y, mirrors (fun es' s' => mem s' <> [] \/ existsb is_meta es' = true) s1 (l ++ es) (usage s1) x y ->
      mirrors (fun es s' => existsb is_time es = true /\ (mem s' <> [] \/ existsb is_meta es = true)) s l (usage s) x y).
    { intros x y M. destruct x as [s2| |]; cbn [mirrored] in M |- *; auto.
      destruct M as (es2 & u2 & E2 & -> & U & X). exists (es ++ es2), u2. split; [rewrite E2; cbn [s1 log]; symmetry; apply app_assoc|].
      split; [now rewrite <- app_assoc|]. split; [auto|]. split; [reflexivity|]. destruct X as [X|X]; [auto|]. rewrite existsb_app, X, orb_true_r. auto. }
    apply G. change (usage s1) with (u + (ksize k + vsize v))%N at 2. cbn [usage]. destruct (st_max_mem St <? u + (ksize k + vsize v))%N; [|apply mirrored_id; auto]. eapply mirrored_impl; [now apply compact_mirror|]. auto.
  Qed.
  Lemma get_mirror s l u k : same (log s) l -> pmirrors (fun _ x => mem (fst x) = mem s) s l u (get St s k) (get St (patch s l u) k).
  Proof.
    intros Sm. unfold get. cbn [patch mem]. fold (patch s l u). destruct (find_version (mem s) k) as [v|].
    - now apply (mirrored_ok fst ppatch _ s l u (s, sv_data v)).
    - eapply (mirrored_bind (fun s => s) patch); [now apply replace_mirror|exact Sm|]. intros s1 es u1 E1 Sm1 Em. rewrite (has_same s1 _ u1 Sm1). cbn [patch cur].
      apply mirrored_pure. intros o _. now apply (mirrored_ok fst ppatch _ s1 _ u1 (s1, match o with Some v => sv_data v | None => None end)).
  Qed.
  Lemma hint_mirror s l u : same (log s) l -> pmirrors (fun _ x => mem (fst x) = mem s) s l u (len_hint St s) (len_hint St (patch s l u)).
  Proof.
    intros Sm. unfold len_hint. eapply (mirrored_bind (fun s => s) patch); [now apply replace_mirror|exact Sm|]. intros s1 es u1 E1 Sm1 Em. cbn [patch cur mem].
    apply mirrored_pure. intros c _. now apply (mirrored_ok fst ppatch _ s1 _ u1 (s1, length (mem s1) + c)).
  Qed.
  Lemma iter_mirror s l u : same (log s) l -> pmirrors (fun _ x => mem (fst x) = mem s) s l u (disk_iter St s) (disk_iter St (patch s l u)).
  Proof.
    intros Sm. unfold disk_iter. eapply (mirrored_bind (fun s => s) patch); [now apply replace_mirror|exact Sm|]. intros s1 es u1 E1 Sm1 Em. rewrite (has_same s1 _ u1 Sm1). cbn [patch cur mem].
    apply mirrored_pure. intros it _. now apply (mirrored_ok fst ppatch _ s1 _ u1 (s1, it)).
  Qed.
  Lemma all_mirror s l u : same (log s) l -> pmirrors (fun es _ => mem s = [] \/ existsb is_meta es = true) s l u (all St s) (all St (patch s l u)).
  Proof.
    intros Sm. unfold all. eapply (mirrored_bind (fun s => s) patch); [now apply flush_mirror|exact Sm|]. intros s1 es u1 E1 Sm1 X1.
    assert (Y : forall es', mem s = [] \/ existsb is_meta (es ++ es') = true). { intros es'. destruct X1 as [X|X]; [auto|]. rewrite existsb_app, X. auto. }
    eapply (mirrored_bind fst ppatch); [now apply iter_mirror|exact Sm1|]. intros [s2 it] es2 u2 E2 Sm2 _. cbn [fst snd ppatch] in *. rewrite (has_same s2 _ u2 Sm2).
    apply mirrored_pure. intros r _. now apply (mirrored_ok fst ppatch _ s2 _ u2 (s2, r)).
  Qed.
  Lemma min_mirror s l u : same (log s) l -> pmirrors (fun _ x => mem (fst x) = mem s) s l u (min St s) (min St (patch s l u)).
  Proof.
    intros Sm. unfold min. cbn [patch mem]. fold (patch s l u). eapply (mirrored_bind fst ppatch); [now apply iter_mirror|exact Sm|]. intros [s2 it] es2 u2 E2 Sm2 Em. cbn [fst snd ppatch] in *.
    rewrite (has_same s2 _ u2 Sm2). apply mirrored_pure. intros [b r] _. now eapply (mirrored_ok fst ppatch _ s2 _ u2 (s2, _)).
  Qed.
  Lemma max_mirror s l u : same (log s) l -> pmirrors (fun _ x => mem (fst x) = mem s) s l u (max St s) (max St (patch s l u)).
  Proof.
    intros Sm. unfold max. cbn [patch mem]. fold (patch s l u). eapply (mirrored_bind fst ppatch); [now apply iter_mirror|exact Sm|]. intros [s2 it] es2 u2 E2 Sm2 Em. cbn [fst snd ppatch] in *.
    rewrite (has_same s2 _ u2 Sm2). apply mirrored_pure. intros r _. now eapply (mirrored_ok fst ppatch _ s2 _ u2 (s2, _)).
  Qed.
  Lemma clear_mirror s l u : same (log s) l -> mirrors (fun es _ => existsb is_meta es = true) s l u (clear St s) (clear St (patch s l u)).
  Proof.
    intros Sm. unfold clear. eapply (mirrored_bind (fun s => s) patch); [now apply join_mirror|exact Sm|]. intros s1 es u1 E1 Sm1 _.
    cbn [patch nxt cur log mem usage time thr joinable iters fresh]. unfold same in Sm1. rewrite <- Sm1. rewrite <- (remove_same _ (disk_of (log s1)) _ Sm1).
    apply mirrored_pure. intros es2 _. exists (es2 ++ [EMeta (st_new St)]), u1. cbn. split; [reflexivity|]. split; [reflexivity|]. split; [auto|].
    rewrite !existsb_app. cbn. now rewrite !orb_true_r.
  Qed.

  (** What a call that returned leaves *)
  Definition left_by (o : lsm_op K V) (s : state) (es : list eff) (x : state * lsm_out K V) : Prop :=
    if writes o then existsb is_time es = true /\ (mem (fst x) <> [] \/ existsb is_meta es = true)
    else if flushes o then mem s = [] \/ existsb is_meta es = true
    else match o with LClear => existsb is_meta es = true | LReopen => True | _ => mem (fst x) = mem s end.
  Lemma step_mirror s l u o : same (log s) l -> (writes o = true -> u = usage s) -> (o = LReopen -> same_meta (log s) l /\ same_time (log s) l) ->
    pmirrors (left_by o s) s l u (lsm_step St s o) (lsm_step St (patch s l u) o).
  Proof.
    intros Sm Wr Re.
    assert (P0 : forall (P : list eff -> state * lsm_out K V -> Prop) (x y : res state) r, mirrors (fun es s' => P es (s', r)) s l u x y -> pmirrors P s l u (let* s1 := x in Ok (s1, r)) (let* s1 := y in Ok (s1, r))).
    { intros P x y r M. eapply (mirrored_bind (fun s => s) patch); [exact M|exact Sm|]. intros s1 es u1 _ _ X. exists [], u1. rewrite !app_nil_r. auto. }
    assert (P1 : forall (P : list eff -> state * lsm_out K V -> Prop) A (x y : res (state * A)) (f : A -> lsm_out K V), pmirrors (fun es z => P es (fst z, f (snd z))) s l u x y ->
      pmirrors P s l u (let* (s1, a) := x in Ok (s1, f a)) (let* (s1, a) := y in Ok (s1, f a))).
    { intros P A x y f M. eapply (mirrored_bind fst ppatch); [exact M|exact Sm|]. intros [s1 a] es u1 _ _ X. exists [], u1. rewrite !app_nil_r. auto. }
    destruct o; cbn [lsm_step]; cbn [writes flushes] in *.
    - rewrite (Wr eq_refl) in *. apply P0. now apply write_mirror.
    - rewrite (Wr eq_refl) in *. apply P0. now apply write_mirror.
    - apply (P1 _ _ _ _ OVal). now apply get_mirror.
    - apply (P1 _ _ _ _ (fun v => OBool match v with Some _ => true | None => false end)). now apply get_mirror.
    - apply (P1 _ _ _ _ (fun l => OLen (length l))). now apply all_mirror.
    - apply (P1 _ _ _ _ (fun l => OBool (length l =? 0))). now apply all_mirror.
    - apply (P1 _ _ _ _ OHint). now apply hint_mirror.
    - apply P0. now apply clear_mirror.
    - apply (P1 _ _ _ _ OKey). now apply min_mirror.
    - apply (P1 _ _ _ _ OKey). now apply max_mirror.
    - apply P0. now apply flush_mirror.
    - apply (P1 _ _ _ _ OList). now apply all_mirror.
    - eapply (mirrored_bind (fun s => s) patch); [now apply flush_mirror|exact Sm|]. intros s1 es u1 E1 Sm1 X1.
      assert (Y : forall es', mem s = [] \/ existsb is_meta (es ++ es') = true). { intros es'. destruct X1 as [X|X]; [auto|]. rewrite existsb_app, X. auto. }
      eapply (mirrored_bind fst ppatch); [now apply iter_mirror|exact Sm1|]. intros [s2 it] es2 u2 E2 Sm2 _. cbn [fst snd ppatch] in *.
      exists [], u2. rewrite !app_nil_r. split; [reflexivity|]. split; [reflexivity|]. split; [auto|]. apply Y.
    - change (iters (patch s l u)) with (iters s). destruct (nth_error (iters s) i) as [[it|]|]; try (now eapply (mirrored_ok fst ppatch _ s l u (s, _))).
      rewrite (has_same s l u Sm). apply mirrored_pure. intros [e it'] _. exists [], u. rewrite !app_nil_r. cbn. auto.
    - exists [], u. rewrite !app_nil_r. cbn. auto.
    - destruct (Re eq_refl) as [Rm Rt]. unfold same, same_meta, same_time in *. unfold lsm_open. cbn [patch log fresh]. rewrite <- Rm, <- Rt. rewrite (has_dir_same _ _ Sm).
      destruct (d_meta (disk_of (log s))) as [m|]; [|reflexivity]. destruct (d_time (disk_of (log s))) as [t|]; [|reflexivity]. cbn [expect bind].
      destruct (forallb _ _); [|reflexivity]. exists [], 0%N. rewrite !app_nil_r. cbn. auto.
    - cbn [patch thr]. fold (patch s l u). destruct (thr s); try (now eapply (mirrored_ok fst ppatch _ s l u (s, _))). apply P0. now apply work_mirror.
    - cbn [patch thr]. fold (patch s l u). destruct (thr s); try (now eapply (mirrored_ok fst ppatch _ s l u (s, _))). exists [], u. rewrite !app_nil_r. cbn. auto.
    - cbn [patch thr]. fold (patch s l u). destruct (thr s); try (now eapply (mirrored_ok fst ppatch _ s l u (s, _))). exists [], u. rewrite !app_nil_r. cbn. auto.
    - cbn [patch thr]. fold (patch s l u). destruct (thr s); try (now eapply (mirrored_ok fst ppatch _ s l u (s, _))). exists [], u. rewrite !app_nil_r. cbn. auto.
  Qed.
End Patch.
