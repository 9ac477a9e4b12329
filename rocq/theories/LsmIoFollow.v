(** A call in which nothing fails before it returns does what it does in LsmMapModel.v. *)
From Verif Require Export LsmIoLemmas.

Section Follow.
  Context {K V : Type} `{Cmp K} {Z : Sizes K V} (St : strategy K V) (took : bool).
  Notation meta := (st_meta St).
  Notation state := (lsm K V meta).
  Notation io := (@io K V St).

  Definition follows {A} (n : option nat) (x : res (io A)) (y : res A) : Prop :=
    match x with
    | Ok (Went n' a) => y = Ok a /\ (n = None -> n' = None)
    | Ok (Failed _) => n <> None
    | Panic => y = Panic
    | Timeout => y = Timeout
    end.
  Lemma follows_ok {A} n (a : A) : follows n (Ok (Went n a)) (Ok a).
  Proof. split; auto. Qed.
  Lemma follows_attempt {A} n s go (y : res A) : (forall n', (n = None -> n' = None) -> follows n' (go n') y) -> follows n (attempt St n s go) y.
  Proof.
    intros F. destruct n as [[|n]|]; cbn [attempt].
    - discriminate.
    - specialize (F (Some n) ltac:(discriminate)). destruct (go (Some n)) as [[n' a|s']| |]; cbn [follows] in *; auto; try discriminate. destruct F. split; [assumption|discriminate].
    - exact (F None (fun x => x)).
  Qed.
  Lemma follows_then {A B} n (x : res (io A)) (y : res A) (f : _ -> _ -> res (io B)) g : follows n x y -> (forall n' a, (n = None -> n' = None) -> y = Ok a -> follows n' (f n' a) (g a)) ->
    follows n (and_then St x f) (bind y g).
  Proof.
    intros X F. unfold and_then. destruct x as [[n' a|s]| |]; cbn [follows bind] in *; try (subst y; reflexivity); [|exact X].
    destruct X as [E N]. specialize (F n' a N E). subst y. cbn [bind]. destruct (f n' a) as [[n2 b|s2]| |]; cbn [follows] in *; auto. destruct F. auto.
  Qed.
  Lemma follows_pure {A B} n (x : res A) (f : A -> res (io B)) g : (forall a, x = Ok a -> follows n (f a) (g a)) -> follows n (bind x f) (bind x g).
  Proof. destruct x; cbn [bind]; [auto|reflexivity|reflexivity]. Qed.

  Lemma remove_follows ids : forall n (d : disk meta), match remove_io St took n d ids with
    | Ok (es, Some n') => remove_dirs d ids = Ok es /\ (n = None -> n' = None)
    | Ok (es, None) => n <> None /\ exists p, es = map ERemove p /\ incl p ids
    | Panic => remove_dirs d ids = Panic
    | Timeout => remove_dirs d ids = Timeout
    end.
  Proof.
    induction ids as [|i ids IH]; intros n d; cbn [remove_io remove_dirs]; [auto|]. destruct (has_dir d i) eqn:Hd; [|reflexivity].
    assert (G : match (let* (es, x) := remove_io St took (option_map pred n) (apply d (ERemove i)) ids in Ok (ERemove i :: es, x)) with
      | Ok (es, Some n') => (let* es := remove_dirs (apply d (ERemove i)) ids in Ok (ERemove i :: es)) = Ok es /\ (n = None -> n' = None)
      | Ok (es, None) => n <> None /\ exists p, es = map ERemove p /\ incl p (i :: ids)
      | Panic => (let* es := remove_dirs (apply d (ERemove i)) ids in Ok (ERemove i :: es)) = Panic
      | Timeout => (let* es := remove_dirs (apply d (ERemove i)) ids in Ok (ERemove i :: es)) = Timeout
      end).
    { specialize (IH (option_map pred n) (apply d (ERemove i))). destruct (remove_io St took _ _ ids) as [[es [n'|]]| |]; cbn [bind].
      - destruct IH as [-> N]. split; [reflexivity|]. intros ->. now apply N.
      - destruct IH as [N (p & -> & Ip)]. split; [intros ->; now apply N|]. exists (i :: p). split; [reflexivity|]. intros j [->|J]; [now left|right; auto].
      - now rewrite IH.
      - now rewrite IH. }
    destruct n as [[|n]|]; [|exact G|exact G]. split; [discriminate|]. unfold maybe. destruct took; [exists [i]; split; [reflexivity|]; intros j [->|[]]; now left|].
    exists []. split; [reflexivity|]. intros j [].
  Qed.

  Lemma replace_follows n s : follows n (replace_io St took n s) (try_replace St s).
  Proof.
    unfold replace_io, try_replace. destruct (nxt s) as [m|]; [|apply follows_ok]. cbv zeta.
    set (gone := filter _ _). pose proof (remove_follows gone n (disk_of (log s))) as X. destruct (remove_io St took n _ gone) as [[es [n'|]]| |]; cbn [bind].
    - destruct X as [-> N]. cbn [bind]. assert (F : follows n' (attempt St n' (mkLsm (mem s) (usage s) (time s) (st_replace St (cur s) m) None (thr s) (joinable s) (iters s) (fresh s)
          (log s ++ es ++ maybe St took (EMeta (st_replace St (cur s) m)))) (fun n => Ok (Went n (mkLsm (mem s) (usage s) (time s) (st_replace St (cur s) m) None (thr s) (joinable s) (iters s) (fresh s)
          (log s ++ es ++ [EMeta (st_replace St (cur s) m)])))))
          (Ok (mkLsm (mem s) (usage s) (time s) (st_replace St (cur s) m) None (thr s) (joinable s) (iters s) (fresh s) (log s ++ es ++ [EMeta (st_replace St (cur s) m)])))).
      { apply follows_attempt. intros n2 N2. apply follows_ok. }
      destruct (attempt St n' _ _) as [[n2 a|s2]| |]; cbn [follows] in *; auto. destruct F. auto.
    - apply X.
    - now rewrite X.
    - now rewrite X.
  Qed.
  Lemma compact_follows n s : follows n (compact_io St took n s) (try_compact St s).
  Proof.
    unfold compact_io. apply follows_attempt. intros n1 N1. apply follows_attempt. intros n2 N2. unfold try_compact. apply follows_pure. intros t _. cbv zeta.
    apply follows_attempt. intros n3 N3. destruct (_ || _); [apply follows_ok|]. eapply follows_then; [apply replace_follows|]. intros n4 s4 _ _. apply follows_ok.
  Qed.
  Lemma flush_follows n s : follows n (flush_io St took n s) (flush St s).
  Proof.
    unfold flush_io, flush. eapply follows_then; [destruct (mem s); [apply follows_ok|apply compact_follows]|]. intros n1 s1 _ _.
    destruct (joinable s1); [|apply follows_ok]. apply follows_pure. intros s2 _. apply replace_follows.
  Qed.
  Lemma write_follows n s k d : follows n (write_io St took n s k d) (write St s k d).
  Proof.
    unfold write_io, write. cbv zeta. apply follows_attempt. intros n1 N1. apply follows_pure. intros u _. destruct (st_max_mem St <? _)%N; [apply compact_follows|apply follows_ok].
  Qed.
  Lemma get_follows n s k : follows n (get_io St took n s k) (get St s k).
  Proof.
    unfold get_io, get. destruct (find_version (mem s) k); [apply follows_ok|]. eapply follows_then; [apply replace_follows|]. intros n1 s1 _ _.
    apply follows_attempt. intros n2 _. apply follows_pure. intros o _. apply follows_ok.
  Qed.
  Lemma hint_follows n s : follows n (hint_io St took n s) (len_hint St s).
  Proof. unfold hint_io, len_hint. eapply follows_then; [apply replace_follows|]. intros n1 s1 _ _. apply follows_pure. intros o _. apply follows_ok. Qed.
  Lemma iter_follows n s : follows n (iter_io St took n s) (disk_iter St s).
  Proof.
    unfold iter_io, disk_iter. eapply follows_then; [apply replace_follows|]. intros n1 s1 _ _. apply follows_attempt. intros n2 _. apply follows_pure. intros o _. apply follows_ok.
  Qed.
  Lemma all_follows n s : follows n (all_io St took n s) (all St s).
  Proof.
    unfold all_io, all. eapply follows_then; [apply flush_follows|]. intros n1 s1 _ _. eapply follows_then; [apply iter_follows|]. intros n2 [s2 it] _ _.
    apply follows_pure. intros o _. apply follows_ok.
  Qed.
  Lemma min_follows n s : follows n (min_io St took n s) (min St s).
  Proof.
    unfold min_io, min. cbv zeta. eapply follows_then; [apply iter_follows|]. intros n2 [s2 it] _ _. apply follows_attempt. intros n3 _. apply follows_pure. intros [b r] _. apply follows_ok.
  Qed.
  Lemma max_follows n s : follows n (max_io St took n s) (max St s).
  Proof.
    unfold max_io, max. cbv zeta. eapply follows_then; [apply iter_follows|]. intros n2 [s2 it] _ _. apply follows_pure. intros b _. apply follows_ok.
  Qed.
  Lemma clear_follows n s : follows n (clear_io St took n s) (clear St s).
  Proof.
    unfold clear_io, clear. apply follows_pure. intros s1 _. cbv zeta. apply follows_attempt. intros n1 _.
    set (ids := nodup _ _). pose proof (remove_follows ids n1 (disk_of (log s1))) as X. destruct (remove_io St took n1 _ ids) as [[es [n'|]]| |]; cbn [bind].
    - destruct X as [-> N]. cbn [bind]. pose proof (follows_attempt n' (mkLsm [] (usage s1) (time s1) (st_new St) None (thr s1) (joinable s1) (iters s1) (fresh s1) (log s1 ++ es ++ maybe St took (EMeta (st_new St))))
        _ _ (fun n' _ => follows_ok n' (mkLsm [] (usage s1) (time s1) (st_new St) None (thr s1) (joinable s1) (iters s1) (fresh s1) (log s1 ++ es ++ [EMeta (st_new St)])))) as F.
      destruct (attempt St n' _ _) as [[n2 a|s2]| |]; cbn [follows] in *; auto. destruct F. auto.
    - apply X.
    - now rewrite X.
    - now rewrite X.
  Qed.

  Definition ends (n : option nat) (x : res (state * option (lsm_out K V))) (y : res (state * lsm_out K V)) : Prop :=
    match x with
    | Ok (s, Some r) => y = Ok (s, r)
    | Ok (s, None) => n <> None
    | Panic => y = Panic
    | Timeout => y = Timeout
    end.
  Lemma ends_finish {A} n (x : res (io A)) y (f : A -> state * lsm_out K V) : follows n x y -> ends n (finish St x f) (let* a := y in Ok (f a)).
  Proof.
    intros F. destruct x as [[n' a|s]| |]; cbn [follows finish bind ends] in *; try (subst y; reflexivity); auto.
    destruct F as [-> _]. cbn [bind]. destruct (f a); reflexivity.
  Qed.
  Lemma ends_eq n x y y' : ends n x y -> y = y' -> ends n x y'.
  Proof. now intros X <-. Qed.
  Lemma call_follows n s o : ends n (call_io St took n s o) (lsm_step St s o).
  Proof.
    destruct o; cbn [call_io lsm_step];
      try (match goal with |- ends _ (finish _ ?x _) _ => idtac end;
           eapply ends_eq; [apply ends_finish; first [apply write_follows|apply get_follows|apply all_follows|apply hint_follows|apply clear_follows|apply min_follows|apply max_follows|apply flush_follows]|
             match goal with |- bind ?x _ = _ => destruct x as [[? ?]| |] || destruct x as [?| |]; reflexivity end]).
    - eapply ends_eq; [apply ends_finish; eapply follows_then; [apply flush_follows|intros n1 s1 _ _; apply iter_follows]|].
      destruct (flush St s) as [s1| |]; cbn [bind]; [|reflexivity|reflexivity]. destruct (disk_iter St s1) as [[s2 it]| |]; reflexivity.
    - destruct (match nth_error (iters s) i with Some (Some it) => _ | _ => _ end) as [[s' r]| |]; reflexivity.
    - reflexivity.
    - destruct (lsm_open St (log s) (fresh s)); reflexivity.
    - destruct (thr s); try reflexivity. destruct (work St s m TPub); reflexivity.
    - destruct (thr s); reflexivity.
    - destruct (thr s); reflexivity.
    - destruct (thr s); reflexivity.
  Qed.
End Follow.
