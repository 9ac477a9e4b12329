(** Crashes during calls of the on-disk B+ tree map. *)
From Verif Require Import BpMapModel BpNodeSpec BpCrashModel BpStoreProofs BpMapProofs RunLemmas.

#[local] Instance strict_file : tightness := Strict.

Section Crash.
  Context {K V : Type} `{CmpLaws K}.
  Notation store := (store K V).
  Implicit Types (s t : store).

  (** *** Programs that only read *)
  Fixpoint reads {A} (c : io K V A) : Prop :=
    match c with
    | Ret _ | Fail | Spin => True
    | GetPage _ k => forall n, reads (k n)
    | GetRoot k | PageCount k => forall n, reads (k n)
    | _ => False
    end.
  (** The same pages under the same root. *)
  Definition same s t : Prop :=
    st_pages s = st_pages t /\ md_root (st_mem s) = md_root (st_mem t) /\ md_pages (st_mem s) = md_pages (st_mem t).

  Lemma reads_bind {A R} (c : io K V A) (f : A -> io K V R) : reads c -> (forall a, reads (f a)) -> reads (iobind c f).
  Proof. intros Rc Rf. induction c as [a| | |p c IH|p n c IH|n c IH|p c IH|c IH|p c IH|c IH|n c IH|c IH]; cbn in *; auto; contradiction. Qed.
  Lemma reads_pure {A} (r : res A) : reads (pure (K := K) (V := V) r).
  Proof. destruct r; exact I. Qed.
  Lemma reads_run {A} (c : io K V A) s t : reads c -> same s t -> run_io s c = let* (_, a) := run_io t c in Ok (s, a).
  Proof.
    intros Rc (E1 & E2 & E3). revert Rc. unfold same.
    induction c as [a| | |p c IH|p n c IH|n c IH|p c IH|c IH|p c IH|c IH|n c IH|c IH]; cbn; intros Rc; auto; try contradiction.
    - unfold get_page. rewrite E1. destruct (cell (st_pages t) p); cbn; auto.
    - rewrite E2. auto.
    - rewrite E3. auto.
  Qed.
  Lemma reads_states {A} (c : io K V A) s : reads c -> file_states s c = [].
  Proof.
    induction c as [a| | |p c IH|p n c IH|n c IH|p c IH|c IH|p c IH|c IH|n c IH|c IH]; cbn; intros Rc; auto; try contradiction.
    destruct (get_page s p); auto.
  Qed.

  Ltac reads := repeat first [exact I | apply reads_pure | apply reads_bind | intro].
  Lemma reads_search k : reads (search_node (V := V) k).
  Proof.
    unfold search_node. cbn [reads]. intros n r nd. generalize (S n) as fuel. generalize (@nil (@frame K)) as st. revert r nd.
    intros r nd st fuel. revert r nd st. induction fuel as [|fuel IH]; intros r nd st; [exact I|]. cbn [search_loop].
    destruct nd; try exact I. reads. apply IH.
  Qed.
  Lemma reads_expect (nd : node K V) : reads (expect_leaf nd).
  Proof. destruct nd; exact I. Qed.
  Lemma reads_get k : reads (get_prog (V := V) k).
  Proof.
    unfold get_prog. apply reads_bind; [apply reads_search|]. intros [[? nd] ?]. apply reads_bind; [apply reads_expect|].
    intros lf. apply reads_bind; [apply reads_pure|]. intros [i|]; reads.
  Qed.
  Lemma reads_edge pick : reads (edge_leaf (K := K) (V := V) pick).
  Proof.
    unfold edge_leaf. cbn [reads]. intros n _ nd. apply reads_bind; [|apply reads_expect]. generalize (S n) as fuel. intros fuel. revert nd.
    induction fuel as [|fuel IH]; intros nd; [exact I|]. cbn [descend_loop]. destruct nd; try exact I. reads. apply IH.
  Qed.
  Lemma reads_min : reads (min_prog (K := K) (V := V)).
  Proof. apply reads_bind; [apply reads_edge|]. reads. Qed.
  Lemma reads_max : reads (max_prog (K := K) (V := V)).
  Proof. apply reads_bind; [apply reads_edge|]. intros l. destruct (lf_len l =? 0); reads. Qed.
  Lemma reads_iter : reads (iter_prog (K := K) (V := V)).
  Proof.
    apply reads_bind; [apply reads_edge|]. intros l n. generalize (S (n * S (length (lf_entries l)))) as fuel. generalize 0 as i.
    intros i fuel. revert l i. induction fuel as [|fuel IH]; intros l i; [exact I|]. cbn [iter_loop].
    assert (G : forall l i, reads (let? c := cell (lf_entries l) i in
          match c with
          | None => Ret []
          | Some e =>
              let! r := iter_loop fuel (mkLeaf (lf_len l) (list_set (lf_entries l) i None) (lf_next l)) (i + 1) in
              Ret (e :: r)
          end : io K V _)).
    { intros l' i'. apply reads_bind; [apply reads_pure|]. intros [e|]; [|exact I]. apply reads_bind; [apply IH|]. reads. }
    destruct (lf_len l <=? i); [|apply G]. destruct (lf_next l); [|exact I]. cbn. intros nd. apply reads_bind; [apply reads_expect|].
    intros l'. apply G.
  Qed.

  Lemma same_refl s : same s s.
  Proof. repeat split. Qed.
  Lemma reads_self {A} (c : io K V A) s s' a : reads c -> run_io s c = Ok (s', a) -> s' = s.
  Proof.
    intros Rc E. pose proof (reads_run c s s Rc (same_refl s)) as Q. rewrite E in Q. cbn in Q. congruence.
  Qed.

  (** *** Calls that change the file at most twice *)
  Lemma states_bind {A R} (c : io K V A) (f : A -> io K V R) s :
    file_states s (iobind c f) = file_states s c ++ match run_io s c with Ok (s1, a) => file_states s1 (f a) | _ => [] end.
  Proof.
    revert s. induction c as [a| | |p c IH|p n c IH|n c IH|p c IH|c IH|p c IH|c IH|n c IH|c IH]; intros s; cbn; auto.
    - destruct (get_page s p); cbn; auto.
    - destruct (write_node s p n); cbn; auto. now rewrite IH.
    - destruct (alloc_node s n) as [[s1 q]| |]; cbn; auto. rewrite IH, app_assoc. reflexivity.
    - destruct (free_node s p); cbn; auto. rewrite IH, app_assoc. reflexivity.
    - now rewrite IH.
    - now rewrite IH.
  Qed.
  Lemma states_pure {A R} (r : res A) (f : A -> io K V R) s :
    file_states s (iobind (pure r) f) = match r with Ok a => file_states s (f a) | _ => [] end.
  Proof. destruct r; reflexivity. Qed.

  Lemma alloc_two s n s1 q : alloc_node s n = Ok (s1, q) -> 2 <= length (alloc_states s n).
  Proof. intros E. unfold alloc_states. rewrite E. destruct (md_free (st_mem s)); cbn [length]; lia. Qed.
  Lemma free_two s p s1 : free_node s p = Ok s1 -> length (free_states s p) = 2.
  Proof. intros E. unfold free_states. now rewrite E. Qed.

  (** As far as entries go, the file is that before the call or that after it. *)
  Definition either s s' t : Prop := same (reopen t) s \/ same (reopen t) s'.

  Lemma few_insert d e s s' o : st_disk s = st_mem s -> run_io s (insert_prog d e) = Ok (s', o) ->
    length (file_states s (insert_prog d e)) <= 2 -> Forall (either s s') (file_states s (insert_prog d e)).
  Proof.
    intros D. unfold insert_prog. rewrite states_bind, reads_states, run_bind by apply reads_search. cbn [app].
    destruct (run_io s (search_node (fst e))) as [[s0 [[page nd] stack]]| |] eqn:E0; cbn [bind]; try discriminate.
    apply reads_self in E0; [|apply reads_search]. subst s0. unfold insert_at. destruct nd as [i|l|f]; try discriminate.
    destruct (leaf_insert l e) as [[l' o']| |]; cbn [pure iobind run_io]; try discriminate.
    destruct o' as [[sk sn|old]|].
    - cbn [run_io file_states]. destruct (alloc_node s (Leaf sn)) as [[s1 q]| |] eqn:E1; cbn [bind]; try discriminate.
      destruct (write_node s1 page _) as [s2| |] eqn:E2; cbn [bind]; try discriminate. intros _.
      rewrite app_length. apply alloc_two in E1. cbn [length]. lia.
    - cbn [run_io file_states]. unfold write_node. destruct (set_cell (st_pages s) page (Leaf l')) as [pg| |]; cbn [bind]; try discriminate.
      intros E _. injection E as <- <-. constructor; [|constructor]. right. unfold same, reopen. cbn. now rewrite D.
    - cbn [run_io file_states]. unfold write_node. destruct (set_cell (st_pages s) page (Leaf l')) as [pg| |]; cbn [bind]; try discriminate.
      cbn. intros E _. injection E as <- <-. constructor; [|constructor; [|constructor]]; right; unfold same, reopen; cbn; now rewrite ?D.
  Qed.

  Lemma fix_leaf_three m page lf pp parent i s s' r : run_io s (fix_leaf m page lf pp parent i) = Ok (s', r) ->
    3 <= length (file_states s (fix_leaf m page lf pp parent i)).
  Proof.
    unfold fix_leaf. destruct (cell (in_ptrs parent) (sibling_of i)) as [sp| |]; cbn [pure iobind run_io file_states]; try discriminate.
    destruct (get_page s sp) as [nd| |]; cbn [bind]; try discriminate. destruct nd as [x|sib|x]; cbn [expect_leaf iobind]; try discriminate.
    destruct (lf_len sib =? (m + 1) / 2).
    - destruct (sibling_of i =? i + 1).
      + destruct (leaf_merge lf sib) as [l'| |]; cbn [pure iobind run_io file_states]; try discriminate.
        destruct (free_node s sp) as [s1| |] eqn:E1; cbn [bind]; try discriminate.
        destruct (write_node s1 page _) as [s2| |]; cbn [bind]; try discriminate. intros _.
        rewrite app_length, (free_two _ _ _ E1). cbn [length]. lia.
      + destruct (leaf_merge sib lf) as [l'| |]; cbn [pure iobind run_io file_states]; try discriminate.
        destruct (free_node s page) as [s1| |] eqn:E1; cbn [bind]; try discriminate.
        destruct (write_node s1 sp _) as [s2| |]; cbn [bind]; try discriminate. intros _.
        rewrite app_length, (free_two _ _ _ E1). cbn [length]. lia.
    - rewrite run_bind, states_bind.
      match goal with |- context [run_io s ?c] => assert (Rc : reads c) by (destruct (sibling_of i =? i + 1); repeat first [exact I | apply reads_pure | apply reads_bind | intros [? ?] | intro]); set (cc := c) in * end.
      rewrite (reads_states cc s Rc). destruct (run_io s cc) as [[s0 [[l1 sib1] par1]]| |]; cbn [bind app]; try discriminate.
      cbn [run_io file_states]. destruct (write_node s0 pp _) as [s1| |]; cbn [bind]; try discriminate.
      destruct (write_node s1 sp _) as [s2| |]; cbn [bind]; try discriminate.
      destruct (write_node s2 page _) as [s3| |]; cbn [bind]; try discriminate. cbn [length]. lia.
  Qed.

  Lemma few_remove m d k s s' o : st_disk s = st_mem s -> run_io s (remove_prog m d k) = Ok (s', o) ->
    length (file_states s (remove_prog m d k)) <= 2 -> Forall (either s s') (file_states s (remove_prog m d k)).
  Proof.
    intros D. unfold remove_prog. rewrite states_bind, reads_states, run_bind by apply reads_search. cbn [app].
    destruct (run_io s (search_node k)) as [[s0 [[page nd] stack]]| |] eqn:E0; cbn [bind]; try discriminate.
    apply reads_self in E0; [|apply reads_search]. subst s0. unfold remove_at, remove_leaf.
    destruct nd as [i|l|f]; cbn [expect_leaf iobind]; try discriminate.
    destruct (leaf_remove l k) as [[l' ret]| |]; cbn [pure iobind]; try discriminate.
    assert (G : forall st, let c := match ret with
                         | Some _ => GetLen (fun n => let? n := checked_pred n in SetLen n (WriteNode page (Leaf l') (Ret (ret, None, st))))
                         | None => Ret (ret, None, st) end : io K V (option (K * V) * option (nat * nat * internal K) * list (@frame K)) in
       let p := let! (ret, del, stack) := c in
                match del with Some (i, page, nd) => let! _ := shrink d stack i page nd in Ret ret | None => Ret ret end in
       run_io s p = Ok (s', o) -> length (file_states s p) <= 2 -> Forall (either s s') (file_states s p)).
    { intros st c p. subst c p. destruct ret as [x|]; cbn [iobind run_io file_states]; [|intros; constructor].
      destruct (checked_pred (md_len (st_mem s))) as [n| |]; cbn [pure iobind run_io file_states]; try discriminate.
      unfold write_node at 1 3. cbn [set_len st_pages set_meta].
      destruct (set_cell (st_pages s) page (Leaf l')) as [pg| |]; cbn [bind]; try discriminate. intros E _. cbn [run_io] in E. injection E as <- _.
      constructor; [|constructor; [|constructor]]; [left|right]; unfold same, reopen; cbn; auto. }
    destruct (lf_len l' <? (m + 1) / 2); [|apply G]. destruct stack as [|[[pp parent] i] stack']; [apply G|]. clear G.
    rewrite !run_bind, !states_bind, run_bind. intros E Lf. exfalso.
    destruct (run_io s (fix_leaf m page l' pp parent i)) as [[s1 del]| |] eqn:E1; cbn [bind] in E; try discriminate.
    apply fix_leaf_three in E1. rewrite !app_length in Lf. lia.
  Qed.

  (** *** Reading from a file with the right entries *)
  Variables m d : nat.
  Hypothesis Hm : 1 <= m.
  Hypothesis Hd : 3 <= d.
  Notation inv := (inv m d).
  Variables (ksize : K -> N) (vsize : V -> N) (cfg : config).
  Hypothesis Cm : leaf_degree cfg = m.
  Hypothesis Cd : internal_degree cfg = d.
  Notation fits := (valid ksize vsize cfg).

  Lemma read_step s ml t o : inv s ml -> same t s -> reopen t = t -> reads_entries o = true ->
    bp_step ksize vsize cfg t o = Ok (t, snd (bp_spec_step fits ml o)) /\ fst (bp_spec_step fits ml o) = ml.
  Proof.
    intros I Sm Ro Rd. destruct o; try discriminate; cbn [bp_step bp_spec_step fst snd]; (split; [|reflexivity]).
    - rewrite (reads_run _ _ _ (reads_get k) Sm), (get_inv m d Hm Hd s ml k I). reflexivity.
    - rewrite (reads_run _ _ _ (reads_get k) Sm), (get_inv m d Hm Hd s ml k I). cbn [bind]. now destruct (at_key k ml).
    - rewrite (reads_run _ _ _ reads_min Sm), (min_inv m d Hm Hd s ml I). reflexivity.
    - rewrite (reads_run _ _ _ reads_max Sm), (max_inv m d Hm Hd s ml I). reflexivity.
    - rewrite (reads_run _ _ _ reads_iter Sm), (iter_inv m d Hm Hd s ml I). reflexivity.
    - now rewrite Ro.
  Qed.
  Lemma read_outputs s ml t qs : inv s ml -> same t s -> reopen t = t -> forallb reads_entries qs = true ->
    outputs (bp_step ksize vsize cfg) t qs = Ok (spec_outputs (bp_spec_step fits) ml qs).
  Proof.
    intros I Sm Ro. unfold outputs, spec_outputs.
    enough (G : forallb reads_entries qs = true ->
      run (bp_step ksize vsize cfg) t qs = Ok (t, snd (spec_run (bp_spec_step fits) ml qs))) by (intros Q; now rewrite (G Q)).
    induction qs as [|o qs IH]; cbn [forallb run spec_run]; [reflexivity|]. intros Q. apply andb_prop in Q as [Q1 Q2].
    destruct (read_step s ml t o I Sm Ro Q1) as [E1 E2]. rewrite E1. cbn [bind].
    destruct (bp_spec_step fits ml o) as [ml' r]. cbn [fst snd] in *. subst ml'. rewrite (IH Q2). cbn [bind].
    now destruct (spec_run (bp_spec_step fits) ml qs).
  Qed.

  Lemma crash_few ops o s outs t qs : never_harmful ksize vsize cfg (ops ++ [o]) ->
    run (bp_step ksize vsize cfg) (new_store m) ops = Ok (s, outs) ->
    length (call_states ksize vsize cfg s o) <= 2 -> In t (call_states ksize vsize cfg s o) -> forallb reads_entries qs = true ->
    let obs := outputs (bp_step ksize vsize cfg) (reopen t) qs in
    obs = Ok (spec_outputs (bp_spec_step fits) (bp_spec_state fits ops) qs) \/
    obs = Ok (spec_outputs (bp_spec_step fits) (bp_spec_state fits (ops ++ [o])) qs).
  Proof.
    intros Ov E Few J Q obs. subst obs.
    destruct (bp_run_inv m d Hm Hd ksize vsize cfg Cm Cd (ops ++ [o]) Ov) as (s' & E' & I').
    assert (Ov1 : never_harmful ksize vsize cfg ops).
    { intros o1 k v o2 s0 r0 ->. apply (Ov o1 k v (o2 ++ [o])). now rewrite <- app_assoc. }
    destruct (bp_run_inv m d Hm Hd ksize vsize cfg Cm Cd ops Ov1) as (s1 & E1 & I1). rewrite E in E1. injection E1 as <- ->.
    assert (D : st_disk s = st_mem s) by (destruct I1 as (? & ? & ? & _ & Rp & _); exact (proj1 (proj1 (rep_strict _ _ _ _ _) Rp))).
    assert (St : exists r, bp_step ksize vsize cfg s o = Ok (s', r)).
    { destruct (bp_step ksize vsize cfg s o) as [[s2 r]| |] eqn:E2.
      - exists r. rewrite (run_app_ok _ ops [o] _ s s2 _ [r] E) in E'; [congruence|]. cbn [run]. now rewrite E2.
      - exfalso. destruct (bp_step_inv m d Hm Hd ksize vsize cfg Cm Cd s _ o I1) as (s2 & X & _); [|congruence].
        intros k v -> Fi. rewrite <- Cm in E |- *. exact (Ov ops k v [] s _ eq_refl E Fi).
      - exfalso. destruct (bp_step_inv m d Hm Hd ksize vsize cfg Cm Cd s _ o I1) as (s2 & X & _); [|congruence].
        intros k v -> Fi. rewrite <- Cm in E |- *. exact (Ov ops k v [] s _ eq_refl E Fi). }
    destruct St as [r St].
    assert (Ei : either s s' t).
    { unfold call_states in *. rewrite Cm, Cd in *. unfold bp_step in St. rewrite Cm, Cd in St.
      assert (RS : forall A (c : io K V A), reads c -> ~ In t (file_states s c)) by (intros A c Rc; rewrite (reads_states c s Rc); intros []).
      destruct o; try (exfalso; eapply RS; [|exact J]; first [apply reads_get|apply reads_min|apply reads_max|apply reads_iter]); try contradiction.
      - destruct (fits k v); [|contradiction]. destruct (run_io s (insert_prog d (k, v))) as [[s2 x]| |] eqn:X; cbn [bind] in St; try discriminate.
        injection St as -> _. pose proof (few_insert d (k, v) s s' x D X Few) as Fa. rewrite Forall_forall in Fa. now apply Fa.
      - destruct (run_io s (remove_prog m d k)) as [[s2 x]| |] eqn:X; cbn [bind] in St; try discriminate.
        injection St as -> _. pose proof (few_remove m d k s s' x D X Few) as Fa. rewrite Forall_forall in Fa. now apply Fa.
      - cbn [clear_states length] in Few. lia. }
    destruct Ei as [Ei|Ei]; [left; apply (read_outputs s) | right; apply (read_outputs s')]; auto.
  Qed.
End Crash.
