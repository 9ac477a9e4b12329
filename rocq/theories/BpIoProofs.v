(** A [BpMap] whose file operations can fail. *)
From Verif Require Import BpMapModel BpNodeSpec BpIoSpec BpLeafProofs BpStoreProofs BpMapProofs BpHarmProofs BpCrashProofs ListLemmas RunLemmas MapSpec.

Section Faults.
  Context {K V : Type} `{CmpLaws K}.
  Notation node := (node K V).
  Notation store := (store K V).
  Implicit Types (s t : store) (B : list (nat * node)).

  (** *** Programs with failures and without *)
  Lemma fault_done {A} (c : io K V A) : forall n done s s' a, run_fault n done s c = Ok (s', Done a) -> run_io s c = Ok (s', a).
  Proof.
    induction c as [a| | |p c IH|p nd c IH|nd c IH|p c IH|c IH|p c IH|c IH|l c IH|c IH]; intros n done s s' a';
      cbn [run_fault run_io]; try discriminate; try apply IH.
    - intros E. injection E as -> ->. reflexivity.
    - destruct n; [discriminate|]. destruct (get_page s p); cbn [bind]; try discriminate. apply IH.
    - destruct n; [discriminate|]. destruct (write_node s p nd); cbn [bind]; try discriminate. apply IH.
    - destruct (n <? 3).
      + destruct (alloc_fail n s nd) as [[? ?]| |]; discriminate.
      + destruct (alloc_node s nd) as [[? ?]| |]; cbn [bind]; try discriminate. apply IH.
    - destruct (n <? 2).
      + destruct (free_fail n s p) as [[? ?]| |]; discriminate.
      + destruct (free_node s p); cbn [bind]; try discriminate. apply IH.
    - destruct n; [discriminate|]. apply IH.
    - destruct n; [discriminate|]. apply IH.
  Qed.
  Lemma alloc_fail_ok n s nd x : alloc_node s nd = Ok x -> exists s' p, alloc_fail n s nd = Ok (s', p).
  Proof.
    unfold alloc_node, alloc_fail. destruct (md_free (st_mem s)) as [f|].
    - destruct (get_page s f) as [old| |]; cbn [bind]; try discriminate. destruct (write_node s f nd) as [s1| |]; cbn [bind]; try discriminate.
      destruct old; try discriminate. destruct n as [|[|n]]; eauto.
    - destruct n as [|[|n]]; eauto.
  Qed.
  Lemma fault_total {A} (c : io K V A) : forall n done s s' a, run_io s c = Ok (s', a) -> exists t o, run_fault n done s c = Ok (t, o).
  Proof.
    induction c as [a| | |p c IH|p nd c IH|nd c IH|p c IH|c IH|p c IH|c IH|l c IH|c IH]; intros n done s s' a';
      cbn [run_fault run_io]; try discriminate; try apply IH; eauto.
    - destruct (get_page s p); cbn [bind]; try discriminate. destruct n; eauto.
    - destruct (write_node s p nd); cbn [bind]; try discriminate. destruct n; eauto.
    - destruct (alloc_node s nd) as [[? ?]| |] eqn:E; cbn [bind]; try discriminate. destruct (n <? 3); [|apply IH].
      intros _. destruct (alloc_fail_ok n s nd _ E) as (t & q & ->). cbn [bind]. eauto.
    - destruct (free_node s p) eqn:E; cbn [bind]; try discriminate. destruct (n <? 2); [|apply IH].
      intros _. unfold free_node in E. unfold free_fail. destruct n; [cbn; eauto|].
      destruct (write_node s p _); cbn [bind] in *; try discriminate. eauto.
    - destruct n; eauto.
    - destruct n; eauto.
  Qed.
  (** The operations done before are recorded. *)
  Lemma fault_before {A} (c : io K V A) : forall n done s s' b p, run_fault n done s c = Ok (s', Failed b p) -> exists b', b = b' ++ done.
  Proof.
    assert (Cs : forall (x : point) done b, (exists b', b = b' ++ x :: done) -> exists b', b = b' ++ done).
    { intros x done b (b' & ->). exists (b' ++ [x]). now rewrite <- app_assoc. }
    induction c as [a| | |q c IH|q nd c IH|nd c IH|q c IH|c IH|q c IH|c IH|l c IH|c IH]; intros n done s s' b p;
      cbn [run_fault]; try discriminate; try apply IH.
    - destruct n; [intros E; injection E as _ <- _; now exists []|]. destruct (get_page s q); cbn [bind]; try discriminate.
      intros E. apply IH in E. exact (Cs _ _ _ E).
    - destruct n; [intros E; injection E as _ <- _; now exists []|]. destruct (write_node s q nd); cbn [bind]; try discriminate.
      intros E. apply IH in E. exact (Cs _ _ _ E).
    - destruct (n <? 3).
      + destruct (alloc_fail n s nd) as [[? ?]| |]; cbn [bind]; try discriminate. intros E. injection E as _ <- _. eauto.
      + destruct (alloc_node s nd) as [[? ?]| |]; cbn [bind]; try discriminate. intros E. apply IH in E as (b' & ->).
        exists (b' ++ alloc_points s). now rewrite <- app_assoc.
    - destruct (n <? 2).
      + destruct (free_fail n s q) as [[? ?]| |]; cbn [bind]; try discriminate. intros E. injection E as _ <- _. eauto.
      + destruct (free_node s q); cbn [bind]; try discriminate. intros E. apply IH in E. exact (Cs _ _ _ (Cs _ _ _ E)).
    - destruct n; [intros E; injection E as _ <- _; now exists []|]. intros E. apply IH in E. exact (Cs _ _ _ E).
    - destruct n; [intros E; injection E as _ <- _; now exists []|]. intros E. apply IH in E. exact (Cs _ _ _ E).
  Qed.

  (** *** Failures before the entries are touched *)
  Definition clean (b : list point) (p : point) : bool :=
    forallb prepares b && match p with PWrite | PFree => true | p => prepares p end.
  Definition mode (b : bool) : tightness := if b then Saved else Loose.

  Lemma rep_loosen T s B fl rt ln b b' : (b' = true -> b = true) ->
    rep (T := mode b) s (T ++ B) fl rt ln -> rep (T := mode b') s B fl rt ln.
  Proof.
    intros Le (np & M & (N & G) & X). exists np. split; [exact M|]. rewrite <- app_assoc in *. split.
    - split; [|intros p n J; apply G; apply in_or_app; now right]. rewrite map_app in N. now apply NoDup_app_remove_l in N.
    - destruct b'; [|exact I]. rewrite (Le eq_refl) in X. destruct X as (np' & D & F). exists np'. split; [exact D|].
      rewrite map_app in F. now apply Forall_app in F as [_ F].
  Qed.
  Lemma rep_weaken s B fl rt ln b b' : (b' = true -> b = true) -> rep (T := mode b) s B fl rt ln -> rep (T := mode b') s B fl rt ln.
  Proof. intros Le R. exact (rep_loosen [] s B fl rt ln b b' Le R). Qed.

  Lemma alloc_fail_rep b n s nd B fl rt ln s' p : rep (T := mode b) s B fl rt ln -> alloc_fail n s nd = Ok (s', p) ->
    exists fl', rep (T := mode (b && negb (unsaves p))) s' B fl' rt ln.
  Proof.
    intros R. pose proof R as (np & M & S & X). unfold alloc_fail. rewrite M. cbn [md_free md_pages md_len md_root].
    assert (S1 : forall x, some_pages (resize_pages (st_pages s) np ++ [x]) (np + 1) (B ++ free_chain fl)).
    { intros x. destruct (some_snoc _ _ x _ S) as (N1 & G1). cbn [map] in N1. inversion N1. split; [assumption|]. intros q y J. apply G1. now right. }
    destruct fl as [|f fl]; cbn [hd_error].
    - assert (S0 : some_pages (st_pages s) (np + 1) (B ++ free_chain [])).
      { destruct S as (N & G). split; [exact N|]. intros q y J. destruct (G q y J). split; [assumption | lia]. }
      assert (Ds : match mode b with Saved => exists np', st_disk s = mkMeta np' ln rt None /\ Forall (fun p => p < np') (map fst (B ++ free_chain []))
                   | _ => True end) by (destruct b; [exact X | exact I]).
      destruct n as [|[|n]]; intros E; injection E as <- <-; exists []; cbn [unsaves negb]; rewrite andb_true_r; exists (np + 1);
        (split; [reflexivity|]); (split; [cbn [st_pages set_mem]; first [exact S0 | apply S1]|]); destruct b; exact Ds.
    - destruct n as [|[|n]].
      + intros E. injection E as <- <-. exists (f :: fl). cbn [unsaves negb]. now rewrite andb_true_r.
      + destruct (get_page s f); cbn [bind]; try discriminate.
        intros E. injection E as <- <-. exists (f :: fl). cbn [unsaves negb]. now rewrite andb_true_r.
      + clear S1. assert (P : Permutation (B ++ (f, Free (hd_error fl)) :: free_chain fl) ((f, Free (hd_error fl)) :: B ++ free_chain fl)) by perm.
        pose proof (some_perm _ _ _ _ P S) as S1. destruct (proj2 S1 f _ (or_introl eq_refl)) as [GF LF].
        unfold get_page. rewrite (cell_nth _ _ _ GF). cbn [bind].
        destruct (some_set _ _ _ _ nd _ S1) as [L S2]. unfold write_node. rewrite set_cell_ok by exact L. cbn [bind].
        intros E. injection E as <- <-. exists fl. cbn [unsaves negb]. rewrite andb_false_r. exists np. split; [reflexivity|].
        split; [|exact I]. destruct S2 as (N2 & G2). cbn [map] in N2. inversion N2. split; [assumption|]. intros q y J. apply G2. now right.
  Qed.

  Lemma not_clean b done x p : prepares x = false -> (exists b', b = b' ++ x :: done) -> clean b p = false.
  Proof. intros E (b' & ->). unfold clean. rewrite forallb_app. cbn [forallb]. rewrite E. cbn. now rewrite andb_false_r. Qed.
  Lemma fault_clean {A} (c : io K V A) : forall n done b s B fl rt ln s' before p, rep (T := mode b) s B fl rt ln ->
    run_fault n done s c = Ok (s', Failed before p) -> clean before p = true ->
    exists fl', rep (T := mode (b && negb (unsaves p))) s' B fl' rt ln.
  Proof.
    assert (Same : forall b s B fl rt ln p, unsaves p = false -> rep (T := mode b) s B fl rt ln ->
      exists fl', rep (T := mode (b && negb (unsaves p))) s B fl' rt ln).
    { intros b s B fl rt ln p -> R. exists fl. cbn [negb]. now rewrite andb_true_r. }
    induction c as [a| | |q c IH|q nd c IH|nd c IH|q c IH|c IH|q c IH|c IH|l c IH|c IH]; intros n done b s B fl rt ln s' before p R;
      cbn [run_fault]; try discriminate; try (intros E Cl; eapply IH; eassumption).
    - destruct n; [intros E Cl; injection E as <- <- <-; now apply (Same _ _ _ fl)|].
      destruct (get_page s q); cbn [bind]; try discriminate. intros E Cl; exact (IH _ _ _ _ _ _ _ _ _ _ _ _ R E Cl).
    - destruct n; [intros E Cl; injection E as <- <- <-; now apply (Same _ _ _ fl)|].
      destruct (write_node s q nd); cbn [bind]; try discriminate. intros E Cl. apply fault_before in E.
      now rewrite (not_clean _ _ PWrite _ eq_refl E) in Cl.
    - destruct (n <? 3).
      + destruct (alloc_fail n s nd) as [[s1 p1]| |] eqn:Ea; cbn [bind]; try discriminate. intros E Cl. injection E as <- <- <-.
        exact (alloc_fail_rep _ _ _ _ _ _ _ _ _ _ R Ea).
      + destruct (rep_alloc s nd B fl rt ln R) as (s1 & q & fl1 & -> & R1). cbn [bind]. intros E Cl.
        apply (IH q (n - 3) (alloc_points s ++ done) b s1 B fl1 rt ln s' before p); auto.
        exact (rep_loosen [(q, nd)] s1 B fl1 rt ln b b (fun x => x) R1).
    - destruct (n <? 2) eqn:Ln.
      + destruct n as [|n]; cbn [free_fail bind].
        * intros E Cl. injection E as <- <- <-. now apply (Same _ _ _ fl).
        * destruct (write_node s q _); cbn [bind]; try discriminate. intros E Cl. injection E as <- <- <-.
          unfold clean in Cl. now rewrite andb_false_r in Cl.
      + destruct (free_node s q); cbn [bind]; try discriminate. intros E Cl. apply fault_before in E.
        now rewrite (not_clean _ _ PFreeMeta _ eq_refl E) in Cl.
    - destruct n; [intros E Cl; injection E as <- <- <-; unfold clean in Cl; now rewrite andb_false_r in Cl|].
      intros E Cl. apply fault_before in E. now rewrite (not_clean _ _ PRoot _ eq_refl E) in Cl.
    - destruct n; [intros E Cl; injection E as <- <- <-; unfold clean in Cl; now rewrite andb_false_r in Cl|].
      intros E Cl. apply fault_before in E. now rewrite (not_clean _ _ PLen _ eq_refl E) in Cl.
  Qed.

  (** *** A failure when the length is written last *)
  Fixpoint len_last {A} (c : io K V A) : Prop :=
    match c with
    | Ret _ | Fail | Spin => True
    | GetPage _ k => forall n, len_last (k n)
    | AllocNode _ k | GetRoot k | GetLen k | PageCount k => forall n, len_last (k n)
    | WriteNode _ _ k | FreeNode _ k | SetRoot _ k => len_last k
    | SetLen _ k => exists a, k = Ret a
    end.
  Fixpoint no_len {A} (c : io K V A) : Prop :=
    match c with
    | Ret _ | Fail | Spin => True
    | GetPage _ k => forall n, no_len (k n)
    | AllocNode _ k | GetRoot k | GetLen k | PageCount k => forall n, no_len (k n)
    | WriteNode _ _ k | FreeNode _ k | SetRoot _ k => no_len k
    | SetLen _ k => False
    end.
  Lemma fault_len {A} (c : io K V A) : forall n done s s' b, len_last c -> run_fault n done s c = Ok (s', Failed b PLen) ->
    exists t a, run_io s c = Ok (t, a) /\ st_pages s' = st_pages t /\ st_mem s' = st_mem t.
  Proof.
    induction c as [a| | |q c IH|q nd c IH|nd c IH|q c IH|c IH|q c IH|c IH|l c IH|c IH]; intros n done s s' b Ll;
      cbn [run_fault run_io len_last] in *; try discriminate; try (apply IH; auto; fail).
    - destruct n; [discriminate|]. destruct (get_page s q); cbn [bind]; try discriminate. now apply IH.
    - destruct n; [discriminate|]. destruct (write_node s q nd); cbn [bind]; try discriminate. now apply IH.
    - destruct (n <? 3).
      + unfold alloc_fail. intros E. exfalso. destruct (md_free (st_mem s)) as [f|].
        * destruct n as [|[|n]]; cbn [bind] in E; try discriminate; destruct (get_page s f) as [old| |]; cbn [bind] in E; try discriminate.
          destruct (write_node s f nd); cbn [bind] in E; try discriminate. destruct old; discriminate.
        * destruct n as [|[|n]]; discriminate.
      + destruct (alloc_node s nd) as [[s1 p]| |]; cbn [bind]; try discriminate. now apply IH.
    - destruct (n <? 2).
      + intros E. exfalso. destruct n; cbn [free_fail bind] in E; try discriminate. destruct (write_node s q _); discriminate.
      + destruct (free_node s q); cbn [bind]; try discriminate. now apply IH.
    - destruct n; [discriminate|]. now apply IH.
    - destruct Ll as [a ->]. destruct n; [|discriminate]. intros E. injection E as <- _. cbn [run_io]. eexists _, _. split; [reflexivity|].
      split; reflexivity.
  Qed.
  Lemma len_last_bind {A R} (c : io K V A) (f : A -> io K V R) : no_len c -> (forall a, len_last (f a)) -> len_last (iobind c f).
  Proof. intros N F. induction c; cbn in *; auto; contradiction. Qed.
  Lemma no_len_bind {A R} (c : io K V A) (f : A -> io K V R) : no_len c -> (forall a, no_len (f a)) -> no_len (iobind c f).
  Proof. intros N F. induction c; cbn in *; auto; contradiction. Qed.
  Lemma no_len_pure {A} (r : res A) : no_len (pure (K := K) (V := V) r).
  Proof. destruct r; exact I. Qed.
  Lemma no_len_search k : no_len (search_node (V := V) k).
  Proof.
    unfold search_node. cbn [no_len]. intros n r nd. generalize (Datatypes.S n) as fuel. generalize (@nil (@frame K)) as st. revert r nd.
    intros r nd st fuel. revert r nd st. induction fuel as [|fuel IH]; intros r nd st; [exact I|]. cbn [search_loop].
    destruct nd; try exact I. apply no_len_bind; [apply no_len_pure|]. intros nx. apply no_len_bind; [apply no_len_pure|].
    intros p. cbn [no_len]. intros nd. apply IH.
  Qed.
  Lemma no_len_grow d : forall stack page sk sp, no_len (grow (V := V) d stack page sk sp).
  Proof.
    induction stack as [|[[pp parent] i] stack IH]; intros page sk sp; cbn [grow].
    - repeat (apply no_len_bind; [apply no_len_pure|]; intros ?). cbn. auto.
    - apply no_len_bind; [apply no_len_pure|]. intros [par [[sk' sn]|]]; cbn [no_len]; auto.
  Qed.
  Lemma len_last_insert d e : len_last (insert_prog (V := V) d e).
  Proof.
    unfold insert_prog. apply len_last_bind; [apply no_len_search|]. intros [[page nd] stack]. unfold insert_at. destruct nd as [|l|]; try exact I.
    apply len_last_bind; [apply no_len_pure|]. intros [l' [[sk sn|old]|]]; cbn [len_last]; eauto. intros q.
    apply len_last_bind; [apply no_len_grow|]. intros _. cbn. eauto.
  Qed.

  (** *** When the metadata in the file is that in memory *)
  Fixpoint wp {A} (P : A -> bool -> Prop) (b : bool) (c : io K V A) : Prop :=
    match c with
    | Ret a => P a b
    | Fail | Spin => True
    | GetPage _ k => forall n, wp P b (k n)
    | GetRoot k | GetLen k | PageCount k => forall n, wp P b (k n)
    | WriteNode _ _ k => wp P b k
    | AllocNode _ k => forall n, wp P true (k n)
    | FreeNode _ k | SetRoot _ k | SetLen _ k => wp P true k
    end.
  Lemma wp_run {A} (c : io K V A) : forall P b s s' a, wp P b c -> (b = true -> st_disk s = st_mem s) -> run_io s c = Ok (s', a) ->
    exists b', P a b' /\ (b' = true -> st_disk s' = st_mem s').
  Proof.
    induction c as [a| | |q c IH|q nd c IH|nd c IH|q c IH|c IH|q c IH|c IH|l c IH|c IH]; intros P b s s' a' W Sy;
      cbn [run_io wp] in *; try discriminate; try (eapply IH; eauto; fail).
    - intros E. injection E as <- <-. eauto.
    - destruct (get_page s q); cbn [bind]; try discriminate. eapply IH; eauto.
    - unfold write_node. destruct (set_cell (st_pages s) q nd); cbn [bind]; try discriminate. eapply IH; eauto.
    - destruct (alloc_node s nd) as [[s1 p]| |] eqn:E; cbn [bind]; try discriminate. apply (IH p P true); auto. intros _.
      unfold alloc_node in E. destruct (md_free (st_mem s)) as [f|]; [|injection E as <- _; reflexivity].
      destruct (get_page s f) as [old| |]; cbn [bind] in E; try discriminate. destruct (write_node s f nd); cbn [bind] in E; try discriminate.
      destruct old; try discriminate. injection E as <- _. reflexivity.
    - destruct (free_node s q) as [s1| |] eqn:E; cbn [bind]; try discriminate. apply (IH P true); auto. intros _.
      unfold free_node in E. destruct (write_node s q _); cbn [bind] in E; try discriminate. injection E as <-. reflexivity.
  Qed.
  Lemma wp_mono {A} (c : io K V A) : forall (P Q : A -> bool -> Prop) b, (forall a b, P a b -> Q a b) -> wp P b c -> wp Q b c.
  Proof. induction c; cbn [wp]; intros P Q b I; eauto. Qed.
  Lemma wp_bind {A R} (c : io K V A) (f : A -> io K V R) : forall P b, wp (fun a b' => wp P b' (f a)) b c -> wp P b (iobind c f).
  Proof. induction c; cbn [wp iobind]; eauto. Qed.
  Lemma wp_all {A} (c : io K V A) : forall (P : A -> bool -> Prop) b, (forall a b, P a b) -> wp P b c.
  Proof. induction c; cbn [wp]; eauto. Qed.
  Lemma wp_true {A} (c : io K V A) : forall (P : A -> bool -> Prop), (forall a, P a true) -> wp P true c.
  Proof. induction c; cbn [wp]; eauto. Qed.
  Lemma wp_insert d e : wp (fun a b => a = None -> b = true) false (insert_prog (V := V) d e).
  Proof.
    unfold insert_prog. apply wp_bind, wp_all. intros [[page nd] stack] b. unfold insert_at. destruct nd as [|l|]; try exact I.
    apply wp_bind, wp_all. intros [l' [[sk sn|old]|]] b'; cbn [wp]; try discriminate; auto.
    intros q. apply wp_bind, wp_all. intros _ b2. cbn [wp]. auto.
  Qed.
  Lemma wp_remove m d k : wp (fun a b => a <> None -> b = true) false (remove_prog (V := V) m d k).
  Proof.
    unfold remove_prog. apply wp_bind, wp_all. intros [[page nd] stack] b. unfold remove_at. apply wp_bind.
    apply (wp_mono _ (fun x b' => fst (fst x) <> None -> b' = true)).
    - intros [[ret del] st] b' I. cbn [fst] in I. destruct del as [[[i pg] nd']|]; cbn [wp]; [|exact I].
      apply wp_bind. destruct b'; [apply wp_true; cbn [wp]; auto|]. apply wp_all. intros _ b2. cbn [wp]. intros N. now specialize (I N).
    - unfold remove_leaf. apply wp_bind, wp_all. intros l b1. apply wp_bind, wp_all. intros [l' ret] b2.
      assert (G : wp (fun x b' => fst (fst x) <> None -> b' = true) b2
        match ret return io K V (option (K * V) * option (nat * nat * internal K) * list (@frame K)) with
        | Some _ => GetLen (fun n => iobind (pure (checked_pred n)) (fun n => SetLen n (WriteNode page (Leaf l') (Ret (ret, None, stack)))))
        | None => Ret (ret, None, stack) end).
      { destruct ret; cbn [wp]; [|now intros []]. intros n. apply wp_bind, wp_all. intros; cbn [wp]; auto. }
      destruct (lf_len l' <? (m + 1) / 2); [|exact G]. destruct stack as [|[[pp parent] i] stack']; [exact G|].
      apply wp_bind, wp_all. intros del b3. cbn [wp]. intros n. apply wp_bind, wp_all. intros; cbn [wp]; auto.
  Qed.

  (** *** Single calls *)
  Variables m d : nat.
  Hypothesis Hm : 1 <= m.
  Hypothesis Hd : 3 <= d.
  Variables (ksize : K -> N) (vsize : V -> N) (cfg : config).
  Hypothesis Cm : leaf_degree cfg = m.
  Hypothesis Cd : internal_degree cfg = d.
  Notation fits := (valid ksize vsize cfg).
  Notation spec_step := (bp_spec_step fits).
  Definition known (b : bool) s (ml : list (K * V)) : Prop := inv (Tg := mode b) m d s ml.

  Lemma known_weaken b s ml : known b s ml -> known false s ml.
  Proof. intros (n & t & fl & O & R & E). exists n, t, fl. split; [exact O|]. split; [|exact E]. now apply (rep_weaken _ _ _ _ _ b false). Qed.
  Lemma known_saved b s ml : known b s ml -> st_disk s = st_mem s -> known true s ml.
  Proof.
    intros (n & t & fl & O & (np & M & S & _) & E) D. exists n, t, fl. split; [exact O|]. split; [|exact E].
    exists np. split; [exact M|]. split; [exact S|]. exists np. split; [congruence|]. apply Forall_forall.
    intros p J. apply in_map_iff in J as ([q x] & <- & J). now apply (proj2 S) in J.
  Qed.
  Lemma step_saves b s ml o s' r : known b s' ml -> bp_step ksize vsize cfg s o = Ok (s', r) -> known (b || saves o r) s' ml.
  Proof.
    intros I E. destruct b; [exact I|]. cbn [orb]. destruct (saves o r) eqn:Sv; [|exact I]. apply (known_saved false); [exact I|].
    unfold bp_step in E. rewrite Cm, Cd in E. destruct o; cbn [saves] in Sv; try discriminate.
    - destruct (fits k v); [|injection E as <- <-; discriminate].
      destruct (run_io s (insert_prog d (k, v))) as [[s1 x]| |] eqn:R; cbn [bind] in E; try discriminate. injection E as <- <-.
      destruct x; [discriminate|]. destruct (wp_run _ _ _ _ _ _ (wp_insert d (k, v)) ltac:(discriminate) R) as (b' & P & Q). auto.
    - destruct (run_io s (remove_prog m d k)) as [[s1 x]| |] eqn:R; cbn [bind] in E; try discriminate. injection E as <- <-.
      destruct x; [|discriminate]. destruct (wp_run _ _ _ _ _ _ (wp_remove m d k) ltac:(discriminate) R) as (b' & P & Q). apply Q, P. discriminate.
    - injection E as <- _. reflexivity.
  Qed.
  Lemma plain_known b s ml o : known b s ml -> (o = BReopen -> b = true) ->
    (forall k v, o = BInsert k v -> fits k v = true -> ~ harmful m s k) ->
    exists s' r, bp_step ksize vsize cfg s o = Ok (s', r) /\ r = snd (spec_step ml o) /\ known (b || saves o r) s' (fst (spec_step ml o)).
  Proof.
    intros I Ro Hf. destruct (bp_step_inv_any (Tg := mode b) m d Hm Hd ksize vsize cfg Cm Cd s ml o I) as (s' & E & I'); auto.
    { intros Eb Eo. rewrite (Ro Eo) in Eb. discriminate. }
    exists s', (snd (spec_step ml o)). split; [exact E|]. split; [reflexivity|]. exact (step_saves b s _ o s' _ I' E).
  Qed.

  Lemma call_known {A} b n s ml o (c : io K V A) (f : A -> bp_out K V) : known b s ml ->
    (bp_step ksize vsize cfg s o = let* (s, r) := run_io s c in Ok (s, f r)) ->
    (match o with BInsert _ _ => len_last c | _ => True end) ->
    (exists s' r, bp_step ksize vsize cfg s o = Ok (s', r) /\ r = snd (spec_step ml o) /\ known (b || saves o r) s' (fst (spec_step ml o))) ->
    exists s' r, fault_call n s c f = Ok (s', r) /\
      match r with
      | Done x => x = snd (spec_step ml o) /\ known (b || saves o x) s' (fst (spec_step ml o))
      | Failed before p => harmless o before p = true ->
          known (b && negb (unsaves p)) s' (if took_effect p then fst (spec_step ml o) else ml)
      end.
  Proof.
    intros I Es Ll (s1 & r & E & -> & I1). rewrite Es in E.
    destruct (run_io s c) as [[s2 x]| |] eqn:R; cbn [bind] in E; try discriminate. injection E as -> Ex.
    unfold fault_call. destruct (fault_total c n [] s _ _ R) as (t & oc & F). rewrite F. cbn [bind].
    exists t, (omap f oc). split; [reflexivity|]. destruct oc as [y|before p]; cbn [omap].
    - apply fault_done in F. rewrite R in F. injection F as -> ->. rewrite Ex. auto.
    - unfold harmless. intros Hl. apply Bool.orb_true_iff in Hl as [Cl|Hl].
      + replace (took_effect p) with false by (destruct p; try reflexivity; cbn in Cl; now rewrite andb_false_r in Cl).
        destruct I as (h & tr & fl & O & Rp & Ec). destruct (fault_clean c n [] b s _ _ _ _ _ _ _ Rp F Cl) as (fl' & R').
        exists h, tr, fl'. auto.
      + destruct o; try discriminate. destruct p; try discriminate. cbn [took_effect unsaves negb]. rewrite andb_false_r.
        destruct (fault_len c n [] s t before Ll F) as (t1 & a & R1 & P1 & M1). rewrite R in R1. injection R1 as -> ->.
        apply known_weaken in I1. destruct I1 as (h & tr & fl & O & (np & M & S & _) & Ec). exists h, tr, fl. split; [exact O|].
        split; [|exact Ec]. exists np. rewrite M1, P1. split; [exact M|]. split; [exact S | exact Logic.I].
  Qed.

  Lemma fault_known b s ml o f : known b s ml -> (o = BReopen -> b = true) ->
    (forall k v, o = BInsert k v -> fits k v = true -> ~ harmful m s k) ->
    exists s' r, fault_step ksize vsize cfg s (o, f) = Ok (s', r) /\
      match r with
      | Done x => x = snd (spec_step ml o) /\ known (b || saves o x) s' (fst (spec_step ml o))
      | Failed before p => harmless o before p = true ->
          known (b && negb (unsaves p)) s' (if took_effect p then fst (spec_step ml o) else ml)
      end.
  Proof.
    intros I Ro Hf. pose proof (plain_known b s ml o I Ro Hf) as Pl.
    assert (Pl' : exists s' r, (let* (s, r) := bp_step ksize vsize cfg s o in Ok (s, Done r)) = Ok (s', r) /\
      match r with
      | Done x => x = snd (spec_step ml o) /\ known (b || saves o x) s' (fst (spec_step ml o))
      | Failed before p => harmless o before p = true ->
          known (b && negb (unsaves p)) s' (if took_effect p then fst (spec_step ml o) else ml)
      end).
    { destruct Pl as (s' & r & E & Er & I'). rewrite E. exists s', (Done r). split; [reflexivity | auto]. }
    unfold fault_step. destruct f as [n|]; [|exact Pl']. rewrite Cm, Cd.
    assert (Q : forall A (c : io K V A) (g : A -> bp_out K V), (bp_step ksize vsize cfg s o = let* (s, r) := run_io s c in Ok (s, g r)) ->
      (match o with BInsert _ _ => len_last c | _ => True end) ->
      exists s' r, fault_call n s c g = Ok (s', r) /\
      match r with
      | Done x => x = snd (spec_step ml o) /\ known (b || saves o x) s' (fst (spec_step ml o))
      | Failed before p => harmless o before p = true ->
          known (b && negb (unsaves p)) s' (if took_effect p then fst (spec_step ml o) else ml)
      end) by (intros A c g Es Ll; now apply call_known).
    destruct o; try exact Pl'; try (apply Q; [unfold bp_step; rewrite ?Cm, ?Cd; reflexivity | exact Logic.I]).
    - destruct (fits k v) eqn:Fi; [|exact Pl']. apply Q; [unfold bp_step; rewrite Cd, Fi; reflexivity | apply len_last_insert].
    - destruct (n <? 3) eqn:Ln; [|exact Pl']. destruct n as [|[|n]]; cbn [clear_fail];
        eexists _, _; (split; [reflexivity|]); discriminate.
  Qed.

  (** *** Histories *)
  Notation step := (fault_step ksize vsize cfg).
  Lemma safe_harmless b s ml es1 k v f es2 outs : m <= 4 \/ unharmed ksize vsize cfg (es1 ++ (BInsert k v, f) :: es2) -> known b s ml ->
    run step (new_store m) es1 = Ok (s, outs) -> fits k v = true -> ~ harmful m s k.
  Proof.
    intros [Sm|U] I R Fi; [apply (small_harmless m d Hm Hd s ml k I); now left|].
    rewrite <- Cm in R |- *. exact (U es1 k v f es2 s outs eq_refl R Fi).
  Qed.
  Lemma mild_run es2 : forall es1 b s ml r0 s' outs, m <= 4 \/ unharmed ksize vsize cfg (es1 ++ es2) -> known b s ml ->
    run step (new_store m) es1 = Ok (s, r0) -> run step s es2 = Ok (s', outs) -> mild b es2 outs = true ->
    agrees fits ml es2 outs /\ known (saved b es2 outs) s' (io_state fits ml es2 outs).
  Proof.
    induction es2 as [|[o f] es2 IH]; intros es1 b s ml r0 s' outs Sm I R1 R2 M.
    - injection R2 as <- <-. cbn. eauto.
    - cbn [run] in R2. destruct (step s (o, f)) as [[s1 x]| |] eqn:E; cbn [bind] in R2; try discriminate.
      destruct (run step s1 es2) as [[s2 outs2]| |] eqn:R3; cbn [bind] in R2; try discriminate. injection R2 as <- <-.
      assert (Ro : o = BReopen -> b = true).
      { intros ->. destruct x; cbn [mild fst] in M; [now apply andb_true_iff in M as [M _]|]. exfalso. clear - E. cbn in E.
        destruct f; cbn in E; discriminate. }
      destruct (fault_known b s ml o f I Ro) as (s3 & r & E' & Q).
      { intros k v -> Fi. exact (safe_harmless b s ml es1 k v f es2 r0 Sm I R1 Fi). }
      rewrite E in E'. injection E' as <- <-.
      assert (R1' : run step (new_store m) (es1 ++ [(o, f)]) = Ok (s1, r0 ++ [x])).
      { eapply run_app_ok; [exact R1|]. cbn [run]. rewrite E. reflexivity. }
      change ((o, f) :: es2) with ([(o, f)] ++ es2) in Sm. rewrite app_assoc in Sm.
      destruct x as [r|before p]; cbn [mild fst agrees saved io_state] in *; apply andb_true_iff in M as [Hl M].
      + destruct Q as [-> I1]. destruct (IH _ _ _ _ _ _ _ Sm I1 R1' R3 M) as [A Kn]. auto.
      + destruct (IH _ _ _ _ _ _ _ Sm (Q Hl) R1' R3 M) as [A Kn]. auto.
  Qed.
  Lemma known_new : known true (new_store m) [].
  Proof. exact (inv_new (Tg := Saved) m d Hm Hd). Qed.
  Lemma io_agrees es s outs : m <= 4 \/ unharmed ksize vsize cfg es -> run step (new_store m) es = Ok (s, outs) -> mild true es outs = true ->
    agrees fits [] es outs.
  Proof. intros Sm R M. exact (proj1 (mild_run es [] true _ [] [] s outs Sm known_new eq_refl R M)). Qed.
  Lemma io_returns es o f s outs : m <= 4 \/ unharmed ksize vsize cfg (es ++ [(o, f)]) -> run step (new_store m) es = Ok (s, outs) ->
    mild true es outs = true -> (o = BReopen -> saved true es outs = true) -> exists s' r, step s (o, f) = Ok (s', r).
  Proof.
    intros Sm R M Ro.
    assert (Sm' : m <= 4 \/ unharmed ksize vsize cfg es).
    { destruct Sm as [Sm|U]; [now left|]. right. intros es1 k v f' es2 s1 o1 -> R1 Fi. apply (U es1 k v f' (es2 ++ [(o, f)]) s1 o1); auto.
      now rewrite <- app_assoc. }
    destruct (mild_run es [] true _ [] [] s outs Sm' known_new eq_refl R M) as (_ & I).
    destruct (fault_known _ s _ o f I Ro) as (s' & r & E & _); eauto.
    intros k v -> Fi. exact (safe_harmless _ s _ es k v f [] outs Sm I R Fi).
  Qed.
End Faults.

(** *** Calls that only read, and insertions that fit *)
Section Reads.
  Context {K V : Type} `{Cmp K}.
  Lemma fault_reads {A} (c : io K V A) : forall n done s s' r, reads c -> run_fault n done s c = Ok (s', r) -> s' = s.
  Proof.
    induction c; intros n0 done s s' r Rd; cbn [run_fault reads] in *; try discriminate; try contradiction; eauto; try congruence.
    destruct n0; [congruence|]. destruct (get_page s p); cbn [bind]; try discriminate. eauto.
  Qed.
  Lemma read_fault ksize vsize cfg (s : store K V) (o : bp_op K V) f s' r :
    match o with BInsert _ _ | BRemove _ | BClear | BReopen => False | _ => True end ->
    fault_step ksize vsize cfg s (o, f) = Ok (s', r) -> s' = s.
  Proof.
    assert (Q : forall A (c : io K V A) (g : A -> bp_out K V) n, reads c -> fault_call n s c g = Ok (s', r) -> s' = s).
    { intros A c g n Rd. unfold fault_call. destruct (run_fault n [] s c) as [[t x]| |] eqn:E; cbn [bind]; try discriminate.
      apply (fault_reads c) in E; [|exact Rd]. congruence. }
    assert (Q' : forall A (c : io K V A) (g : A -> bp_out K V), reads c ->
      (let* (s, r) := (let* (s, r) := run_io s c in Ok (s, g r)) in Ok (s, Done r)) = Ok (s', r) -> s' = s).
    { intros A c g Rd. destruct (run_io s c) as [[t x]| |] eqn:E; cbn [bind]; try discriminate.
      apply (reads_self c) in E; [|exact Rd]. congruence. }
    destruct o; try contradiction; intros _; destruct f as [n|]; cbn [fault_step bp_step]; try (cbn; congruence);
      first [apply Q | apply Q']; first [apply reads_get | apply reads_min | apply reads_max | apply reads_iter].
  Qed.

  Definition allocates (p : point) : bool := match p with PGrow | PGrowNode | PGrowMeta | PReuse | PReuseNode | PReuseMeta => true | _ => false end.
  Lemma fault_bind_reads {A R} (c : io K V A) (f : A -> io K V R) : forall n done s s' b p, reads c ->
    run_fault n done s (iobind c f) = Ok (s', Failed b p) -> forallb prepares done = true ->
    (forallb prepares b = true /\ p = PGet) \/
    exists n' done' a, forallb prepares done' = true /\ run_fault n' done' s (f a) = Ok (s', Failed b p).
  Proof.
    induction c as [a| | |p c IH|p nd c IH|nd c IH|p c IH|c IH|p c IH|c IH|l c IH|c IH]; intros n0 done s s' b pt Rd;
      cbn [run_fault reads iobind] in *; try discriminate; try contradiction; eauto 8.
    destruct n0; [intros E; injection E as _ <- <-; auto|]. destruct (get_page s p); cbn [bind]; try discriminate.
    intros E Pr. eapply IH; eauto.
  Qed.
  Lemma before_alloc {A} (c : io K V A) n done s s' b p : run_fault n done s c = Ok (s', Failed b p) -> existsb allocates done = true -> existsb allocates b = true.
  Proof. intros E Al. apply fault_before in E as (b' & ->). now rewrite existsb_app, Al, Bool.orb_true_r. Qed.
  Lemma insert_fits ksize vsize cfg (s : store K V) k v f s' b p : fault_step ksize vsize cfg s (BInsert k v, f) = Ok (s', Failed b p) ->
    existsb allocates (p :: b) = false -> harmless (BInsert (V := V) k v) b p = true.
  Proof.
    unfold fault_step.
    assert (Pl : forall o, (let* (s, r) := bp_step ksize vsize cfg s o in Ok (s, Done r)) = Ok (s', Failed b p) -> False).
    { intros o. destruct (bp_step ksize vsize cfg s o) as [[? ?]| |]; discriminate. }
    destruct f as [n|]; [|now intros E%Pl]. destruct (valid ksize vsize cfg k v); [|now intros E%Pl].
    unfold fault_call. destruct (run_fault n [] s (insert_prog (internal_degree cfg) (k, v))) as [[t [x|b0 p0]]| |] eqn:E; cbn [bind omap]; try discriminate.
    intros Q. injection Q as -> -> ->. unfold insert_prog in E. intros Al. unfold harmless.
    destruct (fault_bind_reads _ _ _ _ _ _ _ _ (reads_search k) E eq_refl) as [[Pb ->]|(n' & dn & [[pg nd] st] & Pd & F)]; [now rewrite Pb|].
    clear E. unfold insert_at in F. destruct nd as [|l|]; cbn [run_fault] in F; try discriminate.
    destruct (leaf_insert l (k, v)) as [[l' res]| |]; cbn [pure iobind run_fault] in F; try discriminate.
    destruct res as [[sk sn|old]|].
    - exfalso. cbn [existsb] in Al. apply Bool.orb_false_iff in Al as [Ap Ab].
      assert (Sk : forall n done' (s1 : store K V) A (c : nat -> io K V A), 
        (if n <? 3 then let* (s', at_) := alloc_fail n s1 (Leaf sn) in Ok (s', Failed (skipn (3 - n) (alloc_points s1) ++ done') at_)
         else let* (s', q) := alloc_node s1 (Leaf sn) in run_fault (n - 3) (alloc_points s1 ++ done') s' (c q)) = Ok (s', Failed b p) -> False).
      { intros n0 done' s1 A c. destruct (n0 <? 3).
        - unfold alloc_fail. destruct (md_free (st_mem s1)) as [fp|].
          + destruct n0 as [|[|n0]]; cbn [bind]; [|destruct (get_page s1 fp)|destruct (get_page s1 fp) as [old| |]]; cbn [bind]; try discriminate;
              try (destruct (write_node s1 fp (Leaf sn)); cbn [bind]; try discriminate; destruct old; cbn [bind]; try discriminate);
              intros Q; injection Q as _ _ <-; discriminate.
          + destruct n0 as [|[|n0]]; cbn [bind]; intros Q; injection Q as _ _ <-; discriminate.
        - destruct (alloc_node s1 (Leaf sn)) as [[s2 q]| |]; cbn [bind]; try discriminate. intros Q. apply before_alloc in Q; [congruence|].
          unfold alloc_points. destruct (md_free (st_mem s1)); reflexivity. }
      exact (Sk n' dn s _ (fun q => WriteNode pg (Leaf (mkLeaf (lf_len l') (lf_entries l') (Some q)))
        (iobind (grow (internal_degree cfg) st pg sk q) (fun _ => GetLen (fun n => SetLen (n + 1) (Ret None))))) F).
    - cbn [run_fault] in F. destruct n' as [|n']; [injection F as _ <- <-; now rewrite Pd|]. destruct (write_node s pg (Leaf l')); discriminate.
    - cbn [run_fault] in F. destruct n' as [|n']; [injection F as _ <- <-; now rewrite Pd|]. destruct (write_node s pg (Leaf l')); cbn [bind] in F; try discriminate.
      destruct n' as [|n']; [|discriminate]. injection F as _ <- <-. now rewrite Bool.orb_true_r.
  Qed.
End Reads.
