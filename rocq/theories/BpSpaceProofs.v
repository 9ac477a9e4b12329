(** The on-disk B+ tree file never has more than twice as many pages as the map had entries at its largest. *)
From Verif Require Import BpMapModel BpNodeSpec BpLeafProofs BpInternalProofs BpStoreProofs BpTreeProofs BpInsertProofs BpDeleteProofs BpMapProofs ListLemmas RunLemmas MapSpec.

#[local] Instance strict_file : tightness := Strict.

Section Allocation.
  Context {K V : Type} `{Cmp K}.
  Notation io := (io K V).
  Notation store := (store K V).
  (** Programs that may allocate ([al]) and free ([fr]) pages. *)
  Fixpoint uses {A} (al fr : Prop) (c : io A) : Prop :=
    match c with
    | Ret _ | Fail | Spin => True
    | GetPage _ k => forall n, uses al fr (k n)
    | WriteNode _ _ k | SetRoot _ k | SetLen _ k => uses al fr k
    | AllocNode _ k => al /\ forall q, uses al fr (k q)
    | FreeNode _ k => fr /\ uses al fr k
    | GetRoot k | GetLen k | PageCount k => forall q, uses al fr (k q)
    end.
  Section Uses.
    Variables al fr : Prop.
    Lemma uses_bind {A B} (c : io A) (f : A -> io B) : uses al fr c -> (forall a, uses al fr (f a)) -> uses al fr (iobind c f).
    Proof. intros U F. induction c; cbn in *; auto; intuition. Qed.
    Lemma uses_pure {A B} (r : res A) (f : A -> io B) : (forall a, uses al fr (f a)) -> uses al fr (iobind (pure r) f).
    Proof. intros F. destruct r; cbn; auto. Qed.
    Lemma uses_search key fuel : forall page (nd : node K V) st, uses al fr (search_loop fuel key page nd st).
    Proof.
      induction fuel as [|fuel IH]; intros page nd st; cbn [search_loop]; [exact I|]. destruct nd; try exact I.
      apply uses_pure. intros next. apply uses_pure. intros p. cbn. auto.
    Qed.
    Lemma uses_get k : uses al fr (get_prog (V := V) k).
    Proof.
      unfold get_prog, search_node. cbn [iobind uses]. intros q r n. apply uses_bind; [apply uses_search|]. intros [[page nd] st].
      destruct nd; cbn [expect_leaf iobind uses]; auto. apply uses_pure. intros [i|]; [|exact I]. apply uses_pure. intros x. exact I.
    Qed.
    Lemma uses_edge pick : uses al fr (edge_leaf (K := K) (V := V) pick).
    Proof.
      unfold edge_leaf. cbn [iobind uses]. intros q r n. apply uses_bind; [|intros nd; destruct nd; exact I].
      generalize n (S q). clear. intros n fuel. revert n. induction fuel as [|fuel IH]; intros n; cbn [descend_loop]; [exact I|].
      destruct n; try exact I. apply uses_pure. intros p. cbn. auto.
    Qed.
    Lemma uses_min : uses al fr (min_prog (K := K) (V := V)).
    Proof. unfold min_prog. apply uses_bind; [apply uses_edge|]. intros l. apply uses_pure. intros x. exact I. Qed.
    Lemma uses_max : uses al fr (max_prog (K := K) (V := V)).
    Proof.
      unfold max_prog. apply uses_bind; [apply uses_edge|]. intros l. destruct (lf_len l =? 0); [exact I|]. apply uses_pure. intros x. exact I.
    Qed.
    Lemma uses_iter_loop fuel : forall (l : leaf K V) i, uses al fr (iter_loop fuel l i).
    Proof.
      induction fuel as [|fuel IH]; intros l i; cbn [iter_loop]; [exact I|].
      assert (St : forall (l : leaf K V) i, uses al fr
        (let? c := cell (lf_entries l) i in
         match c with
         | None => Ret []
         | Some e => let! r := iter_loop fuel (mkLeaf (lf_len l) (list_set (lf_entries l) i None) (lf_next l)) (i + 1) in Ret (e :: r)
         end)).
      { intros l0 i0. apply uses_pure. intros [e|]; [|exact I]. apply uses_bind; [apply IH|]. intros r. exact I. }
      destruct (lf_len l <=? i); [|apply St]. destruct (lf_next l); [|exact I]. cbn [uses]. intros n'.
      apply uses_bind; [destruct n'; exact I|]. intros l'. apply St.
    Qed.
    Lemma uses_iter : uses al fr (iter_prog (K := K) (V := V)).
    Proof. unfold iter_prog. apply uses_bind; [apply uses_edge|]. intros l. cbn [uses]. intros q. apply uses_iter_loop. Qed.
  End Uses.
  Ltac puretac := repeat first [exact I | apply uses_pure; intros ? | progress match goal with |- uses _ _ (match ?x with (_, _) => _ end) => destruct x end].
  Lemma uses_insert fr d e : uses True fr (insert_prog (V := V) d e).
  Proof.
    unfold insert_prog, search_node. cbn [iobind uses]. intros q r n. apply uses_bind; [apply uses_search|]. intros [[page nd] st].
    unfold insert_at. destruct nd as [|l|]; try exact I. apply uses_pure. intros [l' o].
    destruct o as [[sk sn|old]|]; cbn; auto. split; [exact I|]. intros q'. apply uses_bind; [|cbn; auto].
    generalize page sk q'. clear. induction st as [|[[pp par] i] st IH]; intros page sk q; cbn [grow].
    - apply uses_pure. intros a. apply uses_pure. intros b. apply uses_pure. intros c. cbn. auto.
    - apply uses_pure. intros [par' [[sk' sn]|]]; cbn; auto.
  Qed.
  Lemma uses_remove al m d k : uses al True (remove_prog (V := V) m d k).
  Proof.
    unfold remove_prog, search_node. cbn [iobind uses]. intros q r n. apply uses_bind; [apply uses_search|]. intros [[page nd] st].
    unfold remove_at. apply uses_bind.
    - unfold remove_leaf. destruct nd as [|l|]; cbn [expect_leaf iobind uses]; auto. apply uses_pure. intros [l' ret].
      destruct (lf_len l' <? (m + 1) / 2), st as [|[[pp par] i] st].
      + destruct ret; cbn; auto. intros x. apply uses_pure. cbn. auto.
      + apply uses_bind; [|intros del; cbn; intros x; apply uses_pure; cbn; auto].
        unfold fix_leaf. apply uses_pure. intros sp. cbn [uses]. intros sn. destruct sn as [|sib|]; cbn [expect_leaf iobind uses]; auto.
        destruct (lf_len sib =? (m + 1) / 2).
        * destruct (sibling_of i =? i + 1); apply uses_pure; cbn; auto.
        * apply uses_bind; [|intros [[x y] z]; cbn; auto].
          destruct (sibling_of i =? i + 1); puretac.
      + destruct ret; cbn; auto. intros x. apply uses_pure. cbn. auto.
      + destruct ret; cbn; auto. intros x. apply uses_pure. cbn. auto.
    - intros [[ret del] st']. destruct del as [[[i p] nd']|]; [|exact I]. apply uses_bind; [|intros; exact I].
      generalize i p nd'. clear. induction st' as [|[[pp par] pi] st IH]; intros i page nd; cbn [shrink];
        apply uses_pure; intros [nd2 [kk qq]].
      + destruct (in_len nd2 + 1 <? (d + 1) / 2); [|exact I]. destruct (in_len nd2 =? 0); [|exact I]. apply uses_pure. cbn. auto.
      + destruct (in_len nd2 + 1 <? (d + 1) / 2); [|exact I]. apply uses_bind.
        * unfold fix_internal. apply uses_pure. intros sp. cbn [uses]. intros sn.
          destruct sn as [sib| |]; cbn [expect_internal iobind uses]; auto.
          destruct (in_len sib + 1 =? (d + 1) / 2).
          -- destruct (sibling_of pi =? pi + 1); apply uses_pure; intros ?; apply uses_pure; intros ?; apply uses_pure; cbn; auto.
          -- apply uses_bind; [|intros [[x y] z]; cbn; auto].
             destruct (sibling_of pi =? pi + 1); puretac.
        * intros [[[i' p'] n']|]; [apply IH | exact I].
  Qed.

  Definition mpages (s : store) : nat := md_pages (st_mem s).
  Lemma pages_mono {A} (c : io A) : forall s s' a, run_io s c = Ok (s', a) -> mpages s <= mpages s'.
  Proof.
    unfold mpages. induction c as [a| | |p k IH|p n k IH|n k IH|p k IH|k IH|p k IH|k IH|n k IH|k IH]; intros s s' a' E; cbn [run_io] in E;
      try discriminate E; eauto.
    - injection E as <- _. lia.
    - destruct (get_page s p); cbn in E; try discriminate. eauto.
    - unfold write_node in E. destruct (set_cell (st_pages s) p n); cbn in E; try discriminate. apply IH in E. exact E.
    - destruct (alloc_node s n) as [[s1 q]| |] eqn:Al; cbn in E; try discriminate. apply IH in E. etransitivity; [|exact E].
      unfold alloc_node in Al. destruct (md_free (st_mem s)) as [f|].
      + destruct (get_page s f) as [old| |]; cbn in Al; try discriminate. unfold write_node in Al.
        destruct (set_cell (st_pages s) f n) as [pg| |]; cbn in Al; try discriminate. destruct old; try discriminate. injection Al as <- _. cbn. lia.
      + injection Al as <- _. cbn. lia.
    - unfold free_node, write_node in E. destruct (set_cell (st_pages s) p _); cbn in E; try discriminate. apply IH in E. exact E.
    - apply IH in E. exact E.
    - apply IH in E. exact E.
  Qed.
  Lemma pages_noalloc {A} (c : io A) : forall s s' a, uses False True c -> run_io s c = Ok (s', a) -> mpages s' = mpages s.
  Proof.
    unfold mpages. induction c as [a| | |p k IH|p n k IH|n k IH|p k IH|k IH|p k IH|k IH|n k IH|k IH]; intros s s' a' U E;
      cbn [run_io uses] in E, U; try discriminate E; eauto.
    - now injection E as <- _.
    - destruct (get_page s p); cbn in E; try discriminate. eauto.
    - unfold write_node in E. destruct (set_cell (st_pages s) p n); cbn in E; try discriminate. apply IH in E; auto.
    - destruct U as [[] _].
    - destruct U as [_ U]. unfold free_node, write_node in E. destruct (set_cell (st_pages s) p _); cbn in E; try discriminate. apply IH in E; auto.
    - apply IH in E; auto.
    - apply IH in E; auto.
  Qed.
  Lemma pages_nofree {A} (c : io A) : forall s s' a, uses True False c -> run_io s c = Ok (s', a) ->
    (mpages s' = mpages s \/ md_free (st_mem s') = None) /\ (md_free (st_mem s) = None -> md_free (st_mem s') = None).
  Proof.
    unfold mpages. induction c as [a| | |p k IH|p n k IH|n k IH|p k IH|k IH|p k IH|k IH|n k IH|k IH]; intros s s' a' U E;
      cbn [run_io uses] in E, U; try discriminate E; eauto.
    - injection E as <- _. auto.
    - destruct (get_page s p); cbn in E; try discriminate. eauto.
    - unfold write_node in E. destruct (set_cell (st_pages s) p n); cbn in E; try discriminate. apply IH in E; auto.
    - destruct U as [_ U]. destruct (alloc_node s n) as [[s1 q]| |] eqn:Al; cbn in E; try discriminate. apply IH in E as [E1 E2]; [|auto].
      unfold alloc_node in Al. destruct (md_free (st_mem s)) as [f|].
      + destruct (get_page s f) as [old| |]; cbn in Al; try discriminate. unfold write_node in Al.
        destruct (set_cell (st_pages s) f n) as [pg| |]; cbn in Al; try discriminate. destruct old; try discriminate. injection Al as <- _.
        cbn in *. split; [exact E1|]. discriminate.
      + injection Al as <- _. cbn in *. auto.
    - destruct U as [[] _].
    - apply IH in E; auto.
    - apply IH in E; auto.
  Qed.
End Allocation.

Section Space.
  Context {K V : Type} `{CmpLaws K}.
  Variables m d : nat.
  Hypothesis Hm : 1 <= m.
  Hypothesis Hd : 3 <= d.
  Notation store := (store K V).
  Notation inv := (inv m d).
  Notation flat := (flat (K := K) (V := V) m d).
  Notation flat_kids := (flat_kids (K := K) (V := V) m d).

  Lemma flat_size : forall n root lo hi t nxt, ok m d n root lo hi t ->
    length (flat t nxt) <= 2 * length (contents t) + 1 /\ (root = false -> length (flat t nxt) + 1 <= 2 * length (contents t)).
  Proof.
    induction n as [|n IH]; intros root lo hi t nxt O; destruct t as [p es|p kids]; cbn [ok] in O; try contradiction.
    - destruct O as (_ & L & R). cbn [BpTreeProofs.flat contents length]. split; [lia|]. intros Q. specialize (R Q).
      assert (1 <= (m + 1) / 2) by (apply Nat.div_le_lower_bound; lia). lia.
    - destruct O as ((_ & _ & Ch) & (L & _) & _). rewrite flat_node. cbn [length].
      assert (G : length (flat_kids kids nxt) + length kids <= 2 * length (kcontents kids)).
      { clear L. revert hi Ch. induction kids as [|[l c] r IHr]; intros hi Ch; [cbn; lia|]. destruct Ch as [Oc Ch].
        rewrite flat_kids_cons, kcontents_cons, !app_length. specialize (IHr _ Ch). apply IH with (nxt := nxt_of r nxt) in Oc as [_ Oc].
        specialize (Oc eq_refl). cbn [length]. lia. }
      change (contents (BNode p kids)) with (kcontents kids). split; [|intros _]; lia.
  Qed.
  Lemma inv_space (s : store) ml : inv s ml -> md_free (st_mem s) = None -> mpages s <= 2 * length ml + 1.
  Proof.
    intros (n & t & fl & O & Rp & <-) F. apply rep_strict in Rp as (R1 & R2 & N & D & G). rewrite R2 in F. cbn in F. destruct fl; [|discriminate].
    unfold mpages. rewrite R2. cbn [md_pages]. cbn [free_chain] in *. rewrite app_nil_r in *.
    destruct (flat_size n true None None t None O) as [S _]. etransitivity; [|exact S].
    rewrite <- (map_length fst (flat t None)), <- (seq_length (length (st_pages s)) 0).
    apply NoDup_incl_length; [apply seq_NoDup|]. intros p I. apply in_seq in I. apply D. lia.
  Qed.
  Lemma inv_mpages (s : store) ml : inv s ml -> mpages s = length (st_pages s).
  Proof. intros (n & t & fl & O & Rp & _). apply rep_strict in Rp as (R1 & R2 & _). unfold mpages. now rewrite R2. Qed.

  Variables (ksize : K -> N) (vsize : V -> N) (cfg : config).
  Hypothesis Cm : leaf_degree cfg = m.
  Hypothesis Cd : internal_degree cfg = d.
  Notation fits := (valid ksize vsize cfg).
  Notation spec_step := (bp_spec_step fits).
  Notation spec_state := (bp_spec_state fits).

  Lemma step_space s s' o out ml ml' : bp_step ksize vsize cfg s o = Ok (s', out) -> inv s ml -> inv s' ml' ->
    mpages s' <= mpages s \/ mpages s' <= 2 * length ml' + 1.
  Proof.
    intros E I I'. unfold bp_step in E. rewrite Cm, Cd in E. destruct o.
    - destruct (fits k v); [|injection E as <- _; now left].
      destruct (run_io s _) as [[s1 r]| |] eqn:R; cbn in E; try discriminate. injection E as <- _.
      destruct (pages_nofree _ _ _ _ (uses_insert False d (k, v)) R) as [[Q|Q] _]; [left; lia | right; now apply inv_space].
    - destruct (run_io s _) as [[s1 r]| |] eqn:R; cbn in E; try discriminate. injection E as <- _.
      pose proof (pages_noalloc _ _ _ _ (uses_remove False m d k) R). left. lia.
    - destruct (run_io s _) as [[s1 r]| |] eqn:R; cbn in E; try discriminate. injection E as <- _.
      pose proof (pages_noalloc _ _ _ _ (uses_get False True k) R). left. lia.
    - destruct (run_io s _) as [[s1 r]| |] eqn:R; cbn in E; try discriminate. injection E as <- _.
      pose proof (pages_noalloc _ _ _ _ (uses_get False True k) R). left. lia.
    - injection E as <- _. now left.
    - injection E as <- _. now left.
    - injection E as <- _. right. cbn. lia.
    - destruct (run_io s _) as [[s1 r]| |] eqn:R; cbn in E; try discriminate. injection E as <- _.
      pose proof (pages_noalloc _ _ _ _ (uses_min False True) R). left. lia.
    - destruct (run_io s _) as [[s1 r]| |] eqn:R; cbn in E; try discriminate. injection E as <- _.
      pose proof (pages_noalloc _ _ _ _ (uses_max False True) R). left. lia.
    - destruct (run_io s _) as [[s1 r]| |] eqn:R; cbn in E; try discriminate. injection E as <- _.
      pose proof (pages_noalloc _ _ _ _ (uses_iter False True) R). left. lia.
    - injection E as <- _. rewrite (inv_reopen m d s ml I). now left.
  Qed.

  (** The states of a run, with what is known of each. *)
  Lemma spec_state_snoc ops o : spec_state (ops ++ [o]) = fst (spec_step (spec_state ops) o).
  Proof.
    unfold bp_spec_state. rewrite (spec_run_app spec_step). destruct (spec_run _ [] ops) as [a b]. cbn [fst].
    cbn [spec_run]. now destruct (spec_step a o).
  Qed.
  Lemma run_ind (P : list (bp_op K V) -> store -> Prop) ops : never_harmful ksize vsize cfg ops -> P [] (new_store m) ->
    (forall ops1 o ops2 s s' out, ops = ops1 ++ o :: ops2 -> P ops1 s -> inv s (spec_state ops1) ->
       bp_step ksize vsize cfg s o = Ok (s', out) -> inv s' (spec_state (ops1 ++ [o])) -> P (ops1 ++ [o]) s') ->
    exists s, run (bp_step ksize vsize cfg) (new_store m) ops = Ok (s, bp_spec_outputs fits ops) /\ P ops s.
  Proof.
    intros Ov P0 PS.
    assert (G : forall ops2 ops1 s r0, ops = ops1 ++ ops2 -> inv s (spec_state ops1) -> P ops1 s ->
      run (bp_step ksize vsize cfg) (new_store m) ops1 = Ok (s, r0) ->
      exists s', run (bp_step ksize vsize cfg) s ops2 = Ok (s', snd (spec_run spec_step (spec_state ops1) ops2)) /\ P ops s').
    { induction ops2 as [|o ops2 IH]; intros ops1 s r0 E I Ps Rn.
      - rewrite app_nil_r in E. subst ops. exists s. split; [reflexivity | exact Ps].
      - destruct (bp_step_inv m d Hm Hd ksize vsize cfg Cm Cd s (spec_state ops1) o I) as (s1 & E1 & I1).
        { intros k v -> Fi. rewrite <- Cm in Rn |- *. exact (Ov ops1 k v ops2 s r0 E Rn Fi). }
        rewrite <- spec_state_snoc in I1. edestruct (IH (ops1 ++ [o]) s1) as (s2 & E2 & I2).
        { rewrite E, <- app_assoc. reflexivity. }
        { exact I1. }
        { eapply PS; eauto. }
        { eapply run_app_ok; [exact Rn|]. cbn [run]. rewrite E1. reflexivity. }
        exists s2. split; [|exact I2]. cbn [run spec_run]. rewrite E1. cbn [bind]. rewrite E2. cbn [bind].
        rewrite spec_state_snoc. destruct (spec_step _ o) as [a b]. cbn [fst snd] in *. now destruct (spec_run _ a ops2) as [x y]. }
    destruct (G ops [] (new_store m) [] eq_refl (inv_new m d Hm Hd) P0 eq_refl) as (s & E & I). exists s. split; [exact E | exact I].
  Qed.

  Lemma bp_space ops s outs n : never_harmful ksize vsize cfg ops -> (forall ops1 ops2, ops = ops1 ++ ops2 -> length (spec_state ops1) <= n) ->
    run (bp_step ksize vsize cfg) (new_store m) ops = Ok (s, outs) -> length (st_pages s) <= 2 * n + 1.
  Proof.
    intros Ov B R.
    destruct (run_ind (fun ops1 s => inv s (spec_state ops1) /\ mpages s <= 2 * n + 1) ops Ov) as (s' & R' & I' & S').
    - split; [now apply inv_new | cbn; lia].
    - intros ops1 o ops2 s0 s1 out E [_ S0] I E1 I1. split; [exact I1|].
      destruct (step_space _ _ _ _ _ _ E1 I I1) as [Q|Q]; [lia|]. specialize (B (ops1 ++ [o]) ops2).
      rewrite <- app_assoc in B. specialize (B E). lia.
    - rewrite R in R'. injection R' as <- _. now rewrite <- (inv_mpages s _ I').
  Qed.

  Lemma spec_length ops : length (spec_state ops) <= length ops.
  Proof.
    induction ops as [|o ops IH] using rev_ind; [cbn; lia|]. rewrite spec_state_snoc, app_length. cbn [length].
    assert (Lb : forall k (l : list (K * V)), length (below k l) + length (above k l) <= length l).
    { intros k l. unfold below, above. induction l as [|e l IHl]; [cbn; lia|]. cbn [filter]. destruct (cmp (fst e) k); cbn in *; lia. }
    specialize (Lb) as L. destruct o; cbn [bp_spec_step fst]; try (cbn; lia).
    - destruct (fits k v); cbn [fst]; [|lia]. rewrite app_length. cbn [length]. specialize (L k (spec_state ops)). lia.
    - rewrite app_length. specialize (L k (spec_state ops)). lia.
  Qed.
End Space.
