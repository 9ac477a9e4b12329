(** TreiberStack on memory with views: when [len] is exact; why the calls are not linearizable *)
From Verif Require Export StackWeakStepProofs StackWeakInstances.
From Coq Require Import Lia Permutation.

Section Count.
  Context {T : Type}.
  Notation dones := (list (nat * stack_out T)).

  (** Indices of the calls with a property *)
  Definition places (f : wcall T -> bool) (calls : list (wcall T)) : list nat :=
    filter (fun i => match nth_error calls i with Some c => f c | None => false end) (seq 0 (length calls)).
  Lemma places_length f calls : length (places f calls) = length (filter f calls).
  Proof.
    unfold places. assert (X : forall pre, length (filter (fun i => match nth_error (pre ++ calls) i with Some c => f c | None => false end) (seq (length pre) (length calls))) = length (filter f calls)).
    { induction calls as [|c calls IH]; intros pre; [reflexivity|]. cbn [length seq filter]. rewrite nth_error_app2, Nat.sub_diag by lia. cbn.
      specialize (IH (pre ++ [c])). rewrite <- app_assoc, app_length in IH. cbn in IH. rewrite Nat.add_1_r in IH. destruct (f c); cbn; now rewrite IH. }
    exact (X []).
  Qed.
  Lemma places_nodup f calls : NoDup (places f calls).
  Proof. apply NoDup_filter, seq_NoDup. Qed.
  Lemma in_places f calls i : In i (places f calls) <-> exists c, nth_error calls i = Some c /\ f c = true.
  Proof.
    unfold places. rewrite filter_In, in_seq. split.
    - intros [_ E]. destruct (nth_error calls i) as [c|]; [eauto|discriminate].
    - intros (c & E & F). rewrite E. split; [|exact F]. assert (i < length calls) by (apply nth_error_Some; rewrite E; discriminate). lia.
  Qed.
  Lemma order_call calls (order : dones) i o : forall s, stack_runs calls s order -> In (i, o) order ->
    exists c, nth_error calls i = Some c /\ is_len c = false /\ (did_push (i, o) = was_push c).
  Proof.
    induction order as [|[j x] r IH]; intros s R J; [destruct J|]. cbn in R. destruct (nth_error calls j) as [c|] eqn:Ej; [|destruct R]. cbn in R. destruct J as [J|J].
    - injection J as -> ->. exists c. split; [exact Ej|]. unfold is_len, did_push, was_push. destruct (c_call c); [destruct R as [-> _]|destruct R as [-> _]|destruct R]; auto.
    - destruct (c_call c); [destruct R as [_ R]|destruct R as [_ R]|destruct R]; eauto.
  Qed.
  Lemma nodup_fst_fun (d : dones) i a b : NoDup (map fst d) -> In (i, a) d -> In (i, b) d -> a = b.
  Proof.
    induction d as [|[j x] d IH]; [intros _ []|]. cbn. intros N. inversion N as [|? ? A B]; subst. intros [E|E] [F|F]; [congruence| | |auto].
    - injection E as -> ->. exfalso. apply A. apply in_map_iff. exists (i, b). auto.
    - injection F as -> ->. exfalso. apply A. apply in_map_iff. exists (i, a). auto.
  Qed.
  Lemma filter_fst_nodup (f : nat * stack_out T -> bool) d : NoDup (map fst d) -> NoDup (map fst (filter f d)).
  Proof.
    induction d as [|x d IH]; [auto|]. cbn. intros N. inversion N as [|? ? A B]; subst. destruct (f x); [|auto]. cbn. constructor; [|auto]. intros J. apply A. apply in_map_iff in J. destruct J as (y & E & J). apply filter_In in J. apply in_map_iff. exists y. tauto.
  Qed.
  Lemma same_length (f : nat * stack_out T -> bool) (p : wcall T -> bool) calls d : NoDup (map fst d) ->
    (forall i, In i (map fst (filter f d)) <-> In i (places p calls)) -> length (filter f d) = length (filter p calls).
  Proof.
    intros N E. rewrite <- (map_length fst), <- places_length. apply Permutation_length. apply NoDup_Permutation; [now apply filter_fst_nodup|apply places_nodup|exact E].
  Qed.

  Lemma len_exact (ls : list (label T)) s tr i c o : wexec wstack_new ls = Ok (s, tr) -> let calls := o_calls (observed tr) in
    nth_error calls i = Some c -> is_len c = true -> c_out c = Some o -> knows_all calls c ->
    exists n, o = OLen n /\ (n < 2 ^ 64 /\ (n + N.of_nat (length (filter was_popped calls))) mod 2 ^ 64 = N.of_nat (length (filter was_push calls)) mod 2 ^ 64)%N.
  Proof.
    intros Ex calls Ei Il Eo Kn. destruct (exec_explained ls s tr Ex) as (order & Nd & Ru & Done & _ & Le). fold calls in Ru, Done, Le.
    destruct (Le i c o Ei Il Eo) as (n & d & -> & [Lt Co] & Nd' & Sub & Cov). exists n. split; [reflexivity|]. split; [exact Lt|].
    assert (Ret : forall j x, In (j, x) order -> exists e, nth_error calls j = Some e /\ is_len e = false /\ c_out e = Some x /\ did_push (j, x) = was_push e /\ (x = OPop None \/ In (j, x) d)).
    { intros j x J. destruct (order_call calls order j x [] Ru J) as (e & Ee & Le' & Pe). destruct (Kn j e Ee Le') as [Aj Rj]. destruct (c_out e) as [y|] eqn:Ey; [|congruence].
      assert (y = x) by exact (nodup_fst_fun order j y x Nd (Done j e y Ee Le' Ey) J). subst y. exists e. repeat split; auto. apply (Cov j e x); auto. }
    rewrite (same_length did_push was_push calls d Nd') in Co. rewrite (same_length did_pop was_popped calls d Nd') in Co. exact Co.
    - intros j. rewrite in_places, in_map_iff. split.
      + intros ((j' & x) & E & J). cbn in E. subst j'. apply filter_In in J. destruct J as [J P]. destruct (Ret j x (Sub _ J)) as (e & Ee & _ & Ex' & _). exists e. split; [exact Ee|]. unfold was_popped. rewrite Ex'.
        unfold did_pop in P. cbn in P. destruct x as [|[v|]|]; auto.
      + intros (e & Ee & P). unfold was_popped in P. destruct (c_out e) as [x|] eqn:Ex'; [|discriminate]. assert (is_len e = false).
        { destruct (is_len e) eqn:Ile; [|reflexivity]. destruct (Le j e x Ee Ile Ex') as (n' & d' & -> & _). discriminate. }
        pose proof (Done j e x Ee H Ex') as J. destruct (Ret j x J) as (_ & _ & _ & _ & _ & [->|Jd]); [discriminate|]. exists (j, x). split; [reflexivity|]. apply filter_In. split; [exact Jd|].
        unfold did_pop. cbn. destruct x as [|[v|]|]; auto.
    - intros j. rewrite in_places, in_map_iff. split.
      + intros ((j' & x) & E & J). cbn in E. subst j'. apply filter_In in J. destruct J as [J P]. destruct (Ret j x (Sub _ J)) as (e & Ee & _ & _ & Q & _). exists e. split; [exact Ee|]. congruence.
      + intros (e & Ee & P). assert (Ile : is_len e = false) by (unfold is_len, was_push in *; destruct (c_call e); auto; discriminate). destruct (Kn j e Ee Ile) as [_ Rj]. destruct (c_out e) as [x|] eqn:Ex'; [|congruence].
        pose proof (Done j e x Ee Ile Ex') as J. destruct (Ret j x J) as (e' & Ee' & _ & _ & Q & X). rewrite Ee in Ee'. injection Ee' as <-. rewrite P in Q. unfold did_push in Q. cbn in Q.
        destruct X as [->|Jd]; [discriminate|]. exists (j, x). split; [reflexivity|]. apply filter_In. auto.
  Qed.
End Count.

(** A pop that misses a push which has returned *)
Lemma stale_not_linearizable : ~ linearizable (wcalls stale_tr).
Proof.
  set (h3 := [ERet 1 (OPop None)] : list (stack_event nat)). set (h2 := EInv 1 CPop :: h3). set (h1 := ERet 0 OUnit :: h2). set (h0 := EInv 0 (CPush 7) :: h1).
  assert (X : forall s th h s' th', atomic_run_with any_len s th h s' th' ->
    ~ ((forall t, 1 < t -> th t = AIdle) /\
       (h = h0 /\ s = [] /\ th 0 = AIdle /\ th 1 = AIdle \/
        h = h1 /\ (s = [] /\ th 0 = ACalled (CPush 7) \/ s = [7] /\ th 0 = ADone OUnit) /\ th 1 = AIdle \/
        h = h2 /\ s = [7] /\ th 0 = AIdle /\ th 1 = AIdle \/
        h = h3 /\ (s = [7] /\ th 1 = ACalled CPop \/ s = [] /\ th 1 = ADone (OPop (Some 7))) /\ th 0 = AIdle))).
  { induction 1 as [s th|s th t c h s' th' E R IH|s th t o h s' th' E R IH|s th t v h s' th' E R IH|s th t v h s' th' E R IH|th t h s' th' E R IH|s th t n h s' th' E Eo R IH]; intros [Id Ph].
    - destruct Ph as [(Q & _)|[(Q & _)|[(Q & _)|(Q & _)]]]; discriminate Q.
    - apply IH. destruct Ph as [(Q & Es & E0 & E1)|[(Q & _)|[(Q & Es & E0 & E1)|(Q & _)]]]; try discriminate Q; injection Q as -> -> ->.
      + split; [intros u Hu; rewrite update_ne by lia; auto|]. right. left. rewrite update_eq, update_ne by lia. auto 6.
      + split; [intros u Hu; rewrite update_ne by lia; auto|]. right. right. right. rewrite update_eq, update_ne by lia. auto 6.
    - apply IH. destruct Ph as [(Q & _)|[(Q & Es & E1)|[(Q & _)|(Q & Es & E0)]]]; try discriminate Q; injection Q as -> -> ->.
      + split; [intros u Hu; rewrite update_ne by lia; auto|]. right. right. left. rewrite update_eq, update_ne by lia. destruct Es as [[_ Es]|[Es _]]; [congruence|auto].
      + destruct Es as [[_ Es]|[_ Es]]; congruence.
    - assert (t = 0 \/ t = 1) as [->| ->] by (destruct (Nat.le_gt_cases t 1); [lia|rewrite Id in E by lia; discriminate]).
      + apply IH. split; [intros u Hu; rewrite update_ne by lia; auto|]. rewrite update_eq, update_ne by lia. destruct Ph as [(_ & _ & E0 & _)|[(Q & Es & E1)|[(_ & _ & E0 & _)|(_ & _ & E0)]]]; try congruence.
        right. left. split; [exact Q|]. split; [|exact E1]. right. destruct Es as [[-> Es]|[_ Es]]; [|congruence]. split; [|reflexivity]. congruence.
      + destruct Ph as [(_ & _ & _ & E1)|[(_ & _ & E1)|[(_ & _ & _ & E1)|(_ & [[_ E1]|[_ E1]] & _)]]]; congruence.
    - assert (t = 0 \/ t = 1) as [->| ->] by (destruct (Nat.le_gt_cases t 1); [lia|rewrite Id in E by lia; discriminate]).
      + destruct Ph as [(_ & _ & E0 & _)|[(_ & [[_ E0]|[_ E0]] & _)|[(_ & _ & E0 & _)|(_ & _ & E0)]]]; congruence.
      + apply IH. split; [intros u Hu; rewrite update_ne by lia; auto|]. rewrite update_eq, update_ne by lia. destruct Ph as [(_ & _ & _ & E1)|[(_ & _ & E1)|[(_ & _ & _ & E1)|(Q & Es & E0)]]]; try congruence.
        right. right. right. split; [exact Q|]. split; [|exact E0]. right. destruct Es as [[Es _]|[_ Es]]; [|congruence]. injection Es as -> ->. auto.
    - assert (t = 0 \/ t = 1) as [->| ->] by (destruct (Nat.le_gt_cases t 1); [lia|rewrite Id in E by lia; discriminate]).
      + destruct Ph as [(_ & _ & E0 & _)|[(_ & [[_ E0]|[_ E0]] & _)|[(_ & _ & E0 & _)|(_ & _ & E0)]]]; congruence.
      + destruct Ph as [(_ & _ & _ & E1)|[(_ & _ & E1)|[(_ & _ & _ & E1)|(_ & [[E1 _]|[_ E1]] & _)]]]; congruence.
    - assert (t = 0 \/ t = 1) as [->| ->] by (destruct (Nat.le_gt_cases t 1); [lia|rewrite Id in E by lia; discriminate]).
      + destruct Ph as [(_ & _ & E0 & _)|[(_ & [[_ E0]|[_ E0]] & _)|[(_ & _ & E0 & _)|(_ & _ & E0)]]]; congruence.
      + destruct Ph as [(_ & _ & _ & E1)|[(_ & _ & E1)|[(_ & _ & _ & E1)|(_ & [[_ E1]|[_ E1]] & _)]]]; congruence. }
  intros (s' & th' & R). apply (X _ _ _ _ _ R). split; [reflexivity|]. left. auto.
Qed.
Lemma stale_runs : exists s, wexec wstack_new stale_ls = Ok (s, stale_tr).
Proof. eexists. vm_compute. reflexivity. Qed.
Lemma real_time_refuted : exists (ls : list (label nat)) s tr, wexec wstack_new ls = Ok (s, tr) /\ ~ linearizable (wcalls tr).
Proof. destruct stale_runs as (s & E). exists stale_ls, s, stale_tr. split; [exact E|exact stale_not_linearizable]. Qed.
