(** Facts about lawful comparisons and sorted association lists. *)
From Verif Require Import MapSpec.
From Coq Require Export Sorting.Sorted.

Section Ord.
  Context {K : Type} `{CmpLaws K}.

  Lemma cmp_refl (x : K) : cmp x x = Eq.
  Proof. pose proof (cmp_sym x x) as E. destruct (cmp x x); simpl in E; congruence. Qed.

  Lemma cmp_gt_lt (x y : K) : cmp x y = Gt -> cmp y x = Lt.
  Proof. intros E. rewrite cmp_sym, E. reflexivity. Qed.
  Lemma cmp_lt_gt (x y : K) : cmp x y = Lt -> cmp y x = Gt.
  Proof. intros E. rewrite cmp_sym, E. reflexivity. Qed.
  Lemma cmp_eq_sym (x y : K) : cmp x y = Eq -> cmp y x = Eq.
  Proof. intros E. rewrite cmp_sym, E. reflexivity. Qed.
  Lemma cmp_eq_r (x y z : K) : cmp x y = Eq -> cmp z x = cmp z y.
  Proof. intros E. rewrite (cmp_sym x z), (cmp_sym y z). f_equal. now apply cmp_eq_l. Qed.
  Lemma cmp_eq_lt_trans (x y z : K) : cmp x y = Eq -> cmp y z = Lt -> cmp x z = Lt.
  Proof. intros E1 E2. now rewrite (cmp_eq_l x y z E1). Qed.
  Lemma cmp_lt_eq_trans (x y z : K) : cmp x y = Lt -> cmp y z = Eq -> cmp x z = Lt.
  Proof. intros E1 E2. now rewrite <- (cmp_eq_r y z x E2). Qed.
  Lemma cmp_eq_trans (x y z : K) : cmp x y = Eq -> cmp y z = Eq -> cmp x z = Eq.
  Proof. intros E1 E2. now rewrite (cmp_eq_l x y z E1). Qed.
End Ord.

(** Decision by saturation: all comparison facts are turned into [Lt]/[Eq] facts and closed under
    transitivity until [cmp x x = Lt] or a clash appears. *)
Ltac cmp_norm :=
  repeat match goal with
  | H : cmp ?x ?y = Gt |- _ => apply cmp_gt_lt in H
  | H : is_lt (cmp ?x ?y) = true |- _ => destruct (cmp x y) eqn:?; simpl in H; try discriminate H; clear H
  | H : is_gt (cmp ?x ?y) = true |- _ => destruct (cmp x y) eqn:?; simpl in H; try discriminate H; clear H
  | H : is_eq (cmp ?x ?y) = true |- _ => destruct (cmp x y) eqn:?; simpl in H; try discriminate H; clear H
  end.

Ltac cmp_have x y c :=
  match goal with
  | _ : cmp x y = c |- _ => fail 1
  | _ => idtac
  end.

Ltac cmp_clash :=
  match goal with
  | H : cmp ?x ?x = Lt |- _ => exfalso; rewrite (cmp_refl x) in H; discriminate H
  | H1 : cmp ?x ?y = Lt, H2 : cmp ?x ?y = Eq |- _ => exfalso; congruence
  | H1 : cmp ?x ?y = Lt, H2 : cmp ?y ?x = Lt |- _ =>
      exfalso; rewrite (cmp_lt_gt _ _ H1) in H2; discriminate H2
  | H1 : cmp ?x ?y = Lt, H2 : cmp ?y ?x = Eq |- _ =>
      exfalso; rewrite (cmp_lt_gt _ _ H1) in H2; discriminate H2
  end.

Ltac cmp_sat :=
  cmp_norm; try cmp_clash;
  repeat (match goal with
  | H1 : cmp ?x ?y = Lt, H2 : cmp ?y ?z = Lt |- _ =>
      cmp_have x z Lt; pose proof (cmp_lt_trans _ _ _ H1 H2)
  | H1 : cmp ?x ?y = Eq, H2 : cmp ?y ?z = Lt |- _ =>
      cmp_have x z Lt; pose proof (cmp_eq_lt_trans _ _ _ H1 H2)
  | H1 : cmp ?x ?y = Lt, H2 : cmp ?y ?z = Eq |- _ =>
      cmp_have x z Lt; pose proof (cmp_lt_eq_trans _ _ _ H1 H2)
  | H1 : cmp ?x ?y = Eq, H2 : cmp ?y ?z = Eq |- _ =>
      cmp_have x z Eq; pose proof (cmp_eq_trans _ _ _ H1 H2)
  | H1 : cmp ?x ?y = Eq |- _ =>
      cmp_have y x Eq; pose proof (cmp_eq_sym _ _ H1)
  end; try cmp_clash).

(** Proves goals [cmp x y = c] (or any goal, by contradiction) from comparison hypotheses. *)
Ltac korder :=
  match goal with
  | |- cmp ?x ?y = _ => destruct (cmp x y) eqn:?; try reflexivity; cmp_sat
  | |- _ => cmp_sat
  end.

(** Right-associate appends. *)
Ltac lnorm := repeat (progress (simpl; rewrite <- ?app_assoc)).
Ltac lnorm_in S := repeat (progress (simpl in S; rewrite <- ?app_assoc in S)).

Section Lists.
  Context {K V : Type} `{CmpLaws K}.
  Notation pair := (K * V)%type.
  Implicit Types (l r : list pair) (e p q : pair) (k : K).

  Definition plt (p q : pair) : Prop := cmp (fst p) (fst q) = Lt.

  (** Strictly ascending keys. *)
  Definition sorted (l : list pair) : Prop := StronglySorted plt l.

  (** All keys of [l] are below / above [k]. *)
  Definition all_lt (l : list pair) (k : K) : Prop := Forall (fun p => cmp (fst p) k = Lt) l.
  Definition all_gt (l : list pair) (k : K) : Prop := Forall (fun p => cmp k (fst p) = Lt) l.

  Lemma sorted_nil : sorted [].
  Proof. constructor. Qed.

  Lemma sorted_app (l r : list pair) :
    sorted (l ++ r) <-> sorted l /\ sorted r /\ (forall p q, In p l -> In q r -> plt p q).
  Proof.
    unfold sorted. induction l as [|a l IH]; simpl.
    - split; [intros S; repeat split; auto; [constructor | intros ? ? []] | tauto].
    - split.
      + intros S. inversion S as [|? ? S1 F]; subst. apply IH in S1 as (S2 & S3 & S4).
        rewrite Forall_app in F. destruct F as [F1 F2].
        repeat split; auto; [constructor; auto |].
        intros p q [<-|Hp] Hq; [rewrite Forall_forall in F2; auto | auto].
      + intros (S & Sr & X). inversion S as [|? ? S1 F]; subst. constructor.
        * apply IH; repeat split; auto.
        * rewrite Forall_app; split; auto. rewrite Forall_forall. intros q Hq. apply X; auto.
  Qed.

  Lemma sorted_cons (e : pair) (r : list pair) : sorted (e :: r) <-> all_gt r (fst e) /\ sorted r.
  Proof.
    unfold sorted, all_gt. split.
    - intros S. inversion S; subst; auto.
    - intros [F S]. constructor; auto.
  Qed.

  Lemma sorted_mid (l : list pair) e r :
    sorted (l ++ e :: r) <-> sorted l /\ sorted r /\ all_lt l (fst e) /\ all_gt r (fst e).
  Proof.
    rewrite sorted_app, sorted_cons. unfold all_lt, all_gt. rewrite !Forall_forall. split.
    - intros (S1 & (F & S2) & X). repeat split; auto. intros p Hp. apply (X p e); simpl; auto.
    - intros (S1 & S2 & F1 & F2). repeat split; auto.
      intros p q Hp [<-|Hq]; [now apply F1|].
      apply cmp_lt_trans with (fst e); [now apply F1 | now apply F2].
  Qed.

  Lemma all_lt_app l r k : all_lt (l ++ r) k <-> all_lt l k /\ all_lt r k.
  Proof. apply Forall_app. Qed.
  Lemma all_gt_app l r k : all_gt (l ++ r) k <-> all_gt l k /\ all_gt r k.
  Proof. apply Forall_app. Qed.
  Lemma all_lt_cons p r k : all_lt (p :: r) k <-> cmp (fst p) k = Lt /\ all_lt r k.
  Proof. unfold all_lt. split; [intros F; inversion F; auto | intros [A B]; constructor; auto]. Qed.
  Lemma all_gt_cons p r k : all_gt (p :: r) k <-> cmp k (fst p) = Lt /\ all_gt r k.
  Proof. unfold all_gt. split; [intros F; inversion F; auto | intros [A B]; constructor; auto]. Qed.
  Lemma all_lt_nil k : all_lt [] k.
  Proof. constructor. Qed.
  Lemma all_gt_nil k : all_gt [] k.
  Proof. constructor. Qed.

  Lemma all_lt_weaken l k k' : all_lt l k -> cmp k k' = Lt -> all_lt l k'.
  Proof. unfold all_lt. rewrite !Forall_forall. intros F L p Hp. specialize (F p Hp). korder. Qed.
  Lemma all_gt_weaken l k k' : all_gt l k -> cmp k' k = Lt -> all_gt l k'.
  Proof. unfold all_gt. rewrite !Forall_forall. intros F L p Hp. specialize (F p Hp). korder. Qed.
  Lemma all_lt_eq l k k' : all_lt l k -> cmp k k' = Eq -> all_lt l k'.
  Proof. unfold all_lt. rewrite !Forall_forall. intros F L p Hp. specialize (F p Hp). korder. Qed.
  Lemma all_gt_eq l k k' : all_gt l k -> cmp k k' = Eq -> all_gt l k'.
  Proof. unfold all_gt. rewrite !Forall_forall. intros F L p Hp. specialize (F p Hp). korder. Qed.

  (** below / at_key / above on lists whose position relative to [k] is known. *)
  Lemma filter_all {A} (f : A -> bool) (l : list A) : Forall (fun x => f x = true) l -> filter f l = l.
  Proof. induction 1 as [|x l E F IH]; simpl; [reflexivity|]. rewrite E, IH. reflexivity. Qed.
  Lemma filter_none {A} (f : A -> bool) (l : list A) : Forall (fun x => f x = false) l -> filter f l = [].
  Proof. induction 1 as [|x l E F IH]; simpl; [reflexivity|]. rewrite E, IH. reflexivity. Qed.

  Lemma below_all_lt l k : all_lt l k -> below k l = l.
  Proof. intros F. apply filter_all. eapply Forall_impl; [|exact F]. intros p E. simpl in E. now rewrite E. Qed.
  Lemma at_all_lt l k : all_lt l k -> at_key k l = [].
  Proof. intros F. apply filter_none. eapply Forall_impl; [|exact F]. intros p E. simpl in E. now rewrite E. Qed.
  Lemma above_all_lt l k : all_lt l k -> above k l = [].
  Proof. intros F. apply filter_none. eapply Forall_impl; [|exact F]. intros p E. simpl in E. now rewrite E. Qed.
  Lemma below_all_gt l k : all_gt l k -> below k l = [].
  Proof. intros F. apply filter_none. eapply Forall_impl; [|exact F]. intros p E. simpl in E. now rewrite (cmp_lt_gt _ _ E). Qed.
  Lemma at_all_gt l k : all_gt l k -> at_key k l = [].
  Proof. intros F. apply filter_none. eapply Forall_impl; [|exact F]. intros p E. simpl in E. now rewrite (cmp_lt_gt _ _ E). Qed.
  Lemma above_all_gt l k : all_gt l k -> above k l = l.
  Proof. intros F. apply filter_all. eapply Forall_impl; [|exact F]. intros p E. simpl in E. now rewrite (cmp_lt_gt _ _ E). Qed.

  Lemma below_app k l r : below k (l ++ r) = below k l ++ below k r.
  Proof. apply filter_app. Qed.
  Lemma at_app k l r : at_key k (l ++ r) = at_key k l ++ at_key k r.
  Proof. apply filter_app. Qed.
  Lemma above_app k l r : above k (l ++ r) = above k l ++ above k r.
  Proof. apply filter_app. Qed.
  Lemma below_cons k e r : below k (e :: r) = if is_lt (cmp (fst e) k) then e :: below k r else below k r.
  Proof. reflexivity. Qed.
  Lemma at_cons k e r : at_key k (e :: r) = if is_eq (cmp (fst e) k) then e :: at_key k r else at_key k r.
  Proof. reflexivity. Qed.
  Lemma above_cons k e r : above k (e :: r) = if is_gt (cmp (fst e) k) then e :: above k r else above k r.
  Proof. reflexivity. Qed.

  (** The three pieces of a sorted list around a middle element. *)
  Lemma pieces_lt l e r k : sorted (l ++ e :: r) -> cmp k (fst e) = Lt ->
    below k (l ++ e :: r) = below k l /\ at_key k (l ++ e :: r) = at_key k l /\
    above k (l ++ e :: r) = above k l ++ e :: r.
  Proof.
    intros S L. apply sorted_mid in S as (S1 & S2 & F1 & F2).
    assert (G : all_gt (e :: r) k).
    { apply all_gt_cons. split; [exact L|]. eapply all_gt_weaken; eauto. }
    rewrite below_app, at_app, above_app.
    rewrite (below_all_gt _ _ G), (at_all_gt _ _ G), (above_all_gt _ _ G), !app_nil_r. auto.
  Qed.

  Lemma pieces_gt l e r k : sorted (l ++ e :: r) -> cmp k (fst e) = Gt ->
    below k (l ++ e :: r) = l ++ e :: below k r /\ at_key k (l ++ e :: r) = at_key k r /\
    above k (l ++ e :: r) = above k r.
  Proof.
    intros S L. apply sorted_mid in S as (S1 & S2 & F1 & F2). apply cmp_gt_lt in L.
    assert (G : all_lt (l ++ [e]) k).
    { apply all_lt_app. split; [eapply all_lt_weaken; eauto | apply all_lt_cons; split; auto using all_lt_nil]. }
    replace (l ++ e :: r) with ((l ++ [e]) ++ r) by now rewrite <- app_assoc.
    rewrite below_app, at_app, above_app.
    rewrite (below_all_lt _ _ G), (at_all_lt _ _ G), (above_all_lt _ _ G). rewrite <- app_assoc. auto.
  Qed.

  Lemma pieces_eq l e r k : sorted (l ++ e :: r) -> cmp k (fst e) = Eq ->
    below k (l ++ e :: r) = l /\ at_key k (l ++ e :: r) = [e] /\ above k (l ++ e :: r) = r.
  Proof.
    intros S L. apply sorted_mid in S as (S1 & S2 & F1 & F2). apply cmp_eq_sym in L.
    assert (G1 : all_lt l k) by (eapply all_lt_eq; eauto).
    assert (G2 : all_gt r k) by (eapply all_gt_eq; eauto).
    rewrite below_app, at_app, above_app, below_cons, at_cons, above_cons, L. simpl.
    rewrite (below_all_lt _ _ G1), (at_all_lt _ _ G1), (above_all_lt _ _ G1).
    rewrite (below_all_gt _ _ G2), (at_all_gt _ _ G2), (above_all_gt _ _ G2). simpl.
    rewrite app_nil_r. auto.
  Qed.

  Lemma sorted_suffix_gt l e r k : sorted (l ++ e :: r) -> cmp k (fst e) = Lt -> all_gt (e :: r) k.
  Proof.
    intros S Ck. apply sorted_mid in S as (_ & _ & _ & F). apply all_gt_cons. split; [exact Ck|].
    now apply all_gt_weaken with (fst e).
  Qed.

  Lemma sorted_prefix_lt l e r k : sorted (l ++ e :: r) -> cmp k (fst e) = Gt -> all_lt (l ++ [e]) k.
  Proof.
    intros S Ck. apply sorted_mid in S as (_ & _ & F & _). apply cmp_gt_lt in Ck.
    apply all_lt_app. split; [now apply all_lt_weaken with (fst e)|].
    apply all_lt_cons; split; [exact Ck | apply all_lt_nil].
  Qed.

  Lemma below_lt l k : all_lt (below k l) k.
  Proof. unfold all_lt, below. rewrite Forall_forall. intros p Hp. apply filter_In in Hp as [_ E].
    destruct (cmp (fst p) k); simpl in E; congruence. Qed.
  Lemma above_gt l k : all_gt (above k l) k.
  Proof. unfold all_gt, above. rewrite Forall_forall. intros p Hp. apply filter_In in Hp as [_ E].
    destruct (cmp (fst p) k) eqn:E1; simpl in E; try congruence. now apply cmp_gt_lt. Qed.

  Lemma sorted_filter (f : pair -> bool) l : sorted l -> sorted (filter f l).
  Proof.
    unfold sorted. induction l as [|a l IH]; simpl; intros S; [constructor|].
    inversion S as [|? ? S1 F]; subst. destruct (f a); auto. constructor; auto.
    rewrite Forall_forall in *. intros x Hx. apply filter_In in Hx as [Hx _]. auto.
  Qed.

  Lemma sorted_split l k : sorted l -> l = below k l ++ at_key k l ++ above k l.
  Proof.
    induction l as [|a l IH]; intros S; [reflexivity|].
    pose proof (IH (proj2 (proj1 (sorted_cons _ _) S))) as E.
    apply sorted_cons in S as [F S]. rewrite below_cons, at_cons, above_cons.
    destruct (cmp (fst a) k) eqn:Ck; simpl.
    - assert (G : all_gt l k) by (eapply all_gt_eq; eauto).
      now rewrite (below_all_gt _ _ G), (at_all_gt _ _ G), (above_all_gt _ _ G).
    - now f_equal.
    - assert (G : all_gt l k) by (eapply all_gt_weaken; eauto; now apply cmp_gt_lt).
      now rewrite (below_all_gt _ _ G), (at_all_gt _ _ G), (above_all_gt _ _ G).
  Qed.

  Lemma sorted_insert l k v : sorted l -> sorted (below k l ++ (k, v) :: above k l).
  Proof.
    intros S. apply sorted_mid. repeat split; try (apply sorted_filter; exact S).
    - apply below_lt. - apply above_gt.
  Qed.

  Lemma sorted_delete l k : sorted l -> sorted (below k l ++ above k l).
  Proof.
    intros S. apply sorted_app. repeat split; try (apply sorted_filter; exact S).
    intros p q Hp Hq. pose proof (below_lt l k) as F1. pose proof (above_gt l k) as F2.
    unfold all_lt, all_gt in *. rewrite Forall_forall in F1, F2.
    eapply cmp_lt_trans; [apply F1 | apply F2]; eauto.
  Qed.

  (** A sorted list has at most one pair with a given key. *)
  Lemma at_key_cases l k : sorted l -> at_key k l = [] \/ exists e, at_key k l = [e] /\ cmp k (fst e) = Eq.
  Proof.
    induction l as [|a l IH]; intros S; [left; reflexivity|].
    apply sorted_cons in S as [F S]. rewrite at_cons.
    destruct (cmp (fst a) k) eqn:Ck; simpl; auto.
    assert (G : all_gt l k) by (eapply all_gt_eq; eauto).
    rewrite (at_all_gt _ _ G). right. exists a. split; auto. now apply cmp_eq_sym.
  Qed.

  Lemma sorted_update l k v : sorted l ->
    sorted (below k l ++ map (fun p => (fst p, v)) (at_key k l) ++ above k l).
  Proof.
    intros S. destruct (at_key_cases l k S) as [E | (e & E & Ck)]; rewrite E; simpl.
    - apply sorted_delete; auto.
    - apply sorted_mid. repeat split; try (apply sorted_filter; exact S); simpl.
      + eapply all_lt_eq; [apply below_lt | exact Ck].
      + eapply all_gt_eq; [apply above_gt | exact Ck].
  Qed.

  (** Two sorted lists with the same elements are equal. *)
  Lemma sorted_ext l1 l2 : sorted l1 -> sorted l2 -> (forall p, In p l1 <-> In p l2) -> l1 = l2.
  Proof.
    revert l2. induction l1 as [|a l1 IH]; intros l2 S1 S2 E.
    - destruct l2 as [|b l2]; [reflexivity|]. exfalso. apply (E b). left; reflexivity.
    - destruct l2 as [|b l2]; [exfalso; apply (E a); left; reflexivity|].
      pose proof S1 as S1'. pose proof S2 as S2'.
      apply sorted_cons in S1' as [F1 T1]. apply sorted_cons in S2' as [F2 T2].
      unfold all_gt in F1, F2. rewrite Forall_forall in F1, F2.
      assert (a = b).
      { destruct (proj1 (E a) (or_introl eq_refl)) as [<-|Ha]; [reflexivity|].
        destruct (proj2 (E b) (or_introl eq_refl)) as [->|Hb]; [reflexivity|].
        specialize (F1 _ Hb). specialize (F2 _ Ha). exfalso. korder. }
      subst b. f_equal. apply IH; auto. intros p. split; intros Hp.
      + destruct (proj1 (E p) (or_intror Hp)) as [<-|?]; auto.
        specialize (F1 _ Hp). exfalso. korder.
      + destruct (proj2 (E p) (or_intror Hp)) as [<-|?]; auto.
        specialize (F2 _ Hp). exfalso. korder.
  Qed.

  Lemma in_below p k l : In p (below k l) <-> In p l /\ cmp (fst p) k = Lt.
  Proof. unfold below. rewrite filter_In. destruct (cmp (fst p) k); simpl; intuition congruence. Qed.
  Lemma in_at p k l : In p (at_key k l) <-> In p l /\ cmp (fst p) k = Eq.
  Proof. unfold at_key. rewrite filter_In. destruct (cmp (fst p) k); simpl; intuition congruence. Qed.
  Lemma in_above p k l : In p (above k l) <-> In p l /\ cmp (fst p) k = Gt.
  Proof. unfold above. rewrite filter_In. destruct (cmp (fst p) k); simpl; intuition congruence. Qed.

  (** Keys identify pairs. *)
  Lemma sorted_key_inj l p q : sorted l -> In p l -> In q l -> cmp (fst p) (fst q) = Eq -> p = q.
  Proof.
    induction l as [|a l IH]; intros S Hp Hq Ck; [destruct Hp|].
    apply sorted_cons in S as [F S]. unfold all_gt in F. rewrite Forall_forall in F.
    destruct Hp as [<-|Hp], Hq as [<-|Hq]; auto.
    - specialize (F _ Hq). exfalso. korder.
    - specialize (F _ Hp). exfalso. korder.
  Qed.

  Lemma write_vals_keys (l : list pair) vs : map fst (write_vals l vs) = map fst l.
  Proof.
    revert vs. induction l as [|[k v] l IH]; intros [|w vs]; simpl; auto. now rewrite IH.
  Qed.

  Lemma sorted_keys (l1 l2 : list pair) : map fst l1 = map fst l2 -> sorted l1 -> sorted l2.
  Proof.
    revert l2. induction l1 as [|a l1 IH]; intros [|b l2] E S; simpl in E; try discriminate; auto.
    injection E as E1 E2. apply sorted_cons in S as [F S]. apply sorted_cons. split; [|now apply IH].
    unfold all_gt in *. rewrite <- E1. clear -F E2. revert l2 E2. induction F; intros [|c l2] E; simpl in E; try discriminate; constructor.
    - injection E as E3 E4. now rewrite <- E3.
    - injection E as E3 E4. now apply IHF.
  Qed.

  Lemma sorted_write_vals (l : list pair) vs : sorted l -> sorted (write_vals l vs).
  Proof. apply sorted_keys. symmetry. apply write_vals_keys. Qed.
End Lists.

(** Lists: last element. *)
Lemma last_error_app {A} (l : list A) x : last_error (l ++ [x]) = Some x.
Proof.
  induction l as [|a l IH]; simpl; [reflexivity|].
  destruct (l ++ [x]) eqn:E; [destruct l; discriminate E | exact IH].
Qed.

Lemma last_error_app2 {A} (l r : list A) : r <> [] -> last_error (l ++ r) = last_error r.
Proof.
  intros N. induction l as [|a l IH]; simpl; [reflexivity|].
  destruct (l ++ r) eqn:E; [apply app_eq_nil in E as [_ E]; contradiction | exact IH].
Qed.

Lemma last_error_none {A} (l : list A) : last_error l = None -> l = [].
Proof.
  induction l as [|a l IH]; [reflexivity|]. simpl. destruct l; [discriminate|].
  intros E. specialize (IH E). discriminate.
Qed.
