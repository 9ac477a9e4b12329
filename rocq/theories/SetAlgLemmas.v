(** Key-wise characterisation of the set algebra specification. *)
From Verif Require Export SetAlgSpec OrdLemmas.

Section SetAlgLemmas.
  Context {K V : Type} `{CmpLaws K}.
  Notation amap := (list (K * V)).
  Implicit Types (a b l r R A B : amap) (e p q : K * V) (k : K).

  Lemma in_at_self p l : In p l -> In p (at_key (fst p) l).
  Proof. intros Hp. apply in_at. split; [exact Hp | apply cmp_refl]. Qed.

  Lemma at_key_eq k k' l : cmp k k' = Eq -> at_key k l = at_key k' l.
  Proof.
    intros Ck. unfold at_key. apply filter_ext. intros p. f_equal. now apply cmp_eq_r.
  Qed.

  Lemma at_singleton l k p : sorted l -> In p l -> cmp (fst p) k = Eq -> at_key k l = [p].
  Proof.
    intros S Hp Ck. assert (Hin : In p (at_key k l)) by (apply in_at; auto).
    destruct (at_key_cases l k S) as [E|(q & E & _)]; rewrite E in Hin; [destruct Hin|].
    destruct Hin as [->|[]]. exact E.
  Qed.

  Lemma at_ext l r : sorted l -> sorted r -> (forall k, at_key k l = at_key k r) -> l = r.
  Proof.
    intros S1 S2 E. apply sorted_ext; auto. intros p. split; intros Hp.
    - apply in_at_self in Hp. rewrite E in Hp. now apply in_at in Hp.
    - apply in_at_self in Hp. rewrite <- E in Hp. now apply in_at in Hp.
  Qed.

  Lemma at_below k k' l : cmp k k' = Lt -> at_key k (below k' l) = at_key k l.
  Proof.
    intros Ck. induction l as [|p l IH]; [reflexivity|]. rewrite below_cons, (at_cons k p l).
    destruct (cmp (fst p) k') eqn:C1; cbn [is_lt]; rewrite ?at_cons, IH.
    - assert (cmp (fst p) k = Gt) as -> by korder. reflexivity.
    - reflexivity.
    - assert (cmp (fst p) k = Gt) as -> by korder. reflexivity.
  Qed.

  Lemma at_above k k' l : cmp k k' = Gt -> at_key k (above k' l) = at_key k l.
  Proof.
    intros Ck. induction l as [|p l IH]; [reflexivity|]. rewrite above_cons, (at_cons k p l).
    destruct (cmp (fst p) k') eqn:C1; cbn [is_gt]; rewrite ?at_cons, IH.
    - assert (cmp (fst p) k = Lt) as -> by korder. reflexivity.
    - assert (cmp (fst p) k = Lt) as -> by korder. reflexivity.
    - reflexivity.
  Qed.

  (** ** Key-wise operations *)
  Definition pw (f : amap -> amap -> amap) (R A B : amap) : Prop :=
    sorted R /\ forall k, at_key k R = f (at_key k A) (at_key k B).

  Definition f_union a b : amap := match a with [] => b | _ => a end.
  Definition f_inter a b : amap := match b with [] => [] | _ => a end.
  Definition f_diff a b : amap := match b with [] => a | _ => [] end.
  Definition f_symdiff a b : amap := match a, b with [], _ => b | _, [] => a | _, _ => [] end.
  Definition f_set (s : set_op) :=
    match s with SUnion => f_union | SInter => f_inter | SDiff => f_diff | SSymDiff => f_symdiff end.

  Lemma pw_unique f R R' A B : pw f R A B -> pw f R' A B -> R = R'.
  Proof. intros [S1 E1] [S2 E2]. apply at_ext; auto. intros k. now rewrite E1, E2. Qed.

  Lemma pw_flip f R A B : pw f R A B -> pw (fun x y => f y x) R B A.
  Proof. intros [S E]. split; auto. Qed.

  (** Elements of a key-wise result have keys of the arguments. *)
  Lemma pw_keys f R A B p : f [] [] = [] -> pw f R A B -> In p R ->
    exists q, (In q A \/ In q B) /\ cmp (fst q) (fst p) = Eq.
  Proof.
    intros F0 [S E] Hp. apply in_at_self in Hp. rewrite E in Hp.
    destruct (at_key (fst p) A) as [|q qs] eqn:EA.
    - destruct (at_key (fst p) B) as [|q qs] eqn:EB; [rewrite F0 in Hp; destruct Hp|].
      assert (Hq : In q (at_key (fst p) B)) by (rewrite EB; now left).
      apply in_at in Hq as [Hq Cq]. eauto.
    - assert (Hq : In q (at_key (fst p) A)) by (rewrite EA; now left).
      apply in_at in Hq as [Hq Cq]. eauto.
  Qed.

  Lemma pw_all_lt f R A B k : f [] [] = [] -> pw f R A B -> all_lt A k -> all_lt B k -> all_lt R k.
  Proof.
    intros F0 P FA FB. apply Forall_forall. intros p Hp. unfold all_lt in *.
    rewrite Forall_forall in FA, FB.
    destruct (pw_keys f R A B p F0 P Hp) as (q & [Hq|Hq] & Cq).
    - specialize (FA _ Hq). korder.
    - specialize (FB _ Hq). korder.
  Qed.

  Lemma pw_all_gt f R A B k : f [] [] = [] -> pw f R A B -> all_gt A k -> all_gt B k -> all_gt R k.
  Proof.
    intros F0 P FA FB. apply Forall_forall. intros p Hp. unfold all_gt in *.
    rewrite Forall_forall in FA, FB.
    destruct (pw_keys f R A B p F0 P Hp) as (q & [Hq|Hq] & Cq).
    - specialize (FA _ Hq). korder.
    - specialize (FB _ Hq). korder.
  Qed.

  Lemma pw_node f al e ar B Rl M Rr : f [] [] = [] ->
    sorted (al ++ e :: ar) -> sorted B ->
    pw f Rl al (below (fst e) B) -> pw f Rr ar (above (fst e) B) ->
    M = f [e] (at_key (fst e) B) -> (M = [] \/ exists e', M = [e'] /\ cmp (fst e') (fst e) = Eq) ->
    pw f (Rl ++ M ++ Rr) (al ++ e :: ar) B.
  Proof.
    intros F0 SA SB PL PR EM HM.
    pose proof (proj1 (sorted_mid _ _ _) SA) as (Sl & Sr & Fl & Fr).
    assert (Ll : all_lt Rl (fst e)) by (eapply pw_all_lt; eauto; apply below_lt).
    assert (Lr : all_gt Rr (fst e)) by (eapply pw_all_gt; eauto; apply above_gt).
    assert (SR : sorted (Rl ++ M ++ Rr)).
    { destruct PL as [SL _], PR as [SRr _]. destruct HM as [->|(e' & -> & Ce)].
      - simpl. apply sorted_app. split; [exact SL|]. split; [exact SRr|]. intros p q Hp Hq.
        unfold all_lt, all_gt in *. rewrite Forall_forall in Ll, Lr.
        specialize (Ll _ Hp). specialize (Lr _ Hq). unfold plt. korder.
      - simpl. apply sorted_mid. repeat split; auto.
        + apply all_lt_eq with (fst e); auto. now apply cmp_eq_sym.
        + apply all_gt_eq with (fst e); auto. now apply cmp_eq_sym. }
    split; [exact SR|]. intros k. destruct (cmp k (fst e)) eqn:Ck.
    - (* the key itself *)
      destruct (pieces_eq al e ar k SA Ck) as (_ & EA & _). rewrite EA.
      rewrite (at_key_eq k (fst e) B Ck), <- EM. rewrite !at_app.
      rewrite (at_all_lt Rl) by (apply all_lt_eq with (fst e); [exact Ll | now apply cmp_eq_sym]).
      rewrite (at_all_gt Rr) by (apply all_gt_eq with (fst e); [exact Lr | now apply cmp_eq_sym]).
      rewrite app_nil_r. simpl. destruct HM as [->|(e' & -> & Ce)]; [reflexivity|].
      rewrite at_cons. assert (cmp (fst e') k = Eq) as -> by korder. reflexivity.
    - destruct (pieces_lt al e ar k SA Ck) as (_ & EA & _). rewrite EA.
      rewrite !at_app. rewrite (at_all_gt Rr) by (apply all_gt_weaken with (fst e); auto).
      assert (at_key k M = []) as ->.
      { destruct HM as [->|(e' & -> & Ce)]; [reflexivity|]. rewrite at_cons.
        assert (cmp (fst e') k = Gt) as -> by korder. reflexivity. }
      rewrite !app_nil_r. destruct PL as [_ ->]. now rewrite at_below.
    - destruct (pieces_gt al e ar k SA Ck) as (_ & EA & _). rewrite EA.
      rewrite !at_app. rewrite (at_all_lt Rl) by (apply all_lt_weaken with (fst e); auto; now apply cmp_gt_lt).
      assert (at_key k M = []) as ->.
      { destruct HM as [->|(e' & -> & Ce)]; [reflexivity|]. rewrite at_cons.
        assert (cmp (fst e') k = Lt) as -> by korder. reflexivity. }
      simpl. destruct PR as [_ ->]. now rewrite at_above.
  Qed.

  (** ** The specification functions are key-wise. *)
  Lemma at_insert_pair k p l : sorted l ->
    at_key k (insert_pair p l) = match cmp (fst p) k with Eq => [p] | _ => at_key k l end.
  Proof.
    intros S. unfold insert_pair. rewrite at_app, at_cons.
    destruct (cmp (fst p) k) eqn:Ck; cbn [is_eq].
    - rewrite (at_all_lt (below _ _)) by (apply all_lt_eq with (fst p); [apply below_lt | exact Ck]).
      rewrite (at_all_gt (above _ _)) by (apply all_gt_eq with (fst p); [apply above_gt | exact Ck]).
      reflexivity.
    - rewrite (at_all_lt (below _ _)) by (apply all_lt_weaken with (fst p); [apply below_lt | exact Ck]).
      rewrite at_above by now apply cmp_lt_gt. reflexivity.
    - rewrite (at_all_gt (above _ _)) by (apply all_gt_weaken with (fst p); [apply above_gt | now apply cmp_gt_lt]).
      rewrite app_nil_r. apply at_below. now apply cmp_gt_lt.
  Qed.

  Lemma sorted_insert_pair p l : sorted l -> sorted (insert_pair p l).
  Proof. intros S. unfold insert_pair. destruct p as [k v]. now apply sorted_insert. Qed.

  Lemma union_pw a b : sorted a -> sorted b -> pw f_union (spec_union a b) a b.
  Proof.
    intros SA SB. induction a as [|p a IH].
    - split; [exact SB|]. reflexivity.
    - apply sorted_cons in SA as [Fp SA]. destruct (IH SA) as [SU EU]. split.
      + simpl. now apply sorted_insert_pair.
      + intros k. change (spec_union (p :: a) b) with (insert_pair p (spec_union a b)).
        rewrite at_insert_pair by exact SU. rewrite at_cons.
        destruct (cmp (fst p) k) eqn:Ck; cbn [is_eq]; [|apply EU|apply EU].
        rewrite at_all_gt by (apply all_gt_eq with (fst p); auto). reflexivity.
  Qed.

  Lemma at_filter (f : K * V -> bool) l k : at_key k (filter f l) = filter f (at_key k l).
  Proof.
    unfold at_key. induction l as [|p l IH]; simpl; [reflexivity|].
    destruct (f p) eqn:Fp; destruct (is_eq (cmp (fst p) k)) eqn:Ck; simpl; rewrite ?Fp, ?Ck; rewrite IH; reflexivity.
  Qed.

  Lemma has_key_eq k k' l : cmp k k' = Eq -> has_key k l = has_key k' l.
  Proof. intros Ck. unfold has_key. now rewrite (at_key_eq k k'). Qed.

  Lemma inter_pw a b : sorted a -> sorted b -> pw f_inter (spec_inter a b) a b.
  Proof.
    intros SA SB. split; [now apply sorted_filter|]. intros k. unfold spec_inter. rewrite at_filter.
    destruct (at_key_cases a k SA) as [->|(e & -> & Ce)]; simpl.
    - unfold f_inter. now destruct (at_key k b).
    - rewrite (has_key_eq (fst e) k b) by now apply cmp_eq_sym. unfold has_key, f_inter.
      now destruct (at_key k b).
  Qed.

  Lemma diff_pw a b : sorted a -> sorted b -> pw f_diff (spec_diff a b) a b.
  Proof.
    intros SA SB. split; [now apply sorted_filter|]. intros k. unfold spec_diff. rewrite at_filter.
    destruct (at_key_cases a k SA) as [->|(e & -> & Ce)]; simpl.
    - unfold f_diff. now destruct (at_key k b).
    - rewrite (has_key_eq (fst e) k b) by now apply cmp_eq_sym. unfold has_key, f_diff.
      now destruct (at_key k b).
  Qed.

  Lemma symdiff_pw a b : sorted a -> sorted b -> pw f_symdiff (spec_symdiff a b) a b.
  Proof.
    intros SA SB. unfold spec_symdiff.
    destruct (diff_pw a b SA SB) as [S1 E1]. destruct (diff_pw b a SB SA) as [S2 E2].
    destruct (union_pw _ _ S1 S2) as [S3 E3]. split; [exact S3|]. intros k. rewrite E3, E1, E2.
    unfold f_union, f_diff, f_symdiff. destruct (at_key k a), (at_key k b); reflexivity.
  Qed.

  Lemma set_pw s a b : sorted a -> sorted b -> pw (f_set s) (spec_set s a b) a b.
  Proof. destruct s; [apply union_pw | apply inter_pw | apply diff_pw | apply symdiff_pw]. Qed.

  Lemma f_set_nil s : f_set s [] [] = [].
  Proof. now destruct s. Qed.
End SetAlgLemmas.

Lemma spec_set_pointwise {K V} {C : Cmp K} {L : CmpLaws K} (s : set_op) (a b : list (K * V)) :
  strictly_ascending a -> strictly_ascending b ->
  strictly_ascending (spec_set s a b) /\
  forall k, at_key k (spec_set s a b) =
    match s, at_key k a, at_key k b with
    | SUnion, [], y => y
    | SUnion, x, _ => x
    | SInter, _, [] => []
    | SInter, x, _ => x
    | SDiff, x, [] => x
    | SDiff, _, _ => []
    | SSymDiff, [], y => y
    | SSymDiff, x, [] => x
    | SSymDiff, _, _ => []
    end.
Proof.
  intros Ha Hb. destruct (set_pw s a b Ha Hb) as [S E]. split; [exact S|]. intros k. rewrite E.
  destruct s, (at_key k a), (at_key k b); reflexivity.
Qed.
