(** Facts about the specification of the LSM map, in-memory trees and logs of file effects. *)
From Verif Require Import ListLemmas OrdLemmas PermTac.
From Verif Require Export LsmTableProofs LsmSpec.

Section Lookup.
  Context {K V : Type} `{CmpLaws K}.
  Notation pair := (K * V)%type.
  Implicit Types (l : list pair) (k : K) (p : pair).

  Lemma lookup_cons k p l : lookup k (p :: l) = if is_eq (cmp (fst p) k) then Some (snd p) else lookup k l.
  Proof. unfold lookup, at_key. cbn [filter]. now destruct (is_eq (cmp (fst p) k)). Qed.
  Lemma lookup_app k l l' : lookup k (l ++ l') = match lookup k l with Some v => Some v | None => lookup k l' end.
  Proof. induction l as [|p l IH]; [reflexivity|]. cbn [app]. rewrite !lookup_cons, IH. now destruct (is_eq _). Qed.
  Lemma lookup_none k l : lookup k l = None <-> forall p, In p l -> cmp (fst p) k <> Eq.
  Proof.
    induction l as [|q l IH]; [split; [intros _ p []|reflexivity]|]. rewrite lookup_cons. destruct (cmp (fst q) k) eqn:Q; cbn [is_eq].
    - split; [discriminate|]. intros X. now destruct (X q (or_introl eq_refl)).
    - rewrite IH. split; [intros X p [<-|J]; [congruence|auto]|intros X p J; apply X; now right].
    - rewrite IH. split; [intros X p [<-|J]; [congruence|auto]|intros X p J; apply X; now right].
  Qed.
  Lemma lookup_some k v l : lookup k l = Some v -> exists p, In p l /\ cmp (fst p) k = Eq /\ snd p = v.
  Proof.
    induction l as [|q l IH]; [discriminate|]. rewrite lookup_cons. destruct (cmp (fst q) k) eqn:Q; cbn [is_eq]; intros E.
    - injection E as <-. exists q. cbn. auto.
    - destruct (IH E) as (p & J & X). exists p. cbn. auto.
    - destruct (IH E) as (p & J & X). exists p. cbn. auto.
  Qed.
  Lemma lookup_in k p l : sorted l -> In p l -> cmp (fst p) k = Eq -> lookup k l = Some (snd p).
  Proof.
    intros S J Q. destruct (lookup k l) as [v|] eqn:E.
    - destruct (lookup_some _ _ _ E) as (q & Jq & Qq & <-). rewrite (sorted_key_inj _ _ _ S Jq J); [reflexivity|]. eapply cmp_eq_trans; [exact Qq|]. now apply cmp_eq_sym.
    - exfalso. apply (proj1 (lookup_none k l) E p J Q).
  Qed.
  Lemma lookup_eq k k' l : cmp k k' = Eq -> lookup k l = lookup k' l.
  Proof.
    intros Q. induction l as [|p l IH]; [reflexivity|]. rewrite !lookup_cons, IH. replace (cmp (fst p) k') with (cmp (fst p) k); [reflexivity|].
    destruct (cmp (fst p) k) eqn:Q1; symmetry; korder.
  Qed.
  Lemma lookup_filter f k l : (forall p, In p l -> cmp (fst p) k = Eq -> f p = true) -> lookup k (filter f l) = lookup k l.
  Proof.
    induction l as [|p l IH]; intros F; [reflexivity|]. cbn [filter]. rewrite lookup_cons.
    assert (F' : forall p, In p l -> cmp (fst p) k = Eq -> f p = true) by (intros q J; apply F; now right).
    destruct (f p) eqn:Fp; [rewrite lookup_cons; now rewrite (IH F')|]. destruct (cmp (fst p) k) eqn:Q; cbn [is_eq]; auto.
    rewrite (F p) in Fp; [discriminate|now left|exact Q].
  Qed.
  Lemma lookup_below k k' l : cmp k' k <> Eq -> lookup k (below k' l ++ above k' l) = lookup k l.
  Proof.
    intros N. induction l as [|p l IH]; [reflexivity|]. unfold below, above in *. cbn [filter]. rewrite lookup_cons.
    destruct (cmp (fst p) k') eqn:Q; cbn [is_lt is_gt app].
    - replace (is_eq (cmp (fst p) k)) with false; [exact IH|]. destruct (cmp (fst p) k) eqn:Q1; try reflexivity. exfalso. apply N. korder.
    - rewrite lookup_cons, IH. reflexivity.
    - rewrite lookup_app, lookup_cons. rewrite lookup_app in IH. destruct (cmp (fst p) k) eqn:Q1; cbn [is_eq]; auto.
      replace (lookup k (filter (fun p => is_lt (cmp (fst p) k')) l)) with (@None V); [reflexivity|]. symmetry. apply lookup_none. intros q J. apply filter_In in J.
      destruct J as [_ J]. destruct (cmp (fst q) k') eqn:Q2; try discriminate. intros Q3. korder.
  Qed.
  Lemma lookup_drop k k' l : lookup k (drop k' l) = if is_eq (cmp k' k) then None else lookup k l.
  Proof.
    unfold drop. destruct (cmp k' k) eqn:Q; cbn [is_eq]; [|apply lookup_below; congruence|apply lookup_below; congruence].
    apply lookup_none. intros p J. apply in_app_iff in J. rewrite in_below, in_above in J. destruct J as [[_ J]|[_ J]]; intros Q'; korder.
  Qed.
  Lemma lookup_put k k' v l : lookup k (put k' v l) = if is_eq (cmp k' k) then Some v else lookup k l.
  Proof.
    unfold put. destruct (cmp k' k) eqn:Q; cbn [is_eq].
    - rewrite lookup_app, lookup_cons. cbn [fst snd]. rewrite Q. cbn [is_eq]. replace (lookup k (below k' l)) with (@None V); [reflexivity|].
      symmetry. apply lookup_none. intros p J. rewrite in_below in J. destruct J as [_ J]. intros Q'. korder.
    - rewrite lookup_app, lookup_cons. cbn [fst snd]. rewrite Q. cbn [is_eq]. rewrite <- lookup_app. apply lookup_below. congruence.
    - rewrite lookup_app, lookup_cons. cbn [fst snd]. rewrite Q. cbn [is_eq]. rewrite <- lookup_app. apply lookup_below. congruence.
  Qed.
  Lemma sorted_drop k l : sorted l -> sorted (drop k l).
  Proof.
    intros S. unfold drop. apply sorted_app. split; [now apply sorted_filter|]. split; [now apply sorted_filter|].
    intros p q Jp Jq. rewrite in_below in Jp. rewrite in_above in Jq. unfold plt. destruct Jp as [_ Jp], Jq as [_ Jq]. korder.
  Qed.
  Lemma sorted_put k v l : sorted l -> sorted (put k v l).
  Proof.
    intros S. unfold put. apply sorted_app. split; [now apply sorted_filter|]. split.
    - apply sorted_cons. split; [|now apply sorted_filter]. apply Forall_forall. intros p J. rewrite in_above in J. cbn. destruct J as [_ J]. korder.
    - intros p q Jp [<-|Jq]; rewrite in_below in Jp; unfold plt; cbn [fst]; [apply Jp|]. rewrite in_above in Jq. destruct Jp as [_ Jp], Jq as [_ Jq]. korder.
  Qed.

  (** Sorted lists with the same contents are the same up to the representatives of keys. *)
  Lemma same_lookup l : forall l', sorted l -> sorted l' -> (forall k, lookup k l = lookup k l') -> Forall2 same_pair l l'.
  Proof.
    induction l as [|p l IH]; intros [|q l'] S S' X.
    - constructor.
    - specialize (X (fst q)). rewrite lookup_cons, cmp_refl in X. discriminate.
    - specialize (X (fst p)). rewrite lookup_cons, cmp_refl in X. discriminate.
    - apply sorted_cons in S, S'. destruct S as [F S], S' as [F' S'].
      assert (N : forall k, cmp k (fst p) <> Gt -> lookup k l = None).
      { intros k N. apply lookup_none. intros r J Q. pose proof (proj1 (Forall_forall _ _) F _ J) as Y. cbn beta in Y. destruct (cmp k (fst p)) eqn:?; try congruence; korder. }
      assert (N' : forall k, cmp k (fst q) <> Gt -> lookup k l' = None).
      { intros k N'. apply lookup_none. intros r J Q. pose proof (proj1 (Forall_forall _ _) F' _ J) as Y. cbn beta in Y. destruct (cmp k (fst q)) eqn:?; try congruence; korder. }
      assert (Q : cmp (fst p) (fst q) = Eq).
      { destruct (cmp (fst p) (fst q)) eqn:Q; [reflexivity| |].
        - specialize (X (fst p)). rewrite !lookup_cons, cmp_refl in X. cbn [is_eq] in X. replace (is_eq (cmp (fst q) (fst p))) with false in X; [rewrite N' in X; [discriminate|congruence]|].
          destruct (cmp (fst q) (fst p)) eqn:?; try reflexivity. korder.
        - specialize (X (fst q)). rewrite !lookup_cons, cmp_refl, Q in X. cbn [is_eq] in X. rewrite N in X; [discriminate|]. intros Y. korder. }
      constructor.
      + split; [exact Q|]. specialize (X (fst q)). rewrite !lookup_cons, cmp_refl, Q in X. cbn [is_eq] in X. congruence.
      + apply IH; auto. intros k. specialize (X k). rewrite !lookup_cons in X. destruct (cmp (fst p) k) eqn:Qk.
        * rewrite N, N'; [reflexivity| |]; intros Y; korder.
        * replace (is_eq (cmp (fst q) k)) with false in X; [exact X|]. destruct (cmp (fst q) k) eqn:?; try reflexivity; korder.
        * replace (is_eq (cmp (fst q) k)) with false in X; [exact X|]. destruct (cmp (fst q) k) eqn:?; try reflexivity; korder.
  Qed.
  Lemma same_length l l' : Forall2 same_pair l l' -> length l = length l'.
  Proof. induction 1; cbn; congruence. Qed.

  (** Counting *)
  Lemma keys_le {A} (X : list (K * A)) l : sorted l -> (forall p, In p l -> exists e, In e X /\ cmp (fst e) (fst p) = Eq) -> length l <= length X.
  Proof.
    revert X. induction l as [|p l IH]; intros X S F; [cbn; lia|]. apply sorted_cons in S. destruct S as [G S].
    destruct (F p (or_introl eq_refl)) as (e & J & Q). apply in_split in J. destruct J as (X1 & X2 & ->).
    specialize (IH (X1 ++ X2) S). rewrite app_length in *. cbn [length]. enough (length l <= length X1 + length X2) by lia. apply IH.
    intros q Jq. destruct (F q (or_intror Jq)) as (e' & J & Q'). exists e'. split; [|exact Q'].
    apply in_app_iff in J. apply in_app_iff. destruct J as [J|[->|J]]; auto. exfalso. pose proof (proj1 (Forall_forall _ _) G _ Jq) as Y. cbn beta in Y. korder.
  Qed.
End Lookup.

(** *** In-memory trees *)
Section BtInsert.
  Context {K A : Type} `{CmpLaws K}.
  Lemma bt_insert_cases (k : K) (v : A) l : sorted l ->
    (exists l1 k' v' l2, l = l1 ++ (k', v') :: l2 /\ cmp k k' = Eq /\ bt_insert k v l = l1 ++ (k', v) :: l2) \/
    (exists l1 l2, l = l1 ++ l2 /\ bt_insert k v l = l1 ++ (k, v) :: l2 /\ forall p, In p l -> cmp (fst p) k <> Eq) .
  Proof.
    induction l as [|[k' v'] l IH]; intros S; cbn [bt_insert].
    - right. exists [], []. repeat split. intros p [].
    - apply sorted_cons in S. destruct S as [F S]. destruct (cmp k k') eqn:Q.
      + left. exists [], k', v', l. auto.
      + right. exists [], ((k', v') :: l). split; [reflexivity|]. split; [reflexivity|]. intros p [<-|J] Qp; cbn [fst] in *; [korder|].
        pose proof (proj1 (Forall_forall _ _) F _ J) as Y. cbn in Y. korder.
      + destruct (IH S) as [(l1 & k1 & v1 & l2 & -> & Q1 & ->)|(l1 & l2 & -> & -> & N)].
        * left. exists ((k', v') :: l1), k1, v1, l2. auto.
        * right. exists ((k', v') :: l1), l2. split; [reflexivity|]. split; [reflexivity|]. intros p [<-|J] Qp; cbn [fst] in *; [korder|]. now apply (N p).
  Qed.
  Lemma bt_insert_sorted (k : K) (v : A) l : sorted l -> sorted (bt_insert k v l).
  Proof.
    induction l as [|[k' v'] l IH]; intros S; cbn [bt_insert]; [apply sorted_cons; split; constructor|].
    pose proof S as S0. apply sorted_cons in S. destruct S as [F S]. destruct (cmp k k') eqn:Q.
    - apply sorted_cons. auto.
    - apply sorted_cons. split; [|exact S0]. constructor; [exact Q|]. eapply Forall_impl; [|exact F]. intros p Y. cbn in *. korder.
    - apply sorted_cons. split; [|now apply IH]. apply Forall_forall. intros p J.
      destruct (bt_insert_cases k v l S) as [(l1 & k1 & v1 & l2 & -> & Q1 & E)|(l1 & l2 & -> & E & N)]; rewrite E in J; apply in_app_iff in J.
      + apply Forall_app in F. destruct F as [F1 F2]. apply Forall_cons_iff in F2. destruct F2 as [Fx F2]. cbn [fst] in *.
        destruct J as [J|[<-|J]]; [now apply (proj1 (Forall_forall _ _) F1)|exact Fx|now apply (proj1 (Forall_forall _ _) F2)].
      + apply Forall_app in F. destruct F as [F1 F2]. cbn [fst] in *.
        destruct J as [J|[<-|J]]; [now apply (proj1 (Forall_forall _ _) F1)|cbn; korder|now apply (proj1 (Forall_forall _ _) F2)].
  Qed.
End BtInsert.

(** *** Views: what a reader of a collection of entries sees *)
Section View.
  Context {K V : Type} `{CmpLaws K}.
  Notation sval := (sval V).
  Notation entry := (K * sval)%type.
  Notation tm e := (sv_time (snd e)).
  Implicit Types (X E : list entry) (e : entry) (k : K).

  Definition view (X : list entry) (m : list (K * V)) : Prop := forall k o, version X k o -> seen o = lookup k m.
  Lemma view_ext X X' m : (forall e, In e X <-> In e X') -> view X m -> view X' m.
  Proof. intros Q W k o Vo. apply W. eapply version_ext; [|exact Vo]. intros e. symmetry. apply Q. Qed.
  Lemma view_shrink X X' m : uniq X -> shrink X X' -> view X m -> view X' m.
  Proof.
    intros U S W k o' Vo'. destruct (version_exists X k) as [o Vo]. rewrite <- (W k o Vo). symmetry. now apply (shrink_seen X X' k o o').
  Qed.
  Lemma view_nil : view [] [].
  Proof. intros k [v|] X; [destruct X as (e & [[] _] & _)|reflexivity]. Qed.

  Lemma lookup_live (out : list entry) k : sorted out -> lookup k (live out) = seen (find_version out k).
  Proof.
    intros S. induction out as [|[k' v] out IH]; [reflexivity|]. pose proof S as S0. apply sorted_cons in S. destruct S as [F S].
    unfold live. cbn [flat_map fst snd]. fold (live out).
    assert (N : cmp k' k = Eq -> lookup k (live out) = None).
    { intros Q. rewrite (IH S). replace (find_version out k) with (@None sval); [reflexivity|]. symmetry. apply find_version_none. intros e J Qe.
      pose proof (proj1 (Forall_forall _ _) F _ J) as Y. cbn in Y. korder. }
    unfold find_version. cbn [find]. fold (find_version out k). cbn [fst snd].
    destruct (sv_data v) as [d|] eqn:Ed; cbn [app].
    - rewrite lookup_cons. cbn [fst snd]. destruct (cmp k' k) eqn:Q; cbn [is_eq option_map snd]; [cbn; now rewrite Ed| |]; apply (IH S).
    - destruct (cmp k' k) eqn:Q; cbn [is_eq option_map snd]; [rewrite (N eq_refl); cbn; now rewrite Ed| |]; apply (IH S).
  Qed.
  Lemma in_live (out : list entry) p : In p (live out) <-> exists e, In e out /\ fst e = fst p /\ sv_data (snd e) = Some (snd p).
  Proof.
    unfold live. rewrite in_flat_map. split.
    - intros (e & J & Jp). exists e. destruct (sv_data (snd e)); [destruct Jp as [<-|[]]|destruct Jp]. auto.
    - intros (e & J & Q & D). exists e. split; [exact J|]. rewrite D. left. rewrite Q. now destruct p.
  Qed.
  Lemma sorted_live (out : list entry) : sorted out -> sorted (live out).
  Proof.
    induction out as [|[k v] out IH]; intros S; [constructor|]. apply sorted_cons in S. destruct S as [F S]. unfold live. cbn [flat_map fst snd]. fold (live out).
    destruct (sv_data v) as [d|]; [|now apply IH]. cbn [app]. apply sorted_cons. split; [|now apply IH]. apply Forall_forall. intros p J.
    apply in_live in J. destruct J as (e & J & Q & _). pose proof (proj1 (Forall_forall _ _) F _ J) as Y. cbn in Y. now rewrite <- Q.
  Qed.
  Lemma merge_version E (out : list entry) k : merge_of E out -> version E k (find_version out k).
  Proof.
    intros (S & M1 & M2). destruct (find_version out k) as [v|] eqn:F; cbn.
    - destruct (find_version_some _ _ _ F) as (k' & J & Q). exists (k', v). split; [now apply M1|auto].
    - intros e J Q. destruct (M2 e J) as (e' & J' & Q'). apply (proj1 (find_version_none out k) F e' J'). korder.
  Qed.
  Lemma live_view E (out : list entry) m : merge_of E out -> view E m -> sorted m -> Forall2 same_pair (live out) m.
  Proof.
    intros M W S. assert (So : sorted out) by apply M. apply same_lookup; [now apply sorted_live|exact S|]. intros k. rewrite lookup_live by exact So.
    apply W. now apply merge_version.
  Qed.

  (** Writing *)
  Lemma view_write X X' m k d t : view X m ->
    (forall e, cmp (fst e) k <> Eq -> (In e X' <-> In e X)) ->
    (exists k', cmp k' k = Eq /\ In (k', mkSval d t) X') -> (forall e, In e X' -> (tm e <= t)%N) -> uniq X' ->
    view X' (match d with Some v => put k v m | None => drop k m end).
  Proof.
    intros W Ne (k0 & Q0 & J0) Le U k1 o Vo.
    assert (G : seen o = if is_eq (cmp k k1) then d else lookup k1 m).
    { destruct (cmp k k1) eqn:Q; cbn [is_eq].
      - assert (Vn : version X' k1 (Some (mkSval d t))).
        { exists (k0, mkSval d t). split; [|split; [cbn; korder|reflexivity]]. split; [exact J0|]. intros e J _. now apply Le. }
        rewrite (version_fun X' k1 _ _ U Vo Vn). reflexivity.
      - apply W. assert (N1 : forall e, cmp (fst e) k1 = Eq -> cmp (fst e) k <> Eq) by (intros e Qe Y; korder).
        destruct o as [v|]; cbn in *.
        + destruct Vo as (e & [J B] & Qe & Ev). exists e. split; [|auto]. split; [apply Ne; auto|]. intros e' J' Q'. apply B; [|exact Q']. apply Ne; [|exact J']. apply N1. korder.
        + intros e J Qe. apply (Vo e); [|exact Qe]. apply Ne; auto.
      - apply W. assert (N1 : forall e, cmp (fst e) k1 = Eq -> cmp (fst e) k <> Eq) by (intros e Qe Y; korder).
        destruct o as [v|]; cbn in *.
        + destruct Vo as (e & [J B] & Qe & Ev). exists e. split; [|auto]. split; [apply Ne; auto|]. intros e' J' Q'. apply B; [|exact Q']. apply Ne; [|exact J']. apply N1. korder.
        + intros e J Qe. apply (Vo e); [|exact Qe]. apply Ne; auto. }
    rewrite G. destruct d as [v|]; [now rewrite lookup_put|now rewrite lookup_drop].
  Qed.
End View.
(** *** Least and greatest keys *)
Section Extremes.
  Context {K V : Type} `{CmpLaws K}.
  Notation sval := (sval V).
  Notation entry := (K * sval)%type.

  Lemma hd_error_app {A} (l l' : list A) : hd_error (l ++ l') = match hd_error l with Some x => Some x | None => hd_error l' end.
  Proof. now destruct l. Qed.
  Lemma last_error_hd {A} (l : list A) : last_error l = hd_error (rev l).
  Proof.
    destruct l as [|x l _] using rev_ind; [reflexivity|]. rewrite rev_app_distr. cbn [rev app hd_error]. induction l as [|y l IH]; [reflexivity|]. cbn [app last_error].
    rewrite <- IH. destruct (l ++ [x]) eqn:E; [now destruct l|reflexivity].
  Qed.
  Lemma live_app (a b : list entry) : live (a ++ b) = live a ++ live b.
  Proof. unfold live. apply flat_map_app. Qed.
  Lemma live_rev (a : list entry) : live (rev a) = rev (live a).
  Proof.
    induction a as [|[k v] a IH]; [reflexivity|]. cbn [rev]. rewrite live_app, IH. unfold live. cbn [flat_map snd fst]. rewrite app_nil_r.
    destruct (sv_data v); cbn; [reflexivity|now rewrite app_nil_r].
  Qed.
  Lemma first_live_ok (a : list entry) : first_live a = option_map fst (hd_error (live a)).
  Proof. induction a as [|[k v] a IH]; [reflexivity|]. cbn [first_live]. unfold live_key, live. cbn [flat_map snd fst]. fold (live a). now destruct (sv_data v). Qed.

  Definition kin (k : K) (l : list (K * V)) : Prop := exists p, In p l /\ cmp (fst p) k = Eq.
  Definition best (low : K -> K -> Prop) (l : list (K * V)) (o : option K) : Prop :=
    match o with
    | None => l = []
    | Some k => kin k l /\ forall p, In p l -> low k (fst p)
    end.
  Definition kle (x y : K) : Prop := cmp x y <> Gt.
  Definition kge (x y : K) : Prop := cmp x y <> Lt.
  Lemma kin_lookup k l : kin k l <-> lookup k l <> None.
  Proof.
    unfold kin. rewrite lookup_none. split; [intros (p & J & Q) X; now apply (X p J)|]. intros X. induction l as [|p l IH]; [destruct X; intros p []|].
    destruct (cmp (fst p) k) eqn:Q; [exists p; cbn; auto| |]; (destruct IH as (q & J & Qq); [intros Y; apply X; intros q [<-|J]; [congruence|auto]|exists q; cbn; auto]).
  Qed.
  Lemma best_same (low : K -> K -> Prop) l l' o o' : (forall x y z, cmp y z = Eq -> low x y -> low x z) -> (forall x y, low x y -> low y x -> cmp x y = Eq) ->
    (forall k, lookup k l = lookup k l') -> best low l o -> best low l' o' -> same_opt (fun a b => cmp a b = Eq) o o'.
  Proof.
    intros Re An X B B'. assert (Q : forall k, kin k l <-> kin k l') by (intros k; rewrite !kin_lookup, X; tauto). destruct o as [x|], o' as [y|]; cbn in *; auto.
    - destruct B as [K1 M1], B' as [K2 M2]. apply An.
      + apply Q in K2. destruct K2 as (p & J & E). apply (Re x (fst p)); auto.
      + apply Q in K1. destruct K1 as (p & J & E). apply (Re y (fst p)); auto.
    - subst l'. destruct B as [K1 _]. apply Q in K1. destruct K1 as (p & [] & _).
    - subst l. destruct B' as [K1 _]. apply Q in K1. destruct K1 as (p & [] & _).
  Qed.
  Lemma kle_anti x y : kle x y -> kle y x -> cmp x y = Eq.
  Proof. unfold kle. intros A B. destruct (cmp x y) eqn:Q; auto; [|congruence]. rewrite (cmp_sym x y), Q in B. now destruct B. Qed.
  Lemma kge_anti x y : kge x y -> kge y x -> cmp x y = Eq.
  Proof. unfold kge. intros A B. destruct (cmp x y) eqn:Q; auto; [congruence|]. rewrite (cmp_sym x y), Q in B. now destruct B. Qed.
  Lemma kle_eq x y z : cmp y z = Eq -> kle x y -> kle x z.
  Proof. unfold kle. intros Q A B. apply A. korder. Qed.
  Lemma kge_eq x y z : cmp y z = Eq -> kge x y -> kge x z.
  Proof. unfold kge. intros Q A B. apply A. korder. Qed.
  Lemma le_trans_k x y z : kle x y -> kle y z -> kle x z.
  Proof. unfold kle. intros A B D. destruct (cmp x y) eqn:Q1, (cmp y z) eqn:Q2; try congruence; korder. Qed.
  Lemma ge_trans_k x y z : kge x y -> kge y z -> kge x z.
  Proof. unfold kge. intros A B D. destruct (cmp x y) eqn:Q1, (cmp y z) eqn:Q2; try congruence; korder. Qed.
  Lemma le_refl_k x : kle x x. Proof. unfold kle. rewrite cmp_refl. discriminate. Qed.
  Lemma ge_refl_k x : kge x x. Proof. unfold kge. rewrite cmp_refl. discriminate. Qed.
  Lemma best_hd l : sorted l -> best kle l (option_map fst (hd_error l)).
  Proof.
    destruct l as [|p l]; [reflexivity|]. intros S. apply sorted_cons in S. destruct S as [F _]. cbn. split; [exists p; split; [now left|apply cmp_refl]|].
    intros q [<-|J]; [apply le_refl_k|]. unfold kle. rewrite (proj1 (Forall_forall _ _) F _ J). discriminate.
  Qed.
  Lemma best_last l : sorted l -> best kge l (option_map fst (last_error l)).
  Proof.
    destruct (last_error l) as [p|] eqn:E.
    - apply last_error_split in E. destruct E as [l' ->]. intros S. apply sorted_app in S. destruct S as (_ & _ & X). cbn.
      split; [exists p; split; [apply in_app_iff; right; now left|apply cmp_refl]|]. intros q J. apply in_app_iff in J. destruct J as [J|[<-|[]]]; [|apply ge_refl_k].
      specialize (X q p J (or_introl eq_refl)). unfold plt in X. unfold kge. intros Q. korder.
    - intros _. destruct l; [reflexivity|]. now apply last_error_none in E.
  Qed.
  Lemma best_min l l' o o' : best kle l o -> best kle l' o' -> best kle (l ++ l') (match o, o' with Some x, Some y => Some (kmin x y) | None, _ => o' | _, None => o end).
  Proof.
    destruct o as [x|], o' as [y|]; cbn; intros B B'; try (subst l'; rewrite app_nil_r); try (subst l); auto.
    destruct B as [(p & Jp & Qp) M], B' as [(q & Jq & Qq) M']. unfold kmin. destruct (cmp x y) eqn:E; cbn [is_gt].
    - split; [exists p; rewrite in_app_iff; auto|]. intros r J. apply in_app_iff in J. destruct J as [J|J]; [auto|]. apply (le_trans_k x y); auto. unfold kle. congruence.
    - split; [exists p; rewrite in_app_iff; auto|]. intros r J. apply in_app_iff in J. destruct J as [J|J]; [auto|]. apply (le_trans_k x y); auto. unfold kle. congruence.
    - split; [exists q; rewrite in_app_iff; auto|]. intros r J. apply in_app_iff in J. destruct J as [J|J]; [|auto]. apply (le_trans_k y x); auto. unfold kle. rewrite (cmp_sym x y), E. discriminate.
  Qed.
  Lemma best_max l l' o o' : best kge l o -> best kge l' o' -> best kge (l ++ l') (match o, o' with Some x, Some y => Some (kmax x y) | None, _ => o' | _, None => o end).
  Proof.
    destruct o as [x|], o' as [y|]; cbn; intros B B'; try (subst l'; rewrite app_nil_r); try (subst l); auto.
    destruct B as [(p & Jp & Qp) M], B' as [(q & Jq & Qq) M']. unfold kmax. destruct (cmp x y) eqn:E; cbn [is_gt].
    - split; [exists q; rewrite in_app_iff; auto|]. intros r J. apply in_app_iff in J. destruct J as [J|J]; [|auto]. apply (ge_trans_k y x); auto. unfold kge. rewrite (cmp_sym x y), E. discriminate.
    - split; [exists q; rewrite in_app_iff; auto|]. intros r J. apply in_app_iff in J. destruct J as [J|J]; [|auto]. apply (ge_trans_k y x); auto. unfold kge. rewrite (cmp_sym x y), E. discriminate.
    - split; [exists p; rewrite in_app_iff; auto|]. intros r J. apply in_app_iff in J. destruct J as [J|J]; [auto|]. apply (ge_trans_k x y); auto. unfold kge. congruence.
  Qed.

  (** *** The entries in memory and those on disk *)
  Lemma version_mem (m E : list entry) k : sorted m -> (forall e e', In e m -> In e' E -> (sv_time (snd e') < sv_time (snd e))%N) ->
    forall o, version E k o -> version (m ++ E) k (match find_version m k with Some v => Some v | None => o end).
  Proof. intros S N o Vo. apply version_app; [|now apply version_sorted|exact Vo]. intros e e' J J' _. specialize (N e e' J J'). lia. Qed.
  Lemma mem_live (m E out : list entry) s : sorted m -> (forall e e', In e m -> In e' E -> (sv_time (snd e') < sv_time (snd e))%N) -> Forall (fun e => has_data e = true) m ->
    merge_of E out -> view (m ++ E) s -> forall k, lookup k (live m ++ live out) = lookup k s.
  Proof.
    intros S N D M W k. rewrite lookup_app, !lookup_live; [|apply M|exact S]. rewrite <- (W k _ (version_mem m E k S N _ (merge_version E out k M))).
    destruct (find_version m k) as [v|] eqn:F; cbn [seen]; [|reflexivity]. destruct (find_version_some _ _ _ F) as (k' & J & _).
    pose proof (proj1 (Forall_forall _ _) D _ J) as X. unfold has_data in X. cbn [snd] in X. now destruct (sv_data v).
  Qed.
  Lemma mem_keys (m E out : list entry) s d : sorted m -> (forall e e', In e m -> In e' E -> (sv_time (snd e') < sv_time (snd e))%N) ->
    merge_of E out -> view (m ++ E) s -> view E d -> forall k, kin k (live m ++ live out) <-> kin k (s ++ d).
  Proof.
    intros S N M W D k. rewrite !kin_lookup, !lookup_app, !lookup_live; [|apply M|exact S].
    rewrite <- (W k _ (version_mem m E k S N _ (merge_version E out k M))), <- (D k _ (merge_version E out k M)).
    destruct (find_version m k) as [v|]; cbn [seen]; [destruct (sv_data v)|]; try tauto; destruct (seen (find_version out k)); split; congruence.
  Qed.
  Lemma best_keys (low : K -> K -> Prop) l l' o : (forall x y z, cmp y z = Eq -> low x y -> low x z) -> (forall k, kin k l <-> kin k l') -> best low l o -> best low l' o.
  Proof.
    intros Re Q B. destruct o as [x|]; cbn in *.
    - destruct B as [K1 M1]. split; [now apply Q|]. intros p J. destruct (proj2 (Q (fst p))) as (q & Jq & E); [exists p; split; [exact J|apply cmp_refl]|]. apply (Re x (fst q)); auto.
    - destruct l' as [|p l']; [reflexivity|]. destruct (proj2 (Q (fst p))) as (q & Jq & E); [exists p; split; [now left|apply cmp_refl]|]. subst l. destruct Jq.
  Qed.
  Lemma answers_plain (a : sp K V) o out : same_out out (snd (lsm_spec_step a o)) -> (forall k, snd (lsm_spec_step a o) <> OKey k) -> answers a o out.
  Proof. intros X N. split; [auto|]. destruct o; try exact Logic.I; now destruct (N _ eq_refl). Qed.
End Extremes.

(** *** Logs *)
Section Logs.
  Context {M : Type}.
  Notation effect := (effect M).
  Implicit Types (l es : list effect) (d : disk M).

  Lemma disk_app l es : disk_of (l ++ es) = fold_left apply es (disk_of l).
  Proof. unfold disk_of. apply fold_left_app. Qed.
  Lemma has_dir_in d id : has_dir d id = true <-> In id (d_dirs d).
  Proof.
    unfold has_dir. rewrite existsb_exists. split; [intros (x & J & Q); apply Nat.eqb_eq in Q; now subst|].
    intros J. exists id. split; [exact J|apply Nat.eqb_refl].
  Qed.
  Lemma has_dir_remove d id x : has_dir (apply d (ERemove id)) x = has_dir d x && negb (x =? id).
  Proof.
    apply eq_true_iff_eq. rewrite andb_true_iff, !has_dir_in. cbn. rewrite filter_In. now rewrite (Nat.eqb_sym x id), (Nat.eqb_sym id x).
  Qed.
  Lemma remove_dirs_ok ids : forall d, NoDup ids -> Forall (fun id => has_dir d id = true) ids ->
    exists es, remove_dirs d ids = Ok es /\ es = map ERemove ids.
  Proof.
    induction ids as [|id ids IH]; intros d ND F; [exists []; auto|]. apply NoDup_cons_iff in ND. destruct ND as [N ND].
    apply Forall_cons_iff in F. destruct F as [Fi F]. cbn [remove_dirs]. rewrite Fi.
    destruct (IH (apply d (ERemove id)) ND) as (es & -> & ->); [|cbn [bind]; eexists; split; reflexivity].
    apply Forall_forall. intros x J. rewrite has_dir_remove. rewrite (proj1 (Forall_forall _ _) F _ J). cbn.
    destruct (Nat.eqb_spec x id) as [->|]; [contradiction|reflexivity].
  Qed.
  Lemma removed_dirs ids : forall d, let d' := fold_left apply (map ERemove ids) d in
    d_meta d' = d_meta d /\ d_time d' = d_time d /\ forall x, has_dir d' x = has_dir d x && negb (existsb (Nat.eqb x) ids).
  Proof.
    induction ids as [|id ids IH]; intros d; cbn [map fold_left existsb]; [repeat split; intros x; now rewrite andb_true_r|].
    destruct (IH (apply d (ERemove id))) as (E1 & E2 & E3). split; [exact E1|]. split; [exact E2|]. intros x. rewrite E3, has_dir_remove.
    destruct (has_dir d x), (x =? id), (existsb (Nat.eqb x) ids); reflexivity.
  Qed.
  Lemma settled_right (p q : list effect) : settled (p ++ q) -> settled q.
  Proof. intros S a b ->. apply (S (p ++ a)). now rewrite app_assoc. Qed.
  Lemma settled_removes (ids : list nat) : settled (map (@ERemove M) ids) -> ids = [].
  Proof.
    intros S. specialize (S [] _ eq_refl). assert (N : existsb is_meta (map (@ERemove M) ids) = false) by (clear S; induction ids; auto).
    specialize (S N). now destruct ids.
  Qed.
  Lemma prefix_snoc {A} (p q l : list A) x : l ++ [x] = p ++ q -> p = l ++ [x] \/ exists q', l = p ++ q'.
  Proof.
    intros E. destruct q as [|y q] using rev_ind; [left; now rewrite app_nil_r in E|]. right. exists q.
    rewrite app_assoc in E. now apply app_inj_tail in E.
  Qed.
  Lemma prefix_app {A} (p q a b : list A) : a ++ b = p ++ q -> (exists r, a = p ++ r) \/ (exists r, p = a ++ r /\ b = r ++ q).
  Proof.
    revert a. induction p as [|x p IH]; intros a E; [left; exists a; reflexivity|]. destruct a as [|y a].
    - right. exists (x :: p). split; [reflexivity|exact E].
    - cbn in E. injection E as -> E. destruct (IH a E) as [(r & ->)|(r & -> & ->)]; [left; exists r; reflexivity|right; exists r; split; reflexivity].
  Qed.
End Logs.
