(** Overwriting in a full leaf loses entries, for every leaf degree above 4 and every internal degree. *)
From Verif Require Import BpMapModel BpNodeSpec BpLeafProofs BpMapProofs BpFinalProofs KeyInstances OrdLemmas ListLemmas RunLemmas MapSpec.

Section Overwrite.
  Context {K V : Type} `{CmpLaws K}.
  Variables (ksize : K -> N) (vsize : V -> N) (cfg : config).
  Notation m := (leaf_degree cfg).
  Notation fits := (valid ksize vsize cfg).
  Notation step := (bp_step ksize vsize cfg).
  Notation entry := (K * V)%type.

  Definition single (l : leaf K V) (n : nat) : store K V := mkStore [Leaf l] (mkMeta 1 n 0 None) (mkMeta 1 n 0 None).

  Lemma single_new : new_store m = single (mk_leaf m [] None) 0.
  Proof. unfold new_store, single, mk_leaf, leaf_new, pad. cbn [map app length]. now rewrite Nat.sub_0_r. Qed.

  Lemma single_insert l n k v l' o : fits k v = true -> leaf_insert l (k, v) = Ok (l', o) ->
    (forall sk r, o <> Some (ISplit sk r)) ->
    step (single l n) (BInsert k v) =
      Ok (single l' (match o with None => n + 1 | _ => n end), OPair (match o with Some (IEntry x) => Some x | _ => None end)).
  Proof.
    intros F E No. cbn [bp_step]. rewrite F.
    unfold insert_prog, search_node, insert_at. cbn -[leaf_insert].
    rewrite E. cbn. destruct o as [[sk r|x]|]; [now destruct (No sk r) | reflexivity | reflexivity].
  Qed.

  Lemma single_get l n k o : leaf_search l k = Ok o -> (forall i, o = Some i -> exists e, nth_error (lf_entries l) i = Some (Some e)) ->
    step (single l n) (BGet k) = Ok (single l n, OVal (match o with
      | Some i => match nth_error (lf_entries l) i with Some (Some e) => Some (snd e) | _ => None end | None => None end)).
  Proof.
    intros E N. cbn [bp_step]. unfold get_prog, search_node. cbn -[leaf_search]. rewrite E. cbn.
    destruct o as [i|]; [|reflexivity]. destruct (N i eq_refl) as (e & Ne). unfold cell. rewrite Ne. reflexivity.
  Qed.

  Lemma below_last (a : list entry) e : sorted (a ++ [e]) -> below (fst e) a = a /\ at_key (fst e) a = [] /\ above (fst e) a = [].
  Proof.
    intros S. assert (L : all_lt a (fst e)).
    { apply sorted_app in S. destruct S as (_ & _ & S). apply Forall_forall. intros x J. apply S; [exact J | now left]. }
    repeat split; [now apply below_all_lt | now apply at_all_lt | now apply above_all_lt].
  Qed.

  Lemma fill_single : forall b a, sorted (a ++ b) -> length (a ++ b) <= m -> Forall (fun e => fits (fst e) (snd e) = true) b ->
    run step (single (mk_leaf m a None) (length a)) (inserts b) =
      Ok (single (mk_leaf m (a ++ b) None) (length (a ++ b)), repeat (OPair None) (length b)).
  Proof.
    induction b as [|e b IH]; intros a S L F; [now rewrite app_nil_r|].
    inversion_clear F as [|? ? F1 F2]. replace (a ++ e :: b) with ((a ++ [e]) ++ b) in * by now rewrite <- app_assoc.
    pose proof (proj1 (proj1 (sorted_app _ _) S)) as S1. pose proof (below_last a e S1) as (B1 & B2 & B3).
    pose proof (proj1 (proj1 (sorted_app _ _) S1)) as S2.
    pose proof L as L'. rewrite !app_length in L'. cbn [length] in L'.
    assert (E : leaf_insert (mk_leaf m a None) (fst e, snd e) = Ok (mk_leaf m (a ++ [e]) None, None)).
    { rewrite leaf_insert_room by (auto; lia). unfold put. cbn [fst]. rewrite B1, B2, B3. cbn. now destruct e. }
    cbn [inserts map run]. rewrite (single_insert _ _ _ _ _ _ F1 E) by discriminate. cbn [bind].
    replace (length a + 1) with (length (a ++ [e])) by now rewrite app_length.
    change (map (fun e0 : K * V => BInsert (fst e0) (snd e0)) b) with (inserts b).
    now rewrite IH.
  Qed.

  Lemma overwrite_loses a k' v' b k w c v :
    let es := a ++ (k', v') :: b ++ (k, w) :: c in
    sorted es -> length es = m -> m / 2 < length a -> Forall (fun e => fits (fst e) (snd e) = true) es -> fits k v = true ->
    outputs step (new_store m) (inserts es ++ [BGet k']) = Ok (repeat (OPair None) m ++ [OVal (Some v')]) /\
    outputs step (new_store m) (inserts es ++ [BInsert k v; BGet k']) =
      Ok (repeat (OPair None) m ++ [OPair (Some (k, w)); OVal None]).
  Proof.
    intros es S L La F Fk. assert (M : 1 <= m) by (rewrite <- L; subst es; rewrite app_length; cbn; lia).
    pose proof (fill_single es [] S ltac:(cbn; lia) F) as R. cbn [app length] in R. rewrite <- single_new, L in R.
    assert (S' : sorted ((a ++ (k', v') :: b) ++ (k, w) :: c)) by now rewrite <- app_assoc.
    destruct (pieces_eq a (k', v') (b ++ (k, w) :: c) k' S (cmp_refl k')) as (P1 & P2 & P3).
    destruct (pieces_eq (a ++ (k', v') :: b) (k, w) c k S' (cmp_refl k)) as (Q1 & Q2 & Q3).
    rewrite <- app_assoc in Q1, Q2, Q3. cbn [app] in Q1, Q2, Q3. fold es in P1, P2, P3, Q1, Q2, Q3.
    split.
    - apply (outputs_app _ _ _ _ _ _ _ R). unfold outputs. cbn [run].
      rewrite (single_get _ _ _ (Some (length a))); [|rewrite leaf_search_ok by (auto; lia); now rewrite P2, P1|].
      + cbn. rewrite (pad_nth_in m es (length a) (k', v')) by (subst es; now rewrite nth_error_app2, Nat.sub_diag). reflexivity.
      + intros i E. injection E as <-. exists (k', v'). apply pad_nth_in. subst es. now rewrite nth_error_app2, Nat.sub_diag.
    - apply (outputs_app _ _ _ _ _ _ _ R). unfold outputs. cbn [run].
      pose proof (leaf_insert_full_found m es None (k, v) (k, w) S L M Q2) as I. cbn [fst] in I. rewrite Q1, Q3 in I.
      rewrite (single_insert _ _ _ _ _ _ Fk I) by discriminate. cbn [bind].
      rewrite (single_get _ _ _ None); [reflexivity | | discriminate].
      unfold leaf_search. cbn [lf_entries].
      set (cells := map Some _ ++ _).
      destruct (length cells) as [|n] eqn:Ln.
      { subst cells. rewrite !app_length in Ln. cbn in Ln. lia. }
      cbn [checked_pred bind]. rewrite <- Ln. apply leaf_search_absent; [|lia|lia].
      intros i e N. apply nth_error_In in N. subst cells. rewrite !in_app_iff in N.
      pose proof S as So. apply sorted_mid in So. destruct So as (_ & _ & A1 & A2).
      unfold all_lt in A1. unfold all_gt in A2. rewrite Forall_forall in A1, A2. cbn [fst] in A1, A2.
      destruct N as [N | [N | N]].
      + apply in_map_iff in N. destruct N as (x & Ex & N). injection Ex as ->.
        rewrite firstn_app in N. replace (m / 2 + 1 - length a) with 0 in N by lia. rewrite app_nil_r in N.
        rewrite (A1 e); [discriminate|]. rewrite <- (firstn_skipn (m / 2 + 1) a). apply in_or_app. now left.
      + apply repeat_spec in N. discriminate.
      + assert (X : cmp k' (fst e) = Lt).
        { cbn [map] in N. destruct N as [N|N].
          - injection N as <-. apply (A2 (k, w)). apply in_or_app. right. now left.
          - apply in_map_iff in N. destruct N as (x & Ex & N). injection Ex as ->. apply A2. apply in_or_app. right. now right. }
        rewrite (cmp_lt_gt _ _ X). discriminate.
  Qed.
End Overwrite.

Lemma fill_inserts n : fill n = inserts (map (fun i => (i, i + 1000)) (seq 0 n)).
Proof. unfold fill, inserts. now rewrite map_map. Qed.
Lemma seq_sorted : forall n i, sorted (map (fun i => (i, i + 1000)) (seq i n)).
Proof.
  induction n as [|n IH]; intros i; [constructor|]. cbn [seq map]. apply sorted_cons. split; [|apply IH].
  apply Forall_forall. intros x J. apply in_map_iff in J. destruct J as (j & <- & J). apply in_seq in J.
  cbn [fst]. apply Nat.compare_lt_iff. lia.
Qed.
Lemma overwrite_every_degree m d : 5 <= m -> exists ops k v k' w outs o, k <> k' /\
  nat_obs m d (ops ++ [BGet k']) = Ok (outs ++ [OVal (Some w)]) /\
  nat_obs m d (ops ++ [BInsert k v; BGet k']) = Ok (outs ++ [o; OVal None]).
Proof.
  intros M. set (h := m / 2 + 1). assert (Hh : h + 2 <= m).
  { subst h. pose proof (Nat.div_mod m 2). pose proof (Nat.mod_upper_bound m 2). lia. }
  set (f := fun i => (i, i + 1000)).
  assert (E : map f (seq 0 m) = map f (seq 0 h) ++ f h :: map f (seq (h + 1) (m - h - 2)) ++ f (m - 1) :: []).
  { replace m with (h + (1 + ((m - h - 2) + 1))) at 1 by lia. rewrite !seq_app, !map_app. cbn [seq map].
    replace (0 + h + 1 + (m - h - 2)) with (m - 1) by lia. reflexivity. }
  exists (fill m), (m - 1), 7, h, (h + 1000), (repeat (OPair None) m), (OPair (Some (m - 1, m - 1 + 1000))).
  split; [lia|]. rewrite fill_inserts. fold f. rewrite E. unfold nat_obs.
  apply (overwrite_loses (fun _ => 4%N) (fun _ => 8%N) (mkConfig 4 8 m d)).
  - change (h, h + 1000) with (f h). change (m - 1, m - 1 + 1000) with (f (m - 1)). rewrite <- E. apply seq_sorted.
  - change (h, h + 1000) with (f h). change (m - 1, m - 1 + 1000) with (f (m - 1)). rewrite <- E.
    now rewrite map_length, seq_length.
  - rewrite map_length, seq_length. cbn. fold h. unfold h. lia.
  - apply Forall_forall. intros; reflexivity.
  - reflexivity.
Qed.
