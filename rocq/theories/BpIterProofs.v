(** The iterator of the on-disk B+ tree map, one call of [next] at a time. *)
From Verif Require Import BpMapModel BpIterModel BpNodeSpec BpLeafProofs BpInternalProofs BpStoreProofs OrdLemmas ListLemmas MapSpec
  BpMapProofs BpFinalProofs BpCostProofs KeyInstances.

#[local] Instance strict_file : tightness := Strict.

Section IterProofs.
  Context {K V : Type} `{CmpLaws K}.
  Notation entry := (K * V)%type.
  Notation leaf := (leaf K V).
  Notation store := (store K V).
  Variables m d : nat.
  Hypothesis Hm : 1 <= m.
  Hypothesis Hd : 3 <= d.
  Notation hm := ((m + 1) / 2).
  Notation hd := ((d + 1) / 2).

  (** *** The entries it returns *)
  Lemma nexts_chain (s : store) : forall n es i nx r ents, leaf_chain m s nx r -> i <= length es ->
    (forall j, i <= j -> j < length es -> nth_error ents j = Some (nth_error es j)) ->
    run_io s (iter_nexts n (mkBpIter (mkLeaf (length es) ents nx) i)) = Ok (s, map (nth_error (skipn i es ++ r)) (seq 0 n)).
  Proof.
    induction n as [|n IH]; intros es i nx r ents Lc Li En; [reflexivity|].
    assert (Take : forall es i nx r ents, leaf_chain m s nx r -> i < length es ->
      (forall j, i <= j -> j < length es -> nth_error ents j = Some (nth_error es j)) ->
      run_io s (let! x := iter_take (mkLeaf (length es) ents nx) i in let! rs := iter_nexts n (snd x) in Ret (fst x :: rs)) =
        Ok (s, map (nth_error (skipn i es ++ r)) (seq 0 (S n)))).
    { clear es i nx r ents Lc Li En. intros es i nx r ents Lc Li En.
      destruct (nth_error es i) as [e|] eqn:X; [|apply nth_error_None in X; lia].
      assert (CE : cell ents i = Ok (Some e)) by (apply cell_nth; rewrite En by lia; now rewrite X).
      unfold iter_take. cbn [lf_entries lf_len lf_next]. rewrite CE. cbn [pure iobind snd fst]. rewrite run_bind, (IH es (i + 1) nx r); auto.
      - cbn [bind run_io]. do 2 f_equal. cbn [seq map]. rewrite <- seq_shift, map_map.
        apply nth_error_split in X as (a & b & -> & <-). rewrite !skipn_app, Nat.sub_diag.
        replace (length a + 1 - length a) with 1 by lia. rewrite (skipn_all2 a) by lia; rewrite (skipn_all2 (n := length a) a) by lia.
        reflexivity.
      - lia.
      - intros j J1 J2. rewrite list_set_nth_other by lia. apply En; lia. }
    cbn [iter_nexts]. unfold iter_next. cbn [it_leaf it_index lf_len lf_next].
    destruct (length es <=? i) eqn:Q; [|apply Nat.leb_gt in Q; apply (Take es i nx r ents); auto].
    apply Nat.leb_le in Q. rewrite (skipn_all2 es) by lia. cbn [app]. inversion Lc as [A B|p es' nx' r' Gp Ne Lm Lc' A B]; subst.
    - cbn [iobind snd fst]. rewrite run_bind, (IH es i None []); auto.
      cbn [bind run_io]. do 2 f_equal. rewrite (skipn_all2 es) by lia. cbn [seq map app]. rewrite <- seq_shift, map_map. f_equal.
      apply map_ext. now intros [|x].
    - cbn [iobind run_io]. rewrite Gp. cbn [bind expect_leaf iobind]. destruct es' as [|e es']; [congruence|].
      change (mk_leaf m (e :: es') nx') with (mkLeaf (length (e :: es')) (pad m (e :: es')) nx').
      apply (Take (e :: es') 0 nx' r'); auto; [cbn; lia|].
      intros j _ J. destruct (nth_error (e :: es') j) eqn:X; [|apply nth_error_None in X; lia]. now apply pad_nth_in.
  Qed.

  Lemma some_inv (s : store) ml n : inv m d s ml -> run_io s (iter_some n) = Ok (s, map (nth_error ml) (seq 0 n)).
  Proof.
    intros I. destruct (first_leaf_inv m d Hm Hd s ml I) as (es & nx & r & -> & Lc & Lm & Ne & E).
    unfold iter_some, iter_open. rewrite run_bind, run_bind, E. cbn [bind run_io]. unfold mk_leaf.
    rewrite (nexts_chain s n es 0 nx r); auto; [lia|].
    intros j _ J. destruct (nth_error es j) eqn:X; [|apply nth_error_None in X; lia]. now apply pad_nth_in.
  Qed.

  (** *** The pages it reads *)
  Lemma nexts_accesses (s : store) : forall n ents nx cnt r len i, dense m s nx cnt r -> length ents = m ->
    let a := accesses s (iter_nexts (K := K) (V := V) n (mkBpIter (mkLeaf len ents nx) i)) in
    a <= cnt /\ (n <= len - i -> a = 0) /\ (len - i < n -> a * hm <= n - (len - i) + hm - 1).
  Proof.
    induction n as [|n IH]; intros ents nx cnt r len i D Le; [cbn; lia|].
    assert (Take : forall ents nx cnt r len i, dense m s nx cnt r -> length ents = m ->
      let a := accesses s (let! x := iter_take (mkLeaf len ents nx) i in let! rs := iter_nexts n (snd x) in Ret (fst x :: rs)) in
      a <= cnt /\ (n <= len - (i + 1) -> a = 0) /\ (len - (i + 1) < n -> a * hm <= n - (len - (i + 1)) + hm - 1)).
    { clear ents nx cnt r len i D Le. intros ents nx cnt r len i D Le. unfold iter_take. cbn [lf_entries lf_len lf_next].
      destruct (cell ents i) as [c| |]; cbn [pure iobind accesses snd fst]; try lia.
      rewrite accesses_bind. specialize (IH (list_set ents i None) nx cnt r len (i + 1) D). rewrite list_set_length in IH.
      specialize (IH Le). cbn zeta in *. revert IH. generalize (accesses s (iter_nexts n (mkBpIter (mkLeaf len (list_set ents i None) nx) (i + 1)))).
      intros a IH. destruct (run_io s _) as [[s' x]| |]; cbn [accesses]; rewrite ?Nat.add_0_r; exact IH. }
    cbn [iter_nexts]. unfold iter_next. cbn [it_leaf it_index lf_len lf_next].
    pose proof (half_up m) as HU. pose proof (half_le m) as HL.
    destruct (Nat.leb_spec len i) as [Q|Q].
    - destruct D as [|p es nx' cnt' r' Gp Lm D'].
      + cbn [iobind snd fst]. rewrite accesses_bind. specialize (IH ents None 0 0 len i (Dense_nil m s) Le). cbn zeta in *.
        revert IH. generalize (accesses s (iter_nexts n (mkBpIter (mkLeaf len ents None) i))). intros a IH.
        assert (a = 0) by lia. destruct (run_io s _) as [[s' x]| |]; cbn [accesses]; lia.
      + cbn [iobind accesses]. rewrite Gp. cbn [expect_leaf iobind].
        change (mk_leaf m es nx') with (mkLeaf (length es) (pad m es) nx').
        specialize (Take (pad m es) nx' cnt' r' (length es) 0 D'). rewrite pad_length in Take by lia. specialize (Take eq_refl).
        cbn zeta in *. revert Take. generalize (accesses s (let! x := iter_take (mkLeaf (length es) (pad m es) nx') 0 in let! rs := iter_nexts n (snd x) in Ret (fst x :: rs))).
        intros a Take. nia.
    - specialize (Take ents nx cnt r len i D Le). cbn zeta in *.
      revert Take. generalize (accesses s (let! x := iter_take (mkLeaf len ents nx) i in let! rs := iter_nexts n (snd x) in Ret (fst x :: rs))).
      intros a Take. nia.
  Qed.

  Lemma some_accesses (s : store) ml j n : inv m d s ml -> length ml < m * hd ^ j ->
    accesses s (iter_some (K := K) (V := V) n) <= j + 1 + Nat.min n (length ml) / hm.
  Proof.
    intros I L. destruct (inv_open m d Hm Hd s ml I) as (h & t & fl & O & Rp & <- & Fu & _).
    pose proof (depth_of m d Hm Hd h None None t j O L) as De.
    unfold iter_some, iter_open. rewrite accesses_bind, accesses_bind, run_bind.
    pose proof (edge_accesses m d Hm Hd (fun _ => 0) h t s fl _ (pick_first d) O Rp Fu) as E.
    destruct (edge_dense m d Hm Hd s h true None None t None 0 0 O (rep_bound m d _ _ _ _ _ _ Rp) (Dense_nil m s)) as (es & nx & cnt & r & E1 & E2 & E3 & _ & E4 & E5).
    assert (R : run_io s (edge_leaf (V := V) (fun _ => 0)) = Ok (s, mk_leaf m es nx)).
    { unfold edge_leaf. cbn [run_io]. rewrite (rep_root _ _ _ _ _ Rp).
      erewrite rep_get; [|exact Rp|apply in_or_app; left; apply flat_head]. cbn [bind]. rewrite run_bind, E5 by exact Fu. reflexivity. }
    rewrite R. cbn [bind run_io accesses]. unfold mk_leaf.
    pose proof (nexts_accesses s n (pad m es) nx cnt r (length es) 0 E2) as X. rewrite pad_length in X by exact E1. specialize (X eq_refl).
    cbn zeta in X. revert X. generalize (accesses s (iter_nexts n (mkBpIter (mkLeaf (length es) (pad m es) nx) 0))). intros a X.
    pose proof (dense_size m d Hm Hd s nx cnt r E2) as DS. pose proof (half_up m) as HU. pose proof (half_le m) as HL.
    assert (a <= Nat.min n (length (contents t)) / hm); [|lia].
    apply Nat.div_le_lower_bound; [lia|]. nia.
  Qed.
End IterProofs.

Section FinalIter.
  Context {K V : Type} `{CmpLaws K}.
  Variables (ksize : K -> N) (vsize : V -> N) (cfg : config).
  Notation m := (leaf_degree cfg).
  Notation d := (internal_degree cfg).
  Notation fits := (valid ksize vsize cfg).

  Lemma bp_next ops s outs n : 1 <= m -> 3 <= d -> never_harmful ksize vsize cfg ops ->
    run (bp_step ksize vsize cfg) (new_store m) ops = Ok (s, outs) ->
    run_io s (iter_some n) = Ok (s, map (nth_error (bp_spec_state fits ops)) (seq 0 n)).
  Proof.
    intros Hm Hd Ov E. destruct (bp_run_inv m d Hm Hd ksize vsize cfg eq_refl eq_refl ops Ov) as (s' & E' & I).
    rewrite E in E'. injection E' as <- _. now apply (some_inv m d Hm Hd).
  Qed.
  Lemma bp_next_accesses ops s outs j n : 1 <= m -> 3 <= d -> never_harmful ksize vsize cfg ops ->
    run (bp_step ksize vsize cfg) (new_store m) ops = Ok (s, outs) ->
    length (bp_spec_state fits ops) < m * ((d + 1) / 2) ^ j ->
    accesses s (iter_some (K := K) (V := V) n) <= j + 1 + Nat.min n (length (bp_spec_state fits ops)) / ((m + 1) / 2).
  Proof.
    intros Hm Hd Ov E L. destruct (bp_run_inv m d Hm Hd ksize vsize cfg eq_refl eq_refl ops Ov) as (s' & E' & I).
    rewrite E in E'. injection E' as <- _. now apply (some_accesses m d Hm Hd).
  Qed.
End FinalIter.

Lemma bp_next_bad : exists s outs,
  run (bp_step (fun _ => 4%N) (fun _ => 8%N) (mkConfig 4 8 5 3)) (new_store 5) (fill 5 ++ [BInsert 4 7]) = Ok (s, outs) /\
  run_io s (iter_some 6) = Ok (s, [Some (0, 1000); Some (1, 1001); Some (2, 1002); None; Some (4, 7); None]).
Proof. do 2 eexists. split; [vm_compute; reflexivity | vm_compute; reflexivity]. Qed.
