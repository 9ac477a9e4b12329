(** Proofs about the iterator of [BpMap] when reads fail. *)
From Verif Require Import BpMapModel BpNodeSpec BpLeafProofs BpStoreProofs BpMapProofs BpIterModel BpIterIoModel BpIterIoSpec BpIoSpec BpIoProofs BpCrashProofs
  ListLemmas.

Section IterIo.
  Context {K V : Type} `{CmpLaws K}.
  Notation entry := (K * V)%type.
  Notation store := (store K V).
  Variables m d : nat.
  Hypothesis Hm : 1 <= m.
  Hypothesis Hd : 3 <= d.

  (** The leaves behind a link. *)
  Inductive leaves (s : store) : option nat -> list (list entry) -> Prop :=
  | LS_nil : leaves s None []
  | LS_cons p es nx r : get_page s p = Ok (Leaf (mk_leaf m es nx)) -> es <> [] -> length es <= m ->
      leaves s nx r -> leaves s (Some p) (es :: r).
  Lemma chain_leaves s nx r : leaf_chain m s nx r -> exists ls, r = concat ls /\ leaves s nx ls.
  Proof.
    induction 1 as [|p es nx r G Ne L Lc (ls & -> & IH)]; [exists []; split; [reflexivity | constructor]|].
    exists (es :: ls). split; [reflexivity|]. econstructor; eassumption.
  Qed.
  Fixpoint starts (b : nat) (ls : list (list entry)) : list nat :=
    match ls with [] => [] | x :: ls => b :: starts (b + length x) ls end.
  Lemma starts_range s nx ls : leaves s nx ls -> forall b q, In q (starts b ls) -> b <= q < b + length (concat ls).
  Proof.
    induction 1 as [|p es nx ls G Ne L Lc IH]; intros b q; cbn [starts concat]; [contradiction|]. rewrite app_length.
    intros [<-|J]; [destruct es; cbn; [congruence | lia]|]. apply IH in J. lia.
  Qed.
  Lemma starts_low s nx ls b q : leaves s nx ls -> q < b -> existsb (Nat.eqb q) (starts b ls) = false.
  Proof.
    intros L Q. destruct (existsb _ _) eqn:E; [|reflexivity]. apply existsb_exists in E as (x & J & X%Nat.eqb_eq). subst x.
    apply (starts_range s nx ls L) in J. lia.
  Qed.

  Lemma nexts_leaves (s : store) (ml : list entry) (rd : nat -> bool) : forall fs es i nx ls ents at_, leaves s nx ls -> i <= length es ->
    (forall j, i <= j -> j < length es -> nth_error ents j = Some (nth_error es j)) ->
    (forall q, at_ <= q -> nth_error ml q = nth_error (skipn i es ++ concat ls) (q - at_)) ->
    (forall q, at_ <= q -> rd q = existsb (Nat.eqb q) (starts (at_ + (length es - i)) ls)) ->
    nexts_io s (mkBpIter (mkLeaf (length es) ents nx) i) fs = Ok (resumes ml rd at_ fs).
  Proof.
    induction fs as [|f fs IH]; intros es i nx ls ents at_ Lc Li En Ml Rd; [reflexivity|].
    unfold nexts_io. cbn [run resumes].
    assert (Un : forall it' y, next_io s (mkBpIter (mkLeaf (length es) ents nx) i) f = Ok (it', y) ->
      forall ys, nexts_io s it' fs = Ok ys ->
      (let* (_, ys) := (let* (s1, r) := next_io s (mkBpIter (mkLeaf (length es) ents nx) i) f in
         let* (s2, rs) := run (next_io s) s1 fs in Ok (s2, r :: rs)) in Ok ys) = Ok (y :: ys)).
    { intros it' y -> ys. unfold nexts_io. cbn [bind]. destruct (run (next_io s) it' fs) as [[? ?]| |]; cbn [bind]; try discriminate.
      now intros [= ->]. }
    assert (Step : forall es' i' nx' ls' ents', leaves s nx' ls' -> i' < length es' ->
      (forall j, i' <= j -> j < length es' -> nth_error ents' j = Some (nth_error es' j)) ->
      (forall q, at_ <= q -> nth_error ml q = nth_error (skipn i' es' ++ concat ls') (q - at_)) ->
      (forall q, at_ + 1 <= q -> rd q = existsb (Nat.eqb q) (starts (at_ + (length es' - i')) ls')) ->
      exists e, nth_error ml at_ = Some e /\ cell ents' i' = Ok (Some e) /\
        nexts_io s (mkBpIter (mkLeaf (length es') (list_set ents' i' None) nx') (i' + 1)) fs = Ok (resumes ml rd (at_ + 1) fs)).
    { intros es' i' nx' ls' ents' Lc' Li' En' Ml' Rd'.
      destruct (nth_error es' i') as [e|] eqn:X; [|apply nth_error_None in X; lia]. exists e.
      assert (Sk : skipn i' es' = e :: skipn (i' + 1) es').
      { clear - X. revert i' X. induction es' as [|x es' IH]; intros [|i'] X; cbn in *; try discriminate; [congruence|]. now apply IH. }
      split; [|split].
      - rewrite Ml', Nat.sub_diag, Sk by lia. reflexivity.
      - apply cell_nth. rewrite En' by lia. now rewrite X.
      - apply (IH es' (i' + 1) nx' ls'); auto; [lia| | |].
        + intros j J1 J2. rewrite list_set_nth_other by lia. apply En'; lia.
        + intros q Q. rewrite Ml' by lia. rewrite Sk. replace (q - at_) with (S (q - (at_ + 1))) by lia. reflexivity.
        + intros q Q. rewrite Rd' by lia. do 2 f_equal. lia. }
    destruct (Nat.leb_spec (length es) i) as [Q|Q].
    - inversion Lc as [A B|p es' nx' ls' Gp Ne Lm Lc' A B]; subst.
      + assert (R0 : rd at_ = false) by (rewrite Rd by lia; reflexivity). rewrite R0, Bool.andb_false_r.
        assert (N0 : forall q, at_ <= q -> nth_error ml q = None).
        { intros q Qq. rewrite Ml by exact Qq. rewrite skipn_all2 by lia. now destruct (q - at_). }
        rewrite N0 by lia. apply (Un (mkBpIter (mkLeaf (length es) ents None) i)).
        * unfold next_io, iter_next. cbn [it_leaf it_index lf_len lf_next]. apply Nat.leb_le in Q. rewrite Q. destruct f; reflexivity.
        * apply (IH es i None []); auto.
          -- intros q Qq. rewrite N0 by lia. rewrite skipn_all2 by lia. now destruct (q - (at_ + 1)).
          -- intros q Qq. rewrite Rd by lia. reflexivity.
      + assert (R0 : rd at_ = true).
        { rewrite Rd by lia. cbn [starts existsb]. replace (at_ + (length es - i)) with at_ by lia. now rewrite Nat.eqb_refl. }
        rewrite R0, Bool.andb_true_r. pose proof (proj2 (Nat.leb_le _ _) Q) as Q'. destruct f.
        * apply (Un (mkBpIter (mkLeaf (length es) ents (Some p)) i)).
          -- unfold next_io, iter_next. cbn [it_leaf it_index lf_len lf_next]. rewrite Q'. reflexivity.
          -- apply (IH es i (Some p) (es' :: ls')); auto.
        * destruct (Step es' 0 nx' ls' (pad m es')) as (e & E1 & E2 & E3); auto.
          -- destruct es'; [congruence | cbn; lia].
          -- intros j _ J. destruct (nth_error es' j) eqn:X; [|apply nth_error_None in X; lia]. now apply pad_nth_in.
          -- intros q Qq. rewrite Ml by lia. rewrite skipn_all2 by lia. reflexivity.
          -- intros q Qq. rewrite Rd by lia. cbn [starts existsb]. replace (at_ + (length es - i)) with at_ by lia.
             replace (q =? at_) with false by (symmetry; apply Nat.eqb_neq; lia). cbn [orb]. do 2 f_equal. lia.
          -- rewrite E1. eapply Un; [|exact E3]. unfold next_io, iter_next. cbn [it_leaf it_index lf_len lf_next]. rewrite Q'.
             cbn [run_fault]. rewrite Gp. cbn [bind expect_leaf iobind]. unfold iter_take, mk_leaf. cbn [lf_entries lf_len lf_next].
             rewrite E2. reflexivity.
    - assert (R0 : rd at_ = false) by (rewrite Rd by lia; apply (starts_low s nx ls); [exact Lc | lia]).
      rewrite R0, Bool.andb_false_r. destruct (Step es i nx ls ents) as (e & E1 & E2 & E3); auto; [intros; apply Rd; lia|].
      rewrite E1. eapply Un; [|exact E3]. unfold next_io, iter_next. cbn [it_leaf it_index lf_len lf_next].
      apply Nat.leb_gt in Q. rewrite Q. unfold iter_take. cbn [lf_entries lf_len lf_next]. rewrite E2. now destruct f.
  Qed.

  Lemma open_leaves {Tg : tightness} (s : store) (ml : list entry) : inv m d s ml ->
    exists it rd, run_io s iter_open = Ok (s, it) /\ (forall q, rd q = true -> 0 < q < length ml) /\
      forall fs, nexts_io s it fs = Ok (resumes ml rd 0 fs).
  Proof.
    intros I. destruct (first_leaf_inv m d Hm Hd s ml I) as (es & nx & r & -> & Lc & Lm & Ne & E).
    apply chain_leaves in Lc as (ls & -> & Ls).
    exists (mkBpIter (mk_leaf m es nx) 0), (fun q => existsb (Nat.eqb q) (starts (length es) ls)). split; [|split].
    - unfold iter_open. rewrite run_bind, E. reflexivity.
    - intros q Q. apply existsb_exists in Q as (x & J & X%Nat.eqb_eq). subst x. apply (starts_range s nx ls Ls) in J. rewrite app_length.
      destruct es; cbn [length] in *; [|lia]. destruct (concat ls) eqn:Z0; [cbn in J; lia|]. exfalso. now apply Ne.
    - intros fs. unfold mk_leaf. apply (nexts_leaves s _ _ fs es 0 nx ls); auto; [lia| | |].
      + intros j _ J. destruct (nth_error es j) eqn:X; [|apply nth_error_None in X; lia]. now apply pad_nth_in.
      + intros q _. now rewrite Nat.sub_0_r.
      + intros q _. now rewrite Nat.add_0_l, Nat.sub_0_r.
  Qed.

  Variables (ksize : K -> N) (vsize : V -> N) (cfg : config).
  Hypothesis Cm : leaf_degree cfg = m.
  Hypothesis Cd : internal_degree cfg = d.
  Notation fits := (valid ksize vsize cfg).
  Notation step := (fault_step ksize vsize cfg).

  Lemma fault_point {A} (c : io K V A) : forall n done s s' b p, reads c -> run_fault n done s c = Ok (s', Failed b p) -> p = PGet.
  Proof.
    induction c; intros n0 done s s' b p0 Rd; cbn [run_fault reads] in *; try discriminate; try contradiction; eauto.
    destruct n0; [congruence|]. destruct (get_page s p); cbn [bind]; try discriminate. eauto.
  Qed.
  Lemma iter_io es s outs : m <= 4 \/ unharmed ksize vsize cfg es -> run step (new_store m) es = Ok (s, outs) -> mild true es outs = true ->
    exists reads, (forall q, reads q = true -> 0 < q < length (io_state fits [] es outs)) /\
      forall n, (exists b, open_io s n = Ok (Failed b PGet)) \/
        exists it, open_io s n = Ok (Done it) /\ forall fs, nexts_io s it fs = Ok (resumes (io_state fits [] es outs) reads 0 fs).
  Proof.
    intros Sm R M. destruct (mild_run m d Hm Hd ksize vsize cfg Cm Cd es [] true _ [] [] s outs Sm (known_new m d Hm Hd) eq_refl R M) as (_ & I).
    destruct (open_leaves (Tg := mode _) s _ I) as (it & rd & E & Rr & Q). exists rd. split; [exact Rr|]. intros n.
    unfold open_io. destruct (fault_total iter_open n [] s s it E) as (t & o & F). rewrite F. cbn [bind].
    destruct o as [a|b p].
    - right. exists a. split; [reflexivity|]. apply fault_done in F. rewrite E in F. now injection F as <- <-.
    - left. exists b. apply fault_point in F; [now subst|]. apply reads_bind; [apply reads_edge|]. constructor.
  Qed.

  Lemma resumes_entries (l : list entry) rd : (forall q, rd q = true -> q < length l) -> forall fs at_,
    exists k, entries_of (resumes l rd at_ fs) = firstn k (skipn at_ l) /\
      (In End (resumes l rd at_ fs) -> entries_of (resumes l rd at_ fs) = skipn at_ l).
  Proof.
    intros Rd. induction fs as [|f fs IH]; intros at_; cbn [resumes].
    - exists 0. split; [reflexivity | contradiction].
    - destruct (f && rd at_) eqn:Q.
      + destruct (IH at_) as (k & E & F). exists k. split; [exact E|]. intros [J|J]; [discriminate | exact (F J)].
      + destruct (IH (at_ + 1)) as (k & E & F). destruct (nth_error l at_) as [e|] eqn:X.
        * assert (Sk : skipn at_ l = e :: skipn (at_ + 1) l).
          { clear - X. revert at_ X. induction l as [|x l IH]; intros [|i] X; cbn in *; try discriminate; [congruence|]. now apply IH. }
          exists (S k). rewrite Sk. cbn [firstn entries_of flat_map app]. fold (entries_of (resumes l rd (at_ + 1) fs)). rewrite E.
          split; [reflexivity|]. intros [J|J]; [discriminate|]. rewrite <- E. now rewrite (F J).
        * apply nth_error_None in X. exists k. cbn [entries_of flat_map app]. fold (entries_of (resumes l rd (at_ + 1) fs)).
          rewrite E, !skipn_all2, firstn_nil by lia. auto.
  Qed.
  Lemma iter_entries es s outs n it fs ys : m <= 4 \/ unharmed ksize vsize cfg es -> run step (new_store m) es = Ok (s, outs) ->
    mild true es outs = true -> open_io s n = Ok (Done it) -> nexts_io s it fs = Ok ys ->
    (exists k, entries_of ys = firstn k (io_state fits [] es outs)) /\ (In End ys -> entries_of ys = io_state fits [] es outs).
  Proof.
    intros Sm R M O N. destruct (iter_io es s outs Sm R M) as (rd & Rr & Q). destruct (Q n) as [(b & F)|(it' & F & G)]; [congruence|].
    rewrite O in F. injection F as <-. rewrite G in N. injection N as <-.
    destruct (resumes_entries (io_state fits [] es outs) rd) with (fs := fs) (at_ := 0) as (k & E & F); [intros q Hq; now apply Rr|].
    cbn [skipn] in *. eauto.
  Qed.
End IterIo.

Lemma into_iter_unwraps {K V : Type} `{Cmp K} (s : store K V) n b p : open_io s n = Ok (Failed b p) -> into_iter_io s n = Panic.
Proof. unfold into_iter_io. now intros ->. Qed.

Lemma next_stuck {K V : Type} `{Cmp K} (s : store K V) it : next_io s it true = Ok (it, Error) ->
  forall n, nexts_io s it (repeat true n) = Ok (repeat Error n).
Proof.
  intros E n. unfold nexts_io. induction n as [|n IH]; [reflexivity|]. cbn [repeat run]. rewrite E. cbn [bind].
  destruct (run (next_io s) it (repeat true n)) as [[? ?]| |]; cbn [bind] in *; try discriminate. now injection IH as ->.
Qed.
