(** The two models of tables agree, and every table that a map refers to was written. *)
From Verif Require Import ListLemmas OrdLemmas.
From Verif Require Import SsProofs LsmTableProofs.
From Verif Require Import LeveledModel SizeTieredModel.
From Verif Require Export LsmBytesSpec LsmGoodProofs.

(** *** The builders *)
Section Link.
  Context {K V : Type} `{CmpLaws K} {CK : Codec K} {CV : Codec V} {LK : CodecLaws K} {LV : CodecLaws V}.
  Context {B : Bloom K} {BL : BloomLaws K}.
  Notation sval := (sval V).
  Notation entry := (K * sval)%type.
  Notation sizes := (encoded_sizes (K := K) (V := V)).

  #[local] Existing Instance encoded_sizes.
  Lemma u64_length n : length (enc_u64 n) = 8.
  Proof. apply BincodeProofs.le_length. Qed.
  Lemma block_nil : length (enc_block (K := K) []) = 8.
  Proof. apply BincodeProofs.enc_usize_length. Qed.
  Lemma block_snoc (l : list (K * N)) k o : length (enc_block (l ++ [(k, o)])) = length (enc_block l) + length (enc k) + 8.
  Proof.
    unfold enc_block, enc_slice. rewrite !app_length, !BincodeProofs.enc_usize_length, flat_map_app, app_length.
    cbn [flat_map]. rewrite app_nil_r. unfold enc_ref. cbn [fst snd]. rewrite app_length, u64_length. lia.
  Qed.

  Record rel (b : builder (K := K)) (t : tbuilder K V) : Prop := mkRel {
    rl_count : sb_count b = tb_count t;
    rl_tombs : sb_tombs b = tb_tombs t;
    rl_size : sb_size b = tb_size t;
    rl_range : sb_range b = tb_range t;
    rl_times : sb_times b = tb_times t;
    rl_index : sb_block_index b = tb_index t;
    rl_bsize : sb_block_size b = tb_bsize t;
    rl_bytes : N.of_nat (length (enc_block (sb_block b))) = tb_bytes t }.
  Lemma rel_new id hint : rel (builder_new hint) (tb_new id hint).
  Proof. constructor; cbn [builder_new builder_of tb_new sb_count sb_tombs sb_size sb_range sb_times sb_block_index sb_block_size sb_block tb_count tb_tombs tb_size tb_range tb_times tb_index tb_bsize tb_bytes]; reflexivity. Qed.
  Lemma rel_append b t (e : entry) : rel b t ->
    exists b', append b (fst e) (snd e) = Ok b' /\ rel b' (tb_append (Z := sizes) t e).
  Proof.
    destruct e as [k v]. cbn [fst snd]. intros [R1 R2 R3 R4 R5 R6 R7 R8]. unfold append, tb_append. cbn zeta. cbn [sb_block_index sb_block_size].
    assert (Sz : (sb_size b + (8 + N.of_nat (length (enc_kv (k, v)))))%N = (tb_size t + 8 + ksize k + vsize v)%N).
    { unfold enc_kv. cbn [fst snd ksize vsize encoded_sizes]. rewrite app_length, R3. lia. }
    assert (By : N.of_nat (length (enc_block (sb_block b ++ [(k, sb_data_off b)]))) = (tb_bytes t + ksize k + 8)%N).
    { rewrite block_snoc. cbn [ksize encoded_sizes]. lia. }
    rewrite R6, R7. destruct (tb_index t + 1 =? tb_bsize t).
    - unfold close_block. cbn [sb_block]. assert (F : exists k0, first_key (sb_block b ++ [(k, sb_data_off b)]) = Ok k0).
      { destruct (sb_block b) as [|x r]; cbn; eauto. }
      destruct F as [k0 ->]. cbn [bind]. eexists. split; [reflexivity|].
      constructor; cbn [sb_count sb_tombs sb_size sb_range sb_times sb_block_index sb_block_size sb_block tb_count tb_tombs tb_size tb_range tb_times tb_index tb_bsize tb_bytes];
        try congruence.
      + now rewrite R2.
      + rewrite Sz, By. now rewrite !N.add_assoc.
      + rewrite R4. reflexivity.
      + rewrite R5. reflexivity.
      + now rewrite block_nil.
    - eexists. split; [reflexivity|].
      constructor; cbn [sb_count sb_tombs sb_size sb_range sb_times sb_block_index sb_block_size sb_block tb_count tb_tombs tb_size tb_range tb_times tb_index tb_bsize tb_bytes];
        try congruence.
      + now rewrite R2.
      + exact Sz.
      + now rewrite R4.
      + now rewrite R5.
  Qed.
  Lemma rel_appends (es : list entry) : forall b t, rel b t ->
    exists b', append_all b es = Ok b' /\ rel b' (fold_left (tb_append (Z := sizes)) es t).
  Proof.
    induction es as [|[k v] es IH]; intros b t R; cbn [append_all fold_left]; [eauto|].
    destruct (rel_append b t (k, v) R) as (b1 & E & R1). cbn [fst snd] in E. rewrite E. cbn [bind]. now apply IH.
  Qed.

  Lemma version_find (es : list entry) k : version_of es k = find_version es k.
  Proof.
    unfold version_of. induction es as [|[k' v] es IH]; [reflexivity|]. rewrite at_cons. cbn [fst find_version].
    destruct (is_eq (cmp k' k)); [reflexivity|exact IH].
  Qed.

  (** Both builders on the same entries *)
  Theorem table_link id hint (es : list entry) t f : strictly_ascending es ->
    tb_build (Z := sizes) id hint es = Ok t -> build hint es = Ok f -> small_files f -> small_times es ->
    exists b, SsModel.st_new f = Ok b /\ shows t b.
  Proof.
    intros So Et Ef Sm St. unfold build, build_with in Ef.
    destruct (rel_appends es _ _ (rel_new id hint)) as (b & Eb & R). rewrite Eb in Ef. cbn [bind] in Ef.
    assert (NE : es <> []) by (intros ->; discriminate).
    destruct (append_all_inv (Nat.sqrt_up hint) es [] _ _ (new_inv (Nat.sqrt_up hint) hint)) as (b' & bl & Eb' & I).
    unfold builder_new in Eb. rewrite Eb in Eb'. injection Eb' as <-. cbn [app] in I.
    destruct (flush_exact _ _ _ _ I NE) as (f' & bl' & s & fl & Ef' & Bt & Zs & Zt & _). rewrite Ef in Ef'. injection Ef' as <-.
    exists (mkTable f s fl). split; [eapply open_built; eauto|].
    assert (T : t_es t = es /\ t_count t = tb_count (fold_left (tb_append (Z := sizes)) es (tb_new id hint)) /\
      t_tombs t = tb_tombs (fold_left (tb_append (Z := sizes)) es (tb_new id hint)) /\
      t_size t = tb_size (fold_left (tb_append (Z := sizes)) es (tb_new id hint)) /\
      Some (t_range t) = tb_range (fold_left (tb_append (Z := sizes)) es (tb_new id hint)) /\
      Some (t_times t) = tb_times (fold_left (tb_append (Z := sizes)) es (tb_new id hint))).
    { unfold tb_build, tb_flush in Et. destruct (LsmTableProofs.rep_appends (Z := sizes) es (tb_new id hint) [] (rep_new _ _)) as [Rp _].
      destruct (tb_range _) as [r|]; [|discriminate]. cbn [expect bind] in Et. destruct (tb_times _) as [tm|]; [|discriminate].
      cbn [expect bind] in Et. injection Et as <-. cbn. repeat split; auto. apply Rp. }
    destruct T as (T0 & T1 & T2 & T3 & T4 & T5).
    assert (Sm' : small (length (dataf es))).
    { destruct Bt. unfold small_files, small in *. rewrite bt_dfile in Sm. lia. }
    constructor; cbn [st_summary].
    - rewrite (bt_count _ _ _ _ _ Bt), T1, <- (rl_count _ _ R). symmetry. apply I.
    - rewrite (bt_tombs _ _ _ _ _ Bt), T2, <- (rl_tombs _ _ R). symmetry. apply I.
    - rewrite Zs, T3. apply R.
    - pose proof (bt_range _ _ _ _ _ Bt) as Q. rewrite <- (bi_range _ _ _ _ I), (rl_range _ _ R), <- T4 in Q. now injection Q.
    - rewrite (rl_times _ _ R), <- T5 in Zt. now injection Zt.
    - unfold data_iter. cbn [st_files]. rewrite (bt_dfile _ _ _ _ _ Bt), T0. pose proof (es_bound es).
      apply (data_loop_ok _ St []); [exact Sm'|lia].
    - intros k. rewrite (get_built es bl' s fl f Bt Sm St So k). unfold tab_get, read. rewrite T0, version_find.
      destruct (is_lt (cmp k (fst (t_range t))) || is_gt (cmp k (snd (t_range t)))) eqn:Rg; [|reflexivity].
      pose proof (get_built es bl' s fl f Bt Sm St So k) as G. unfold SsModel.st_get in G. cbn [st_summary] in G.
      pose proof (bt_range _ _ _ _ _ Bt) as Q. rewrite <- (bi_range _ _ _ _ I), (rl_range _ _ R), <- T4 in Q. injection Q as Q.
      rewrite Q, Rg in G. injection G as G. now rewrite <- version_find, <- G.
  Qed.
  Theorem built_on_disk hint t : tb_build (Z := sizes) (t_id t) hint (t_es t) = Ok t -> strictly_ascending (t_es t) -> small_times (t_es t) -> on_disk t.
  Proof.
    intros E So St. destruct (build_built (Nat.sqrt_up hint) hint (t_es t)) as (f & _ & _ & _ & Ef & _).
    { intros Q. rewrite Q in E. discriminate. }
    exists hint, f. split; [exact Ef|]. intros Sm. eapply table_link; eauto.
  Qed.
End Link.

(** *** Every table was built *)
Section Built.
  Context {K V : Type} `{CmpLaws K} {Z : Sizes K V}.
  Notation sval := (sval V).
  Notation entry := (K * sval)%type.
  Notation table := (table K V).
  Notation tbuilder := (tbuilder K V).
  Definition was_built (t : table) : Prop := exists hint, tb_build (t_id t) hint (t_es t) = Ok t.

  (** A builder in the middle of its work *)
  Definition part (hint : nat) (b : tbuilder) : Prop := b = fold_left tb_append (tb_es b) (tb_new (tb_id b) hint).
  Lemma part_new id hint : part hint (tb_new id hint).
  Proof. reflexivity. Qed.
  Lemma append_es (b : tbuilder) e : tb_es (tb_append b e) = tb_es b ++ [e] /\ tb_id (tb_append b e) = tb_id b.
  Proof. destruct e as [k v]. unfold tb_append. destruct (tb_index b + 1 =? tb_bsize b); auto. Qed.
  Lemma part_append hint b e : part hint b -> part hint (tb_append b e).
  Proof.
    intros P. unfold part. destruct (append_es b e) as [-> ->]. rewrite fold_left_app. cbn [fold_left]. now rewrite <- P.
  Qed.
  Lemma part_appends hint l : forall b, part hint b -> part hint (fold_left tb_append l b).
  Proof. induction l as [|e l IH]; intros b P; cbn [fold_left]; [exact P|]. apply IH. now apply part_append. Qed.
  Lemma part_flush hint b t : part hint b -> tb_flush b = Ok t -> was_built t.
  Proof.
    intros P E. exists hint. unfold tb_build. assert (X : t_id t = tb_id b /\ t_es t = tb_es b).
    { unfold tb_flush in E. destruct (tb_range b); [|discriminate]. destruct (tb_times b); [|discriminate]. cbn in E. injection E as <-. auto. }
    destruct X as [-> ->]. now rewrite <- P.
  Qed.
  Lemma tb_was_built id hint es t : tb_build id hint es = Ok t -> was_built t.
  Proof. intros E. unfold tb_build in E. eapply part_flush; [|exact E]. apply part_appends. apply part_new. Qed.

  (** *** Leveled compaction *)
  Lemma pack_built cfg keep hint es : forall b ts id, part hint b -> pack cfg keep hint b es = Ok (ts, id) -> Forall was_built ts.
  Proof.
    induction es as [|e es IH]; intros b ts id P E; cbn [pack] in E.
    - destruct (tb_range b) eqn:Rg; [|injection E as <- _; constructor].
      destruct (tb_flush b) as [t| |] eqn:F; try discriminate. cbn [bind] in E. injection E as <- _. constructor; [|constructor]. eapply part_flush; eauto.
    - assert (P' : part hint (if keep e then tb_append b e else b)) by (destruct (keep e); auto using part_append).
      set (b' := if keep e then tb_append b e else b) in *. destruct (lc_max_size cfg <? tb_size b')%N; [|eapply IH; eauto].
      destruct (tb_flush b') as [t| |] eqn:F; try discriminate. cbn [bind] in E.
      destruct (pack cfg keep hint (tb_new (S (tb_id b')) hint) es) as [[ts' id']| |] eqn:Q; try discriminate. cbn [bind] in E. injection E as <- _.
      constructor; [eapply part_flush; eauto|]. eapply IH; [|exact Q]. apply part_new.
  Qed.
  Definition lvl_built (l : level K V) : Prop := Forall (fun kt => was_built (snd kt)) l.
  Lemma bt_insert_forall {A} (P : A -> Prop) k v (l : list (K * A)) : P v -> Forall (fun x => P (snd x)) l -> Forall (fun x => P (snd x)) (bt_insert k v l).
  Proof.
    intros Pv F. induction F as [|[k' v'] l X F IH]; cbn [bt_insert]; [repeat constructor; exact Pv|].
    destruct (cmp k k'); constructor; auto.
  Qed.
  Lemma inserts_built ts : Forall was_built ts -> forall l, lvl_built l -> lvl_built (fold_left level_insert ts l).
  Proof.
    induction 1 as [|t ts P F IH]; intros l L; cbn [fold_left]; [exact L|]. apply IH. now apply bt_insert_forall.
  Qed.
  Lemma merge_into_built cfg has purge hint id runs l l' id' : lvl_built l -> merge_into cfg has purge hint id runs l = Ok (l', id') -> lvl_built l'.
  Proof.
    intros L E. unfold merge_into in E. destruct (merge_tables has runs) as [es| |]; try discriminate. cbn [bind] in E.
    destruct (pack _ _ _ _ es) as [[ts i]| |] eqn:P; try discriminate. cbn [bind] in E. injection E as <- _. apply inserts_built; [|exact L].
    eapply pack_built; [|exact P]. apply part_new.
  Qed.
  Lemma forall_set {A} (P : A -> Prop) l : Forall P l -> forall i x, P x -> Forall P (list_set l i x).
  Proof. induction 1 as [|y l Py F IH]; intros i x Px; [destruct i; constructor|]. destruct i; cbn [list_set]; constructor; auto. Qed.
  Lemma forall_nth {A} (P : A -> Prop) l i x : Forall P l -> nth_error l i = Some x -> P x.
  Proof. intros F E. apply nth_error_In in E. now apply (proj1 (Forall_forall _ _) F). Qed.
  Lemma level_remove_built k (l : level K V) t l' : lvl_built l -> level_remove k l = Some (t, l') -> was_built t /\ lvl_built l'.
  Proof.
    intros L. revert t l'. induction L as [|[k' t'] l X L IH]; intros t l' E; cbn [level_remove] in E; [discriminate|].
    destruct (is_eq (cmp k' k)); [injection E as <- <-; auto|]. destruct (level_remove k l) as [[x r]|]; [|discriminate].
    injection E as <- <-. destruct (IH _ _ eq_refl). split; [assumption|]. constructor; assumption.
  Qed.
  Lemma merge_down_built cfg has hint id index ls ls' id' : Forall lvl_built ls -> merge_down cfg has hint id index ls = Ok (ls', id') -> Forall lvl_built ls'.
  Proof.
    intros L E. unfold merge_down in E. destruct (nth_error ls index) as [l|] eqn:N; [|discriminate]. cbn [expect bind] in E.
    destruct (pick l) as [t|]; [|discriminate]. cbn [expect bind] in E. destruct (level_remove (hi t) l) as [[t' l']|] eqn:R; [|discriminate].
    cbn [expect bind] in E. destruct (level_remove_built _ _ _ _ (forall_nth _ _ _ _ L N) R) as [Bt Bl].
    assert (L' : Forall lvl_built (list_set ls index l')) by now apply forall_set.
    destruct (index + 1 =? length (list_set ls index l')).
    - injection E as <- _. apply Forall_app. split; [exact L'|]. constructor; [|constructor]. constructor; [exact Bt|constructor].
    - destruct (nth_error (list_set ls index l') (index + 1)) as [below|] eqn:N'; [|discriminate]. cbn [expect bind] in E.
      destruct (partition _ below) as [old new] eqn:Pa.
      destruct (merge_into _ _ _ _ _ _ new) as [[b i]| |] eqn:M; try discriminate. cbn [bind] in E. injection E as <- _. apply forall_set; [exact L'|].
      eapply merge_into_built; [|exact M]. pose proof (forall_nth _ _ _ _ L' N') as Lb. unfold lvl_built in *. rewrite Forall_forall in *.
      intros x J. apply Lb. apply (elements_in_partition _ _ Pa). auto.
  Qed.
  Lemma inner_built cfg has hint index fuel : forall id ls ls' id', Forall lvl_built ls -> inner cfg fuel has hint id index ls = Ok (ls', id') -> Forall lvl_built ls'.
  Proof.
    induction fuel as [|fuel IH]; intros id ls ls' id' L E; cbn [inner] in E; destruct (should_merge cfg ls index); try discriminate; try (injection E as <- _; exact L).
    destruct (merge_down cfg has hint id index ls) as [[ls1 id1]| |] eqn:M; try discriminate. cbn [bind] in E. eapply IH; [|exact E]. eapply merge_down_built; eauto.
  Qed.
  Lemma outer_built cfg has hint fuel : forall id index ls ls' id', Forall lvl_built ls -> outer cfg fuel has hint id index ls = Ok (ls', id') -> Forall lvl_built ls'.
  Proof.
    induction fuel as [|fuel IH]; intros id index ls ls' id' L E; cbn [outer] in E; destruct (index =? length ls); try discriminate; try (injection E as <- _; exact L).
    destruct (nth_error ls index) as [l|]; [|discriminate]. cbn [expect bind] in E.
    destruct (inner cfg (length l) has hint id index ls) as [[ls1 id1]| |] eqn:M; try discriminate. cbn [bind] in E. eapply IH; [|exact E]. eapply inner_built; eauto.
  Qed.
  Lemma levels_built (ls : list (level K V)) : Forall was_built (level_tables ls) <-> Forall lvl_built ls.
  Proof.
    unfold level_tables, lvl_built. induction ls as [|l ls IH]; cbn [flat_map]; [split; constructor|].
    rewrite Forall_app, IH, Forall_cons_iff, Forall_map. reflexivity.
  Qed.
  Lemma lv_compact_built cfg has id m m' id' : Forall was_built (lv_tables m) -> lv_compact cfg has id m = Ok (m', id') -> Forall was_built (lv_tables m').
  Proof.
    intros F E. unfold lv_compact, lv_compact_fuel in E. unfold lv_tables in F. apply Forall_app in F. destruct F as [_ F]. apply levels_built in F.
    set (ls := match lm_levels m with [] => [[]] | x => x end) in *. assert (L : Forall lvl_built ls).
    { unfold ls. destruct (lm_levels m); [repeat constructor|exact F]. }
    destruct (nth_error ls 0) as [l0|] eqn:N; [|discriminate]. cbn [expect bind] in E.
    destruct (merge_into _ _ _ _ _ _ []) as [[l1 i1]| |] eqn:M; try discriminate. cbn [bind] in E.
    destruct (outer _ _ _ _ _ _ _) as [[ls2 i2]| |] eqn:O; try discriminate. cbn [bind] in E. injection E as <- _.
    unfold lv_tables. cbn [lm_tabs lm_levels app]. apply levels_built. eapply outer_built; [|exact O]. apply forall_set; [exact L|].
    eapply merge_into_built; [|exact M]. constructor.
  Qed.

  (** *** Size-tiered compaction *)
  Lemma sz_compact_built cfg has id ts ts' id' : Forall was_built ts -> sz_compact cfg has id ts = Ok (ts', id') -> Forall was_built ts'.
  Proof.
    intros F E. unfold sz_compact in E. destruct (compaction_range cfg ts) as [[a b]|]; [|discriminate]. unfold merge_range in E. cbn [fst snd] in E.
    assert (G : Forall was_built (by_size ts)).
    { assert (I : forall t l, was_built t -> Forall was_built l -> Forall was_built (size_insert t l)).
      { intros t l Pt Fl. induction Fl as [|x l Px Fl IH]; cbn [size_insert]; [repeat constructor; exact Pt|]. destruct (t_size t <=? t_size x)%N; constructor; auto. }
      unfold by_size. clear E. induction F as [|t ts Pt F IH]; cbn [fold_right]; [constructor|]. now apply I. }
    assert (R : Forall was_built (firstn a (by_size ts) ++ skipn b (by_size ts))).
    { apply Forall_app. rewrite Forall_forall in G. split; apply Forall_forall; intros x J; apply G;
        [rewrite <- (firstn_skipn a (by_size ts))|rewrite <- (firstn_skipn b (by_size ts))]; apply in_app_iff; auto. }
    destruct (merge_tables has _) as [es| |]; try discriminate. cbn [bind] in E.
    match type of E with context [tb_range ?b] => set (b0 := b) in * end.
    destruct (tb_range b0); [|injection E as <- _; exact R]. destruct (tb_flush b0) as [t| |] eqn:Fl; try discriminate. cbn [bind] in E. injection E as <- _.
    apply Forall_app. split; [exact R|]. constructor; [|constructor]. eapply part_flush; [|exact Fl]. apply part_appends. apply part_new.
  Qed.

  (** *** The map *)
  Context (St : strategy K V).
  Notation tables := (st_tables St).
  Record build_laws : Prop := mkBuildLaws {
    bw_new : tables (st_new St) = [];
    bw_push : forall m t x, In x (tables (st_push St m t)) -> x = t \/ In x (tables m);
    bw_compact : forall has id m m' id', Forall was_built (tables m) -> st_compact St has id m = Ok (m', id') -> Forall was_built (tables m');
    bw_replace : forall c m x, In x (tables (st_replace St c m)) -> In x (tables c) \/ In x (tables m) }.
  Context (BW : build_laws).
  Definition good (m : st_meta St) : Prop := Forall was_built (tables m).
  Lemma built_good : good_laws St good.
  Proof.
    constructor; unfold good.
    - rewrite (bw_new BW). constructor.
    - intros m id hint es t G E. rewrite Forall_forall in *. intros x J. destruct (bw_push BW _ _ _ J) as [->|J']; [eapply tb_was_built; eauto|auto].
    - apply (bw_compact BW).
    - intros c m G G'. rewrite !Forall_forall in *. intros x J. destruct (bw_replace BW _ _ _ J); auto.
  Qed.
End Built.

Section Laws.
  Context {K V : Type} `{CmpLaws K} {Z : Sizes K V}.
  Lemma leveled_build_laws cfg : build_laws (leveled (K := K) (V := V) cfg).
  Proof.
    constructor; cbn [st_tables leveled st_new st_push st_compact st_replace].
    - reflexivity.
    - intros m t x J. unfold lv_tables in *. cbn [lm_tabs lm_levels] in J. rewrite !in_app_iff in *. destruct J as [[J|[<-|[]]]|J]; auto.
    - intros. eapply lv_compact_built; eauto.
    - intros c m x J. unfold lv_tables, lv_replace in *. cbn [lm_tabs lm_levels] in J. rewrite !in_app_iff in *.
      destruct J as [[J|J]|J]; auto. apply filter_In in J. tauto.
  Qed.
  Lemma tiered_build_laws cfg : build_laws (size_tiered (K := K) (V := V) cfg).
  Proof.
    constructor; cbn [st_tables size_tiered st_new st_push st_compact st_replace].
    - reflexivity.
    - intros m t x J. rewrite in_app_iff in J. destruct J as [J|[<-|[]]]; auto.
    - intros. eapply sz_compact_built; eauto.
    - intros c m x J. unfold sz_replace in J. rewrite in_app_iff in J. destruct J as [J|J]; auto. apply filter_In in J. tauto.
  Qed.
End Laws.
