(** Final lemmas about the file of the on-disk B+ tree, and counterexamples. *)
From Verif Require Import BpByteModel BpNodeSpec BpCodecProofs BpGoodProofs BpSpaceProofs BpByteProofs BpFinalProofs BpMapProofs CodecInstances ListLemmas.
From Coq Require Import Strings.Byte.

Section Final.
  Context {K V : Type} `{CmpLaws K} {CK : Codec K} {CV : Codec V} {LK : CodecLaws K} {LV : CodecLaws V}.
  Variables (ly : layout) (cfg : config).

  (** A node is read back as it was written, and the other pages are left alone. *)
  Lemma page_write_read (b : bfile) p (n : node K V) :
    let ps := page_size ly (bf_cfg b) in
    small_node n -> length (enc_node n) <= ps -> offset ly (bf_cfg b) p + ps <= length (bf_bytes b) ->
    b_get_page ly (b_write_node ly b p n) p = Ok n /\
    (forall q, q <> p -> b_get_page (K := K) (V := V) ly (b_write_node ly b p n) q = b_get_page ly b q) /\
    b_open (bf_bytes (b_write_node ly b p n)) =
      (let* b' := b_open (bf_bytes b) in Ok (mkFile (bf_bytes (b_write_node ly b p n)) (bf_cfg b') (bf_mem b'))) /\
    length (bf_bytes (b_write_node ly b p n)) = length (bf_bytes b).
  Proof.
    intros ps Sn Le Lf. set (f := bf_bytes b) in *. set (off := offset ly (bf_cfg b) p) in *.
    assert (Ef : f = firstn off f ++ firstn ps (skipn off f) ++ skipn (off + ps) f).
    { rewrite <- (firstn_skipn off f) at 1. f_equal. rewrite <- (firstn_skipn ps (skipn off f)) at 1. f_equal. apply skipn_add. }
    assert (La : length (firstn off f) = off) by (rewrite firstn_length; lia).
    assert (Lb : length (firstn ps (skipn off f)) = ps) by (rewrite firstn_length, skipn_length; lia).
    assert (Lc : length (skipn (off + ps) f) = length f - (off + ps)) by apply skipn_length.
    assert (W : bf_bytes (b_write_node ly b p n) = firstn off f ++ (enc_node n ++ skipn (length (enc_node n)) (firstn ps (skipn off f))) ++ skipn (off + ps) f).
    { unfold b_write_node. cbn [bf_bytes]. fold f off. rewrite Ef at 1. apply write_mid; [exact La | lia]. }
    set (a := firstn off f) in *. set (pg := firstn ps (skipn off f)) in *. set (c := skipn (off + ps) f) in *.
    set (pg' := enc_node n ++ skipn (length (enc_node n)) pg) in *.
    assert (Lp : length pg' = ps) by (unfold pg'; rewrite app_length, skipn_length; lia).
    assert (RD : forall x y, (x + y <= off \/ off + ps <= x) -> file_read (a ++ pg' ++ c) x y = file_read f x y).
    { intros x y D. unfold file_read. rewrite Ef, !app_length, Lp, Lb.
      destruct (x + y <=? length a + (ps + length c)); [|reflexivity]. f_equal. destruct D as [D|D].
      - rewrite !skipn_app, !firstn_app. replace (y - length (skipn x a)) with 0 by (rewrite skipn_length; lia). reflexivity.
      - rewrite !skipn_app. rewrite (skipn_all2 a) by lia. rewrite (skipn_all2 pg') by lia. rewrite (skipn_all2 pg) by lia.
        rewrite Lb, Lp. reflexivity. }
    repeat split.
    - unfold b_get_page at 1. rewrite W. unfold b_write_node. cbn [bf_cfg]. fold off ps. rewrite (read_mid a pg' c) by auto.
      cbn [bind]. unfold parse, pg'. now rewrite dec_node_enc.
    - intros q Q. unfold b_get_page. rewrite W. unfold b_write_node. cbn [bf_cfg]. fold ps.
      rewrite RD; [reflexivity|]. unfold off, offset. fold ps.
      destruct (Nat.lt_ge_cases q p) as [D|D]; [left | right]; nia.
    - unfold b_open. rewrite W. rewrite RD by (left; unfold off, offset; lia).
      destruct (file_read f 0 header_size) as [bs| |]; cbn [bind]; try reflexivity. destruct (parse dec_meta bs) as [[c1 m1]| |]; reflexivity.
    - rewrite W, !app_length, Lp. lia.
  Qed.

  (** *** Sizes *)
  Definition bound (n : node K V) : N :=
    match n with
    | Leaf _ => 29 + N.of_nat (leaf_degree cfg) * (1 + key_size cfg + value_size cfg)
    | Internal _ => 36 + N.of_nat (internal_degree cfg) * (9 + key_size cfg)
    | Free _ => 13
    end.
  Lemma within_bound (n : node K V) : within cfg n -> (N.of_nat (length (enc_node n)) <= bound n)%N.
  Proof.
    destruct n as [i|l|nx]; cbn [within bound].
    - intros (G1 & G2 & G4). cbn [enc_node]. unfold enc_u32, enc_slice. rewrite !app_length, le_length, !enc_usize_length.
      assert (B : (N.of_nat (length (flat_map (enc_opt enc) (in_keys i))) <= N.of_nat (internal_degree cfg) * (1 + key_size cfg))%N).
      { rewrite <- G1 at 1. apply flat_map_bound. eapply Forall_impl; [|exact G4]. intros [k|] Q; cbn [enc_opt length]; unfold esize in *; lia. }
      assert (N : (N.of_nat (length (flat_map enc_usize (in_ptrs i))) <= N.of_nat (internal_degree cfg + 1) * 8)%N).
      { rewrite <- G2 at 1. apply flat_map_bound. apply Forall_forall. intros p _. rewrite enc_usize_length. lia. }
      lia.
    - intros (G1 & G3). cbn [enc_node]. unfold enc_u32, enc_slice. rewrite !app_length, le_length, !enc_usize_length.
      assert (B : (N.of_nat (length (flat_map (enc_opt enc_entry) (lf_entries l))) <= N.of_nat (leaf_degree cfg) * (1 + key_size cfg + value_size cfg))%N).
      { rewrite <- G1 at 1. apply flat_map_bound. eapply Forall_impl; [|exact G3]. intros [[k v]|] Q; cbn [enc_opt length].
        - unfold valid in Q. apply andb_prop in Q as [Q1 Q2]. apply N.leb_le in Q1, Q2. unfold esize in *. cbn [fst snd] in *.
          unfold enc_entry. cbn [fst snd]. rewrite app_length. lia.
        - lia. }
      assert (N : length (enc_opt enc_usize (lf_next l)) <= 9).
      { destruct (lf_next l); cbn [enc_opt length]; rewrite ?enc_usize_length; lia. }
      lia.
    - intros _. cbn [enc_node]. unfold enc_u32. rewrite app_length, le_length. destruct nx; cbn [enc_opt length]; rewrite ?enc_usize_length; lia.
  Qed.
  Lemma flat_map_repeat {A} (f : A -> list byte) x n : length (flat_map f (repeat x n)) = n * length (f x).
  Proof. induction n as [|n IH]; cbn [repeat flat_map]; [reflexivity|]. rewrite app_length, IH. lia. Qed.

  (** All nodes fit into a page exactly if two inequalities between numbers hold. *)
  Lemma fits_iff (k : K) (v : V) : esize k = key_size cfg -> esize v = value_size cfg ->
    ((forall n : node K V, within cfg n -> length (enc_node n) <= page_size ly cfg) <->
     (29 + N.of_nat (leaf_degree cfg) * (1 + key_size cfg + value_size cfg) <= N.of_nat (page_size ly cfg) /\
      36 + N.of_nat (internal_degree cfg) * (9 + key_size cfg) <= N.of_nat (page_size ly cfg))%N).
  Proof.
    intros Ek Ev. split.
    - intros F. split.
      + specialize (F (Leaf (mkLeaf (leaf_degree cfg) (repeat (Some (k, v)) (leaf_degree cfg)) (Some 0)))).
        assert (W : length (enc_node (Leaf (mkLeaf (leaf_degree cfg) (repeat (Some (k, v)) (leaf_degree cfg)) (Some 0)))) <= page_size ly cfg).
        { apply F. cbn. rewrite repeat_length. split; [reflexivity|]. apply repeat_all. unfold valid. cbn [fst snd]. rewrite Ek, Ev.
          now rewrite !N.leb_refl. }
        cbn [enc_node lf_len lf_entries lf_next] in W. unfold enc_u32, enc_slice in W.
        rewrite !app_length, le_length, !enc_usize_length, flat_map_repeat in W. cbn [enc_opt length] in W. unfold enc_entry in W.
        cbn [fst snd] in W. rewrite app_length, enc_usize_length in W. unfold esize in *. nia.
      + specialize (F (Internal (mkInternal (internal_degree cfg) (repeat (Some k) (internal_degree cfg)) (repeat 0 (internal_degree cfg + 1))))).
        assert (W : length (enc_node (Internal (mkInternal (internal_degree cfg) (repeat (Some k) (internal_degree cfg)) (repeat 0 (internal_degree cfg + 1))) : node K V)) <= page_size ly cfg).
        { apply F. cbn. rewrite !repeat_length. split; [reflexivity|]. split; [reflexivity|]. apply repeat_all. rewrite Ek. lia. }
        cbn [enc_node in_len in_keys in_ptrs] in W. unfold enc_u32, enc_slice in W.
        rewrite !app_length, le_length, !enc_usize_length, !flat_map_repeat in W. cbn [enc_opt length] in W. rewrite enc_usize_length in W.
        unfold esize in *. nia.
    - intros [F1 F2] n W. pose proof (within_bound n W). destruct n; cbn [bound] in *; lia.
  Qed.
  (** The page size of the constructors is enough if options of entries and of keys take enough room in memory. *)
  Lemma layout_fits : (1 <= opt_entry ly)%N ->
    (4 + N.of_nat (internal_degree cfg) <= N.of_nat (internal_degree cfg) * opt_key ly)%N -> fits_page ly cfg.
  Proof.
    intros Le Li. unfold fits_page, page_size, leaf_max_size, internal_max_size, leaf_payload, internal_payload.
    rewrite N2Nat.id. split; etransitivity; [|apply N.le_max_l| |apply N.le_max_r].
    - assert (N.of_nat (leaf_degree cfg) * (1 + key_size cfg + value_size cfg) <=
        N.of_nat (leaf_degree cfg) * (key_size cfg + value_size cfg + opt_entry ly))%N by (apply N.mul_le_mono_l; lia). lia.
    - nia.
  Qed.

  Lemma bytes_refines f ops : 1 <= leaf_degree cfg -> 3 <= internal_degree cfg ->
    never_harmful esize esize cfg ops ->
    fits_page ly cfg -> (key_size cfg < 2 ^ 64)%N -> (value_size cfg < 2 ^ 64)%N ->
    (N.of_nat (leaf_degree cfg) < 2 ^ 64)%N -> (N.of_nat (internal_degree cfg + 1) < 2 ^ 64)%N ->
    (N.of_nat (2 * length ops + 1) < 2 ^ 64)%N ->
    outputs (bp_bstep ly) (b_new (K := K) (V := V) ly f cfg) ops = Ok (bp_spec_outputs (valid esize esize cfg) ops).
  Proof.
    intros Hm Hd Ov Fp S1 S2 S3 S4 S5.
    destruct (bytes_run (K := K) (V := V) ly cfg Fp S3 S4 f ops Hm Hd Ov) as (b & s & R & _).
    - unfold small_config, small. repeat split; auto. lia.
    - exact S5.
    - unfold outputs. now rewrite R.
  Qed.
  Lemma bytes_fit f ops b outs : 1 <= leaf_degree cfg -> 3 <= internal_degree cfg ->
    never_harmful esize esize cfg ops ->
    fits_page ly cfg -> (key_size cfg < 2 ^ 64)%N -> (value_size cfg < 2 ^ 64)%N ->
    (N.of_nat (leaf_degree cfg) < 2 ^ 64)%N -> (N.of_nat (internal_degree cfg + 1) < 2 ^ 64)%N ->
    (N.of_nat (2 * length ops + 1) < 2 ^ 64)%N ->
    run (bp_bstep ly) (b_new (K := K) (V := V) ly f cfg) ops = Ok (b, outs) ->
    length (bf_bytes b) = header_size + page_size ly cfg * md_pages (bf_mem b) /\ bf_cfg b = cfg /\
    b_open (bf_bytes b) = Ok b /\
    forall p, p < md_pages (bf_mem b) -> exists n, b_get_page (K := K) (V := V) ly b p = Ok n /\ length (enc_node n) <= page_size ly cfg.
  Proof.
    intros Hm Hd Ov Fp S1 S2 S3 S4 S5 R.
    destruct (bytes_run (K := K) (V := V) ly cfg Fp S3 S4 f ops Hm Hd Ov) as (b' & s & R' & Rs & Fr & Sg); auto.
    { unfold small_config, small. repeat split; auto. lia. }
    rewrite R in R'. injection R' as <- _. pose proof Fr as (Bc & Bm & h & pgs & Bb & Lh & Dk & F).
    pose proof Sg as (G1 & G2 & G3 & _). unfold mpages in G2. split; [|split; [exact Bc|split]].
    - rewrite Bb, app_length, Lh, (holds_concat ly cfg _ _ F), Bm, G2. reflexivity.
    - destruct (frel_open ly cfg b s) as (b2 & E2 & (X1 & X2 & _) & _); auto.
      + unfold small_config, small. repeat split; auto. lia.
      + unfold mpages. rewrite G2. pose proof (fun o => bp_space _ _ Hm Hd _ _ cfg eq_refl eq_refl ops s o (length ops) Ov) as Sp.
        unfold small. assert (length (st_pages s) <= 2 * length ops + 1); [|lia]. eapply Sp; [|exact Rs].
        intros ops1 ops2 E. pose proof (spec_length _ _ Hm Hd (esize (A := K)) (esize (A := V)) cfg eq_refl eq_refl ops1).
        apply (f_equal (@length _)) in E. rewrite app_length in E. lia.
      + destruct (bp_run_inv _ _ Hm Hd esize esize cfg eq_refl eq_refl ops Ov) as (s' & Rs' & Iv). rewrite Rs in Rs'. injection Rs' as <-.
        rewrite (inv_len _ _ s _ Iv). pose proof (spec_length _ _ Hm Hd (esize (A := K)) (esize (A := V)) cfg eq_refl eq_refl ops).
        unfold small. lia.
      + rewrite E2. f_equal. unfold b_open in E2. destruct (file_read _ _ _); cbn in E2; try discriminate.
        destruct (parse dec_meta _) as [[c1 m1]| |]; cbn in E2; try discriminate. injection E2 as <-. cbn in X1, X2.
        destruct b as [by_ bc bm]. cbn in *. subst. unfold reopen. cbn. now rewrite G1.
    - intros p L. rewrite Bm, G2 in L. destruct (nth_error (st_pages s) p) as [n|] eqn:N; [|apply nth_error_None in N; lia].
      exists n. destruct (frel_get ly cfg S3 S4 b s p n Fr Sg) as [X Y].
      + unfold get_page, cell. now rewrite N.
      + split; [exact X|]. now apply (good_fits ly cfg Fp).
  Qed.
End Final.

(** *** Counterexamples *)
(** [BpMap<u8, u8>::with_degrees(_, 1, 1, 1, 3)] *)
Definition byte_map_ops : list (bp_op byte byte) := [BInsert x01 x01; BInsert x02 x02; BGet x01].
Lemma byte_map_bad :
  accepted (mkLayout 1 1) (mkConfig 1 1 1 3) = true /\
  bp_spec_outputs (valid esize esize (mkConfig 1 1 1 3)) byte_map_ops = [OPair None; OPair None; OVal (Some x01)] /\
  outputs (bp_bstep (mkLayout 1 1)) (b_new (K := byte) (V := byte) (mkLayout 1 1) [] (mkConfig 1 1 1 3)) byte_map_ops = Panic.
Proof. vm_compute. repeat split. Qed.

(** [BpMap<u32, String>::new(_, 4, 100)] *)
Definition string_ops : list (bp_op u32 (list byte)) :=
  map (fun n => BInsert (u32_of n) (repeat x61 92)) (seq 0 39) ++ [BGet (u32_of 0)].
Lemma string_map_bad :
  let ly := mkLayout 0 4 in let cfg := auto_config ly 4 100 in
  (leaf_degree cfg = 39 /\ internal_degree cfg = 254) /\
  bp_spec_outputs (valid esize esize cfg) string_ops = repeat (OPair None) 39 ++ [OVal (Some (repeat x61 92))] /\
  outputs (bp_bstep ly) (b_new (K := u32) (V := list byte) ly [] cfg) string_ops = Panic.
Proof. vm_compute. repeat split. Qed.

(** [BpMap<[u8; 4], [u8; 4]>::new(_, 4, 4)]: keys and entries have alignment 1. *)
Lemma array_map_bad :
  let ly := mkLayout 1 1 in let cfg := auto_config ly 4 4 in
  N.of_nat (page_size ly cfg) = 4091%N /\
  exists n : node u32 u32, within cfg n /\ N.of_nat (length (enc_node n)) = 4092%N.
Proof.
  split; [vm_compute; reflexivity|].
  exists (Internal (mkInternal 312 (repeat (Some (u32_of 0)) 312) (repeat 0 313))). split; [|vm_compute; reflexivity].
  cbn [within]. split; [vm_compute; reflexivity|]. split; [vm_compute; reflexivity|].
  apply repeat_all. vm_compute. discriminate.
Qed.
