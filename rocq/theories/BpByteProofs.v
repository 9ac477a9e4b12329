(** The on-disk B+ tree on a file of bytes does what it does on a file of pages, as long as every node
    fits into its page. *)
From Verif Require Import BpByteSpec BpNodeSpec BpCodecProofs BpGoodProofs BpSpaceProofs BpMapProofs BpInsertProofs BpStoreProofs ListLemmas.

(** *** Files made of segments *)
Lemma read_mid (a b c : list byte) off n : length a = off -> length b = n -> file_read (a ++ b ++ c) off n = Ok b.
Proof.
  intros <- <-. unfold file_read. rewrite !app_length.
  destruct (Nat.leb_spec (length a + length b) (length a + (length b + length c))) as [L|L]; [|lia].
  rewrite skipn_app, skipn_all, Nat.sub_diag. cbn [app skipn]. now rewrite firstn_app, firstn_all, Nat.sub_diag, app_nil_r.
Qed.
Lemma write_mid (a b c data : list byte) off : length a = off -> length data <= length b ->
  file_write (a ++ b ++ c) off data = a ++ (data ++ skipn (length data) b) ++ c.
Proof.
  intros <- L. unfold file_write. rewrite app_length. replace (length a - _) with 0 by lia. cbn [repeat]. rewrite app_nil_r.
  rewrite firstn_app, firstn_all, Nat.sub_diag. cbn [firstn]. rewrite app_nil_r. f_equal. rewrite <- app_assoc. f_equal.
  rewrite skipn_app. rewrite (skipn_all2 a) by lia. cbn [app]. replace (length a + length data - length a) with (length data) by lia.
  rewrite skipn_app. replace (length data - length b) with 0 by lia. reflexivity.
Qed.
Lemma resize_more (f : list byte) n : length f <= n -> file_resize f n = f ++ repeat x00 (n - length f).
Proof. intros L. unfold file_resize. now rewrite firstn_all2. Qed.
Lemma resize_length (f : list byte) n : length (file_resize f n) = n.
Proof. unfold file_resize. rewrite app_length, firstn_length, repeat_length. lia. Qed.
Lemma list_set_mid {A} (l1 l2 : list A) x y : list_set (l1 ++ x :: l2) (length l1) y = l1 ++ y :: l2.
Proof. induction l1 as [|a l1 IH]; cbn; [reflexivity|]. now rewrite IH. Qed.

#[local] Instance strict_file : tightness := Strict.

Section Bytes.
  Context {K V : Type} `{CmpLaws K} {CK : Codec K} {CV : Codec V} {LK : CodecLaws K} {LV : CodecLaws V}.
  Notation node := (node K V).
  Notation store := (store K V).
  Variable ly : layout.
  Variable cfg : config.
  Notation m := (leaf_degree cfg).
  Notation d := (internal_degree cfg).
  Notation psize := (page_size ly cfg).
  Notation ks := (key_size cfg).
  Notation vs := (value_size cfg).

  Definition PK (k : K) : Prop := (esize k <= ks)%N.
  Definition PE (e : K * V) : Prop := (esize (fst e) <= ks)%N /\ (esize (snd e) <= vs)%N.
  Notation good := (good m d PE PK small).
  Notation wgood := (wgood m d PE PK small).

  (** The largest encodings of a leaf and of an internal node. *)
  Definition leaf_bytes : N := 29 + N.of_nat m * (1 + ks + vs).
  Definition internal_bytes : N := 36 + N.of_nat d * (9 + ks).

  Lemma EK e : PE e -> PK (fst e).
  Proof. now intros [E _]. Qed.
  Lemma small0 : small 0.
  Proof. unfold small. cbn. lia. Qed.

  Lemma flat_map_bound {A} (f : A -> list byte) (b : N) l : Forall (fun a => (N.of_nat (length (f a)) <= b)%N) l ->
    (N.of_nat (length (flat_map f l)) <= N.of_nat (length l) * b)%N.
  Proof.
    induction 1 as [|a l A1 A2 IH]; cbn [flat_map length]; [lia|]. rewrite app_length, !Nat2N.inj_add, Nat2N.inj_succ. lia.
  Qed.
  Lemma leaf_fits l : good_leaf m PE small l -> (N.of_nat (length (enc_node (Leaf l : node))) <= leaf_bytes)%N.
  Proof.
    intros (G1 & G2 & G3 & G4). cbn [enc_node]. unfold enc_u32, enc_slice. rewrite !app_length, le_length, !enc_usize_length.
    assert (B : (N.of_nat (length (flat_map (enc_opt enc_entry) (lf_entries l))) <= N.of_nat m * (1 + ks + vs))%N).
    { rewrite <- G1 at 1. apply flat_map_bound. eapply Forall_impl; [|exact G3]. intros [[k v]|] Q; cbn [enc_opt length].
      - cbn in Q. unfold enc_entry. destruct Q as [Q1 Q2]. unfold esize in *. cbn [fst snd] in *. rewrite app_length. lia.
      - lia. }
    assert (N : length (enc_opt enc_usize (lf_next l)) <= 9).
    { destruct (lf_next l); cbn [enc_opt length]; rewrite ?enc_usize_length; lia. }
    unfold leaf_bytes. lia.
  Qed.
  Lemma internal_fits i : good_int d PK small i -> (N.of_nat (length (enc_node (Internal i : node))) <= internal_bytes)%N.
  Proof.
    intros (G1 & G2 & G3 & G4 & G5). cbn [enc_node]. unfold enc_u32, enc_slice. rewrite !app_length, le_length, !enc_usize_length.
    assert (B : (N.of_nat (length (flat_map (enc_opt enc) (in_keys i))) <= N.of_nat d * (1 + ks))%N).
    { rewrite <- G1 at 1. apply flat_map_bound. eapply Forall_impl; [|exact G4]. intros [k|] Q; cbn [enc_opt length].
      - cbn in Q. unfold PK, esize in Q. lia.
      - lia. }
    assert (N : (N.of_nat (length (flat_map enc_usize (in_ptrs i))) <= N.of_nat (d + 1) * 8)%N).
    { rewrite <- G2 at 1. apply flat_map_bound. apply Forall_forall. intros p _. rewrite enc_usize_length. lia. }
    unfold internal_bytes. lia.
  Qed.

  Hypothesis Fit : fits_page ly cfg.
  Hypothesis Sm : small m.
  Hypothesis Sd : small (d + 1).

  Lemma good_small n : good n -> small_node n.
  Proof.
    unfold small in *. destruct n as [i|l|nx]; cbn.
    - intros (G1 & G2 & G3 & G4 & G5). unfold small. rewrite G1, G2. repeat split; auto; lia.
    - intros (G1 & G2 & G3 & G4). unfold small. rewrite G1. repeat split; auto; lia.
    - auto.
  Qed.
  Lemma good_fits n : good n -> length (enc_node n) <= psize.
  Proof.
    pose proof Fit as [F1 F2]. change (leaf_bytes <= N.of_nat psize)%N in F1. change (internal_bytes <= N.of_nat psize)%N in F2. destruct n as [i|l|nx]; cbn [BpGoodProofs.good]; intros G.
    - pose proof (internal_fits i G). lia.
    - pose proof (leaf_fits l G). lia.
    - cbn [enc_node]. unfold enc_u32. rewrite app_length, le_length. unfold leaf_bytes in F1.
      destruct nx; cbn [enc_opt length]; rewrite ?enc_usize_length; lia.
  Qed.

  (** The page [pg] holds the node [n]. *)
  Definition holds (n : node) (pg : list byte) : Prop := length pg = psize /\ exists junk, pg = enc_node n ++ junk.
  (** The state [b] on bytes stands for the state [s] on pages. *)
  Definition frel (b : bfile) (s : store) : Prop :=
    bf_cfg b = cfg /\ bf_mem b = st_mem s /\
    exists h pgs, bf_bytes b = h ++ concat pgs /\ length h = header_size /\ (exists junk, h = enc_meta cfg (st_disk s) ++ junk) /\
      Forall2 holds (st_pages s) pgs.
  Definition sgood (s : store) : Prop :=
    st_disk s = st_mem s /\ mpages s = length (st_pages s) /\ Forall good (st_pages s) /\
    small (md_root (st_mem s)) /\ small_opt (md_free (st_mem s)).

  Lemma holds_concat ns pgs : Forall2 holds ns pgs -> length (concat pgs) = psize * length ns.
  Proof. induction 1 as [|n pg ns pgs [L _] F IH]; cbn [concat length]; [lia|]. rewrite app_length, L, IH. lia. Qed.
  Lemma holds_write n pg : good n -> length pg = psize -> holds n (enc_node n ++ skipn (length (enc_node n)) pg).
  Proof.
    intros G L. pose proof (good_fits n G). split; [|eauto]. rewrite app_length, skipn_length, L. lia.
  Qed.
  Lemma holds_dec n pg : good n -> holds n pg -> parse dec_node pg = Ok n.
  Proof. intros G (_ & junk & ->). unfold parse. now rewrite dec_node_enc by now apply good_small. Qed.
  Lemma pages_at ns pgs p n : Forall2 holds ns pgs -> nth_error ns p = Some n ->
    exists l1 pg l2 n1 n2, pgs = l1 ++ pg :: l2 /\ ns = n1 ++ n :: n2 /\ length n1 = p /\ holds n pg /\
      Forall2 holds n1 l1 /\ Forall2 holds n2 l2.
  Proof.
    intros F E. apply nth_error_split in E as (n1 & n2 & -> & <-).
    apply Forall2_app_inv_l in F as (l1 & l' & F1 & F2 & ->). inversion F2 as [|? pg ? l2 F3 F4]; subst.
    exists l1, pg, l2, n1, n2. auto 10.
  Qed.
  Lemma file_at h pgs ns p n : length h = header_size -> Forall2 holds ns pgs -> nth_error ns p = Some n ->
    exists a pg c, h ++ concat pgs = a ++ pg ++ c /\ length a = offset ly cfg p /\ holds n pg /\
      forall n' pg', holds n' pg' -> exists pgs', a ++ pg' ++ c = h ++ concat pgs' /\ Forall2 holds (list_set ns p n') pgs'.
  Proof.
    intros Lh F E. destruct (pages_at ns pgs p n F E) as (l1 & pg & l2 & n1 & n2 & -> & -> & <- & Hp & F1 & F2).
    exists (h ++ concat l1), pg, (concat l2). repeat split.
    - rewrite concat_app. cbn [concat]. now rewrite <- !app_assoc.
    - rewrite app_length, Lh, (holds_concat n1 l1 F1). reflexivity.
    - apply Hp.
    - apply Hp.
    - intros n' pg' Hp'. exists (l1 ++ pg' :: l2). split.
      + rewrite concat_app. cbn [concat]. now rewrite <- !app_assoc.
      + rewrite list_set_mid. apply Forall2_app; auto.
  Qed.

  Lemma frel_get b s p n : frel b s -> sgood s -> get_page s p = Ok n -> b_get_page ly b p = Ok n /\ good n.
  Proof.
    intros (Bc & Bm & h & pgs & Bb & Lh & _ & F) (_ & _ & G & _) E. unfold get_page, cell, expect in E.
    destruct (nth_error (st_pages s) p) as [n'|] eqn:N; [|discriminate]. injection E as ->.
    assert (Gn : good n) by (rewrite Forall_forall in G; apply G; eapply nth_error_In; exact N).
    destruct (file_at h pgs _ p n Lh F N) as (a & pg & c & E1 & E2 & Hp & _).
    unfold b_get_page. rewrite Bc, Bb, E1. rewrite (read_mid a pg c) by (auto; apply Hp). cbn [bind].
    split; [|exact Gn]. now apply holds_dec.
  Qed.
  Lemma frel_write b s p n s' : frel b s -> sgood s -> good n -> write_node s p n = Ok s' ->
    frel (b_write_node ly b p n) s' /\ sgood s'.
  Proof.
    intros (Bc & Bm & h & pgs & Bb & Lh & Dk & F) (S1 & S2 & S3 & S4 & S5) Gn E. unfold write_node, set_cell, cell, expect in E.
    destruct (nth_error (st_pages s) p) as [n'|] eqn:N; [|discriminate]. cbn in E. injection E as <-.
    destruct (file_at h pgs _ p n' Lh F N) as (a & pg & c & E1 & E2 & [Hp _] & W).
    pose proof (good_fits n Gn) as Ft. destruct (W n _ (holds_write n pg Gn Hp)) as (pgs' & E3 & F').
    split.
    - unfold b_write_node, frel. cbn [bf_cfg bf_mem bf_bytes st_mem st_pages st_disk]. split; [exact Bc|]. split; [exact Bm|]. exists h, pgs'.
      rewrite Bb, Bc, E1, write_mid by (auto; lia). auto.
    - unfold sgood, mpages in *. cbn. rewrite list_set_length. repeat split; auto. now apply list_set_all.
  Qed.
  Lemma frel_save b s mt : frel b s -> mpages (set_meta s mt) = length (st_pages s) -> Forall good (st_pages s) ->
    small (md_root mt) -> small_opt (md_free mt) ->
    frel (save_meta b mt) (set_meta s mt) /\ sgood (set_meta s mt).
  Proof.
    intros (Bc & Bm & h & pgs & Bb & Lh & Dk & F) M G R Fr. split; [|unfold sgood; cbn; auto].
    unfold save_meta, frel, set_meta. cbn [bf_cfg bf_mem bf_bytes st_mem st_pages st_disk]. split; [exact Bc|]. split; [reflexivity|]. rewrite Bc, Bb.
    pose proof (enc_meta_length cfg mt) as L.
    exists (enc_meta cfg mt ++ skipn (length (enc_meta cfg mt)) h), pgs. repeat split; eauto.
    - apply (write_mid [] h (concat pgs)); [reflexivity | lia].
    - rewrite app_length, skipn_length. lia.
  Qed.
  Lemma sgood_meta s : sgood s -> Forall good (st_pages s) /\ small (md_root (st_mem s)) /\ small_opt (md_free (st_mem s)) /\
    md_pages (st_mem s) = length (st_pages s).
  Proof. intros (S1 & S2 & S3 & S4 & S5). auto. Qed.

  Lemma frel_free b s p s' : frel b s -> sgood s -> small p -> free_node s p = Ok s' -> frel (b_free_node ly b p) s' /\ sgood s'.
  Proof.
    intros Fr Sg Sp E. pose proof Fr as (Bc & Bm & _). destruct (sgood_meta s Sg) as (A1 & A2 & A3 & A4). unfold free_node in E.
    destruct (write_node s p (Free (md_free (st_mem s)))) as [s1| |] eqn:W; cbn in E; try discriminate. injection E as <-.
    assert (Gf : good (Free (md_free (st_mem s)))) by (cbn; destruct (md_free (st_mem s)); exact A3).
    destruct (frel_write b s p _ s1 Fr Sg Gf W) as [F1 G1]. unfold b_free_node. rewrite Bm.
    destruct (sgood_meta s1 G1) as (B1 & B2 & B3 & B4).
    assert (M : st_mem s1 = st_mem s) by (unfold write_node in W; destruct (set_cell (st_pages s) p _); cbn in W; try discriminate; now injection W as <-).
    apply frel_save; auto. unfold mpages. cbn. congruence.
  Qed.
  Lemma offset_next p : offset ly cfg (p + 1) - psize = offset ly cfg p.
  Proof. unfold offset. lia. Qed.
  Lemma frel_alloc b s n s' p : frel b s -> sgood s -> good n -> alloc_node s n = Ok (s', p) -> small (mpages s') ->
    exists b', b_alloc_node ly b n = Ok (b', p) /\ frel b' s' /\ sgood s' /\ small p.
  Proof.
    intros Fr Sg Gn E Sp. pose proof Fr as (Bc & Bm & _). destruct (sgood_meta s Sg) as (A1 & A2 & A3 & A4). unfold alloc_node in E.
    unfold b_alloc_node. rewrite Bm. destruct (md_free (st_mem s)) as [f|] eqn:Fe.
    - destruct (get_page s f) as [old| |] eqn:Gp; cbn in E; try discriminate.
      destruct (write_node s f n) as [s1| |] eqn:W; cbn in E; try discriminate.
      destruct old as [| |nx]; try discriminate. injection E as <- <-.
      destruct (frel_get b s f _ Fr Sg Gp) as [G1 G2]. unfold b_get_page in G1.
      destruct (file_read _ _ _) as [bs| |]; cbn in G1 |- *; try discriminate. rewrite G1. cbn [bind].
      destruct (frel_write b s f _ s1 Fr Sg Gn W) as [F1 S1]. destruct (sgood_meta s1 S1) as (B1 & B2 & B3 & B4).
      assert (M : st_mem s1 = st_mem s) by (unfold write_node in W; destruct (set_cell (st_pages s) f _); cbn in W; try discriminate; now injection W as <-).
      eexists. split; [reflexivity|]. cbn in A3.
      assert (Sx : small_opt nx) by (destruct nx; exact G2).
      destruct (frel_save (b_write_node ly b f n) s1 (mkMeta (md_pages (st_mem s)) (md_len (st_mem s)) (md_root (st_mem s)) nx)) as [X Y]; auto.
      unfold mpages. cbn. congruence.
    - rewrite A4 in E. unfold resize_pages in E. rewrite firstn_all, Nat.sub_diag in E. cbn [repeat] in E. rewrite app_nil_r in E. injection E as <- <-.
      rewrite Bc, A4, offset_next. destruct Fr as (_ & _ & h & pgs & Bb & Lh & Dk & F).
      pose proof (holds_concat _ _ F) as Lc. rewrite Bb.
      rewrite resize_more by (rewrite app_length, Lh, Lc; unfold offset; lia).
      rewrite app_length, Lh, Lc. replace (offset ly cfg (length (st_pages s) + 1) - _) with psize by (unfold offset; lia).
      rewrite <- (app_nil_r (repeat x00 psize)).
      rewrite write_mid; [|rewrite app_length, Lh, Lc; reflexivity | rewrite repeat_length; now apply good_fits].
      rewrite app_nil_r. eexists. split; [f_equal; f_equal; lia|].
      set (pg := enc_node n ++ skipn (length (enc_node n)) (repeat x00 psize)).
      assert (Hp : holds n pg) by (apply holds_write; [exact Gn | apply repeat_length]).
      set (b1 := {| bf_bytes := (h ++ concat pgs) ++ pg; bf_cfg := cfg; bf_mem := st_mem s |}).
      set (s1 := {| st_pages := st_pages s ++ [n]; st_disk := st_disk s; st_mem := st_mem s |}).
      assert (Fr1 : frel b1 s1).
      { unfold frel, b1, s1. cbn. split; [reflexivity|]. split; [reflexivity|]. exists h, (pgs ++ [pg]). rewrite concat_app.
        cbn [concat]. rewrite app_nil_r, <- app_assoc. repeat split; auto. apply Forall2_app; auto. }
      destruct (frel_save b1 s1 (mkMeta (length (st_pages s) + 1) (md_len (st_mem s)) (md_root (st_mem s)) None)) as [X Y]; auto.
      { unfold mpages, s1. cbn. rewrite app_length. reflexivity. }
      { unfold s1. cbn. apply Forall_app. auto. }
      split; [exact X|]. split; [exact Y|]. unfold small, mpages in *. cbn in Sp. lia.
  Qed.

  Lemma sim {A} (Q : A -> Prop) (c : io K V A) : forall b s s' a, wgood Q c -> frel b s -> sgood s ->
    run_io s c = Ok (s', a) -> small (mpages s') -> exists b', run_b ly b c = Ok (b', a) /\ frel b' s' /\ sgood s'.
  Proof.
    induction c as [a| | |p k IH|p n k IH|n k IH|p k IH|k IH|p k IH|k IH|n k IH|k IH]; intros b s s' a' W Fr Sg E Sp;
      cbn [run_io run_b BpGoodProofs.wgood] in *; try discriminate E; pose proof Fr as (Bc & Bm & _);
      destruct (sgood_meta s Sg) as (A1 & A2 & A3 & A4).
    - injection E as <- <-. eauto.
    - destruct (get_page s p) as [n| |] eqn:G; cbn in E; try discriminate. destruct (frel_get b s p n Fr Sg G) as [-> Gn]. cbn. eauto.
    - destruct W as [W1 W2]. destruct (write_node s p n) as [s1| |] eqn:G; cbn in E; try discriminate.
      destruct (frel_write b s p n s1 Fr Sg W1 G) as [F1 S1]. eauto.
    - destruct W as [W1 W2]. destruct (alloc_node s n) as [[s1 q]| |] eqn:G; cbn in E; try discriminate.
      assert (small (mpages s1)) by (pose proof (pages_mono _ _ _ _ E); unfold small in *; lia).
      destruct (frel_alloc b s n s1 q Fr Sg W1 G) as (b1 & -> & F1 & S1 & Sq); auto. cbn. eauto.
    - destruct W as [W1 W2]. destruct (free_node s p) as [s1| |] eqn:G; cbn in E; try discriminate.
      destruct (frel_free b s p s1 Fr Sg W1 G) as [F1 S1]. eauto.
    - rewrite Bm. eauto.
    - destruct W as [W1 W2]. unfold b_set_root. rewrite Bm. unfold set_root in E.
      destruct (frel_save b s (mkMeta (md_pages (st_mem s)) (md_len (st_mem s)) p (md_free (st_mem s)))) as [F1 S1]; auto. eauto.
    - rewrite Bm. eauto.
    - unfold b_set_len. rewrite Bm. unfold set_len in E.
      destruct (frel_save b s (mkMeta (md_pages (st_mem s)) n (md_root (st_mem s)) (md_free (st_mem s)))) as [F1 S1]; auto. eauto.
    - rewrite Bm. eauto.
  Qed.

  Lemma frel_format f : frel (b_format (K := K) (V := V) ly f cfg) (new_store m) /\ sgood (new_store m).
  Proof.
    assert (G : good (Leaf (leaf_new m))) by apply good_leaf_new.
    split.
    - unfold b_format, frel. cbn [bf_cfg bf_mem bf_bytes]. split; [reflexivity|]. split; [reflexivity|].
      set (z := file_resize f (header_size + psize)). assert (Lz : length z = header_size + psize) by apply resize_length.
      pose proof (enc_meta_length cfg (mkMeta 1 0 0 None)) as L.
      assert (Ez : z = firstn header_size z ++ skipn header_size z) by now rewrite firstn_skipn.
      assert (L1 : length (firstn header_size z) = header_size) by (rewrite firstn_length; lia).
      assert (L2 : length (skipn header_size z) = psize) by (rewrite skipn_length; lia).
      set (h0 := firstn header_size z) in *. set (pg0 := skipn header_size z) in *. rewrite Ez.
      rewrite (write_mid [] h0 pg0) by (auto; lia). cbn [app].
      set (h1 := enc_meta cfg (mkMeta 1 0 0 None) ++ skipn (length (enc_meta cfg (mkMeta 1 0 0 None))) h0).
      assert (Lh : length h1 = header_size) by (unfold h1; rewrite app_length, skipn_length; lia).
      rewrite <- (app_nil_r pg0). pose proof (good_fits _ G) as Ft. rewrite write_mid by (auto; lia). rewrite app_nil_r.
      exists h1, [enc_node (Leaf (leaf_new m) : node) ++ skipn (length (enc_node (Leaf (leaf_new m) : node))) pg0].
      cbn [concat]. rewrite app_nil_r. repeat split; auto.
      + unfold h1. eauto.
      + constructor; [|constructor]. now apply holds_write.
    - unfold sgood, mpages. cbn. repeat split; auto using small0.
  Qed.

  Lemma frel_open b s : small_config cfg -> small (mpages s) -> small (md_len (st_mem s)) -> frel b s -> sgood s ->
    exists b', b_open (bf_bytes b) = Ok b' /\ frel b' (reopen s) /\ sgood (reopen s).
  Proof.
    intros Sc Sp Sl (Bc & Bm & h & pgs & Bb & Lh & (junk & Dk) & F) (S1 & S2 & S3 & S4 & S5).
    assert (Rs : reopen s = s) by (unfold reopen; destruct s; cbn in *; now subst).
    exists b. rewrite Rs. split; [|split; [unfold frel; eauto 12 | unfold sgood; auto]].
    assert (Rd : file_read (bf_bytes b) 0 header_size = Ok h) by (rewrite Bb; now apply (read_mid [] h (concat pgs))).
    unfold b_open. rewrite Rd. cbn [bind]. unfold parse. rewrite Dk, dec_meta_enc.
    - cbn [bind]. f_equal. destruct b. cbn in *. congruence.
    - exact Sc.
    - rewrite S1. unfold small_meta. auto.
  Qed.

  Lemma step_sim b s s' o out : small_config cfg -> frel b s -> sgood s -> small (md_len (st_mem s)) ->
    bp_step esize esize cfg s o = Ok (s', out) -> small (mpages s') ->
    exists b', bp_bstep ly b o = Ok (b', out) /\ frel b' s' /\ sgood s'.
  Proof.
    intros Sc Fr Sg Sl E Sp. pose proof Fr as (Bc & Bm & _). unfold bp_step in E. unfold bp_bstep. rewrite Bc, Bm.
    destruct o.
    - destruct (valid esize esize cfg k v) eqn:Va; [|injection E as <- <-; eauto].
      destruct (run_io s _) as [[s1 r]| |] eqn:R; cbn in E; try discriminate. injection E as <- <-.
      unfold valid in Va. apply andb_prop in Va as [V1 V2]. apply N.leb_le in V1, V2.
      destruct (sim _ _ _ _ _ _ (insert_good m d PE PK small EK small0 (k, v) (conj V1 V2)) Fr Sg R Sp) as (b' & -> & X & Y). cbn. eauto.
    - destruct (run_io s _) as [[s1 r]| |] eqn:R; cbn in E; try discriminate. injection E as <- <-.
      destruct (sim _ _ _ _ _ _ (remove_good m d PE PK small EK small0 k) Fr Sg R Sp) as (b' & -> & X & Y). cbn. eauto.
    - destruct (run_io s _) as [[s1 r]| |] eqn:R; cbn in E; try discriminate. injection E as <- <-.
      destruct (sim _ _ _ _ _ _ (get_good m d PE PK small k) Fr Sg R Sp) as (b' & -> & X & Y). cbn. eauto.
    - destruct (run_io s _) as [[s1 r]| |] eqn:R; cbn in E; try discriminate. injection E as <- <-.
      destruct (sim _ _ _ _ _ _ (get_good m d PE PK small k) Fr Sg R Sp) as (b' & -> & X & Y). cbn. eauto.
    - injection E as <- <-. eauto.
    - injection E as <- <-. eauto.
    - injection E as <- <-. unfold b_clear. rewrite Bc. eexists. split; [reflexivity|]. apply frel_format.
    - destruct (run_io s _) as [[s1 r]| |] eqn:R; cbn in E; try discriminate. injection E as <- <-.
      destruct (sim _ _ _ _ _ _ (min_good m d PE PK small) Fr Sg R Sp) as (b' & -> & X & Y). cbn. eauto.
    - destruct (run_io s _) as [[s1 r]| |] eqn:R; cbn in E; try discriminate. injection E as <- <-.
      destruct (sim _ _ _ _ _ _ (max_good m d PE PK small) Fr Sg R Sp) as (b' & -> & X & Y). cbn. eauto.
    - destruct (run_io s _) as [[s1 r]| |] eqn:R; cbn in E; try discriminate. injection E as <- <-.
      destruct (sim _ _ _ _ _ _ (iter_good m d PE PK small) Fr Sg R Sp) as (b' & -> & X & Y). cbn. eauto.
    - injection E as <- <-. destruct (frel_open b s Sc) as (b' & -> & X & Y); auto.
      + destruct Sg as (S1 & _). unfold mpages, reopen in *. cbn in Sp. now rewrite S1 in Sp.
      + cbn. eauto.
  Qed.

  Variable f : list byte.
  Lemma bytes_run ops : 1 <= m -> 3 <= d -> never_harmful esize esize cfg ops -> small_config cfg -> small (2 * length ops + 1) ->
    exists b s, run (bp_bstep ly) (b_new (K := K) (V := V) ly f cfg) ops = Ok (b, bp_spec_outputs (valid esize esize cfg) ops) /\
      run (bp_step esize esize cfg) (new_store m) ops = Ok (s, bp_spec_outputs (valid esize esize cfg) ops) /\
      frel b s /\ sgood s.
  Proof.
    intros Hm Hd Ov Sc Sn.
    set (P := fun ops1 s => inv m d s (bp_spec_state (valid esize esize cfg) ops1) /\ mpages s <= 2 * length ops + 1 /\
      exists b outs, run (bp_bstep ly) (b_new (K := K) (V := V) ly f cfg) ops1 = Ok (b, outs) /\
        run (bp_step esize esize cfg) (new_store m) ops1 = Ok (s, outs) /\ frel b s /\ sgood s).
    assert (RA : forall {St Op Rt : Type} (step : St -> Op -> res (St * Rt)) o ops1 s0 s1 s2 r1 r2,
      run step s0 ops1 = Ok (s1, r1) -> step s1 o = Ok (s2, r2) -> run step s0 (ops1 ++ [o]) = Ok (s2, r1 ++ [r2])).
    { intros St Op Rt step o ops1. induction ops1 as [|x ops1 IH]; intros s0 s1 s2 r1 r2 E1 E2; cbn [run app] in *.
      - injection E1 as <- <-. now rewrite E2.
      - destruct (step s0 x) as [[s3 r3]| |]; cbn [bind] in *; try discriminate.
        destruct (run step s3 ops1) as [[s4 r4]| |] eqn:R; cbn [bind] in *; try discriminate. injection E1 as <- <-.
        rewrite (IH s3 s4 s2 r4 r2 R E2). reflexivity. }
    destruct (run_ind m d Hm Hd esize esize cfg eq_refl eq_refl P ops Ov) as (s & R & I & Mp & b & outs & Rb & Rs & Fr & Sg).
    - unfold P. split; [now apply inv_new|]. split; [cbn; lia|]. exists (b_new (K := K) (V := V) ly f cfg), []. split; [reflexivity|]. split; [reflexivity|].
      apply frel_format.
    - intros ops1 o ops2 s s' out E (I & Mp & b & outs & Rb & Rs & Fr & Sg) I0 E1 I1. unfold P. split; [exact I1|].
      assert (Bd : mpages s' <= 2 * length ops + 1).
      { destruct (step_space m d Hm Hd esize esize cfg eq_refl eq_refl _ _ _ _ _ _ E1 I I1) as [Q|Q]; [lia|].
        pose proof (spec_length m d Hm Hd esize esize cfg eq_refl eq_refl (ops1 ++ [o])) as SL. rewrite app_length in SL. cbn [length] in SL.
        apply (f_equal (@length _)) in E. rewrite app_length in E. cbn [length] in E. lia. }
      split; [exact Bd|].
      destruct (step_sim b s s' o out Sc Fr Sg) as (b' & Eb & Fr' & Sg'); auto.
      + rewrite (inv_len m d s _ I). pose proof (spec_length m d Hm Hd esize esize cfg eq_refl eq_refl ops1) as SL.
        apply (f_equal (@length _)) in E. rewrite app_length in E. cbn [length] in E. unfold small in *. lia.
      + unfold small in *. lia.
      + exists b', (outs ++ [out]). split; [eapply RA; eauto|]. split; [eapply RA; eauto|]. auto.
    - exists b, s. rewrite R in Rs. injection Rs as <-. auto.
  Qed.
End Bytes.
