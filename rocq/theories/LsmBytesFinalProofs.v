(** Every table that a map refers to, in memory and in metadata.dat, is on disk byte by byte. *)
From Verif Require Import LsmClaims SizeTieredClaims SizeTieredLoose SsProofs.
From Verif Require Export LsmBytesProofs.

Section Final.
  Context {K V : Type} `{CmpLaws K} {CK : Codec K} {CV : Codec V} {LK : CodecLaws K} {LV : CodecLaws V}.
  Context {B : Bloom K} {BL : BloomLaws K}.
  #[local] Existing Instance encoded_sizes.
  Context (Ksize : forall k k' : K, cmp k k' = Eq -> length (enc k) = length (enc k')).
  Lemma ksize_eq : forall k k' : K, cmp k k' = Eq -> ksize k = ksize k'.
  Proof. intros k k' E. cbn. now rewrite (Ksize k k' E). Qed.

  Section Strategy.
    Context (St : strategy K V) (Inv : N -> st_meta St -> Prop) (Comp : st_meta St -> st_meta St -> Prop)
            (qd : K * sval V -> Prop) (lim : N -> Prop) (less : list (K * sval V) -> list (K * sval V) -> Prop) (slip : sp K V -> sp K V -> Prop).
    Context (L : laws St Inv Comp qd False lim less slip) (BW : build_laws St).
    Lemma tables_on_disk ops s outs : lim (N.of_nat (length ops)) -> well_used sp_new ops -> Forall (covered qd) ops ->
      (N.of_nat (length ops) <= 2 ^ 64)%N -> run (lsm_step St) (lsm_new St) ops = Ok (s, outs) ->
      forall m, refers s m -> Forall on_disk (st_tables St m).
    Proof.
      intros Li Wu Cv Le E m R. destruct (loose_run St Inv Comp qd lim less slip L ksize_eq ops Li Wu Cv) as (s' & outs' & a & E' & _ & I & _ & Ti).
      rewrite E in E'. injection E' as <- <-. pose proof (built_good St BW) as GL. pose proof (run_g St _ GL ops _ _ _ (new_g St _ GL) E) as G.
      assert (X : Inv (time s) m /\ good St m).
      { destruct R as [->|[R|[R|R]]].
        - split; [apply (iv_inv _ _ _ _ _ _ I)|apply (g_cur _ _ _ G)].
        - split; [|now apply (g_nxt _ _ _ G)]. destruct (iv_nxt _ _ _ _ _ _ I m R) as (m0 & ts & _ & _ & X & _). exact X.
        - split; [|now apply (g_thr _ _ _ G)]. destruct (iv_thr _ _ _ _ _ _ I m R) as (_ & _ & ts & _ & X & _). exact X.
        - rewrite (iv_meta _ _ _ _ _ _ I) in R. injection R as <-. split; [apply (iv_inv _ _ _ _ _ _ I)|apply (g_cur _ _ _ G)]. }
      destruct X as [Im Gm]. destruct (lw_basic _ _ _ _ _ _ _ _ L _ _ Im) as (Tk & _ & _ & Tm).
      apply Forall_forall. intros t J. destruct (proj1 (Forall_forall _ _) Gm t J) as [hint Eb].
      apply (built_on_disk hint); [exact Eb|apply (proj1 (Forall_forall _ _) Tk t J)|].
      apply Forall_forall. intros e Je. assert (Y : (sv_time (snd e) < time s)%N) by (apply Tm; unfold cont; apply in_run; eauto). lia.
    Qed.
  End Strategy.

  Theorem leveled_on_disk cfg (ops : list (lsm_op K V)) s outs : limits_positive cfg (N.of_nat (length ops)) -> (N.of_nat (length ops) <= 2 ^ 64)%N ->
    well_used sp_new ops -> run (lsm_step (leveled cfg)) (lsm_new (leveled cfg)) ops = Ok (s, outs) ->
    forall m, refers s m -> Forall on_disk (lv_tables m).
  Proof.
    intros Li Le Wu E m R. eapply (tables_on_disk (leveled cfg) (vinv cfg) lcomp (fun _ => True) (llim cfg) shrink eq (leveled_laws cfg)); eauto.
    - apply leveled_build_laws.
    - now apply limits_lim.
    - apply covered_all.
  Qed.
  Theorem tiered_on_disk cfg (ops : list (lsm_op K V)) s outs : (N.of_nat (length ops) <= 2 ^ 64)%N ->
    well_used sp_new ops -> run (lsm_step (size_tiered cfg)) (lsm_new (size_tiered cfg)) ops = Ok (s, outs) ->
    forall m, refers s m -> Forall on_disk m.
  Proof.
    intros Le Wu E m R. eapply (tables_on_disk (size_tiered cfg)); eauto.
    - apply (loose_laws (inserted ops) (inserted_key ops) cfg).
    - apply tiered_build_laws.
    - exact Logic.I.
    - exact (covered_list _ _ (inserted_key _) (inserted_all ops)).
  Qed.
End Final.

(** *** The recorded size *)
Section Size.
  Context {K V : Type} `{Cmp K} {CK : Codec K} {CV : Codec V} {LK : CodecLaws K} {LV : CodecLaws V}.
  Context {B : Bloom K} {BL : BloomLaws K}.
  Notation len l := (N.of_nat (length l)).
  (** Entries that are in no closed block *)
  Record tally (n : nat) (b : builder (K := K)) : Prop := mkTally {
    ty_size : sb_size b = (len (sb_data_file b) + len (sb_index_file b))%N;
    ty_block : length (sb_block b) = n mod sb_block_size b;
    ty_index : sb_block_index b = length (sb_block b);
    ty_data : n = 0 \/ 0 < length (sb_data_file b) }.
  Lemma frame_len bs : len (frame bs) = (8 + len bs)%N.
  Proof. unfold frame. rewrite app_length, be64_length. lia. Qed.
  Lemma mod_next n d : (n + 1) mod d = if n mod d + 1 =? d then 0 else n mod d + 1.
  Proof.
    destruct d as [|d]; [destruct (Nat.eqb_spec (n mod 0 + 1) 0); [lia|]; cbn; lia|]. rewrite Nat.add_mod by lia.
    pose proof (Nat.mod_upper_bound n (S d)). destruct d as [|d]; [rewrite !Nat.mod_1_r; reflexivity|].
    rewrite (Nat.mod_small 1) by lia. destruct (Nat.eqb_spec (n mod S (S d) + 1) (S (S d))) as [->|Q]; [apply Nat.mod_same; lia|]. apply Nat.mod_small. lia.
  Qed.
  Lemma tally_append n b k (v : sval V) b' : tally n b -> append b k v = Ok b' -> tally (n + 1) b' /\ sb_block_size b' = sb_block_size b.
  Proof.
    intros [T1 T2 T3 T4] E. unfold append in E. set (b1 := mkBuilder _ _ _ _ _ _ _ _ _ _ _ _ _ _) in E.
    assert (D : sb_size b1 = (len (sb_data_file b1) + len (sb_index_file b1))%N).
    { cbn [b1 sb_size sb_data_file sb_index_file]. rewrite app_length, Nat2N.inj_add, frame_len, T1. lia. }
    assert (D' : 0 < length (sb_data_file b1)).
    { cbn [b1 sb_data_file]. unfold frame. rewrite !app_length, be64_length. lia. }
    assert (Q : length (sb_block b1) = n mod sb_block_size b + 1) by (cbn [b1 sb_block]; rewrite app_length, T2; reflexivity).
    assert (Q' : sb_block_index b1 = length (sb_block b1)) by (cbn [b1 sb_block sb_block_index]; rewrite app_length, T3; reflexivity).
    pose proof (mod_next n (sb_block_size b)) as M. assert (Zs : sb_block_size b1 = sb_block_size b) by reflexivity.
    clearbody b1. rewrite Q', Q, Zs in E.
    destruct (n mod sb_block_size b + 1 =? sb_block_size b).
    - unfold close_block in E. destruct (first_key (sb_block b1)); try discriminate. cbn [bind] in E. pose proof (frame_len (enc_block (sb_block b1))) as Fr.
      remember (8 + len (enc_block (sb_block b1)))%N as z eqn:Ez. remember (frame (enc_block (sb_block b1))) as fr eqn:Ef. injection E as <-. split; [|exact Zs].
      constructor; cbn [sb_size sb_data_file sb_index_file sb_block sb_block_size sb_block_index]; auto; [|now rewrite Zs].
      rewrite app_length, Nat2N.inj_add, Fr, D. lia.
    - injection E as <-. split; [|exact Zs]. constructor; auto. now rewrite Q, Zs, M.
  Qed.
  Lemma tally_appends (es : list (K * sval V)) : forall n b b', tally n b -> append_all b es = Ok b' -> tally (n + length es) b' /\ sb_block_size b' = sb_block_size b.
  Proof.
    induction es as [|[k v] es IH]; intros n b b' T E; cbn [append_all length] in *; [injection E as <-; rewrite Nat.add_0_r; auto|].
    destruct (append b k v) as [b1| |] eqn:A; try discriminate. cbn [bind] in E. destruct (tally_append _ _ _ _ _ T A) as [T1 Z1].
    destruct (IH _ _ _ T1 E) as [T2 Z2]. split; [|congruence]. now replace (n + S (length es)) with (n + 1 + length es) by lia.
  Qed.
  Theorem recorded_size hint (es : list (K * sval V)) f b : build hint es = Ok f -> small_files f -> small_times es -> SsModel.st_new f = Ok b ->
    let total := N.of_nat (length (f_data f) + length (f_index f)) in
    (N.of_nat (length (f_data f)) <= su_size (st_summary b) <= total)%N /\ (su_size (st_summary b) = total <-> length es mod Nat.sqrt_up hint = 0).
  Proof.
    intros E Sm St O. assert (NE : es <> []) by (intros ->; discriminate).
    unfold build, build_with in E. destruct (append_all (builder_new hint) es) as [b1| |] eqn:A; try discriminate. cbn [bind] in E.
    destruct (append_all_inv _ es [] _ _ (new_inv (Nat.sqrt_up hint) hint)) as (b1' & bl & A' & I). change (builder_of (Nat.sqrt_up hint) hint) with (builder_new hint) in A'.
    rewrite A in A'. injection A' as <-. destruct (flush_exact _ _ _ _ I NE) as (f' & bl' & s & fl & F & Bt & Sz & _). rewrite E in F. injection F as <-.
    rewrite (open_built _ _ _ _ _ Bt Sm St) in O. injection O as <-. cbn [st_summary]. rewrite Sz.
    assert (T0 : tally 0 (builder_new hint)).
    { constructor; cbn; auto. destruct (Nat.sqrt_up hint) as [|q]; [reflexivity|]. symmetry. apply Nat.mod_small. lia. }
    destruct (tally_appends es 0 _ _ T0 A) as [[T1 T2 _ _] Tz]. cbn [Nat.add] in T2. rewrite Tz in T2. change (sb_block_size (builder_new hint)) with (Nat.sqrt_up hint) in T2.
    unfold SsModel.flush in E. destruct (sb_block b1) as [|x r] eqn:Eb.
    - cbn [bind] in E. destruct (sb_range b1); try discriminate. destruct (sb_times b1); try discriminate. cbn [expect bind] in E. injection E as <-.
      cbn [f_data f_index]. rewrite T1. cbn [length] in T2. lia.
    - unfold close_block in E. rewrite Eb in E. cbn [first_key bind sb_range sb_times] in E. destruct (sb_range b1); try discriminate. destruct (sb_times b1); try discriminate. cbn [expect bind] in E. injection E as <-.
      cbn [f_data f_index sb_data_file sb_index_file]. rewrite T1, app_length. pose proof (frame_len (enc_block (x :: r))) as Fr. cbn [length] in T2. lia.
  Qed.
End Size.
