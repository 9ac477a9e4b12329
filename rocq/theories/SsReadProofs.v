(** What a lookup in a sorted string table reads *)
From Verif Require Import ListLemmas OrdLemmas BincodeProofs.
From Verif Require Export SsReadSpec SsProofs.

(** *** Groups *)
Lemma cut_concat {A} n (l : list A) : forall part, concat (cut n part l) = part ++ l.
Proof.
  induction l as [|x r IH]; intros part; cbn [cut]; [destruct part; cbn; now rewrite ?app_nil_r|].
  destruct (_ =? _); cbn [concat]; rewrite IH; now rewrite <- app_assoc.
Qed.
Lemma cut_ne {A} n (l : list A) : forall part, Forall (fun g => g <> []) (cut n part l).
Proof.
  induction l as [|x r IH]; intros part; cbn [cut]; [destruct part; repeat constructor; discriminate|].
  destruct (_ =? _); [constructor; [now destruct part|apply IH]|apply IH].
Qed.
Lemma cut_le {A} n (l : list A) : 0 < n -> forall part, length part < n -> Forall (fun g => length g <= n) (cut n part l).
Proof.
  intros P. induction l as [|x r IH]; intros part L; cbn [cut]; [destruct part; repeat constructor; cbn in *; lia|].
  destruct (length (part ++ [x]) =? n) eqn:E.
  - apply Nat.eqb_eq in E. constructor; [lia|]. apply IH. cbn. lia.
  - apply Nat.eqb_neq in E. rewrite app_length in E. cbn in E. apply IH. rewrite app_length. cbn. lia.
Qed.
Lemma cut_count {A} n (l : list A) : 0 < n -> forall part, length part < n ->
  n * length (cut n part l) < length part + length l + n /\ length part + length l <= n * length (cut n part l).
Proof.
  intros P. induction l as [|x r IH]; intros part L; cbn [cut]; [destruct part; cbn in *; nia|].
  destruct (length (part ++ [x]) =? n) eqn:E; cbn [length].
  - apply Nat.eqb_eq in E. rewrite app_length in E. cbn in E. specialize (IH [] ltac:(cbn; lia)). cbn [length] in IH. nia.
  - apply Nat.eqb_neq in E. rewrite app_length in E. cbn in E. specialize (IH (part ++ [x])). rewrite app_length in IH. cbn [length] in IH. lia.
Qed.
Lemma cut_zero {A} (l : list A) : forall part, part ++ l <> [] -> cut 0 part l = [part ++ l].
Proof.
  induction l as [|x r IH]; intros part N; cbn [cut]; [rewrite app_nil_r in *; now destruct part|].
  replace (length (part ++ [x]) =? 0) with false by (symmetry; apply Nat.eqb_neq; rewrite app_length; cbn; lia).
  rewrite IH; rewrite <- app_assoc; [reflexivity|exact N].
Qed.

Section SsRead.
  Context {K V : Type} `{CmpLaws K} {CK : Codec K} {CV : Codec V} {LK : CodecLaws K} {LV : CodecLaws V} {B : Bloom K} {BL : BloomLaws K}.
  Notation sval := (sval V).
  Notation entry := (K * sval)%type.
  Notation len l := (N.of_nat (length l)).

  (** *** The blocks of the index *)
  Lemma append_all_cut bs es2 : forall (es1 : list entry) b bl, binv bs es1 b bl ->
    exists b' bl', append_all b es2 = Ok b' /\ binv bs (es1 ++ es2) b' bl' /\
      map (map fst) bl' ++ cut bs (map fst (sb_block b')) [] = map (map fst) bl ++ cut bs (map fst (sb_block b)) (map fst es2).
  Proof.
    induction es2 as [|[k v] es2 IH]; intros es1 b bl I; cbn [append_all].
    - rewrite app_nil_r. eauto.
    - destruct (append_exact _ _ _ _ k v I) as (b1 & -> & Eb & I1). cbn [bind]. destruct (IH _ _ _ I1) as (b2 & bl2 & -> & I2 & E2).
      exists b2, bl2. split; [reflexivity|]. split; [now rewrite <- app_assoc in I2|]. rewrite E2, Eb. cbn [map cut fst].
      assert (Q : length (map fst (sb_block b) ++ [k]) = length (sb_block b ++ [(k, sb_data_off b)])) by (rewrite !app_length, map_length; reflexivity).
      rewrite Q. destruct (_ =? bs); [rewrite map_app, <- app_assoc; cbn [map app]; rewrite map_app; reflexivity|]. now rewrite map_app.
  Qed.
  Lemma build_cut bs hint (es : list entry) f : build_with (builder_of bs hint) es = Ok f ->
    exists bl s fl, built es bl s fl f /\ map (map fst) bl = cut bs [] (map fst es).
  Proof.
    intros E. assert (NE : es <> []) by (intros ->; discriminate). unfold build_with in E.
    destruct (append_all_cut bs es [] _ _ (new_inv bs hint)) as (b & bl & Ea & I & Q). rewrite Ea in E. cbn [bind] in E. cbn [map app sb_block builder_of] in Q.
    destruct (flush_exact _ _ _ _ I NE) as (f' & bl' & s & fl & Ef & Bt & _ & _ & ->). rewrite E in Ef. injection Ef as <-.
    exists (bl ++ match sb_block b with [] => [] | x => [x] end), s, fl. split; [exact Bt|]. rewrite <- Q, map_app. f_equal. now destruct (sb_block b).
  Qed.

  (** *** The search in the summary *)
  Lemma floor_c_count (ix : list (K * N)) k : forall fuel lo hi h, floor_loop fuel ix k lo hi = Ok h ->
    exists c, floor_loop_c fuel ix k lo hi = Ok (h, c) /\ c <= Nat.log2 (2 * Z.to_nat (hi + 1 - lo)).
  Proof.
    induction fuel as [|fuel IH]; intros lo hi h E; cbn [floor_loop floor_loop_c] in *; [discriminate|].
    destruct (Z.leb_spec lo hi) as [Le|Gt]; [|injection E as <-; exists 0; split; [reflexivity|lia]].
    set (mid := ((lo + hi) / 2)%Z) in *.
    assert (M : (2 * mid <= lo + hi < 2 * mid + 2)%Z) by (unfold mid; pose proof (Z.div_mod (lo + hi) 2); pose proof (Z.mod_pos_bound (lo + hi) 2); lia).
    destruct (expect _) as [e| |]; try discriminate. cbn [bind] in *.
    assert (Half : forall m c, c <= Nat.log2 (2 * m) -> 2 * m <= Z.to_nat (hi + 1 - lo) -> S c <= Nat.log2 (2 * Z.to_nat (hi + 1 - lo))).
    { intros m c L L2. rewrite Nat.log2_double by lia. pose proof (Nat.log2_le_mono _ _ L2). lia. }
    destruct (is_gt (cmp (fst e) k)).
    - destruct (IH _ _ _ E) as (c & -> & L). cbn [bind]. exists (S c). split; [reflexivity|]. apply (Half _ _ L). lia.
    - destruct (IH _ _ _ E) as (c & -> & L). cbn [bind]. exists (S c). split; [reflexivity|]. apply (Half _ _ L). lia.
  Qed.
  Lemma floor_offset_count (ix : list (K * N)) k i : floor_offset ix k = Ok i -> exists c, floor_offset_c ix k = Ok (i, c) /\ c <= Nat.log2 (2 * length ix).
  Proof.
    unfold floor_offset, floor_offset_c. destruct (floor_loop _ _ _ _ _) as [h| |] eqn:E; try discriminate. cbn [bind]. intros Q. injection Q as <-.
    destruct (floor_c_count _ _ _ _ _ _ E) as (c & -> & L). exists c. split; [reflexivity|]. now replace (Z.to_nat (Z.of_nat (length ix) - 1 + 1 - 0)) with (length ix) in L by lia.
  Qed.

  Lemma enc_block_length (b : list (K * N)) : 8 + length (enc_block b) = index_bytes (map fst b).
  Proof.
    unfold enc_block, enc_slice, index_bytes. rewrite app_length. replace (length (enc_usize (length b))) with 8 by reflexivity.
    assert (X : length (flat_map enc_ref b) = list_sum (map (fun k => length (enc k) + 8) (map fst b))); [|rewrite X; lia].
    induction b as [|e r IH]; [reflexivity|]. cbn [flat_map map list_sum fold_right]. rewrite app_length, IH. unfold enc_ref at 1. rewrite app_length. reflexivity.
  Qed.
  Lemma home_at (l r : list (list K)) (a : K) (b : list K) k :
    cmp a k <> Gt -> (forall x g, In (x :: g) r -> cmp x k = Gt) -> home (l ++ (a :: b) :: r) k = Some (a :: b).
  Proof.
    intros A G. unfold home. rewrite filter_app. cbn [filter]. replace (is_gt (cmp a k)) with false by (destruct (cmp a k); cbn; congruence). cbn [negb].
    replace (filter _ r) with (@nil (list K)); [apply last_error_app|]. symmetry.
    induction r as [|g r IH]; [reflexivity|]. cbn [filter]. rewrite IH by (intros x h J; apply (G x h); now right). destruct g as [|x g]; [reflexivity|].
    now rewrite (G x g (or_introl eq_refl)).
  Qed.
  Lemma reads_built bs es bl s fl f : built es bl s fl f -> map (map fst) bl = cut bs [] (map fst es) -> small_files f -> small_times es -> sorted es ->
    forall k, exists c, st_get_c (mkTable f s fl) k = Ok (version_of es k, c, reads_of bs (bl_contains fl k) es k) /\ c <= Nat.log2 (2 * length (cut bs [] (map fst es))).
  Proof.
    intros I Ct Sm St So k. pose proof (get_built _ _ _ _ _ I Sm St So k) as Eg. destruct I as [_ _ _ bt_range0 _ bt_index0 bt_blocks0 bt_ne0 _ _ _ bt_ifile0 bt_dfile0]. unfold small_files, small in Sm. rewrite bt_ifile0, bt_dfile0 in Sm.
    unfold st_get in Eg. unfold st_get_c. cbn [st_summary st_filter st_files] in *.
    assert (NE : es <> []) by (intros ->; discriminate).
    assert (Or : outside_of es k = is_lt (cmp k (fst (su_range s))) || is_gt (cmp k (snd (su_range s)))).
    { unfold outside_of. destruct es as [|e0 r]; [congruence|]. cbn [range_of] in bt_range0. cbn [hd_error].
      destruct (last_error (e0 :: r)) as [z|] eqn:Lz; [|now apply last_error_none in Lz]. cbn [option_map] in bt_range0. injection bt_range0 as ->. reflexivity. }
    unfold reads_of. rewrite Or. destruct (is_lt _ || is_gt _) eqn:Rg.
    { injection Eg as <-. exists 0. split; [reflexivity|lia]. }
    destruct (bl_contains fl k) eqn:Bf; cbn [negb orb] in *.
    2:{ injection Eg as <-. exists 0. split; [reflexivity|lia]. }
    assert (Lc : length (cut bs [] (map fst es)) = length (su_index s)) by (rewrite <- Ct, map_length, bt_index0, heads_length; auto).
    rewrite Lc. destruct (floor_offset (su_index s) k) as [i| |] eqn:Ei; try discriminate. cbn [bind] in Eg.
    destruct (floor_offset_count _ _ _ Ei) as (c & -> & Lcount). cbn [bind].
    assert (Sr : sorted (concat bl)) by (rewrite bt_blocks0; now apply keys_sorted).
    pose proof (heads_sorted _ bt_ne0 Sr 0) as Sh. rewrite <- bt_index0 in Sh.
    assert (Lh : length (su_index s) = length bl) by (rewrite bt_index0; now apply heads_length).
    unfold floor_offset in Ei.
    destruct (floor_loop_ok (su_index s) k (sorted_nth _ Sh) (S (length (su_index s))) 0 (Z.of_nat (length (su_index s)) - 1))
      as (h & Eh & Hb & A & G); try lia.
    { intros j x Ex L. assert (j < length (su_index s)) by (apply nth_error_Some; congruence). lia. }
    rewrite Eh in Ei. cbn [bind] in Ei. injection Ei as <-.
    assert (Hd : exists x r, su_index s = x :: r /\ cmp (fst x) k <> Gt).
    { destruct es as [|e0 r0]; [congruence|]. destruct bl as [|[|x b] bl]; [discriminate bt_blocks0|inversion bt_ne0; congruence|]. cbn [concat refs app] in bt_blocks0.
      injection bt_blocks0 as -> _. eexists _, _. rewrite bt_index0. cbn [heads app fst]. split; [reflexivity|].
      cbn [range_of] in bt_range0. destruct (last_error (e0 :: r0)); [|discriminate]. cbn [option_map] in bt_range0. injection bt_range0 as Er. rewrite Er in Rg. cbn [fst] in Rg.
      apply orb_false_iff in Rg. destruct Rg as [Rg _]. intros Q. cbn [fst] in Q. apply cmp_gt_lt in Q. rewrite Q in Rg. discriminate. }
    destruct (Z.eqb_spec h (-1)) as [Qh|Nh].
    { exfalso. destruct Hd as (x & r & Q & N0). apply N0. apply (G 0 x); [now rewrite Q|lia]. }
    destruct (nth_error (su_index s) (Z.to_nat h)) as [x|] eqn:Ex; [|apply nth_error_None in Ex; lia]. cbn [expect bind] in *.
    pose proof Ex as Ex'. rewrite bt_index0 in Ex'. destruct (heads_nth _ bt_ne0 _ _ _ Ex') as (l & e0 & b & r & Ebl & El & ->).
    rewrite Ebl in *. cbn [snd] in *. rewrite N.add_0_l, Nat2N.id in *.
    assert (Sb : small (length (enc_block (e0 :: b)))).
    { unfold small. rewrite indexf_app, app_length in Sm. unfold indexf at 2 in Sm. cbn [flat_map] in Sm. rewrite app_length, frame_length in Sm. lia. }
    assert (Ei : f_index f = indexf l ++ frame (enc_block (e0 :: b)) ++ indexf r).
    { rewrite bt_ifile0, indexf_app. reflexivity. }
    rewrite Ei, read_frame_mid in * by exact Sb. cbn [bind] in *.
    assert (Fb : Forall (fun x => (snd x < len (dataf es))%N) (e0 :: b)).
    { pose proof (refs_bound es) as Fr. rewrite <- bt_blocks0, concat_app in Fr. apply Forall_app in Fr. destruct Fr as [_ Fr].
      cbn [concat] in Fr. apply Forall_app in Fr. apply Fr. }
    assert (Lb : length (e0 :: b) <= length es).
    { rewrite <- (refs_length es 0), <- bt_blocks0, concat_app, app_length. cbn [concat]. rewrite app_length. lia. }
    assert (Pb : parse dec_block (enc_block (e0 :: b)) = Ok (e0 :: b)).
    { apply parse_block.
      - pose proof (es_bound es). unfold small. lia.
      - eapply Forall_impl; [|exact Fb]. cbn beta; intros y L; unfold small_ref; lia. }
    rewrite Pb in *. cbn [bind] in *.
    assert (Hm : home (cut bs [] (map fst es)) k = Some (map fst (e0 :: b))).
    { rewrite <- Ct, map_app. cbn [map]. apply home_at.
      - apply (A _ _ Ex). lia.
      - intros y g J. apply in_map_iff in J. destruct J as ([|y' g'] & Q & J); [discriminate|]. cbn [map] in Q. injection Q as <- _.
        apply in_split in J. destruct J as (r1 & r2 & ->).
        assert (Nx : nth_error (su_index s) (length (l ++ (e0 :: b) :: r1)) = Some (fst y', (0 + len (indexf (l ++ (e0 :: b) :: r1)))%N)).
        { replace (l ++ (e0 :: b) :: r1 ++ (y' :: g') :: r2) with ((l ++ (e0 :: b) :: r1) ++ (y' :: g') :: r2) in * by now rewrite <- app_assoc.
          rewrite bt_index0, heads_app. rewrite nth_error_app2; apply Forall_app in bt_ne0; destruct bt_ne0 as [F1 F2];
            rewrite heads_length by assumption; [|lia]. rewrite Nat.sub_diag. reflexivity. }
        apply (G _ _ Nx). rewrite app_length. cbn [length]. lia. }
    rewrite Hm. change (8 + length (enc_block (e0 :: b))) with (8 + length (enc_block (e0 :: b))). rewrite enc_block_length.
    destruct (find_key (e0 :: b) k) as [off|] eqn:Fk.
    2:{ injection Eg as Ev. exists c. split; [|exact Lcount]. rewrite <- Ev. do 2 f_equal. f_equal. unfold version_of in Ev. destruct (at_key k es); [reflexivity|discriminate]. }
    rewrite find_key_at in Fk. destruct (at_key k (e0 :: b)) as [|[k' off'] rest] eqn:Ea; [discriminate|]. cbn [hd_error option_map snd] in Fk. injection Fk as ->.
    assert (Jk : In (k', off) (at_key k (e0 :: b))) by (rewrite Ea; now left). apply in_at in Jk. destruct Jk as [Jk Ck]. cbn [fst] in Ck.
    assert (Jr : In (k', off) (refs 0 es)). { rewrite <- bt_blocks0, concat_app. apply in_app_iff. right. cbn [concat]. apply in_app_iff. now left. }
    destruct (in_refs _ _ _ Jr) as (l1 & e & r1 & Ees & Ek & ->). rewrite Nat2N.id in *.
    assert (Ef : f_data f = dataf l1 ++ frame (enc_kv e) ++ dataf r1).
    { rewrite bt_dfile0, Ees, dataf_app. reflexivity. }
    assert (Je : In e es) by (rewrite Ees; apply in_elt). pose proof (frames_bound _ _ Je).
    rewrite Ef, read_frame_mid in * by (unfold small; lia). cbn [bind] in *.
    assert (Pk : parse dec_kv (enc_kv e) = Ok e) by (apply parse_kv; now apply (proj1 (Forall_forall _ _) St)). rewrite Pk in Eg. rewrite Pk. cbn [bind] in *. injection Eg as Ev. rewrite <- Ev.
    exists c. split; [|exact Lcount].
    assert (Y : In e (at_key k es)) by (apply in_at; rewrite Ek; auto).
    destruct (at_key_cases es k So) as [E0|(e' & E1 & _)]; [rewrite E0 in Y; destruct Y|]. rewrite E1 in *. destruct Y as [->|[]]. cbn [map].
    unfold entry_bytes, enc_kv. rewrite app_length, Nat.add_assoc. reflexivity.
  Qed.

  Theorem get_reads bs hint (es : list entry) f : strictly_ascending es -> build_with (builder_of bs hint) es = Ok f -> small_files f -> small_times es ->
    exists t, st_new f = Ok t /\ forall k, exists c,
      st_get_c t k = Ok (version_of es k, c, reads_of bs (bl_contains (st_filter t) k) es k) /\ c <= Nat.log2 (2 * length (cut bs [] (map fst es))).
  Proof.
    intros So E Sm St. destruct (build_cut _ _ _ _ E) as (bl & s & fl & I & Ct). exists (mkTable f s fl).
    split; [eapply open_built; eauto|]. intros k. cbn [st_filter]. eapply reads_built; eauto.
  Qed.
  Lemma home_in groups k (g : list K) : home groups k = Some g -> In g groups.
  Proof.
    unfold home. intros E. assert (J : In g (filter (fun g => match g with a :: _ => negb (is_gt (cmp a k)) | [] => false end) groups)).
    { destruct (filter _ groups) as [|x l] using rev_ind; [discriminate|]. rewrite last_error_app in E. injection E as <-. apply in_elt. }
    apply filter_In in J. apply J.
  Qed.
  (** Bytes read, if every key takes at most [w] bytes *)
  Theorem reads_bound bs maybe (es : list entry) k w : 0 < bs -> strictly_ascending es -> (forall e, In e es -> length (enc (fst e)) <= w) ->
    length (reads_of bs maybe es k) <= 2 /\
    (forall n, In (IndexFile, n) (reads_of bs maybe es k) -> n <= 16 + bs * (w + 8)) /\
    (forall n, In (DataFile, n) (reads_of bs maybe es k) -> exists e, In e es /\ cmp (fst e) k = Eq /\ n = entry_bytes e).
  Proof.
    intros P So Wd. unfold reads_of. destruct (_ || _); [cbn; split; [lia|]; split; intros n []|].
    destruct (home _ k) as [g|] eqn:Hm; [|cbn; split; [lia|]; split; intros n []]. apply home_in in Hm.
    split; [|split].
    - cbn [length]. rewrite map_length. destruct (at_key_cases es k So) as [->|(e & -> & _)]; cbn; lia.
    - intros n [Q|J]; [|apply in_map_iff in J; destruct J as (e & Q & _); discriminate]. injection Q as <-.
      pose proof (proj1 (Forall_forall _ _) (cut_le bs (map fst es) P [] P) _ Hm) as Lg.
      assert (Sub : forall x, In x g -> length (enc x) <= w).
      { intros x J. assert (Jx : In x (concat (cut bs [] (map fst es)))) by (apply in_concat; eauto). rewrite cut_concat in Jx. cbn [app] in Jx.
        apply in_map_iff in Jx. destruct Jx as (e & <- & Je). now apply Wd. }
      unfold index_bytes. apply Nat.add_le_mono_l. transitivity (length g * (w + 8)); [|now apply Nat.mul_le_mono_r]. clear - Sub.
      induction g as [|x g IH]; [cbn; lia|]. cbn [map list_sum fold_right length]. change (fold_right Nat.add 0 (map (fun k => length (enc k) + 8) g)) with (list_sum (map (fun k => length (enc k) + 8) g)).
      pose proof (Sub x (or_introl eq_refl)). specialize (IH (fun y J => Sub y (or_intror J))). lia.
    - intros n [Q|J]; [discriminate|]. apply in_map_iff in J. destruct J as (e & Q & J). injection Q as <-. apply in_at in J. exists e. tauto.
  Qed.
End SsRead.

(** With the number of entries as the hint *)
Lemma sqrt_groups {A} (l : list A) : let n := length l in
  Forall (fun g => length g <= Nat.sqrt_up n) (cut (Nat.sqrt_up n) [] l) /\ length (cut (Nat.sqrt_up n) [] l) <= Nat.sqrt_up n.
Proof.
  cbn zeta. destruct l as [|x r]; [split; [constructor|cbn; lia]|]. set (l := x :: r). set (n := length l). assert (Pn : 0 < n) by (unfold n; cbn; lia).
  assert (P : 0 < Nat.sqrt_up n) by now apply Nat.sqrt_up_pos.
  split; [apply cut_le; cbn; lia|]. destruct (cut_count (Nat.sqrt_up n) l P [] P) as [L _]. cbn [length] in L. fold n in L.
  assert (Sq : n <= Nat.sqrt_up n * Nat.sqrt_up n) by (apply Nat.sqrt_up_spec; exact Pn).
  assert (Nat.sqrt_up n * length (cut (Nat.sqrt_up n) [] l) < Nat.sqrt_up n * (Nat.sqrt_up n + 1)) by lia.
  apply Nat.mul_lt_mono_pos_l in H; lia.
Qed.
