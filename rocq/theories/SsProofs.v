(** Proofs about sorted string tables. *)
From Verif Require Import ListLemmas OrdLemmas BincodeProofs.
From Verif Require Export SsSpec.

Lemma be64_length n : length (enc_be64 n) = 8.
Proof. unfold enc_be64. now rewrite rev_length, le_length. Qed.
Lemma dec_be64_enc n : (n < 2 ^ 64)%N -> dec_be64 (enc_be64 n) = n.
Proof.
  intros B. unfold dec_be64, enc_be64. rewrite rev_involutive, unle_le.
  change (256 ^ N.of_nat 8)%N with (2 ^ 64)%N. now rewrite N.mod_small.
Qed.
Lemma frame_length bs : length (frame bs) = 8 + length bs.
Proof. unfold frame. now rewrite app_length, be64_length. Qed.
Lemma file_read_mid a b r off n : off = length a -> n = length b -> file_read (a ++ b ++ r) off n = Ok b.
Proof.
  intros -> ->. unfold file_read. rewrite !app_length. rewrite (proj2 (Nat.leb_le _ _)) by lia.
  rewrite skipn_app, skipn_all, Nat.sub_diag. cbn. now rewrite firstn_app, firstn_all, Nat.sub_diag, app_nil_r.
Qed.
Lemma read_frame_mid a bs r : small (length bs) -> read_frame (a ++ frame bs ++ r) (length a) = Ok bs.
Proof.
  intros B. unfold read_frame. unfold frame at 1. rewrite <- app_assoc.
  rewrite file_read_mid by (rewrite ?be64_length; reflexivity). cbn [bind].
  rewrite dec_be64_enc by exact B. rewrite Nat2N.id. unfold frame. rewrite <- app_assoc.
  rewrite app_assoc. apply file_read_mid; [now rewrite app_length, be64_length|reflexivity].
Qed.

Section Ss.
  Context {K V : Type} `{CmpLaws K} {CK : Codec K} {CV : Codec V} {LK : CodecLaws K} {LV : CodecLaws V}.
  Context {B : Bloom K} {BL : BloomLaws K}.
  Notation sval := (sval V).
  Notation entry := (K * sval)%type.
  Implicit Types (es : list entry) (e : entry).

  (** *** Round trips *)
  Lemma dec_sval_enc (v : sval) r : (sv_time v < 2 ^ 64)%N -> dec_sval (enc_sval v ++ r) = Some (v, r).
  Proof.
    intros S. unfold dec_sval, enc_sval, pbind, pret. rewrite <- app_assoc.
    rewrite (dec_opt_enc enc dec (fun _ => True)) by (intros; try apply dec_enc; destruct (sv_data v); exact I).
    rewrite dec_u64_enc by exact S. now destruct v.
  Qed.
  Lemma dec_kv_enc e r : (sv_time (snd e) < 2 ^ 64)%N -> dec_kv (enc_kv e ++ r) = Some (e, r).
  Proof.
    intros S. unfold dec_kv, enc_kv, pbind, pret. rewrite <- app_assoc, dec_enc, dec_sval_enc by exact S.
    now destruct e.
  Qed.
  Definition small_ref (e : K * N) : Prop := (snd e < 2 ^ 64)%N.
  Lemma dec_ref_enc (e : K * N) r : small_ref e -> dec_ref (enc_ref e ++ r) = Some (e, r).
  Proof.
    intros S. unfold dec_ref, enc_ref, pbind, pret. rewrite <- app_assoc, dec_enc, dec_u64_enc by exact S. now destruct e.
  Qed.
  Lemma dec_block_enc l r : small (length l) -> Forall small_ref l -> dec_block (enc_block l ++ r) = Some (l, r).
  Proof.
    intros S F. apply (dec_slice_enc enc_ref dec_ref small_ref); auto using dec_ref_enc.
    intros [k o]. unfold enc_ref. cbn [fst snd]. destruct (enc k); [discriminate|discriminate].
  Qed.
  Lemma parse_kv e : (sv_time (snd e) < 2 ^ 64)%N -> parse dec_kv (enc_kv e) = Ok e.
  Proof. intros S. unfold parse. rewrite <- (app_nil_r (enc_kv e)). now rewrite dec_kv_enc. Qed.
  Lemma parse_block l : small (length l) -> Forall small_ref l -> parse dec_block (enc_block l) = Ok l.
  Proof. intros S F. unfold parse. rewrite <- (app_nil_r (enc_block l)). now rewrite dec_block_enc. Qed.
  Definition small_summary (s : summary) : Prop :=
    small (su_count s) /\ small (su_tombs s) /\ (su_size s < 2 ^ 64)%N /\
    (fst (su_times s) < 2 ^ 64)%N /\ (snd (su_times s) < 2 ^ 64)%N /\
    small (length (su_index s)) /\ Forall small_ref (su_index s).
  Lemma parse_summary (s : summary) : small_summary s -> parse dec_summary (enc_summary s) = Ok s.
  Proof.
    intros (S1 & S2 & S3 & S4 & S5 & S6 & S7). unfold parse, dec_summary, enc_summary, pbind, pret.
    rewrite dec_usize_enc by exact S1. rewrite dec_usize_enc by exact S2. rewrite dec_u64_enc by exact S3.
    rewrite !dec_enc. rewrite dec_u64_enc by exact S4. rewrite dec_u64_enc by exact S5.
    rewrite <- (app_nil_r (enc_block _)), dec_block_enc by assumption.
    destruct s as [? ? ? [? ?] [? ?] ?]. reflexivity.
  Qed.

  (** *** Layout of the two streams *)
  Definition esz e : N := 8 + N.of_nat (length (enc_kv e)).
  Definition dataf es : list byte := flat_map (fun e => frame (enc_kv e)) es.
  Fixpoint refs (pos : N) es : list (K * N) :=
    match es with [] => [] | e :: r => (fst e, pos) :: refs (pos + esz e) r end.
  Definition bsz (b : list (K * N)) : N := 8 + N.of_nat (length (enc_block b)).
  Definition indexf (bl : list (list (K * N))) : list byte := flat_map (fun b => frame (enc_block b)) bl.
  Fixpoint heads (pos : N) (bl : list (list (K * N))) : list (K * N) :=
    match bl with
    | [] => []
    | b :: r => match b with [] => [] | e :: _ => [(fst e, pos)] end ++ heads (pos + bsz b) r
    end.
  Notation len l := (N.of_nat (length l)).

  Lemma dataf_app a b : dataf (a ++ b) = dataf a ++ dataf b.
  Proof. apply flat_map_app. Qed.
  Lemma indexf_app a b : indexf (a ++ b) = indexf a ++ indexf b.
  Proof. apply flat_map_app. Qed.
  Lemma refs_app es1 es2 : forall pos, refs pos (es1 ++ es2) = refs pos es1 ++ refs (pos + len (dataf es1)) es2.
  Proof.
    induction es1 as [|e r IH]; intros pos; cbn [refs app].
    - cbn. now rewrite N.add_0_r.
    - rewrite IH. f_equal. f_equal. f_equal. unfold dataf. cbn [flat_map]. rewrite app_length, frame_length. unfold esz.
      fold (dataf r). lia.
  Qed.
  Lemma heads_app b1 b2 : forall pos, heads pos (b1 ++ b2) = heads pos b1 ++ heads (pos + len (indexf b1)) b2.
  Proof.
    induction b1 as [|b r IH]; intros pos; cbn [heads app].
    - cbn. now rewrite N.add_0_r.
    - rewrite IH, <- app_assoc. f_equal. f_equal. f_equal. unfold indexf. cbn [flat_map]. rewrite app_length, frame_length. unfold bsz.
      fold (indexf r). lia.
  Qed.
  Lemma refs_keys es : forall pos, map fst (refs pos es) = map fst es.
  Proof. induction es as [|e r IH]; intros pos; cbn; [reflexivity|]. now rewrite IH. Qed.
  Lemma refs_length es pos : length (refs pos es) = length es.
  Proof. rewrite <- (map_length fst (refs pos es)), refs_keys. apply map_length. Qed.
  Lemma in_refs es k off : In (k, off) (refs 0 es) -> exists l e r, es = l ++ e :: r /\ fst e = k /\ off = len (dataf l).
  Proof.
    intros I. apply in_split in I. destruct I as (a & b & E).
    assert (L : length a < length es) by (rewrite <- (refs_length es 0), E, app_length; cbn; lia).
    destruct (nth_error es (length a)) as [e|] eqn:N; [|apply nth_error_None in N; lia].
    apply nth_error_split in N. destruct N as (l & r & -> & Q). exists l, e, r. split; [reflexivity|].
    rewrite refs_app in E. cbn [refs] in E.
    assert (X : firstn (length l) (refs 0 l ++ (fst e, 0 + len (dataf l))%N :: refs (0 + len (dataf l) + esz e) r) =
                firstn (length l) (a ++ (k, off) :: b)) by now rewrite E.
    assert (Y : skipn (length l) (refs 0 l ++ (fst e, 0 + len (dataf l))%N :: refs (0 + len (dataf l) + esz e) r) =
                skipn (length l) (a ++ (k, off) :: b)) by now rewrite E.
    rewrite !skipn_app, Q in Y. rewrite <- Q in Y at 1. rewrite <- (refs_length l 0) in Y at 1.
    rewrite !skipn_all, refs_length, Q, !Nat.sub_diag in Y. cbn [skipn app] in Y. injection Y as Y1 Y2. split; [exact Y1|].
    rewrite <- Y2. reflexivity.
  Qed.

  (** *** The builder *)
  Definition range_of es : option (K * K) :=
    match es with [] => None | e :: _ => option_map (fun z => (fst e, fst z)) (last_error es) end.
  Definition range_times es (o : option (N * N)) : Prop :=
    match o with None => es = [] | Some r => time_range es r end.

  Record binv (bs : nat) es (b : builder) (bl : list (list (K * N))) : Prop := mkBinv {
    bi_count : sb_count b = length es;
    bi_tombs : sb_tombs b = length (tombstones es);
    bi_size : sb_size b = (len (dataf es) + len (indexf bl))%N;
    bi_range : sb_range b = range_of es;
    bi_times : range_times es (sb_times b);
    bi_index : sb_index b = heads 0 bl;
    bi_bindex : sb_block_index b = length (sb_block b);
    bi_bsize : sb_block_size b = bs;
    bi_blocks : concat bl ++ sb_block b = refs 0 es;
    bi_ne : Forall (fun x => x <> []) bl;
    bi_filter : forall e k, In e es -> cmp (fst e) k = Eq -> bl_contains (sb_filter b) k = true;
    bi_ioff : sb_index_off b = len (indexf bl);
    bi_ifile : sb_index_file b = indexf bl;
    bi_doff : sb_data_off b = len (dataf es);
    bi_dfile : sb_data_file b = dataf es }.

  Lemma close_inv bs es b bl : binv bs es b bl -> sb_block b <> [] ->
    exists b', close_block b = Ok b' /\ binv bs es b' (bl ++ [sb_block b]).
  Proof.
    intros I NE. unfold close_block, first_key. destruct (sb_block b) as [|x r] eqn:E; [congruence|]. cbn [bind].
    eexists. split; [reflexivity|]. destruct I.
    assert (LI : len (indexf (bl ++ [x :: r])) = (len (indexf bl) + bsz (x :: r))%N).
    { rewrite indexf_app, app_length. unfold indexf at 2. cbn [flat_map]. rewrite app_nil_r, frame_length. unfold bsz. lia. }
    constructor; cbn [sb_count sb_tombs sb_size sb_range sb_times sb_index sb_block_index sb_block_size sb_block
                      sb_filter sb_index_off sb_index_file sb_data_off sb_data_file]; try assumption.
    - rewrite LI, bi_size0. unfold bsz. lia.
    - rewrite bi_index0, bi_ioff0, heads_app. cbn [heads app]. now rewrite N.add_0_l.
    - reflexivity.
    - rewrite concat_app. cbn [concat]. rewrite !app_nil_r. now rewrite <- E.
    - apply Forall_app. split; [assumption|]. constructor; [discriminate|constructor].
    - rewrite LI, bi_ioff0. reflexivity.
    - rewrite indexf_app, bi_ifile0. unfold indexf at 3. cbn [flat_map]. now rewrite app_nil_r.
  Qed.

  Lemma range_snoc es k v : range_of (es ++ [(k, v)]) = Some (match range_of es with Some (s, _) => (s, k) | None => (k, k) end).
  Proof.
    destruct es as [|e es]; [reflexivity|]. unfold range_of. cbn [app].
    rewrite app_comm_cons, last_error_app. cbn [option_map fst].
    destruct (last_error (e :: es)) as [z|] eqn:E; [reflexivity|]. now apply last_error_none in E.
  Qed.
  Lemma times_snoc es k v o : range_times es o ->
    range_times (es ++ [(k, v)]) (Some (match o with
             | Some (lo, hi) => (N.min lo (sv_time v), N.max hi (sv_time v))
             | None => (sv_time v, sv_time v)
             end)).
  Proof.
    unfold range_times, time_range. destruct o as [[lo hi]|].
    - cbn [fst snd]. intros [[I1 I2] F]. rewrite map_app. cbn [map snd]. split.
      + rewrite !in_app_iff. cbn [In]. split.
        * destruct (N.min_dec lo (sv_time v)) as [-> | ->]; auto.
        * destruct (N.max_dec hi (sv_time v)) as [-> | ->]; auto.
      + apply Forall_app. split.
        * eapply Forall_impl; [|exact F]. cbn beta. lia.
        * constructor; [lia|constructor].
    - intros ->. cbn. repeat split; auto. constructor; [lia|constructor].
  Qed.
  Lemma tomb_app a b : tombstones (a ++ b) = tombstones (V := V) a ++ tombstones (K := K) b.
  Proof. apply filter_app. Qed.

  Lemma append_exact bs es b bl k v : binv bs es b bl -> let part := sb_block b ++ [(k, sb_data_off b)] in
    exists b', append b k v = Ok b' /\ sb_block b' = (if length part =? bs then [] else part) /\
      binv bs (es ++ [(k, v)]) b' (if length part =? bs then bl ++ [part] else bl).
  Proof.
    intros I part. unfold append. cbn zeta.
    match goal with |- context [if _ then close_block ?x else _] => set (b1 := x) end.
    assert (LD : len (dataf (es ++ [(k, v)])) = (len (dataf es) + esz (k, v))%N).
    { rewrite dataf_app, app_length. unfold dataf at 2. cbn [flat_map]. rewrite app_nil_r, frame_length. unfold esz. lia. }
    assert (I1 : binv bs (es ++ [(k, v)]) b1 bl).
    { destruct I. unfold b1. constructor; cbn [sb_count sb_tombs sb_size sb_range sb_times sb_index sb_block_index sb_block_size sb_block
                      sb_filter sb_index_off sb_index_file sb_data_off sb_data_file]; try assumption.
      - rewrite app_length, bi_count0. reflexivity.
      - rewrite tomb_app, app_length, bi_tombs0. unfold tombstones. cbn [filter snd]. destruct (sv_data v); cbn [length]; lia.
      - rewrite LD, bi_size0. unfold esz. lia.
      - now rewrite range_snoc, bi_range0.
      - now apply times_snoc.
      - now rewrite app_length, bi_bindex0.
      - rewrite refs_app, app_assoc, bi_blocks0. cbn [refs fst]. rewrite bi_doff0, N.add_0_l. reflexivity.
      - intros e k' J Q. apply in_app_iff in J. destruct J as [J|J].
        + apply bl_insert_other. eauto.
        + cbn in J. destruct J as [<-|[]]. now apply bl_insert_same.
      - rewrite LD, bi_doff0. reflexivity.
      - rewrite dataf_app, bi_dfile0. unfold dataf at 3. cbn [flat_map]. now rewrite app_nil_r. }
    rewrite (bi_bindex _ _ _ _ I1), (bi_bsize _ _ _ _ I1). change (sb_block b1) with part. destruct (length part =? bs); [|eauto].
    destruct (close_inv _ _ _ _ I1) as (b' & Eb & I').
    - change (sb_block b1) with part. unfold part. now destruct (sb_block b).
    - rewrite Eb. exists b'. split; [reflexivity|]. split; [|exact I']. unfold close_block in Eb. destruct (first_key (sb_block b1)); try discriminate.
      cbn [bind] in Eb. injection Eb as <-. reflexivity.
  Qed.
  Lemma append_inv bs es b bl k v : binv bs es b bl -> exists b' bl', append b k v = Ok b' /\ binv bs (es ++ [(k, v)]) b' bl'.
  Proof. intros I. destruct (append_exact _ _ _ _ k v I) as (b' & E & _ & I'). eauto. Qed.
  Lemma append_all_inv bs es2 : forall es1 b bl, binv bs es1 b bl ->
    exists b' bl', append_all b es2 = Ok b' /\ binv bs (es1 ++ es2) b' bl'.
  Proof.
    induction es2 as [|[k v] es2 IH]; intros es1 b bl I; cbn [append_all].
    - rewrite app_nil_r. eauto.
    - destruct (append_inv _ _ _ _ k v I) as (b1 & bl1 & -> & I1). cbn [bind].
      destruct (IH _ _ _ I1) as (b2 & bl2 & -> & I2). rewrite <- app_assoc in I2. eauto.
  Qed.
  Lemma new_inv bs hint : binv bs [] (builder_of bs hint) [].
  Proof. constructor; cbn; auto. Qed.

  (** What a flushed table is. *)
  Record built es (bl : list (list (K * N))) (s : summary) (fl : bloom) (f : files) : Prop := mkBuilt {
    bt_count : su_count s = length es;
    bt_tombs : su_tombs s = length (tombstones es);
    bt_size : (su_size s <= len (f_data f) + len (f_index f))%N;
    bt_range : Some (su_range s) = range_of es;
    bt_times : time_range es (su_times s);
    bt_index : su_index s = heads 0 bl;
    bt_blocks : concat bl = refs 0 es;
    bt_ne : Forall (fun x => x <> []) bl;
    bt_filter : forall e k, In e es -> cmp (fst e) k = Eq -> bl_contains fl k = true;
    bt_sfile : f_summary f = enc_summary s;
    bt_ffile : f_filter f = enc fl;
    bt_ifile : f_index f = indexf bl;
    bt_dfile : f_data f = dataf es }.

  Lemma flush_exact bs es b bl : binv bs es b bl -> es <> [] ->
    exists f bl' s fl, flush b = Ok f /\ built es bl' s fl f /\ su_size s = sb_size b /\ Some (su_times s) = sb_times b /\
      bl' = bl ++ match sb_block b with [] => [] | x => [x] end.
  Proof.
    intros I NE. unfold flush.
    assert (X : exists b' bl', match sb_block b with [] => Ok b | _ => close_block b end = Ok b' /\ binv bs es b' bl' /\
              sb_block b' = [] /\ (sb_size b <= sb_size b')%N /\ sb_times b' = sb_times b /\ bl' = bl ++ match sb_block b with [] => [] | x => [x] end).
    { destruct (sb_block b) as [|x r] eqn:E; [exists b, bl; exact (conj eq_refl (conj I (conj E (conj (N.le_refl _) (conj eq_refl (eq_sym (app_nil_r _)))))))|].
      destruct (close_inv _ _ _ _ I) as (b' & Eb & I'); [congruence|]. rewrite Eb. eexists _, _. split; [reflexivity|]. split; [exact I'|].
      unfold close_block in Eb. rewrite E in Eb. cbn [first_key bind] in Eb. injection Eb as <-. cbn. split; [reflexivity|]. split; [lia|]. split; [reflexivity|now rewrite E]. }
    destruct X as (b' & bl' & -> & I' & Eb & Sz & Tz & Bl). cbn [bind]. destruct I'.
    destruct (sb_range b') as [rg|] eqn:Er.
    2:{ destruct es as [|e es]; [congruence|]. cbn [range_of] in bi_range0. destruct (last_error (e :: es)) eqn:L; [discriminate|].
        now apply last_error_none in L. }
    cbn [expect bind]. destruct (sb_times b') as [tm|] eqn:Et; [|now cbn in bi_times0]. cbn [expect bind].
    eexists _, bl', (mkSummary (sb_count b') (sb_tombs b') (sb_size b) rg tm (sb_index b')), (sb_filter b'). split; [reflexivity|].
    rewrite Eb, app_nil_r in bi_blocks0. split; [|cbn [su_size su_times]; split; [reflexivity|]; split; [congruence|exact Bl]].
    constructor; cbn [su_count su_tombs su_size su_range su_times su_index f_summary f_filter f_index f_data]; auto.
    rewrite bi_ifile0, bi_dfile0. rewrite bi_size0 in Sz. exact Sz.
  Qed.
  Lemma flush_inv bs es b bl : binv bs es b bl -> es <> [] -> exists f bl' s fl, flush b = Ok f /\ built es bl' s fl f.
  Proof. intros I NE. destruct (flush_exact _ _ _ _ I NE) as (f & bl' & s & fl & E & Bt & _). eauto 10. Qed.
  Lemma build_built bs hint es : es <> [] ->
    exists f bl s fl, build_with (builder_of bs hint) es = Ok f /\ built es bl s fl f.
  Proof.
    intros NE. unfold build_with. destruct (append_all_inv bs es [] _ _ (new_inv bs hint)) as (b & bl & -> & I).
    cbn [bind]. eapply flush_inv; eauto.
  Qed.
  Lemma build_empty bs hint : build_with (V := V) (builder_of bs hint) [] = Panic.
  Proof. reflexivity. Qed.

  (** *** Reading back *)
  Lemma frames_bound e es : In e es -> length (enc_kv e) <= length (dataf es).
  Proof.
    induction es as [|x r IH]; cbn [In]; [easy|]. unfold dataf. cbn [flat_map]. rewrite app_length, frame_length. fold (dataf r).
    intros [->|I]; [lia|]. specialize (IH I). lia.
  Qed.
  Lemma refs_bound es : Forall (fun x => (snd x < len (dataf es))%N) (refs 0 es).
  Proof.
    apply Forall_forall. intros [k off] I. destruct (in_refs _ _ _ I) as (l & e & r & -> & _ & ->). cbn [snd].
    rewrite dataf_app, app_length. unfold dataf at 3. cbn [flat_map]. rewrite app_length, frame_length. lia.
  Qed.
  Lemma es_bound es : length es <= length (dataf es).
  Proof.
    induction es as [|x r IH]; [cbn; lia|]. unfold dataf. cbn [flat_map length]. rewrite app_length, frame_length. fold (dataf r). lia.
  Qed.
  Lemma indexf_bound bl : length bl <= length (indexf bl).
  Proof.
    induction bl as [|x r IH]; [cbn; lia|]. unfold indexf. cbn [flat_map length]. rewrite app_length, frame_length. fold (indexf r). lia.
  Qed.
  Lemma heads_bound bl : forall pos, Forall (fun x => (snd x < pos + len (indexf bl))%N) (heads pos bl).
  Proof.
    induction bl as [|b r IH]; intros pos; cbn [heads]; [constructor|]. apply Forall_app. split.
    - destruct b; [constructor|]. constructor; [|constructor]. cbn [snd]. unfold indexf. cbn [flat_map]. rewrite app_length, frame_length. lia.
    - eapply Forall_impl; [|apply IH]. cbn beta. intros x L. unfold indexf. cbn [flat_map]. rewrite app_length, frame_length.
      fold (indexf r). unfold bsz in L. lia.
  Qed.
  Lemma heads_length bl pos : Forall (fun x => x <> []) bl -> length (heads pos bl) = length bl.
  Proof.
    intros F. revert pos. induction F as [|b r Nb F IH]; intros pos; cbn [heads]; [reflexivity|].
    rewrite app_length, IH. destruct b; [congruence|reflexivity].
  Qed.

  Lemma tombs_le es : length (tombstones es) <= length es.
  Proof. unfold tombstones. induction es as [|x r IH]; cbn; [lia|]. destruct (sv_data (snd x)); cbn; lia. Qed.

  Lemma open_built es bl s fl f : built es bl s fl f -> small_files f -> small_times es -> st_new f = Ok (mkTable f s fl).
  Proof.
    intros I Sm St. destruct I. unfold small_files, small in Sm. rewrite bt_ifile0, bt_dfile0 in *. unfold st_new.
    rewrite bt_sfile0. rewrite parse_summary.
    - cbn [bind]. rewrite bt_ffile0. unfold parse. rewrite <- (app_nil_r (enc fl)), dec_enc. reflexivity.
    - pose proof (es_bound es). pose proof (tombs_le es). pose proof (indexf_bound bl).
      unfold small_summary, small. rewrite bt_count0, bt_tombs0. repeat split; try lia.
      + destruct bt_times0 as [[I1 _] _]. apply in_map_iff in I1. destruct I1 as (e & <- & I1). now apply (proj1 (Forall_forall _ _) St).
      + destruct bt_times0 as [[_ I1] _]. apply in_map_iff in I1. destruct I1 as (e & <- & I1). now apply (proj1 (Forall_forall _ _) St).
      + rewrite bt_index0, heads_length by assumption. lia.
      + rewrite bt_index0. eapply Forall_impl; [|apply heads_bound]. cbn beta; intros x L; unfold small_ref; lia.
  Qed.

  (** Iteration *)
  Lemma data_loop_ok es : small_times es -> forall a fuel, small (length (dataf es)) -> length es < fuel ->
    data_loop fuel (a ++ dataf es) (length a) = Ok es.
  Proof.
    induction 1 as [|e es S F IH]; intros a fuel Sm L; (destruct fuel as [|fuel]; [cbn [length] in L; lia|]); cbn [data_loop].
    - unfold data_next. cbn [dataf flat_map]. rewrite app_nil_r. rewrite (proj2 (Nat.leb_gt _ _)) by lia. reflexivity.
    - assert (D : dataf (e :: es) = frame (enc_kv e) ++ dataf es) by reflexivity. rewrite D in *.
      rewrite app_length, frame_length in Sm. unfold small in Sm.
      unfold data_next. rewrite !app_length, frame_length. rewrite (proj2 (Nat.leb_le _ _)) by lia.
      rewrite read_frame_mid by (unfold small; lia). cbn [bind]. rewrite parse_kv by exact S. cbn [bind].
      rewrite app_assoc. replace (length a + 8 + length (enc_kv e)) with (length (a ++ frame (enc_kv e)))
        by (rewrite app_length, frame_length; lia).
      rewrite IH by (unfold small; cbn [length] in L; lia). reflexivity.
  Qed.

  (** The binary search for the block *)
  Lemma floor_loop_ok (ix : list (K * N)) k : (forall i j x y, i < j -> nth_error ix i = Some x -> nth_error ix j = Some y -> cmp (fst x) (fst y) = Lt) ->
    forall fuel lo hi, (0 <= lo)%Z -> (lo <= hi + 1)%Z -> (hi < Z.of_nat (length ix))%Z -> (hi + 1 - lo < Z.of_nat fuel)%Z ->
    (forall i x, nth_error ix i = Some x -> (Z.of_nat i < lo)%Z -> cmp (fst x) k <> Gt) ->
    (forall i x, nth_error ix i = Some x -> (hi < Z.of_nat i)%Z -> cmp (fst x) k = Gt) ->
    exists h, floor_loop fuel ix k lo hi = Ok h /\ (-1 <= h < Z.of_nat (length ix))%Z /\
      (forall i x, nth_error ix i = Some x -> (Z.of_nat i <= h)%Z -> cmp (fst x) k <> Gt) /\
      (forall i x, nth_error ix i = Some x -> (h < Z.of_nat i)%Z -> cmp (fst x) k = Gt).
  Proof.
    intros S. induction fuel as [|fuel IH]; intros lo hi L0 L1 L2 Lf A G; [lia|]. cbn [floor_loop].
    destruct (Z.leb_spec lo hi) as [Le|Gt].
    - set (mid := ((lo + hi) / 2)%Z). assert (M : (lo <= mid <= hi)%Z).
      { unfold mid. split; [apply Z.div_le_lower_bound; lia|apply Z.div_le_upper_bound; lia]. }
      destruct (nth_error ix (Z.to_nat mid)) as [e|] eqn:E; [|apply nth_error_None in E; lia]. cbn [expect bind].
      destruct (cmp (fst e) k) eqn:Ce; cbn [is_gt].
      + apply IH; try lia; [|exact G]. intros i x Ex Li. destruct (Z.eq_dec (Z.of_nat i) mid) as [Q|Q].
        * rewrite <- Q, Nat2Z.id in E. rewrite E in Ex. injection Ex as ->. congruence.
        * assert (Lx : cmp (fst x) (fst e) = Lt) by (eapply (S i (Z.to_nat mid)); eauto; lia).
          rewrite (cmp_lt_eq_trans _ _ _ Lx Ce). discriminate.
      + apply IH; try lia; [|exact G]. intros i x Ex Li. destruct (Z.eq_dec (Z.of_nat i) mid) as [Q|Q].
        * rewrite <- Q, Nat2Z.id in E. rewrite E in Ex. injection Ex as ->. congruence.
        * assert (Lx : cmp (fst x) (fst e) = Lt) by (eapply (S i (Z.to_nat mid)); eauto; lia).
          rewrite (cmp_lt_trans _ _ _ Lx Ce). discriminate.
      + apply IH; try lia; [exact A|]. intros i x Ex Li. destruct (Z.eq_dec (Z.of_nat i) mid) as [Q|Q].
        * rewrite <- Q, Nat2Z.id in E. rewrite E in Ex. injection Ex as ->. exact Ce.
        * assert (cmp (fst e) (fst x) = Lt) by (eapply (S (Z.to_nat mid) i); eauto; lia).
          apply cmp_lt_gt. eapply cmp_lt_trans; [apply cmp_gt_lt; exact Ce|assumption].
    - exists hi. replace lo with (hi + 1)%Z in * by lia. split; [reflexivity|]. split; [lia|]. split; [|exact G].
      intros i x Ex Li. apply (A i x Ex). lia.
  Qed.

  Lemma find_key_at l k : find_key l k = option_map snd (hd_error (at_key k l)).
  Proof.
    induction l as [|[k' o] r IH]; [reflexivity|]. cbn [find_key]. rewrite at_cons. cbn [fst]. destruct (is_eq (cmp k' k)); [reflexivity|exact IH].
  Qed.

  Lemma sorted_nth (l : list (K * N)) : sorted l -> forall i j x y, i < j -> nth_error l i = Some x -> nth_error l j = Some y ->
    cmp (fst x) (fst y) = Lt.
  Proof.
    induction 1 as [|e r S IH F]; intros i j x y L X Y; [now destruct i|]. destruct j as [|j]; [lia|]. cbn in Y. destruct i as [|i].
    - injection X as <-. apply nth_error_In in Y. now apply (proj1 (Forall_forall _ _) F).
    - cbn in X. eapply (IH i j); eauto. lia.
  Qed.

  (** The head of block [i] is the [i]-th index entry. *)
  Lemma heads_nth bl : Forall (fun x => x <> []) bl -> forall pos i x, nth_error (heads pos bl) i = Some x ->
    exists l (e : K * N) b r, bl = l ++ (e :: b) :: r /\ i = length l /\ x = (fst e, (pos + len (indexf l))%N).
  Proof.
    induction 1 as [|b r Nb F IH]; intros pos i x E; cbn [heads] in E; [now destruct i|].
    destruct b as [|e b]; [congruence|]. destruct i as [|i]; cbn [app nth_error] in E.
    - injection E as <-. exists [], e, b, r. cbn. rewrite N.add_0_r. auto.
    - destruct (IH _ _ _ E) as (l & e' & b' & r' & -> & -> & ->). exists ((e :: b) :: l), e', b', r'. split; [reflexivity|].
      split; [reflexivity|]. f_equal. unfold indexf. cbn [flat_map]. rewrite app_length, frame_length. fold (indexf l). unfold bsz. lia.
  Qed.
  Lemma sorted_concat_mid (l : list (list (K * N))) b r : sorted (concat (l ++ b :: r)) ->
    sorted (concat l) /\ sorted b /\ sorted (concat r) /\
    (forall x y, In x (concat l) -> In y b -> cmp (fst x) (fst y) = Lt) /\
    (forall x y, In x b -> In y (concat r) -> cmp (fst x) (fst y) = Lt).
  Proof.
    rewrite concat_app. cbn [concat]. rewrite sorted_app. intros (S1 & S2 & X). apply sorted_app in S2. destruct S2 as (S2 & S3 & Y).
    repeat split; auto. intros x y I J. apply X; auto. apply in_app_iff. auto.
  Qed.
  Lemma heads_sorted bl : Forall (fun x => x <> []) bl -> sorted (concat bl) -> forall pos, sorted (heads pos bl).
  Proof.
    induction 1 as [|b r Nb F IH]; intros S pos; cbn [heads]; [apply sorted_nil|]. destruct b as [|e b]; [congruence|].
    cbn [concat] in S. apply sorted_app in S. destruct S as (S1 & S2 & X). cbn [app]. apply sorted_cons. split; [|auto].
    apply Forall_forall. intros x I. apply In_nth_error in I. destruct I as [i I].
    destruct (heads_nth _ F _ _ _ I) as (l & e' & b' & r' & -> & _ & ->). cbn [fst]. apply X; [now left|].
    rewrite concat_app. apply in_app_iff. right. now left.
  Qed.

  Lemma keys_sorted (es : list entry) pos : sorted es -> sorted (refs pos es).
  Proof.
    intros S. revert pos. induction S as [|e r S IH F]; intros pos; cbn [refs]; [apply sorted_nil|].
    apply sorted_cons. split; [|apply IH]. cbn [fst]. apply Forall_forall. intros [k off] I.
    assert (J : In k (map fst (refs (pos + esz e) r))) by (apply in_map_iff; exists (k, off); auto).
    rewrite refs_keys in J. apply in_map_iff in J. destruct J as (x & <- & J). now apply (proj1 (Forall_forall _ _) F).
  Qed.
  Lemma at_none {A} (l : list (K * A)) k : (forall x, In x l -> cmp (fst x) k <> Eq) -> at_key k l = [].
  Proof. intros N. apply filter_none. apply Forall_forall. intros x I. specialize (N x I). now destruct (cmp (fst x) k). Qed.

  Lemma get_built es bl s fl f : built es bl s fl f -> small_files f -> small_times es -> sorted es ->
    forall k, st_get (mkTable f s fl) k = Ok (version_of es k).
  Proof.
    intros I Sm St So k. destruct I. unfold small_files, small in Sm. rewrite bt_ifile0, bt_dfile0 in Sm.
    unfold st_get. cbn [st_summary st_filter st_files].
    assert (NE : es <> []) by (intros ->; discriminate).
    assert (Absent : (forall e, In e es -> cmp (fst e) k <> Eq) -> version_of es k = None).
    { intros A. unfold version_of. now rewrite at_none. }
    destruct (is_lt (cmp k (fst (su_range s))) || is_gt (cmp k (snd (su_range s)))) eqn:Rg.
    { (* outside of the key range *)
      rewrite Absent; [reflexivity|]. intros e J Q. destruct es as [|e0 r]; [congruence|]. cbn [range_of] in bt_range0.
      destruct (last_error (e0 :: r)) as [z|] eqn:Lz; [|now apply last_error_none in Lz]. cbn [option_map] in bt_range0.
      injection bt_range0 as Er. rewrite Er in Rg. cbn [fst snd] in Rg. apply orb_prop in Rg. destruct Rg as [Rg|Rg].
      - destruct (cmp k (fst e0)) eqn:Ck; try discriminate. apply sorted_cons in So. destruct So as [G So]. destruct J as [->|J].
        + rewrite (cmp_eq_sym _ _ Q) in Ck. discriminate.
        + pose proof (proj1 (Forall_forall _ _) G e J) as L. rewrite (cmp_lt_gt _ _ (cmp_lt_trans _ _ _ Ck L)) in Q. discriminate.
      - destruct (cmp k (fst z)) eqn:Ck; try discriminate.
        assert (Ez : exists l, e0 :: r = l ++ [z]).
        { destruct (exists_last (l := e0 :: r)) as (l & z' & E); [discriminate|]. rewrite E, last_error_app in Lz. injection Lz as <-. eauto. }
        destruct Ez as [l Ez]. rewrite Ez in J, So. apply sorted_app in So. destruct So as (_ & _ & X).
        apply in_app_iff in J. destruct J as [J|[<-|[]]].
        + assert (L : cmp (fst e) (fst z) = Lt) by (apply X; [exact J|now left]). apply cmp_gt_lt in Ck.
          rewrite (cmp_lt_trans _ _ _ L Ck) in Q. discriminate.
        + rewrite (cmp_eq_sym _ _ Q) in Ck. discriminate. }
    destruct (bl_contains fl k) eqn:Bf; cbn [negb].
    2:{ rewrite Absent; [reflexivity|]. intros e J Q. rewrite (bt_filter0 _ _ J Q) in Bf. discriminate. }
    assert (Sr : sorted (concat bl)) by (rewrite bt_blocks0; now apply keys_sorted).
    pose proof (heads_sorted _ bt_ne0 Sr 0) as Sh. rewrite <- bt_index0 in Sh.
    assert (Lh : length (su_index s) = length bl) by (rewrite bt_index0; now apply heads_length).
    unfold floor_offset.
    destruct (floor_loop_ok (su_index s) k (sorted_nth _ Sh) (S (length (su_index s))) 0 (Z.of_nat (length (su_index s)) - 1))
      as (h & -> & Hb & A & G); try lia.
    { intros i x Ex L. assert (i < length (su_index s)) by (apply nth_error_Some; congruence). lia. }
    cbn [bind]. destruct (Z.eqb_spec h (-1)) as [->|Nh].
    { (* below the first key *)
      rewrite Absent; [reflexivity|]. intros e J Q.
      assert (exists o, In (fst e, o) (concat bl)) as [o Jo].
      { assert (M : In (fst e) (map fst (concat bl))) by (rewrite bt_blocks0, refs_keys; now apply in_map).
        apply in_map_iff in M. destruct M as ([k' o] & Ek & M). cbn in Ek. subst k'. eauto. }
      apply in_concat in Jo. destruct Jo as (b & Jb & Jo). apply in_split in Jb. destruct Jb as (l & r & ->).
      destruct b as [|x b]; [destruct Jo|]. 
      assert (Nx : nth_error (su_index s) (length l) = Some (fst x, (0 + len (indexf l))%N)).
      { rewrite bt_index0, heads_app. rewrite nth_error_app2; apply Forall_app in bt_ne0; destruct bt_ne0 as [F1 F2];
          rewrite heads_length by assumption; [|lia]. rewrite Nat.sub_diag. reflexivity. }
      assert (Gx : cmp (fst x) k = Gt) by (apply (G _ _ Nx); lia).
      destruct Jo as [->|Jo].
      - cbn [fst] in Gx. congruence.
      - apply sorted_concat_mid in Sr. destruct Sr as (_ & Sb & _). apply sorted_cons in Sb. destruct Sb as [Ab _].
        pose proof (proj1 (Forall_forall _ _) Ab _ Jo) as L. cbn [fst] in L.
        rewrite (cmp_lt_gt _ _ (cmp_lt_trans _ _ _ (cmp_gt_lt _ _ Gx) L)) in Q. discriminate. }
    destruct (nth_error (su_index s) (Z.to_nat h)) as [x|] eqn:Ex; [|apply nth_error_None in Ex; lia]. cbn [expect bind].
    pose proof Ex as Ex'. rewrite bt_index0 in Ex'. destruct (heads_nth _ bt_ne0 _ _ _ Ex') as (l & e0 & b & r & Ebl & El & ->).
    rewrite Ebl in *. cbn [snd]. rewrite N.add_0_l, Nat2N.id.
    assert (Sb : small (length (enc_block (e0 :: b)))).
    { unfold small. rewrite indexf_app, app_length in Sm. unfold indexf at 2 in Sm. cbn [flat_map] in Sm. rewrite app_length, frame_length in Sm. lia. }
    assert (Ei : f_index f = indexf l ++ frame (enc_block (e0 :: b)) ++ indexf r).
    { rewrite bt_ifile0, indexf_app. reflexivity. }
    rewrite Ei, read_frame_mid by exact Sb. cbn [bind].
    assert (Fb : Forall (fun x => (snd x < len (dataf es))%N) (e0 :: b)).
    { pose proof (refs_bound es) as Fr. rewrite <- bt_blocks0, concat_app in Fr. apply Forall_app in Fr. destruct Fr as [_ Fr].
      cbn [concat] in Fr. apply Forall_app in Fr. apply Fr. }
    assert (Lb : length (e0 :: b) <= length es).
    { rewrite <- (refs_length es 0), <- bt_blocks0, concat_app, app_length. cbn [concat]. rewrite app_length. lia. }
    rewrite parse_block.
    2:{ pose proof (es_bound es). unfold small. lia. }
    2:{ eapply Forall_impl; [|exact Fb]. cbn beta; intros y L; unfold small_ref; lia. }
    cbn [bind]. rewrite find_key_at.
    pose proof (sorted_concat_mid _ _ _ Sr) as (_ & Sob & _ & Xl & Xr).
    (* the key can only be in this block *)
    assert (At : at_key k (refs 0 es) = at_key k (e0 :: b)).
    { rewrite <- bt_blocks0, concat_app. cbn [concat]. rewrite !at_app.
      assert (N0 : cmp (fst e0) k <> Gt) by (apply (A _ _ Ex); lia).
      rewrite (at_none (concat l)), (at_none (concat r)); [cbn [app]; now rewrite app_nil_r| |].
      - intros y J Q. apply in_concat in J. destruct J as (b' & Jb & Jy). apply in_split in Jb. destruct Jb as (r1 & r2 & ->).
        destruct b' as [|x' b']; [destruct Jy|].
        assert (Nx : nth_error (su_index s) (length (l ++ (e0 :: b) :: r1)) = Some (fst x', (0 + len (indexf (l ++ (e0 :: b) :: r1)))%N)).
        { replace (l ++ (e0 :: b) :: r1 ++ (x' :: b') :: r2) with ((l ++ (e0 :: b) :: r1) ++ (x' :: b') :: r2) in * by now rewrite <- app_assoc.
          rewrite bt_index0, heads_app. rewrite nth_error_app2; apply Forall_app in bt_ne0; destruct bt_ne0 as [F1 F2];
            rewrite heads_length by assumption; [|lia]. rewrite Nat.sub_diag. reflexivity. }
        assert (Gx : cmp (fst x') k = Gt) by (apply (G _ _ Nx); rewrite app_length; cbn [length]; lia).
        destruct Jy as [->|Jy]; [congruence|].
        replace (l ++ (e0 :: b) :: r1 ++ (x' :: b') :: r2) with ((l ++ (e0 :: b) :: r1) ++ (x' :: b') :: r2) in Sr by now rewrite <- app_assoc.
        apply sorted_concat_mid in Sr. destruct Sr as (_ & Sb' & _). apply sorted_cons in Sb'. destruct Sb' as [Ab _].
        pose proof (proj1 (Forall_forall _ _) Ab _ Jy) as L. rewrite (cmp_lt_gt _ _ (cmp_lt_trans _ _ _ (cmp_gt_lt _ _ Gx) L)) in Q. discriminate.
      - intros y J Q. assert (L : cmp (fst y) (fst e0) = Lt) by (apply Xl; [exact J|now left]).
        destruct (cmp (fst e0) k) eqn:C0; try congruence.
        + rewrite (cmp_lt_eq_trans _ _ _ L C0) in Q. discriminate.
        + rewrite (cmp_lt_trans _ _ _ L C0) in Q. discriminate. }
    rewrite <- At. destruct (at_key k (refs 0 es)) as [|[k' off] t] eqn:Ea; cbn [hd_error option_map snd].
    { rewrite Absent; [reflexivity|]. intros e J Q.
      assert (M : In (fst e) (map fst (refs 0 es))) by (rewrite refs_keys; now apply in_map).
      apply in_map_iff in M. destruct M as (y & Ey & M). assert (Y : In y (at_key k (refs 0 es))) by (apply in_at; rewrite Ey; auto).
      rewrite Ea in Y. destruct Y. }
    assert (Jk : In (k', off) (at_key k (refs 0 es))) by (rewrite Ea; now left). apply in_at in Jk. destruct Jk as [Jk Ck]. cbn [fst] in Ck.
    destruct (in_refs _ _ _ Jk) as (l1 & e & r1 & Ees & Ek & ->). rewrite Nat2N.id.
    assert (Ef : f_data f = dataf l1 ++ frame (enc_kv e) ++ dataf r1).
    { rewrite bt_dfile0, Ees, dataf_app. reflexivity. }
    assert (Je : In e es) by (rewrite Ees; apply in_elt). pose proof (frames_bound _ _ Je).
    rewrite Ef, read_frame_mid by (unfold small; lia). cbn [bind].
    rewrite parse_kv by (now apply (proj1 (Forall_forall _ _) St)). cbn [bind]. do 2 f_equal. unfold version_of.
    destruct (at_key_cases es k So) as [E0|(e' & E1 & _)].
    - assert (Y : In e (at_key k es)) by (apply in_at; rewrite Ek; auto). rewrite E0 in Y. destruct Y.
    - assert (Y : In e (at_key k es)) by (apply in_at; rewrite Ek; auto). rewrite E1 in Y. destruct Y as [->|[]]. now rewrite E1.
  Qed.

  (** *** Theorems *)
  Theorem get_correct bs hint es f : strictly_ascending es -> build_with (builder_of bs hint) es = Ok f ->
    small_files f -> small_times es -> exists t, st_new f = Ok t /\ forall k, st_get t k = Ok (version_of es k).
  Proof.
    intros So E Sm St. destruct es as [|e es]; [discriminate|].
    destruct (build_built bs hint (e :: es)) as (f' & bl & s & fl & E' & I); [discriminate|].
    rewrite E in E'. injection E' as <-. exists (mkTable f s fl). split; [eapply open_built; eauto|]. eapply get_built; eauto.
  Qed.
  Theorem iter_correct bs hint es f : build_with (builder_of bs hint) es = Ok f -> small_files f -> small_times es ->
    exists t, st_new f = Ok t /\ data_iter t = Ok es /\
      su_count (st_summary t) = length es /\ su_tombs (st_summary t) = length (tombstones es) /\
      time_range es (su_times (st_summary t)) /\
      option_map fst (hd_error es) = Some (fst (su_range (st_summary t))) /\
      option_map fst (last_error es) = Some (snd (su_range (st_summary t))).
  Proof.
    intros E Sm St. destruct es as [|e es]; [discriminate|].
    destruct (build_built bs hint (e :: es)) as (f' & bl & s & fl & E' & I); [discriminate|].
    rewrite E in E'. injection E' as <-. exists (mkTable f s fl). pose proof (open_built _ _ _ _ _ I Sm St) as O. split; [exact O|].
    destruct I. cbn [st_summary]. split.
    - unfold data_iter. cbn [st_files]. rewrite bt_dfile0. pose proof (es_bound (e :: es)).
      apply (data_loop_ok _ St []); [|lia]. unfold small_files, small in *. rewrite bt_dfile0 in Sm. lia.
    - repeat split; auto; try apply bt_times0.
      + cbn [hd_error option_map]. cbn [range_of] in bt_range0. destruct (last_error (e :: es)); [|discriminate]. cbn in bt_range0.
        injection bt_range0 as ->. reflexivity.
      + cbn [range_of] in bt_range0. destruct (last_error (e :: es)); [|discriminate]. cbn in bt_range0.
        injection bt_range0 as ->. reflexivity.
  Qed.
  Theorem build_total bs hint es : (es <> [] -> exists f, build_with (builder_of bs hint) es = Ok f) /\
    (es = [] -> build_with (builder_of bs hint) es = Panic).
  Proof.
    split; [|intros ->; reflexivity]. intros NE. destruct (build_built bs hint es NE) as (f & bl & s & fl & E & _). eauto.
  Qed.
End Ss.
