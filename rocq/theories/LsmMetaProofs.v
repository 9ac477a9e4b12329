(** Proofs about the directory of an [LsmMap]. *)
From Verif Require Import ListLemmas OrdLemmas BincodeProofs SsProofs LsmBytesProofs.
From Verif Require Export LsmMetaSpec.

(** *** Overwriting a file from its start *)
Lemma overwrite_eq old new : overwrite old new = new ++ skipn (length new) old.
Proof. unfold overwrite, file_write. cbn [Nat.sub repeat firstn Nat.add app]. reflexivity. Qed.

(** *** Big-endian numbers *)
Lemma unle_app a : forall b, unle (a ++ b) = (unle a + 256 ^ N.of_nat (length a) * unle b)%N.
Proof.
  induction a as [|x a IH]; intros b.
  - cbn [app length unle]. change (256 ^ N.of_nat 0)%N with 1%N. lia.
  - cbn [app length unle]. rewrite IH, Nat2N.inj_succ, N.pow_succ_r'. lia.
Qed.
Lemma le_firstn j : forall k n, j <= k -> firstn j (le k n) = le j n.
Proof.
  induction j as [|j IH]; intros k n L; [reflexivity|]. destruct k as [|k]; [lia|]. cbn [le firstn]. now rewrite IH by lia.
Qed.
Lemma le_skipn j : forall k n, j <= k -> skipn j (le k n) = le (k - j) (n / 256 ^ N.of_nat j)%N.
Proof.
  induction j as [|j IH]; intros k n L; [cbn [skipn N.of_nat]; now rewrite Nat.sub_0_r, N.div_1_r|].
  destruct k as [|k]; [lia|]. cbn [le skipn Nat.sub]. rewrite IH by lia. rewrite N.div_div by (try discriminate; apply N.pow_nonzero; discriminate).
  now rewrite Nat2N.inj_succ, N.pow_succ_r'.
Qed.
Lemma time_torn n t t' : (t <= t' < 2 ^ 64)%N -> (t <= dec_be64 (firstn 8 (torn n (enc_be64 t) (enc_be64 t'))))%N.
Proof.
  intros [Lt Lu]. unfold torn. rewrite overwrite_eq.
  destruct (Nat.le_gt_cases 8 n) as [L|L].
  - rewrite (firstn_all2 (n := n)) by (rewrite be64_length; exact L). rewrite be64_length, skipn_all2 by (rewrite be64_length; lia).
    rewrite app_nil_r, firstn_all2 by (rewrite be64_length; lia). now rewrite dec_be64_enc.
  - rewrite firstn_length, be64_length, Nat.min_l by lia.
    rewrite (firstn_all2 (n := 8)) by (rewrite app_length, firstn_length, skipn_length, !be64_length; lia).
    unfold dec_be64, enc_be64. rewrite rev_app_distr, firstn_rev, skipn_rev, !rev_involutive, !le_length.
    rewrite le_firstn by lia. rewrite le_skipn by lia. rewrite unle_app, !unle_le, le_length.
    set (j := 8 - n).
    assert (P : (0 < 256 ^ N.of_nat j)%N) by (apply N.neq_0_lt_0, N.pow_nonzero; discriminate).
    rewrite (N.mod_small (t' / _)).
    2:{ apply N.div_lt_upper_bound; [lia|]. rewrite <- N.pow_add_r, <- Nat2N.inj_add. replace (j + (8 - j)) with 8 by lia. exact Lu. }
    rewrite (N.div_mod t (256 ^ N.of_nat j)) at 1 by lia.
    assert (D : (t / 256 ^ N.of_nat j <= t' / 256 ^ N.of_nat j)%N) by (apply N.div_le_mono; lia). nia.
Qed.

(** *** Slices whose items become something else when read *)
Section Slices.
  Context {A X : Type} (ea : A -> list byte) (da : parser X) (R : A -> X -> Prop).
  Hypothesis rt : forall a x r, R a x -> da (ea a ++ r) = Some (x, r).
  Hypothesis pos : forall a, ea a <> [].
  Lemma items_to l l' r : Forall2 R l l' -> forall fuel, length l <= fuel ->
    dec_items da fuel (N.of_nat (length l)) (flat_map ea l ++ r) = Some (l', r).
  Proof.
    induction 1 as [|a x l l' O F IH]; intros fuel E; cbn [length flat_map].
    - destruct fuel; reflexivity.
    - destruct fuel as [|fuel]; [cbn [length] in E; lia|]. cbn [dec_items].
      destruct (N.eqb_spec (N.of_nat (S (length l))) 0) as [Q|Q]; [lia|]. unfold pbind at 1.
      rewrite <- app_assoc. rewrite (rt a x) by exact O. replace (N.of_nat (S (length l)) - 1)%N with (N.of_nat (length l)) by lia.
      unfold pbind. rewrite IH by (cbn [length] in E; lia). reflexivity.
  Qed.
  Lemma slice_to l l' r : small (length l) -> Forall2 R l l' -> dec_slice da (enc_slice ea l ++ r) = Some (l', r).
  Proof.
    intros S F. unfold dec_slice, enc_slice, pbind. rewrite <- app_assoc. unfold enc_usize. rewrite dec_u64_enc by exact S.
    apply items_to; [exact F|]. rewrite app_length. pose proof (items_length ea pos l). lia.
  Qed.
  (** An item that cannot be read *)
  Context (bad : A -> Prop).
  Hypothesis fails : forall a r, bad a -> da (ea a ++ r) = None.
  Lemma items_fail l : forall r, (forall a, In a l -> bad a \/ exists x, R a x) -> Exists bad l -> forall fuel, length l <= fuel ->
    dec_items da fuel (N.of_nat (length l)) (flat_map ea l ++ r) = None.
  Proof.
    induction l as [|a l IH]; intros r D E fuel L; [inversion E|]. cbn [length flat_map] in *. destruct fuel as [|fuel]; [lia|]. cbn [dec_items].
    destruct (N.eqb_spec (N.of_nat (S (length l))) 0) as [Q|Q]; [lia|]. unfold pbind at 1. rewrite <- app_assoc.
    destruct (D a (or_introl eq_refl)) as [Ba|[x Rx]]; [now rewrite fails|].
    destruct (da (ea a ++ flat_map ea l ++ r)) as [[y r']|] eqn:Y; [|reflexivity]. rewrite (rt a x) in Y by exact Rx. injection Y as <- <-.
    replace (N.of_nat (S (length l)) - 1)%N with (N.of_nat (length l)) by lia. unfold pbind.
    apply Exists_cons in E. destruct E as [Ba|E].
    - specialize (fails a (flat_map ea l ++ r) Ba). rewrite (rt a x) in fails by exact Rx. discriminate.
    - rewrite IH; auto; [|lia]. intros b J. apply D. now right.
  Qed.
  Lemma slice_fail l r : small (length l) -> (forall a, In a l -> bad a \/ exists x, R a x) -> Exists bad l -> dec_slice da (enc_slice ea l ++ r) = None.
  Proof.
    intros S D E. unfold dec_slice, enc_slice, pbind. rewrite <- app_assoc. unfold enc_usize. rewrite dec_u64_enc by exact S.
    apply items_fail; auto. rewrite app_length. pose proof (items_length ea pos l). lia.
  Qed.
End Slices.

Lemma path_pos p : enc_path p <> [].
Proof. discriminate. Qed.
Lemma dec_path_enc p r : small (length p) -> dec_path (enc_path p ++ r) = Some (p, r).
Proof.
  intros S. unfold dec_path, enc_path, pbind. rewrite <- app_assoc. unfold enc_usize. rewrite dec_u64_enc by exact S.
  rewrite app_length. rewrite (proj2 (N.leb_le _ _)) by lia. rewrite Nat2N.id. now apply take_app.
Qed.
Lemma dec_lconfig_enc c r : small_lconfig c -> dec_lconfig (enc_lconfig c ++ r) = Some (c, r).
Proof.
  intros (S1 & S2 & S3 & S4 & S5). unfold dec_lconfig, enc_lconfig, pbind, pret. rewrite <- !app_assoc.
  rewrite dec_u64_enc by exact S1. rewrite dec_usize_enc by exact S2. rewrite dec_u64_enc by exact S3. rewrite dec_u64_enc by exact S4.
  rewrite dec_u64_enc by exact S5. now destruct c.
Qed.
Lemma dec_bconfig_enc c r : small_bconfig c -> dec_bconfig (enc_bconfig c ++ r) = Some (c, r).
Proof.
  intros (S1 & S2 & S3 & S4 & S5). unfold dec_bconfig, enc_bconfig, pbind, pret. rewrite <- !app_assoc.
  rewrite dec_u64_enc by exact S1. rewrite dec_usize_enc by exact S2. rewrite dec_u64_enc by exact S3. rewrite dec_u64_enc by exact S4.
  rewrite dec_u64_enc by exact S5. now destruct c.
Qed.
Lemma read_time old t : (t < 2 ^ 64)%N -> file_read (overwrite old (enc_be64 t)) 0 8 = Ok (enc_be64 t).
Proof.
  intros L. rewrite overwrite_eq. apply (file_read_mid [] (enc_be64 t)); [reflexivity|now rewrite be64_length].
Qed.

(** *** Metadata *)
Section Meta.
  Context {K V : Type} `{CmpLaws K} {CK : Codec K} {CV : Codec V} {LK : CodecLaws K} {LV : CodecLaws V}.
  Context {B : Bloom K} {BL : BloomLaws K}.
  Notation table := (table K V).
  Notation btable := (path * sstable (K := K))%type.
  Context (name : nat -> path) (dirs : path -> option files).
  Notation path_of := (path_of (K := K) (V := V) name).

  (** A path that leads to an opened table *)
  Definition leads (p : path) (x : btable) : Prop :=
    small (length p) /\ fst x = p /\ exists f, dirs p = Some f /\ SsModel.st_new f = Ok (snd x).
  Lemma dec_table_leads p x r : leads p x -> dec_table dirs (enc_path p ++ r) = Some (x, r).
  Proof.
    intros (S & E & f & D & O). unfold dec_table, pbind. rewrite dec_path_enc by exact S. rewrite D, O. unfold pret. now rewrite <- E, <- surjective_pairing.
  Qed.
  Lemma stored_leads t : small (length (path_of t)) -> small_times (t_es t) -> strictly_ascending (t_es t) -> stored name dirs t ->
    exists x, leads (path_of t) x /\ opened name t x.
  Proof.
    intros S St So (hint & f & D & Ef & Sf & Et). destruct (table_link (t_id t) hint (t_es t) t f So Et Ef Sf St) as (b & O & Sh).
    exists (path_of t, b). split; [split; [exact S|split; [reflexivity|exists f; auto]]|]. split; [reflexivity|exact Sh].
  Qed.
  Definition legible (t : table) : Prop := small_times (t_es t) /\ strictly_ascending (t_es t) /\ stored name dirs t.
  Lemma tables_lead (l : list table) : Forall (fun t => small (length (path_of t))) l -> Forall legible l ->
    exists xs, Forall2 leads (map path_of l) xs /\ Forall2 (opened name) l xs.
  Proof.
    induction l as [|t l IH]; intros S F; [exists []; split; constructor|]. apply Forall_cons_iff in S, F. destruct S as [S1 S], F as [(F1 & F2 & F3) F].
    destruct (IH S F) as (xs & A1 & A2). destruct (stored_leads t S1 F1 F2 F3) as (x & L & O). exists (x :: xs). split; constructor; auto.
  Qed.

  (** Levels *)
  Definition leads_at (e : K * path) (x : K * btable) : Prop := fst x = fst e /\ leads (snd e) (snd x).
  Definition enc_at (e : K * path) : list byte := enc (fst e) ++ enc_path (snd e).
  Lemma dec_at_leads e x r : leads_at e x -> (do k <- dec ;; do t <- dec_table dirs ;; pret (k, t)) (enc_at e ++ r) = Some (x, r).
  Proof.
    intros [E L]. unfold enc_at, pbind at 1. rewrite <- app_assoc, dec_enc. unfold pbind. rewrite (dec_table_leads (snd e) (snd x)) by exact L.
    unfold pret. now rewrite <- E, <- surjective_pairing.
  Qed.
  Lemma enc_at_pos e : enc_at e <> [].
  Proof. unfold enc_at. intros E. apply app_eq_nil in E. destruct E as [_ E]. now apply path_pos in E. Qed.
  (** Inserting ascending entries appends them. *)
  Lemma bt_insert_last {A} k (v : A) (l : list (K * A)) : (forall x, In x l -> cmp (fst x) k = Lt) -> bt_insert k v l = l ++ [(k, v)].
  Proof.
    induction l as [|[k' v'] l IH]; intros F; cbn [bt_insert app]; [reflexivity|].
    pose proof (cmp_lt_gt _ _ (F (k', v') (or_introl eq_refl))) as G. cbn [fst] in G. rewrite G. rewrite IH; [reflexivity|]. intros x J. apply F. now right.
  Qed.
  Lemma inserts_all {A} (l : list (K * A)) : forall acc, sorted (acc ++ l) -> fold_left (fun m e => bt_insert (fst e) (snd e) m) l acc = acc ++ l.
  Proof.
    induction l as [|[k v] l IH]; intros acc S; cbn [fold_left fst snd]; [now rewrite app_nil_r|].
    rewrite bt_insert_last.
    - rewrite IH; rewrite <- app_assoc; [reflexivity|exact S].
    - apply sorted_app in S. destruct S as (_ & _ & X). intros x J. apply (X x (k, v)); [exact J|now left].
  Qed.
  Definition leads_level (l : list (K * path)) (x : list (K * btable)) : Prop := small (length l) /\ sorted x /\ Forall2 leads_at l x.
  Lemma dec_level_leads l x r : leads_level l x -> dec_level dirs (enc_level l ++ r) = Some (x, r).
  Proof.
    intros (S & So & F). unfold dec_level, pbind at 1. change (enc_level l) with (enc_slice enc_at l).
    rewrite (slice_to enc_at _ leads_at dec_at_leads enc_at_pos l x r S F). unfold pret. now rewrite inserts_all.
  Qed.
  Lemma enc_level_pos l : enc_level (K := K) l <> [].
  Proof. discriminate. Qed.
  Lemma sorted_map_keys {X Y} (l : list (K * X)) (l' : list (K * Y)) : Forall2 (fun a b => fst b = fst a) l l' -> sorted l -> sorted l'.
  Proof.
    intros F. induction F as [|a b l l' E F IH]; intros S; [apply sorted_nil|]. apply sorted_cons in S. destruct S as [G S]. apply sorted_cons. split; [|auto].
    clear IH S. revert G. induction F as [|c d l l' E' F IH]; intros G; constructor.
    - rewrite E, E'. now apply Forall_cons_iff in G.
    - apply IH. now apply Forall_cons_iff in G.
  Qed.
  Lemma level_leads (l : list (K * table)) : small_tables name (map snd l) -> sorted l -> Forall legible (map snd l) ->
    exists x, leads_level (map (fun kt => (fst kt, path_of (snd kt))) l) x /\ Forall2 (opened_at name) l x.
  Proof.
    intros [S1 S2] So F. rewrite map_length in S1.
    assert (X : exists x, Forall2 leads_at (map (fun kt => (fst kt, path_of (snd kt))) l) x /\ Forall2 (opened_at name) l x).
    { clear So S1. induction l as [|[k t] l IH]; [exists []; split; constructor|]. cbn [map snd] in *. apply Forall_cons_iff in S2, F. destruct S2 as [S1 S2], F as [(F1 & F2 & F3) F].
      destruct (IH S2 F) as (x & A1 & A2). destruct (stored_leads t S1 F1 F2 F3) as (b & L & O). exists ((k, b) :: x). split; constructor; auto; split; auto. }
    destruct X as (x & A1 & A2). exists x. split; [|exact A2]. split; [now rewrite map_length|]. split; [|exact A1].
    apply (sorted_map_keys l); [|exact So]. clear -A2. induction A2 as [|a b l x [E _] A2 IH]; constructor; assumption.
  Qed.
  Lemma levels_lead (ls : list (list (K * table))) : Forall (fun l => small_tables name (map snd l)) ls -> Forall sorted ls ->
    Forall legible (level_tables ls) ->
    exists xs, Forall2 leads_level (map (map (fun kt => (fst kt, path_of (snd kt)))) ls) xs /\ Forall2 (Forall2 (opened_at name)) ls xs.
  Proof.
    induction ls as [|l ls IH]; intros S So F; [exists []; split; constructor|]. apply Forall_cons_iff in S, So. destruct S as [S1 S], So as [So1 So].
    unfold level_tables in F. cbn [flat_map] in F. apply Forall_app in F. destruct F as [F1 F].
    destruct (IH S So F) as (xs & A1 & A2). destruct (level_leads l S1 So1 F1) as (x & L & O). exists (x :: xs). split; constructor; auto.
  Qed.

  Theorem open_leveled_ok cfg (m : lmeta K V) t old old' : small_lconfig cfg -> small_meta name m -> (t < 2 ^ 64)%N ->
    Forall sorted (lm_levels m) -> Forall legible (lv_tables m) ->
    exists ms, open_leveled dirs (overwrite old (enc_leveled cfg (paths name m))) (overwrite old' (enc_be64 t)) = Ok (cfg, ms, t) /\
      Forall2 (opened name) (lm_tabs m) (ts_tabs ms) /\ Forall2 (Forall2 (opened_at name)) (lm_levels m) (ts_levels ms).
  Proof.
    intros Sc (S1 & S2 & S3) St So F. unfold lv_tables in F. apply Forall_app in F. destruct F as [F1 F2].
    destruct S1 as [S0 S1]. destruct (tables_lead _ S1 F1) as (xs & A1 & A2). destruct (levels_lead _ S3 So F2) as (ys & B1 & B2).
    exists (mkTabs xs ys). split; [|split; assumption]. unfold open_leveled. rewrite read_time by exact St. cbn [bind].
    rewrite dec_be64_enc by exact St. unfold parse. rewrite overwrite_eq. unfold enc_leveled. rewrite <- !app_assoc. unfold dec_leveled, pbind at 1.
    rewrite dec_lconfig_enc by exact Sc. unfold pbind at 1. cbn [paths ts_tabs ts_levels].
    rewrite (slice_to enc_path (dec_table dirs) leads dec_table_leads path_pos _ xs) by (rewrite ?map_length; assumption).
    unfold pbind. rewrite (slice_to enc_level (dec_level dirs) leads_level dec_level_leads enc_level_pos _ ys) by (rewrite ?map_length; assumption).
    reflexivity.
  Qed.
  Theorem open_tiered_ok cfg (ts : list table) t old old' : small_bconfig cfg -> small_tables name ts -> (t < 2 ^ 64)%N -> Forall legible ts ->
    exists xs, open_tiered dirs (overwrite old (enc_tiered cfg (map path_of ts))) (overwrite old' (enc_be64 t)) = Ok (cfg, xs, t) /\ Forall2 (opened name) ts xs.
  Proof.
    intros Sc [S0 S1] St F. destruct (tables_lead _ S1 F) as (xs & A1 & A2). exists xs. split; [|exact A2].
    unfold open_tiered. rewrite read_time by exact St. cbn [bind]. rewrite dec_be64_enc by exact St. unfold parse. rewrite overwrite_eq.
    unfold enc_tiered. rewrite <- !app_assoc. unfold dec_tiered, pbind at 1. rewrite dec_bconfig_enc by exact Sc. unfold pbind.
    rewrite (slice_to enc_path (dec_table dirs) leads dec_table_leads path_pos _ xs) by (rewrite ?map_length; assumption). reflexivity.
  Qed.

  (** *** A missing directory *)
  Definition lost (t : table) : Prop := dirs (path_of t) = None.
  Definition nowhere (p : path) : Prop := small (length p) /\ dirs p = None.
  Lemma dec_table_lost p r : nowhere p -> dec_table (K := K) dirs (enc_path p ++ r) = None.
  Proof. intros [S D]. unfold dec_table, pbind. rewrite dec_path_enc by exact S. now rewrite D. Qed.
  Definition nowhere_at (e : K * path) : Prop := nowhere (snd e).
  Lemma dec_at_lost e r : nowhere_at e -> (do k <- dec (A := K) ;; do t <- dec_table (K := K) dirs ;; pret (k, t)) (enc_at e ++ r) = None.
  Proof. intros N. unfold enc_at, pbind at 1. rewrite <- app_assoc, dec_enc. unfold pbind. now rewrite dec_table_lost. Qed.
  Definition known (t : table) : Prop := lost t \/ legible t.
  Lemma known_path t : small (length (path_of t)) -> known t -> nowhere (path_of t) \/ exists x, leads (path_of t) x.
  Proof.
    intros S [L|(F1 & F2 & F3)]; [left; now split|]. right. destruct (stored_leads t S F1 F2 F3) as (x & L & _). eauto.
  Qed.
  Lemma known_split l : Forall known l -> Exists lost l \/ Forall legible l.
  Proof.
    induction 1 as [|t l [L|L] F IH]; [right; constructor|left; now constructor|]. destruct IH as [E|E]; [left; now constructor 2|right; now constructor].
  Qed.
  Definition lost_level (l : list (K * path)) : Prop :=
    small (length l) /\ (forall e, In e l -> nowhere_at e \/ exists x, leads_at e x) /\ Exists nowhere_at l.
  Lemma dec_level_lost l r : lost_level l -> dec_level (K := K) dirs (enc_level l ++ r) = None.
  Proof.
    intros (S & D & E). unfold dec_level, pbind at 1. change (enc_level l) with (enc_slice enc_at l).
    now rewrite (slice_fail enc_at _ leads_at dec_at_leads enc_at_pos nowhere_at dec_at_lost l r S D E).
  Qed.
  Notation at_paths := (map (fun kt : K * table => (fst kt, path_of (snd kt)))).
  Lemma level_known l : small_tables name (map snd l) -> sorted l -> Forall known (map snd l) -> lost_level (at_paths l) \/ Forall legible (map snd l).
  Proof.
    intros [S1 S2] So F. rewrite map_length in S1. destruct (known_split _ F) as [E|E]; [|right; exact E].
    left. split; [now rewrite map_length|]. rewrite Forall_map in F, S2. rewrite Forall_forall in F, S2. split.
    - intros e J. apply in_map_iff in J. destruct J as (kt & <- & J). cbn [fst snd].
      destruct (known_path (snd kt) (S2 _ J) (F _ J)) as [N|[x L]]; [now left|]. right. exists (fst kt, x). now split.
    - apply Exists_exists. apply Exists_exists in E. destruct E as (t & J & L). apply in_map_iff in J. destruct J as (kt & <- & J). exists (fst kt, path_of (snd kt)). split; [apply in_map_iff; eauto|].
      split; [now apply S2|exact L].
  Qed.
  Lemma read_lost (l : list table) r : small_tables name l -> Forall known l -> Exists lost l ->
    dec_slice (dec_table dirs) (enc_slice enc_path (map path_of l) ++ r) = None.
  Proof.
    intros [S1 S2] F E. rewrite Forall_forall in F, S2. apply (slice_fail enc_path _ leads dec_table_leads path_pos nowhere dec_table_lost).
    - now rewrite map_length.
    - intros p J. apply in_map_iff in J. destruct J as (t & <- & J). apply known_path; auto.
    - apply Exists_exists in E. destruct E as (t & J & L). apply Exists_exists. exists (path_of t). split; [now apply in_map|]. split; auto.
  Qed.
  Theorem open_leveled_lost cfg (m : lmeta K V) t old old' : small_lconfig cfg -> small_meta name m -> (t < 2 ^ 64)%N ->
    Forall sorted (lm_levels m) -> Forall known (lv_tables m) -> Exists lost (lv_tables m) ->
    open_leveled dirs (overwrite old (enc_leveled cfg (paths name m))) (overwrite old' (enc_be64 t)) = Panic.
  Proof.
    intros Sc (S1 & S2 & S3) St So F E. unfold lv_tables in F, E. apply Forall_app in F. destruct F as [F1 F2]. apply Exists_app in E.
    unfold open_leveled. rewrite read_time by exact St. cbn [bind]. rewrite overwrite_eq. unfold parse, enc_leveled. rewrite <- !app_assoc.
    unfold dec_leveled, pbind at 1. rewrite dec_lconfig_enc by exact Sc. unfold pbind at 1. cbn [paths ts_tabs ts_levels].
    destruct (known_split _ F1) as [X|X]; [now rewrite (read_lost _ _ S1 F1 X)|].
    destruct E as [E|E].
    { exfalso. apply Exists_exists in E. destruct E as (x & J & L). rewrite Forall_forall in X. destruct (X x J) as (_ & _ & hint & f & D & _). unfold lost in L. congruence. }
    destruct S1 as [S0 S1]. destruct (tables_lead _ S1 X) as (xs & A1 & _).
    rewrite (slice_to enc_path (dec_table dirs) leads dec_table_leads path_pos _ xs) by (rewrite ?map_length; assumption).
    unfold pbind. rewrite (slice_fail enc_level (dec_level dirs) leads_level dec_level_leads enc_level_pos lost_level dec_level_lost); [reflexivity|now rewrite map_length| |].
    - intros l J. apply in_map_iff in J. destruct J as (kl & <- & J). rewrite Forall_forall in S3, So. assert (Fl : Forall known (map snd kl)).
      { apply Forall_forall. intros x Jx. apply (proj1 (Forall_forall _ _) F2). apply in_flat_map. eauto. }
      destruct (level_known kl (S3 _ J) (So _ J) Fl) as [Y|Y]; [now left|right]. destruct (level_leads kl (S3 _ J) (So _ J) Y) as (x & Lx & _). eauto.
    - apply Exists_exists in E. destruct E as (x & J & L). apply in_flat_map in J. destruct J as (kl & J & Jx). apply Exists_exists. exists (at_paths kl).
      split; [now apply in_map|]. rewrite Forall_forall in S3, So. assert (Fl : Forall known (map snd kl)).
      { apply Forall_forall. intros y Jy. apply (proj1 (Forall_forall _ _) F2). apply in_flat_map. eauto. }
      destruct (level_known kl (S3 _ J) (So _ J) Fl) as [Y|Y]; [exact Y|exfalso]. rewrite Forall_forall in Y. destruct (Y x Jx) as (_ & _ & hint & f & D & _). unfold lost in L. congruence.
  Qed.
  Theorem open_tiered_lost cfg (ts : list table) t old old' : small_bconfig cfg -> small_tables name ts -> (t < 2 ^ 64)%N ->
    Forall known ts -> Exists lost ts ->
    open_tiered (K := K) dirs (overwrite old (enc_tiered cfg (map path_of ts))) (overwrite old' (enc_be64 t)) = Panic.
  Proof.
    intros Sc S1 St F E. unfold open_tiered. rewrite read_time by exact St. cbn [bind]. rewrite overwrite_eq. unfold parse, enc_tiered. rewrite <- !app_assoc.
    unfold dec_tiered, pbind at 1. rewrite dec_bconfig_enc by exact Sc. unfold pbind. now rewrite (read_lost _ _ S1 F E).
  Qed.
End Meta.
