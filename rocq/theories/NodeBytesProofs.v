(** The nodes of the skip lists as bytes: what the models of the collections assume. *)
From Verif Require Import NodeBytesModel ListLemmas.

(** ** Numbers *)
Lemma pow2_pos a : power_of_two a -> 0 < a.
Proof. intros [k ->]. apply Nat.neq_0_lt_0, Nat.pow_nonzero. lia. Qed.
Lemma pow2_divide a b : power_of_two a -> power_of_two b -> a <= b -> Nat.divide a b.
Proof.
  intros [k ->] [j ->] L. apply (Nat.pow_le_mono_r_iff 2) in L; [|lia]. exists (2 ^ (j - k)). rewrite <- Nat.pow_add_r. f_equal. lia.
Qed.
Lemma pow2_max a b : power_of_two a -> power_of_two b -> power_of_two (Nat.max a b).
Proof. intros A B. destruct (Nat.max_spec a b) as [[_ ->]|[_ ->]]; auto. Qed.
Lemma round_up_spec n a : 0 < a -> n <= round_up n a /\ Nat.divide a (round_up n a) /\ round_up n a < n + a.
Proof.
  intros P. unfold round_up. pose proof (Nat.div_mod (n + a - 1) a ltac:(lia)) as E. pose proof (Nat.mod_upper_bound (n + a - 1) a ltac:(lia)) as U.
  rewrite Nat.mul_comm in E. split; [|split].
  - lia.
  - now exists ((n + a - 1) / a).
  - lia.
Qed.
Lemma divide_mod a n : 0 < a -> Nat.divide a n -> (n mod a =? 0) = true.
Proof. intros P Dv. apply Nat.eqb_eq, Nat.mod_divide; [lia|auto]. Qed.

Lemma le_length n : forall v, length (le n v) = n.
Proof. induction n as [|n IH]; intros v; simpl; auto. Qed.
Lemma of_le_le n : forall v, fits n v = true -> of_le (le n v) = v.
Proof.
  induction n as [|n IH]; intros v Fv; cbn [fits le of_le] in *; [now apply Nat.eqb_eq in Fv|]. rewrite (IH _ Fv).
  pose proof (Nat.div_mod v 256 ltac:(lia)). lia.
Qed.
Lemma fits_less n : forall v w, v <= w -> fits n w = true -> fits n v = true.
Proof.
  induction n as [|n IH]; intros v w Lv Fw; cbn [fits] in *; [apply Nat.eqb_eq in Fw; apply Nat.eqb_eq; lia|].
  apply (IH _ (w / 256)); [|exact Fw]. apply Nat.div_le_mono; lia.
Qed.
Lemma le_zero n : le n 0 = repeat 0 n.
Proof. induction n as [|n IH]; [reflexivity|]. cbn [le repeat]. f_equal. exact IH. Qed.
Lemma words_length w l : length (flat_map (le w) l) = length l * w.
Proof. induction l as [|x l IH]; [reflexivity|]. cbn [flat_map length Nat.mul]. rewrite app_length, le_length, IH. reflexivity. Qed.
Lemma words_back w l : Forall (fun v => fits w v = true) l -> split_words w (length l) (flat_map (le w) l) = l.
Proof.
  induction 1 as [|x l Fx _ IH]; [reflexivity|]. cbn [length split_words flat_map].
  rewrite firstn_app, skipn_app, le_length, Nat.sub_diag. rewrite firstn_all2, skipn_all2 by (rewrite le_length; lia). cbn [firstn skipn app].
  rewrite app_nil_r, of_le_le, IH; auto.
Qed.

(** ** Memory *)
Lemma peek_length m a n : length (peek m a n) = n.
Proof. unfold peek. now rewrite map_length, seq_length. Qed.
Lemma peek_ext m m' a n : (forall x, a <= x < a + n -> m x = m' x) -> peek m a n = peek m' a n.
Proof. intros E. unfold peek. apply map_ext_in. intros x i. apply in_seq in i. apply E. lia. Qed.
Lemma poke_out m a bs x : x < a \/ a + length bs <= x -> poke m a bs x = m x.
Proof. intros O. unfold poke. destruct (Nat.leb_spec a x), (Nat.ltb_spec x (a + length bs)); simpl; auto; lia. Qed.
Lemma poke_peek m a bs : forall b n, a <= b -> b + n <= a + length bs -> peek (poke m a bs) b n = firstn n (skipn (b - a) bs).
Proof.
  intros b n L1 L2. apply nth_ext with (d := 0) (d' := 0).
  - rewrite peek_length, firstn_length, skipn_length. lia.
  - rewrite peek_length. intros i Li. unfold peek. rewrite (nth_indep _ 0 (poke m a bs 0)) by (rewrite map_length, seq_length; lia).
    rewrite map_nth, seq_nth by lia. unfold poke. destruct (Nat.leb_spec a (b + i)), (Nat.ltb_spec (b + i) (a + length bs)); try lia. cbn [andb].
    replace (b + i - a) with ((b - a) + i) by lia. generalize (b - a). intros k. clear - Li.
    revert k. induction bs as [|x bs IH]; intros [|k]; simpl; try (destruct i; destruct n; reflexivity).
    + clear IH. revert i bs x Li. induction n as [|n IHn]; intros i bs x Li; [lia|]. destruct i as [|i]; [reflexivity|]. destruct bs as [|y bs]; [now destruct i, n|]. apply (IHn i bs y). lia.
    + apply IH.
Qed.
Lemma poke_same m a bs : peek (poke m a bs) a (length bs) = bs.
Proof. rewrite poke_peek by lia. rewrite Nat.sub_diag. cbn [skipn]. apply firstn_all. Qed.
Lemma poke_other m a bs b n : apart a (length bs) b n -> peek (poke m a bs) b n = peek m b n.
Proof. intros O. apply peek_ext. intros x Lx. apply poke_out. unfold apart in O. lia. Qed.
Lemma firstn_repeat {A} (x : A) n m : n <= m -> firstn n (repeat x m) = repeat x n.
Proof. revert m. induction n as [|n IH]; intros [|m] L; try reflexivity; [lia|]. simpl. f_equal. apply IH. lia. Qed.
Lemma skipn_repeat {A} (x : A) n m : skipn n (repeat x m) = repeat x (m - n).
Proof. revert m. induction n as [|n IH]; intros [|m]; try reflexivity. simpl. apply IH. Qed.

Section NodeBytes.
  Context {D L : Type}.
  Variables (ly : layout) (new : allocator) (enc : D -> list nat) (lw : words_of L) (z : L) (other : list (nat * nat)) (m0 : memory).
  Notation w := (word ly).
  Notation al := (u64_align ly).
  Notation es := (entry_size ly).
  Notation ea := (entry_align ly).
  Hypothesis Pw : power_of_two w.
  Hypothesis Pu : power_of_two al.
  Hypothesis Pe : power_of_two ea.
  Hypothesis Lw : w <= al.
  Hypothesis Elen : forall d, length (enc d) = es.
  Hypothesis Zero : lw z = (None, repeat 0 (link_words ly - 1)).
  Hypothesis Lk : 0 < link_words ly.

  (** ** Offsets *)
  Lemma node_align_pos : 0 < node_align ly.
  Proof. unfold node_align. pose proof (pow2_pos _ Pw). lia. Qed.
  Lemma offs : w <= entry_off ly /\ entry_off ly + es <= links_off ly /\ links_off ly <= node_size ly /\ Nat.divide ea (entry_off ly) /\ Nat.divide w (links_off ly).
  Proof.
    unfold node_size, links_off, entry_off. pose proof (pow2_pos _ Pe). pose proof (pow2_pos _ Pw).
    pose proof (round_up_spec w ea ltac:(lia)) as (A1 & A2 & _). pose proof (round_up_spec (round_up w ea + es) w ltac:(lia)) as (B1 & B2 & _).
    pose proof (round_up_spec (round_up (round_up w ea + es) w) (node_align ly) node_align_pos) as (C1 & _ & _). auto.
  Qed.
  Lemma block_holds n : node_size ly + n * link_size ly <= block_size ly n.
  Proof.
    unfold block_size, size_in_u64s. rewrite (Nat.mul_comm n). set (x := node_size ly + link_size ly * n). pose proof (round_up_spec x 8 ltac:(lia)) as (A & _ & _).
    unfold round_up in A. lia.
  Qed.
  Lemma node_size_pos : 0 < node_size ly.
  Proof. pose proof offs. pose proof (pow2_pos _ Pw). lia. Qed.

  Hypothesis Fair : ea <= al.
  Hypothesis Law : lawful al w new.
  Hypothesis Oth : Forall (fun b => 0 < snd b) other.

  Lemma align_divide : Nat.divide (node_align ly) al.
  Proof. apply pow2_divide; [now apply pow2_max|exact Pu|]. unfold node_align. lia. Qed.

  (** ** What is in memory *)
  Definition link_ok (n : nat) (l : L) : Prop :=
    length (link_words_of lw [] l) = link_words ly /\ Forall (fun v => fits w v = true) (snd (lw l)) /\ match fst (lw l) with Some j => j < n | None => True end.
  Definition node_at (m : memory) (ptrs : list nat) (p : nat) (n : snode D L) : Prop :=
    peek m p w = le w (length (sn_links n)) /\
    (forall d, sn_data n = Some d -> peek m (p + entry_off ly) es = enc d) /\
    forall i l, nth_error (sn_links n) i = Some l -> peek m (p + (links_off ly + i * link_size ly)) (link_size ly) = link_bytes ly lw ptrs l.
  Definition size_of (n : snode D L) : nat := block_size ly (length (sn_links n)).
  Record inv (h : heap D L) (s : bytes) : Prop := {
    inv_length : length (by_ptrs s) = length h;
    inv_live : by_live s = other ++ blocks ly h (by_ptrs s);
    inv_frame : forall b x, In b other -> fst b <= x < fst b + snd b -> by_mem s x = m0 x;
    inv_other : forall b a p n, In b other -> nth_error h a = Some (Some n) -> nth_error (by_ptrs s) a = Some p -> apart p (size_of n) (fst b) (snd b);
    inv_fit : forall j p, nth_error (by_ptrs s) j = Some p -> 0 < p /\ fits w p = true;
    inv_node : forall a p n, nth_error h a = Some (Some n) -> nth_error (by_ptrs s) a = Some p ->
      Nat.divide al p /\ fits w (length (sn_links n)) = true /\ Forall (link_ok (length h)) (sn_links n) /\ node_at (by_mem s) (by_ptrs s) p n;
    inv_apart : forall a b p q n k, nth_error h a = Some (Some n) -> nth_error h b = Some (Some k) -> nth_error (by_ptrs s) a = Some p -> nth_error (by_ptrs s) b = Some q ->
      a <> b -> apart p (size_of n) q (size_of k)
  }.

  Lemma blocks_in (h : heap D L) : forall ptrs a p n, nth_error h a = Some (Some n) -> nth_error ptrs a = Some p -> In (p, size_of n) (blocks ly h ptrs).
  Proof.
    induction h as [|c h IH]; intros [|q ptrs] [|a] p n E1 E2; try discriminate; cbn [nth_error] in *.
    - injection E1 as ->. injection E2 as ->. cbn. now left.
    - unfold blocks. cbn [combine flat_map]. apply in_app_iff. right. now apply (IH ptrs a).
  Qed.
  Lemma blocks_from (h : heap D L) : forall ptrs b, In b (blocks ly h ptrs) -> exists a n, nth_error h a = Some (Some n) /\ nth_error ptrs a = Some (fst b) /\ snd b = size_of n.
  Proof.
    induction h as [|c h IH]; intros [|q ptrs] b i; cbn in i; try contradiction. apply in_app_iff in i as [i|i].
    - destruct c as [n|]; [|contradiction]. destruct i as [<-|[]]. now exists 0, n.
    - destruct (IH ptrs b i) as (a & n & E). now exists (S a), n.
  Qed.
  Lemma pointer_ok h s a c : inv h s -> nth_error h a = Some c -> exists p, nth_error (by_ptrs s) a = Some p.
  Proof.
    intros I0 E. destruct (nth_error (by_ptrs s) a) as [p|] eqn:Ep; [eauto|]. apply nth_error_None in Ep. rewrite (inv_length _ _ I0) in Ep.
    apply nth_error_None in Ep. congruence.
  Qed.
  Lemma inside_ok live b a n : In b live -> fst b <= a -> a + n <= fst b + snd b -> inside live a n = true.
  Proof. intros i L1 L2. apply existsb_exists. exists b. split; [exact i|]. apply andb_true_intro. split; [now apply Nat.leb_le | now apply Nat.leb_le]. Qed.

  (** Accesses to a block *)
  Lemma deref_ok s p k : In (p, block_size ly k) (by_live s) -> Nat.divide al p -> deref ly s p = Ok tt.
  Proof.
    intros i Dv. unfold deref. rewrite divide_mod; [|apply node_align_pos|eapply Nat.divide_trans; [apply align_divide|exact Dv]].
    rewrite (inside_ok _ (p, block_size ly k)); auto. cbn [fst snd]. pose proof (block_holds k). lia.
  Qed.
  Lemma load_ok s p k off n g : In (p, block_size ly k) (by_live s) -> Nat.divide al p -> 0 < g -> Nat.divide g al -> Nat.divide g off -> off + n <= block_size ly k ->
    load ly s p off n g = Ok (peek (by_mem s) (p + off) n).
  Proof.
    intros i Dv Pg Dg Do Ln. unfold load. rewrite (deref_ok s p k i Dv). cbn [bind]. rewrite divide_mod; auto.
    - rewrite (inside_ok _ (p, block_size ly k)); auto; cbn [fst snd]; lia.
    - apply Nat.divide_add_r; [exact (Nat.divide_trans _ _ _ Dg Dv)|auto].
  Qed.
  Lemma store_ok s p k off g bs : In (p, block_size ly k) (by_live s) -> Nat.divide al p -> 0 < g -> Nat.divide g al -> Nat.divide g off -> off + length bs <= block_size ly k ->
    store ly s p off g bs = Ok (Bytes (poke (by_mem s) (p + off) bs) (by_live s) (by_ptrs s)).
  Proof.
    intros i Dv Pg Dg Do Ln. unfold store. rewrite (deref_ok s p k i Dv). cbn [bind]. rewrite divide_mod; auto.
    - rewrite (inside_ok _ (p, block_size ly k)); auto; cbn [fst snd]; lia.
    - apply Nat.divide_add_r; [exact (Nat.divide_trans _ _ _ Dg Dv)|auto].
  Qed.
  Lemma w_divide : Nat.divide w al.
  Proof. now apply pow2_divide. Qed.
  Lemma e_divide : Nat.divide ea al.
  Proof. now apply pow2_divide. Qed.
  Lemma link_divide i : Nat.divide w (links_off ly + i * link_size ly).
  Proof. apply Nat.divide_add_r; [apply offs|]. unfold link_size. exists (i * link_words ly). lia. Qed.
  Lemma link_bytes_length n ptrs l : link_ok n l -> length (link_bytes ly lw ptrs l) = link_size ly.
  Proof. intros (E & _). unfold link_bytes, link_size. rewrite words_length. f_equal. unfold link_words_of in *. simpl in *. lia. Qed.
  Lemma zero_bytes ptrs : link_bytes ly lw ptrs z = repeat 0 (link_size ly).
  Proof.
    unfold link_bytes, link_words_of, link_size. rewrite Zero. cbn [fst snd address]. replace (link_words ly) with (S (link_words ly - 1)) at 2 by lia.
    generalize (link_words ly - 1). intros k. change (0 :: repeat 0 k) with (repeat 0 (S k)). induction (S k) as [|j IH]; [reflexivity|].
    cbn [repeat flat_map Nat.mul]. rewrite IH, le_zero, <- repeat_app. reflexivity.
  Qed.
  Lemma zero_ok n : link_ok n z.
  Proof.
    unfold link_ok, link_words_of. rewrite Zero. cbn [fst snd length]. rewrite repeat_length. split; [lia|]. split; [|exact I].
    clear. induction (link_words ly - 1) as [|k IH]; constructor; auto. clear. induction w as [|j IHj]; [reflexivity|exact IHj].
  Qed.
  Lemma link_bytes_more n ptrs more l : link_ok n l -> n <= length ptrs -> link_bytes ly lw (ptrs ++ more) l = link_bytes ly lw ptrs l.
  Proof.
    intros (_ & _ & T) Ln. unfold link_bytes, link_words_of. destruct (fst (lw l)) as [j|]; cbn [address]; [|reflexivity].
    rewrite app_nth1 by lia. reflexivity.
  Qed.
  (** Writes elsewhere *)
  Lemma node_at_keep m m' ptrs p n : node_at m ptrs p n -> (forall x, p <= x < p + size_of n -> m' x = m x) -> node_at m' ptrs p n.
  Proof.
    intros (A & B & C0) E. destruct offs as (O1 & O2 & O3 & _). pose proof (block_holds (length (sn_links n))) as Bh. fold (size_of n) in Bh. split; [|split].
    - rewrite <- A. apply peek_ext. intros x Lx. apply E. lia.
    - intros d Ed. rewrite <- (B d Ed). apply peek_ext. intros x Lx. apply E. lia.
    - intros i l El. rewrite <- (C0 i l El). apply peek_ext. intros x Lx. apply E.
      assert (i < length (sn_links n)) by (apply nth_error_Some; congruence). assert (S i * link_size ly <= length (sn_links n) * link_size ly) by (apply Nat.mul_le_mono_r; lia). lia.
  Qed.

  Lemma blocks_keep (h : heap D L) : forall ptrs a n n', nth_error h a = Some (Some n) -> length (sn_links n') = length (sn_links n) ->
    blocks ly (list_set h a (Some n')) ptrs = blocks ly h ptrs.
  Proof.
    induction h as [|c h IH]; intros [|q ptrs] [|a] n n' E1 E2; try discriminate; try reflexivity; cbn [nth_error] in *.
    - injection E1 as ->. unfold blocks. cbn. now rewrite E2.
    - unfold blocks in *. cbn [list_set combine flat_map]. f_equal. now apply (IH ptrs a n n').
  Qed.
  Lemma filter_id {A} (f : A -> bool) l : (forall x, In x l -> f x = true) -> filter f l = l.
  Proof. induction l as [|x l IH]; intros E; [reflexivity|]. cbn. rewrite (E x (or_introl Logic.eq_refl)). f_equal. apply IH. intros y i. apply E. now right. Qed.
  Lemma blocks_free (h : heap D L) : forall ptrs a p, nth_error ptrs a = Some p -> a < length h ->
    (forall b q k, b <> a -> nth_error h b = Some (Some k) -> nth_error ptrs b = Some q -> q <> p) ->
    filter (fun b => negb (fst b =? p)) (blocks ly h ptrs) = blocks ly (list_set h a None) ptrs.
  Proof.
    induction h as [|c h IH]; intros [|q ptrs] [|a] p E1 La Ne; try discriminate; cbn [length nth_error] in *; try lia.
    - injection E1 as ->. transitivity (filter (fun b => negb (fst b =? p)) (blocks ly h ptrs)).
      + unfold blocks. cbn [combine flat_map fst snd]. destruct c; cbn; [now rewrite Nat.eqb_refl | reflexivity].
      + rewrite filter_id; [reflexivity|]. intros b i. destruct (blocks_from _ _ _ i) as (j & k & J1 & J2 & _). apply Bool.negb_true_iff, Nat.eqb_neq.
        exact (Ne (S j) _ _ ltac:(discriminate) J1 J2).
    - assert (E : filter (fun b => negb (fst b =? p)) (blocks ly h ptrs) = blocks ly (list_set h a None) ptrs).
      { apply IH; auto; [lia|]. intros b r k Nb B1 B2. exact (Ne (S b) r k ltac:(lia) B1 B2). }
      unfold blocks in *. cbn [combine flat_map fst snd list_set]. rewrite filter_app, E. f_equal. destruct c as [n|]; [|reflexivity]. cbn.
      pose proof (Ne 0 q n ltac:(discriminate) Logic.eq_refl Logic.eq_refl) as Nq. apply Nat.eqb_neq in Nq. now rewrite Nq.
  Qed.
  Lemma blocks_app (h : heap D L) n : forall ptrs p, length ptrs = length h -> blocks ly (h ++ [Some n]) (ptrs ++ [p]) = blocks ly h ptrs ++ [(p, size_of n)].
  Proof.
    induction h as [|c h IH]; intros [|q ptrs] p E; try discriminate; [reflexivity|]. unfold blocks in *. cbn in *. rewrite <- app_assoc. f_equal. apply IH. lia.
  Qed.

  (** ** Operations on one node *)
  Lemma inv_update h s a p n n' m' : inv h s -> nth_error h a = Some (Some n) -> nth_error (by_ptrs s) a = Some p -> length (sn_links n') = length (sn_links n) ->
    Forall (link_ok (length h)) (sn_links n') -> node_at m' (by_ptrs s) p n' -> (forall x, x < p \/ p + size_of n <= x -> m' x = by_mem s x) ->
    inv (list_set h a (Some n')) (Bytes m' (by_live s) (by_ptrs s)).
  Proof.
    intros I0 En Ep El Fl Nm Out. assert (La : a < length h) by (apply nth_error_Some; congruence).
    assert (Sz : size_of n' = size_of n) by (unfold size_of; now rewrite El).
    assert (Get : forall b k, nth_error (list_set h a (Some n')) b = Some (Some k) -> (b = a /\ k = n') \/ (b <> a /\ nth_error h b = Some (Some k))).
    { intros b k E. rewrite list_set_nth in E. destruct (Nat.eqb_spec a b) as [<-|Ne]; [|right; split; [lia|auto]]. destruct (a <? length h); [|discriminate]. injection E as <-. now left. }
    assert (Old : forall b k, nth_error (list_set h a (Some n')) b = Some (Some k) -> exists k0, nth_error h b = Some (Some k0) /\ size_of k = size_of k0).
    { intros b k E. destruct (Get b k E) as [[-> ->]|[_ E']]; eauto. }
    constructor; cbn [by_mem by_live by_ptrs].
    - rewrite list_set_length. apply I0.
    - rewrite (blocks_keep h _ a n n'); auto. apply I0.
    - intros b x ib Lx. rewrite Out; [exact (inv_frame _ _ I0 b x ib Lx)|]. pose proof (inv_other _ _ I0 b a p n ib En Ep) as Ap. unfold apart in Ap. lia.
    - intros b c q k ib E Eq'. destruct (Old c k E) as (k0 & C1 & ->). exact (inv_other _ _ I0 b c q k0 ib C1 Eq').
    - apply I0.
    - intros b q k E Eq'. rewrite list_set_length. destruct (Get b k E) as [[-> ->]|[Ne E']].
      + assert (q = p) as -> by congruence. destruct (inv_node _ _ I0 a p n En Ep) as (D1 & D2 & _ & _). rewrite El. auto.
      + destruct (inv_node _ _ I0 b q k E' Eq') as (D1 & D2 & D3 & D4). repeat (split; [assumption|]). apply (node_at_keep (by_mem s)); auto.
        intros x Lx. apply Out. pose proof (inv_apart _ _ I0 a b p q n k En E' Ep Eq' ltac:(auto)) as Ap. unfold apart in Ap. lia.
    - intros b c q r k k' E1 E2 P1 P2 Ne. destruct (Old b k E1) as (k0 & B1 & ->). destruct (Old c k' E2) as (k1 & B2 & ->). exact (inv_apart _ _ I0 b c q r k0 k1 B1 B2 P1 P2 Ne).
  Qed.

  Lemma read_some (h : heap D L) a n : read h a = Ok n -> nth_error h a = Some (Some n).
  Proof. unfold read. destruct (nth_error h a) as [[k|]|]; congruence. Qed.
  Lemma live_at h s a p n : inv h s -> nth_error h a = Some (Some n) -> nth_error (by_ptrs s) a = Some p -> In (p, block_size ly (length (sn_links n))) (by_live s).
  Proof. intros I0 En Ep. rewrite (inv_live _ _ I0). apply in_or_app. right. exact (blocks_in h _ a p n En Ep). Qed.
  Lemma link_inside (n i : nat) : i < n -> links_off ly + i * link_size ly + link_size ly <= block_size ly n.
  Proof.
    intros Li. pose proof (block_holds n). destruct offs as (_ & _ & O3 & _). assert (S i * link_size ly <= n * link_size ly) by (apply Nat.mul_le_mono_r; lia). lia.
  Qed.
  Lemma load_len_ok h s a p n : inv h s -> nth_error h a = Some (Some n) -> nth_error (by_ptrs s) a = Some p -> load_len ly s p = Ok (length (sn_links n)).
  Proof.
    intros I0 En Ep. destruct (inv_node _ _ I0 a p n En Ep) as (D1 & D2 & _ & (N1 & _)). unfold load_len.
    rewrite (load_ok s p _ 0 w w (live_at _ _ _ _ _ I0 En Ep) D1); [cbn [bind]; rewrite Nat.add_0_r, N1, of_le_le; auto | now apply pow2_pos | apply w_divide | apply Nat.divide_0_r |].
    destruct offs as (O1 & O2 & O3 & _). pose proof (block_holds (length (sn_links n))). lia.
  Qed.

  Definition out_ok (n : nat) (o : node_out D L) : Prop := match o with ONode a => a < n | OLink l => link_ok n l | _ => True end.

  Lemma link_back h s l : inv h s -> link_ok (length h) l -> split_words w (link_words ly) (link_bytes ly lw (by_ptrs s) l) = link_words_of lw (by_ptrs s) l.
  Proof.
    intros I0 (K1 & K2 & K3). unfold link_bytes. replace (link_words ly) with (length (link_words_of lw (by_ptrs s) l)) by exact K1. apply words_back. constructor; [|exact K2].
    destruct (fst (lw l)) as [j|]; cbn [address].
    - apply (inv_fit _ _ I0 j). rewrite (nth_error_nth' _ 0); [reflexivity|]. now rewrite (inv_length _ _ I0).
    - clear. induction w as [|k IH]; [reflexivity|exact IH].
  Qed.
  Lemma step_link h s a i l : inv h s -> get_link h a i = Ok l -> byte_op ly new enc lw s (NLink a i) = Ok (Some s, shown enc lw (by_ptrs s) (OLink l : node_out D L)) /\ link_ok (length h) l.
  Proof.
    intros I0 E. unfold get_link in E. destruct (read h a) as [n| |] eqn:Er; [|discriminate..]. apply read_some in Er. cbn [bind] in E.
    destruct (nth_error (sn_links n) i) as [l'|] eqn:El; [|discriminate]. injection E as ->. destruct (pointer_ok h s a _ I0 Er) as (p & Ep).
    destruct (inv_node _ _ I0 a p n Er Ep) as (D1 & D2 & D3 & (_ & _ & N3)). assert (Kl : link_ok (length h) l) by (rewrite Forall_forall in D3; apply D3; eapply nth_error_In; eauto).
    split; [|exact Kl]. cbn [byte_op]. unfold pointer. rewrite Ep. cbn [expect bind].
    rewrite (load_ok s p _ _ _ _ (live_at _ _ _ _ _ I0 Er Ep) D1); [|now apply pow2_pos|apply w_divide|apply link_divide|].
    - cbn [bind shown]. rewrite (N3 i l El), (link_back h s l I0 Kl). reflexivity.
    - apply link_inside. apply nth_error_Some. congruence.
  Qed.
  Lemma step_entry h s a d : inv h s -> get_data h a = Ok d -> byte_op ly new enc lw s (NEntry a) = Ok (Some s, BEntry (enc d)).
  Proof.
    intros I0 E. unfold get_data in E. destruct (read h a) as [n| |] eqn:Er; [|discriminate..]. apply read_some in Er. cbn [bind] in E.
    destruct (sn_data n) as [d'|] eqn:Ed; [|discriminate]. injection E as ->. destruct (pointer_ok h s a _ I0 Er) as (p & Ep).
    destruct (inv_node _ _ I0 a p n Er Ep) as (D1 & D2 & D3 & (_ & N2 & _)). cbn [byte_op]. unfold pointer. rewrite Ep. cbn [expect bind]. destruct offs as (O1 & O2 & O3 & O4 & O5).
    rewrite (load_ok s p _ _ _ _ (live_at _ _ _ _ _ I0 Er Ep) D1); [|now apply pow2_pos|apply e_divide|exact O4|].
    - cbn [bind]. rewrite (N2 d Ed). reflexivity.
    - pose proof (block_holds (length (sn_links n))). lia.
  Qed.
  Lemma step_set_link h s a i l h' : inv h s -> link_ok (length h) l -> set_link h a i l = Ok h' ->
    exists s', byte_op ly new enc lw s (NSetLink a i l) = Ok (Some s', BDone) /\ by_ptrs s' = by_ptrs s /\ inv h' s' /\ length h' = length h.
  Proof.
    intros I0 Kl E. unfold set_link in E. destruct (read h a) as [n| |] eqn:Er; [|discriminate..]. apply read_some in Er. cbn [bind] in E.
    destruct (Nat.ltb_spec i (length (sn_links n))) as [Li|]; [|discriminate]. injection E as <-. destruct (pointer_ok h s a _ I0 Er) as (p & Ep).
    destruct (inv_node _ _ I0 a p n Er Ep) as (D1 & D2 & D3 & (N1 & N2 & N3)). pose proof (link_bytes_length _ (by_ptrs s) l Kl) as Ll. pose proof (link_inside _ i Li) as In'.
    destruct offs as (O1 & O2 & O3 & O4 & O5).
    cbn [byte_op]. unfold pointer. rewrite Ep. cbn [expect bind]. rewrite (store_ok s p _ _ _ _ (live_at _ _ _ _ _ I0 Er Ep) D1); [|now apply pow2_pos|apply w_divide|apply link_divide|lia].
    cbn [bind]. eexists. split; [reflexivity|]. split; [reflexivity|]. split; [|apply list_set_length].
    apply (inv_update h s a p n); auto; cbn [sn_links].
    - apply list_set_length.
    - rewrite Forall_forall. intros x ix. apply In_nth_error in ix as (j & Ej). rewrite list_set_nth in Ej. destruct (i =? j).
      + destruct (i <? _); [|discriminate]. injection Ej as <-. exact Kl.
      + rewrite Forall_forall in D3. apply D3. eapply nth_error_In; eauto.
    - split; [|split]; cbn [sn_links sn_data].
      + rewrite list_set_length. rewrite poke_other; [exact N1|]. right. lia.
      + intros d Ed. rewrite poke_other; [auto|]. right. lia.
      + intros j l' Ej. rewrite list_set_nth in Ej. destruct (Nat.eqb_spec i j) as [<-|Ne].
        * destruct (i <? _); [|discriminate]. injection Ej as <-. pose proof (poke_same (by_mem s) (p + (links_off ly + i * link_size ly)) (link_bytes ly lw (by_ptrs s) l)) as Ps. rewrite Ll in Ps. exact Ps.
        * rewrite poke_other; [auto|]. rewrite Ll. destruct (Nat.lt_total i j) as [X|[X|X]]; [left|lia|right]; unfold apart.
          -- assert (S i * link_size ly <= j * link_size ly) by (apply Nat.mul_le_mono_r; lia). lia.
          -- assert (S j * link_size ly <= i * link_size ly) by (apply Nat.mul_le_mono_r; lia). lia.
    - intros x Ox. unfold size_of in Ox. apply poke_out. lia.
  Qed.
  Lemma step_set_entry h s a d h' : inv h s -> set_data h a d = Ok h' ->
    exists s', byte_op ly new enc lw s (NSetEntry a d) = Ok (Some s', BDone) /\ by_ptrs s' = by_ptrs s /\ inv h' s' /\ length h' = length h.
  Proof.
    intros I0 E. unfold set_data in E. destruct (read h a) as [n| |] eqn:Er; [|discriminate..]. apply read_some in Er. cbn [bind] in E.
    destruct (sn_data n) as [d'|] eqn:Ed; [|discriminate]. cbn [expect bind] in E. injection E as <-. destruct (pointer_ok h s a _ I0 Er) as (p & Ep).
    destruct (inv_node _ _ I0 a p n Er Ep) as (D1 & D2 & D3 & (N1 & N2 & N3)). pose proof (Elen d) as Le. pose proof (block_holds (length (sn_links n))) as Bh.
    destruct offs as (O1 & O2 & O3 & O4 & O5).
    cbn [byte_op]. unfold pointer. rewrite Ep. cbn [expect bind]. rewrite (store_ok s p _ _ _ _ (live_at _ _ _ _ _ I0 Er Ep) D1); [|now apply pow2_pos|apply e_divide|exact O4|lia].
    cbn [bind]. eexists. split; [reflexivity|]. split; [reflexivity|]. split; [|apply list_set_length].
    apply (inv_update h s a p n); auto; cbn [sn_links].
    - split; [|split]; cbn [sn_links sn_data].
      + rewrite poke_other; [exact N1|]. right. lia.
      + intros d0 Ed0. injection Ed0 as <-. pose proof (poke_same (by_mem s) (p + entry_off ly) (enc d)) as Ps. rewrite Le in Ps. exact Ps.
      + intros j l' Ej. rewrite poke_other; [auto|]. left. lia.
    - intros x Ox. unfold size_of in Ox. apply poke_out. lia.
  Qed.
  Lemma cleared m p n ptrs j : j < n ->
    peek (poke m (p + links_off ly) (repeat 0 (n * link_size ly))) (p + (links_off ly + j * link_size ly)) (link_size ly) = link_bytes ly lw ptrs z.
  Proof.
    intros Lj. assert (S j * link_size ly <= n * link_size ly) by (apply Nat.mul_le_mono_r; lia).
    rewrite poke_peek by (rewrite ?repeat_length; lia). rewrite skipn_repeat, firstn_repeat by lia. symmetry. apply zero_bytes.
  Qed.
  Lemma nth_error_repeat_inv {A} (x y : A) n j : nth_error (repeat x n) j = Some y -> y = x /\ j < n.
  Proof.
    intros E. split; [eapply repeat_spec, nth_error_In; eauto|]. assert (j < length (repeat x n)) by (apply nth_error_Some; congruence). now rewrite repeat_length in *.
  Qed.
  Lemma step_zero h s a h' : inv h s -> zero_links h a z = Ok h' ->
    exists s', byte_op ly new enc lw s (NZero a) = Ok (Some s', BDone) /\ by_ptrs s' = by_ptrs s /\ inv h' s' /\ length h' = length h.
  Proof.
    intros I0 E. unfold zero_links in E. destruct (read h a) as [n| |] eqn:Er; [|discriminate..]. apply read_some in Er. cbn [bind] in E.
    injection E as <-. destruct (pointer_ok h s a _ I0 Er) as (p & Ep).
    destruct (inv_node _ _ I0 a p n Er Ep) as (D1 & D2 & D3 & (N1 & N2 & N3)). pose proof (block_holds (length (sn_links n))) as Bh.
    destruct offs as (O1 & O2 & O3 & O4 & O5).
    cbn [byte_op]. unfold pointer. rewrite Ep. cbn [expect bind]. rewrite (load_len_ok h s a p n I0 Er Ep). cbn [bind]. unfold clear_links.
    rewrite (store_ok s p _ _ _ _ (live_at _ _ _ _ _ I0 Er Ep) D1); [|now apply pow2_pos|apply w_divide|exact O5|rewrite repeat_length; lia].
    cbn [bind]. eexists. split; [reflexivity|]. split; [reflexivity|]. split; [|apply list_set_length].
    apply (inv_update h s a p n); auto; cbn [sn_links].
    - apply repeat_length.
    - rewrite Forall_forall. intros x ix. apply repeat_spec in ix as ->. apply zero_ok.
    - split; [|split]; cbn [sn_links sn_data].
      + rewrite repeat_length, poke_other; [exact N1|]. right. lia.
      + intros d Ed. rewrite poke_other; [auto|]. right. lia.
      + intros j l' Ej. apply nth_error_repeat_inv in Ej as [-> Lj]. now apply cleared.
    - intros x Ox. unfold size_of in Ox. apply poke_out. rewrite repeat_length. lia.
  Qed.
  Lemma step_free h s a h' : inv h s -> dealloc h a = Ok h' ->
    exists s', byte_op ly new enc lw s (NFree a) = Ok (Some s', BDone) /\ by_ptrs s' = by_ptrs s /\ inv h' s' /\ length h' = length h.
  Proof.
    intros I0 E. unfold dealloc in E. destruct (read h a) as [n| |] eqn:Er; [|discriminate..]. apply read_some in Er. cbn [bind] in E.
    injection E as <-. destruct (pointer_ok h s a _ I0 Er) as (p & Ep). assert (La : a < length h) by (apply nth_error_Some; congruence).
    cbn [byte_op]. unfold pointer. rewrite Ep. cbn [expect bind]. rewrite (load_len_ok h s a p n I0 Er Ep). cbn [bind].
    assert (existsb (fun b => (fst b =? p) && (snd b =? block_size ly (length (sn_links n)))) (by_live s) = true) as ->.
    { apply existsb_exists. eexists. split; [exact (live_at _ _ _ _ _ I0 Er Ep)|]. cbn. now rewrite !Nat.eqb_refl. }
    eexists. split; [reflexivity|]. split; [reflexivity|]. split; [|apply list_set_length].
    assert (Get : forall b k, nth_error (list_set h a None) b = Some (Some k) -> b <> a /\ nth_error h b = Some (Some k)).
    { intros b k E. rewrite list_set_nth in E. destruct (Nat.eqb_spec a b) as [<-|Ne]; [|split; [lia|auto]]. destruct (a <? length h); discriminate. }
    constructor; cbn [by_mem by_live by_ptrs].
    - rewrite list_set_length. apply I0.
    - rewrite (inv_live _ _ I0), filter_app. f_equal.
      { apply filter_id. intros b ib. apply Bool.negb_true_iff, Nat.eqb_neq. intros Eb. pose proof (inv_other _ _ I0 b a p n ib Er Ep) as Ap. rewrite Forall_forall in Oth.
        specialize (Oth b ib). unfold apart, size_of in Ap. pose proof (block_holds (length (sn_links n))). pose proof node_size_pos. lia. }
      apply blocks_free; auto. intros b q k Nb Eb Eq' ->. pose proof (inv_apart _ _ I0 a b p p n k Er Eb Ep Eq' ltac:(auto)) as Ap.
      unfold apart, size_of in Ap. pose proof (block_holds (length (sn_links n))). pose proof (block_holds (length (sn_links k))). pose proof node_size_pos. lia.
    - exact (inv_frame _ _ I0).
    - intros b c q k ib E Eq'. destruct (Get c k E) as [_ E']. exact (inv_other _ _ I0 b c q k ib E' Eq').
    - apply I0.
    - intros b q k E Eq'. rewrite list_set_length. destruct (Get b k E) as [_ E']. exact (inv_node _ _ I0 b q k E' Eq').
    - intros b c q r k k' E1 E2. destruct (Get b k E1) as [_ B1]. destruct (Get c k' E2) as [_ B2]. exact (inv_apart _ _ I0 b c q r k k' B1 B2).
  Qed.
  Lemma link_ok_more n n' l : n <= n' -> link_ok n l -> link_ok n' l.
  Proof. intros Ln (A & B & C0). split; [exact A|]. split; [exact B|]. destruct (fst (lw l)); [lia|auto]. Qed.
  Lemma node_at_more m ptrs p k n p' : node_at m ptrs p k -> Forall (link_ok n) (sn_links k) -> n <= length ptrs -> node_at m (ptrs ++ [p']) p k.
  Proof.
    intros (A & B & C0) Fk Ln. split; [exact A|]. split; [exact B|]. intros i l E. rewrite (link_bytes_more n); auto.
    rewrite Forall_forall in Fk. apply Fk. eapply nth_error_In; eauto.
  Qed.
  Lemma step_new h s d n p : inv h s -> new (by_live s) (block_size ly n) = Some p ->
    exists s', byte_op ly new enc lw s (NNew d n) = Ok (Some s', BNode p) /\ by_ptrs s' = by_ptrs s ++ [p] /\ inv (h ++ [Some (SN d (repeat z n))]) s'.
  Proof.
    intros I0 E. destruct (Law _ _ _ E) as (P0 & Dv & Ft & Ap). pose proof (block_holds n) as Bh. destruct offs as (O1 & O2 & O3 & O4 & O5).
    assert (Ls : 0 < link_size ly) by (unfold link_size; pose proof (pow2_pos _ Pw); nia).
    assert (Fn : fits w n = true) by (apply (fits_less w n (p + block_size ly n)); [nia|exact Ft]).
    assert (Fp : fits w p = true) by (apply (fits_less w p (p + block_size ly n)); [lia|exact Ft]).
    cbn [byte_op]. rewrite E.
    set (live := by_live s ++ [(p, block_size ly n)]). assert (il : In (p, block_size ly n) live) by (apply in_app_iff; right; now left).
    rewrite (store_ok (Bytes (by_mem s) live (by_ptrs s ++ [p])) p n 0 w); cbn [by_live by_mem by_ptrs]; auto; [|now apply pow2_pos|apply w_divide|apply Nat.divide_0_r|rewrite le_length; lia].
    cbn [bind]. unfold clear_links. rewrite Nat.add_0_r.
    rewrite (store_ok (Bytes _ live (by_ptrs s ++ [p])) p n (links_off ly) w); cbn [by_live by_mem by_ptrs]; auto; [|now apply pow2_pos|apply w_divide|rewrite repeat_length; lia].
    cbn [bind]. set (m1 := poke (poke (by_mem s) p (le w n)) (p + links_off ly) (repeat 0 (n * link_size ly))).
    set (m2 := match d with Some d => poke m1 (p + entry_off ly) (enc d) | None => m1 end).
    assert (Eq' : (let* s0 := match d with Some d0 => store ly (Bytes m1 live (by_ptrs s ++ [p])) p (entry_off ly) ea (enc d0) | None => Ok (Bytes m1 live (by_ptrs s ++ [p])) end in Ok (Some s0, BNode p))
      = Ok (Some (Bytes m2 live (by_ptrs s ++ [p])), BNode p)).
    { unfold m2. destruct d as [d|]; [|reflexivity]. rewrite (store_ok (Bytes m1 live (by_ptrs s ++ [p])) p n (entry_off ly) ea); cbn [by_live by_mem by_ptrs]; auto; [now apply pow2_pos|apply e_divide|].
      rewrite Elen. lia. }
    rewrite Eq'. eexists. split; [reflexivity|]. split; [reflexivity|].
    assert (Out : forall x, x < p \/ p + block_size ly n <= x -> m2 x = by_mem s x).
    { intros x Ox. assert (E1 : m1 x = by_mem s x). { unfold m1. rewrite poke_out by (rewrite repeat_length; lia). rewrite poke_out by (rewrite le_length; lia). reflexivity. }
      unfold m2. destruct d as [d|]; [|exact E1]. rewrite poke_out; [exact E1|]. rewrite Elen. lia. }
    assert (Keep : forall a k, (a < entry_off ly /\ a + k <= entry_off ly) \/ entry_off ly + es <= a -> peek m2 (p + a) k = peek m1 (p + a) k).
    { intros a k Ok'. unfold m2. destruct d as [d|]; [|reflexivity]. apply poke_other. rewrite Elen. unfold apart. lia. }
    assert (At : node_at m2 (by_ptrs s ++ [p]) p (SN d (repeat z n))).
    { split; [|split]; cbn [sn_data sn_links].
      - rewrite repeat_length. pose proof (Keep 0 w) as K0. rewrite Nat.add_0_r in K0. rewrite K0 by (pose proof (pow2_pos _ Pw); lia). unfold m1.
        rewrite poke_other by (rewrite repeat_length; unfold apart; lia). pose proof (poke_same (by_mem s) p (le w n)) as Ps. rewrite le_length in Ps. exact Ps.
      - intros d0 ->. unfold m2. pose proof (poke_same m1 (p + entry_off ly) (enc d0)) as Ps. rewrite Elen in Ps. exact Ps.
      - intros i l El. apply nth_error_repeat_inv in El as [-> Li]. rewrite Keep by lia. now apply cleared. }
    assert (Ptr : forall j q, nth_error (by_ptrs s ++ [p]) j = Some q -> (j < length h /\ nth_error (by_ptrs s) j = Some q) \/ (j = length h /\ q = p)).
    { intros j q Ej. rewrite <- (inv_length _ _ I0). destruct (Nat.lt_ge_cases j (length (by_ptrs s))) as [X|X].
      - rewrite nth_error_app1 in Ej by lia. now left.
      - rewrite nth_error_app2 in Ej by lia. destruct (j - length (by_ptrs s)) as [|x] eqn:Ex; [|destruct x; discriminate]. injection Ej as <-. right. split; [lia|reflexivity]. }
    assert (Get : forall j k, nth_error (h ++ [Some (SN d (repeat z n))]) j = Some (Some k) -> (j < length h /\ nth_error h j = Some (Some k)) \/ (j = length h /\ k = SN d (repeat z n))).
    { intros j k Ej. destruct (Nat.lt_ge_cases j (length h)) as [X|X].
      - rewrite nth_error_app1 in Ej by lia. now left.
      - rewrite nth_error_app2 in Ej by lia. destruct (j - length h) as [|x] eqn:Ex; [|destruct x; discriminate]. injection Ej as <-. right. split; [lia|reflexivity]. }
    assert (Far : forall j q k, nth_error h j = Some (Some k) -> nth_error (by_ptrs s) j = Some q -> apart p (block_size ly n) q (size_of k)).
    { intros j q k E1 E2. apply (Ap (q, size_of k)). rewrite (inv_live _ _ I0). apply in_or_app. right. exact (blocks_in h _ j q k E1 E2). }
    assert (Ao : forall b, In b other -> apart p (block_size ly n) (fst b) (snd b)) by (intros b ib; apply Ap; rewrite (inv_live _ _ I0); apply in_or_app; now left).
    constructor; cbn [by_mem by_live by_ptrs].
    - rewrite !app_length, (inv_length _ _ I0). reflexivity.
    - rewrite blocks_app by apply I0. unfold live. rewrite (inv_live _ _ I0). unfold size_of. cbn [sn_links]. now rewrite repeat_length, app_assoc.
    - intros b x ib Lx. rewrite Out; [exact (inv_frame _ _ I0 b x ib Lx)|]. pose proof (Ao b ib) as Q. unfold apart in Q. lia.
    - intros b j q k ib Ej Eq0. destruct (Get j k Ej) as [[Lj Hj]|[Lj ->]], (Ptr j q Eq0) as [[Lj' Pj]|[Lj' ->]]; try lia.
      + exact (inv_other _ _ I0 b j q k ib Hj Pj).
      + unfold size_of. cbn [sn_links]. rewrite repeat_length. exact (Ao b ib).
    - intros j q Ej. destruct (Ptr j q Ej) as [[_ X]|[_ ->]]; [exact (inv_fit _ _ I0 j q X)|now split].
    - intros j q k Ej Eq0. rewrite app_length. cbn [length]. destruct (Get j k Ej) as [[Lj Hj]|[Lj ->]], (Ptr j q Eq0) as [[Lj' Pj]|[Lj' ->]]; try lia.
      + destruct (inv_node _ _ I0 j q k Hj Pj) as (D1 & D2 & D3 & D4). repeat (split; [assumption|]). split.
        * eapply Forall_impl; [|exact D3]. intros l. apply link_ok_more. lia.
        * apply (node_at_more _ _ _ _ (length h)); auto; [|rewrite (inv_length _ _ I0); lia]. apply (node_at_keep (by_mem s)); auto. intros x Lx. apply Out.
          pose proof (Far j q k Hj Pj) as Fj. unfold apart in Fj. lia.
      + split; [exact Dv|]. cbn [sn_links]. rewrite repeat_length. split; [exact Fn|]. split; [|exact At]. rewrite Forall_forall. intros x ix. apply repeat_spec in ix as ->. apply zero_ok.
    - intros a b q r k k' E1 E2 P1 P2 Ne. destruct (Get a k E1) as [[La Ha]|[La ->]], (Ptr a q P1) as [[La' Pa]|[La' ->]]; try lia;
      destruct (Get b k' E2) as [[Lb Hb]|[Lb ->]], (Ptr b r P2) as [[Lb' Pb]|[Lb' ->]]; try lia; unfold size_of at 1; cbn [sn_links]; rewrite ?repeat_length.
      + exact (inv_apart _ _ I0 a b q r k k' Ha Hb Pa Pb Ne).
      + pose proof (Far a q k Ha Pa) as F1. unfold apart, size_of in *. cbn [sn_links]. rewrite repeat_length. lia.
      + exact (Far b r k' Hb Pb).
  Qed.

  (** ** One operation *)
  Lemma shown_more n o ptrs more : out_ok n o -> n <= length ptrs -> shown enc lw (ptrs ++ more) o = shown enc lw ptrs o.
  Proof.
    intros K Ln. destruct o as [a|l| | |]; cbn [shown out_ok] in *; try reflexivity.
    - now rewrite app_nth1 by lia.
    - f_equal. unfold link_words_of. destruct K as (_ & _ & T). destruct (fst (lw l)) as [j|]; cbn [address]; [|reflexivity]. now rewrite app_nth1 by lia.
  Qed.
  Lemma byte_step_ok h s op h' o : inv h s -> op_fits w (link_words ly) lw op -> node_step lw z h op = Ok (h', o) -> out_ok (length h') o /\ length h <= length h' /\
    (byte_step ly new enc lw (Some s) op = Ok (None, BAborted) \/
     exists s' more, byte_step ly new enc lw (Some s) op = Ok (Some s', shown enc lw (by_ptrs s') o) /\ by_ptrs s' = by_ptrs s ++ more /\ inv h' s').
  Proof.
    intros I0 F E. unfold byte_step. destruct op as [d n|a i|a i l|a|a d|a|a|a]; cbn [node_step op_fits] in *.
    - injection E as <- <-. cbn [out_ok]. rewrite app_length. cbn [length]. split; [lia|]. split; [lia|]. destruct (new (by_live s) (block_size ly n)) as [p|] eqn:En.
      + right. destruct (step_new h s d n p I0 En) as (s' & E1 & E2 & E3). exists s', [p]. rewrite E1, E2. split; [|now split]. cbn [shown].
        rewrite app_nth2 by (rewrite (inv_length _ _ I0); lia). now rewrite (inv_length _ _ I0), Nat.sub_diag.
      + left. cbn [byte_op]. now rewrite En.
    - destruct (get_link h a i) as [l| |] eqn:El; [|discriminate..]. injection E as <- <-. destruct (step_link h s a i l I0 El) as [E1 Kl]. split; [exact Kl|]. split; [lia|].
      right. exists s, []. rewrite app_nil_r. auto.
    - destruct (target_ok lw h l) eqn:Et; [|discriminate]. destruct (set_link h a i l) as [h1| |] eqn:El; [|discriminate..]. injection E as <- <-.
      assert (Kl : link_ok (length h) l). { destruct F as [F1 F2]. split; [exact F1|]. split; [exact F2|]. unfold target_ok in Et. destruct (fst (lw l)); [now apply Nat.ltb_lt|exact I]. }
      destruct (step_set_link h s a i l h1 I0 Kl El) as (s' & E1 & E2 & E3 & E4). split; [exact I|]. split; [lia|]. right. exists s', []. rewrite app_nil_r. auto.
    - destruct (get_data h a) as [d| |] eqn:El; [|discriminate..]. injection E as <- <-. split; [exact I|]. split; [lia|]. right. exists s, []. rewrite app_nil_r.
      split; [exact (step_entry h s a d I0 El)|auto].
    - destruct (set_data h a d) as [h1| |] eqn:El; [|discriminate..]. injection E as <- <-.
      destruct (step_set_entry h s a d h1 I0 El) as (s' & E1 & E2 & E3 & E4). split; [exact I|]. split; [lia|]. right. exists s', []. rewrite app_nil_r. auto.
    - destruct (read h a) as [n| |] eqn:Er; [|discriminate..]. injection E as <- <-. split; [exact I|]. split; [lia|]. right. exists s, []. rewrite app_nil_r.
      apply read_some in Er. destruct (pointer_ok h s a _ I0 Er) as (p & Ep). split; [|auto]. cbn [byte_op shown]. unfold pointer. rewrite Ep. cbn [expect bind].
      now rewrite (load_len_ok h s a p n I0 Er Ep).
    - destruct (zero_links h a z) as [h1| |] eqn:El; [|discriminate..]. injection E as <- <-.
      destruct (step_zero h s a h1 I0 El) as (s' & E1 & E2 & E3 & E4). split; [exact I|]. split; [lia|]. right. exists s', []. rewrite app_nil_r. auto.
    - destruct (dealloc h a) as [h1| |] eqn:El; [|discriminate..]. injection E as <- <-.
      destruct (step_free h s a h1 I0 El) as (s' & E1 & E2 & E3 & E4). split; [exact I|]. split; [lia|]. right. exists s', []. rewrite app_nil_r. auto.
  Qed.

  (** ** Runs *)
  Lemma blocks_nodup (h : heap D L) : forall ptrs, (forall a b p n k, a <> b -> nth_error h a = Some (Some n) -> nth_error h b = Some (Some k) -> nth_error ptrs a = Some p ->
    nth_error ptrs b = Some p -> False) -> NoDup (map fst (blocks ly h ptrs)).
  Proof.
    induction h as [|c h IH]; intros [|q ptrs] Ne; try constructor.
    assert (N : NoDup (map fst (blocks ly h ptrs))).
    { apply IH. intros a b p n k Nab A B P Q. exact (Ne (S a) (S b) p n k ltac:(lia) A B P Q). }
    unfold blocks in *. cbn [combine flat_map fst snd]. destruct c as [n|]; [|exact N]. cbn [app map fst]. constructor; [|exact N].
    intros i. apply in_map_iff in i as (b & Eb & i). destruct (blocks_from h ptrs b i) as (a & k & A & P & _). rewrite Eb in P.
    exact (Ne 0 (S a) q n k ltac:(lia) Logic.eq_refl A Logic.eq_refl P).
  Qed.
  Lemma aborted_run (ops : list (node_op D L)) : run (byte_step ly new enc lw) None ops = Ok (None, repeat BAborted (length ops)).
  Proof. induction ops as [|op ops IH]; [reflexivity|]. cbn [run byte_step bind]. now rewrite IH. Qed.
  Lemma run_length (ops : list (node_op D L)) : forall h h' outs, run (node_step lw z) h ops = Ok (h', outs) -> length outs = length ops.
  Proof.
    induction ops as [|op ops IH]; intros h h' outs E; cbn [run] in E; [now injection E as <- <-|].
    destruct (node_step lw z h op) as [[h1 o]| |]; [|discriminate..]. cbn [bind] in E. destruct (run (node_step lw z) h1 ops) as [[h2 os]| |] eqn:Er; [|discriminate..].
    injection E as <- <-. cbn. now rewrite (IH _ _ _ Er).
  Qed.
  Lemma bytes_run (ops : list (node_op D L)) : forall h s h' outs, inv h s -> Forall (op_fits w (link_words ly) lw) ops -> run (node_step lw z) h ops = Ok (h', outs) ->
    exists st outs', run (byte_step ly new enc lw) (Some s) ops = Ok (st, outs') /\
      match st with
      | Some s' => outs' = map (shown enc lw (by_ptrs s')) outs /\ inv h' s' /\ exists more, by_ptrs s' = by_ptrs s ++ more
      | None => exists more k, outs' = map (shown enc lw (by_ptrs s ++ more)) (firstn k outs) ++ repeat BAborted (length outs - k)
      end.
  Proof.
    induction ops as [|op ops IH]; intros h s h' outs I0 F E; cbn [run] in *.
    - injection E as <- <-. exists (Some s), []. split; [reflexivity|]. split; [reflexivity|]. split; [exact I0|]. exists []. now rewrite app_nil_r.
    - inversion F as [|? ? Fo Fs]; subst. destruct (node_step lw z h op) as [[h1 o]| |] eqn:E1; [|discriminate..]. cbn [bind] in E.
      destruct (run (node_step lw z) h1 ops) as [[h2 os]| |] eqn:E2; [|discriminate..]. injection E as <- <-.
      destruct (byte_step_ok h s op h1 o I0 Fo E1) as (Ko & Ll & [Ea|(s1 & more & Es & Ep & I1)]).
      + rewrite Ea. cbn [bind]. rewrite aborted_run. cbn [bind]. eexists None, _. split; [reflexivity|]. exists [], 0.
        cbn [firstn map app length Nat.sub repeat]. now rewrite (run_length _ _ _ _ E2).
      + rewrite Es. cbn [bind]. destruct (IH h1 s1 h2 os I1 Fs E2) as (st & os' & Er & A). rewrite Er. cbn [bind]. eexists st, _. split; [reflexivity|].
        assert (Ls : length h1 <= length (by_ptrs s1)) by (rewrite (inv_length _ _ I1); lia). destruct st as [s2|].
        * destruct A as (A1 & A2 & more2 & A3). split; [|split; [exact A2|]].
          -- cbn [map]. rewrite A1. f_equal. rewrite A3. symmetry. now apply (shown_more (length h1)).
          -- exists (more ++ more2). now rewrite A3, Ep, app_assoc.
        * destruct A as (more2 & k & A1). exists (more ++ more2), (S k). cbn [firstn map app length Nat.sub]. rewrite app_assoc, <- Ep. f_equal; [|exact A1].
          symmetry. now apply (shown_more (length h1)).
  Qed.
  Lemma inv_start : inv [] (Bytes m0 other []).
  Proof. constructor; cbn; auto; try (intros [|?]; discriminate); [now rewrite app_nil_r|]. intros b [|a]; discriminate. Qed.
  Lemma inv_distinct h s : inv h s -> NoDup (map fst (blocks ly h (by_ptrs s))).
  Proof.
    intros A2. apply blocks_nodup. intros a b p n k Ne A B P Q. pose proof (inv_apart _ _ A2 a b p p n k A B P Q Ne) as Ap. unfold apart, size_of in Ap.
    pose proof (block_holds (length (sn_links n))). pose proof (block_holds (length (sn_links k))). pose proof node_size_pos. lia.
  Qed.
  Lemma nodes_agree ops h outs : Forall (op_fits w (link_words ly) lw) ops -> run (node_step lw z) [] ops = Ok (h, outs) ->
    exists st outs', run (byte_step ly new enc lw) (Some (Bytes m0 other [])) ops = Ok (st, outs') /\ agrees ly enc lw other m0 h outs st outs'.
  Proof.
    intros F E. destruct (bytes_run ops _ _ _ _ inv_start F E) as (st & outs' & Er & A). exists st, outs'. split; [exact Er|].
    destruct st as [s|]; [|destruct A as (more & k & A); eexists _, k; exact A].
    destruct A as (A1 & A2 & _). split; [exact A1|]. split; [apply A2|]. split; [exact (inv_distinct _ _ A2)|]. split.
    - rewrite Forall_forall. intros p ip. apply In_nth_error in ip as (j & Ej). exact (proj1 (inv_fit _ _ A2 j p Ej)).
    - exact (inv_frame _ _ A2).
  Qed.
End NodeBytes.

Lemma nodes_bytes_ok {D L} (ly : layout) (new : allocator) (enc : D -> list nat) (lw : words_of L) (z : L) :
  layout_ok ly -> entry_align ly <= u64_align ly -> (forall d, length (enc d) = entry_size ly) -> lw z = (None, repeat 0 (link_words ly - 1)) ->
  lawful (u64_align ly) (word ly) new -> nodes_as_bytes ly new enc lw z.
Proof. intros (P1 & P2 & P3 & P4 & P5) Fair El Z0 Law m other ops h outs Oth. now apply nodes_agree. Qed.

(** ** Entries with a larger alignment *)
Definition first_only (ly : layout) : allocator := fun live n =>
  match live with [] => if fits (word ly) (u64_align ly + n) then Some (u64_align ly) else None | _ => None end.
Lemma first_only_lawful ly : layout_ok ly -> lawful (u64_align ly) (word ly) (first_only ly).
Proof.
  intros (_ & Pu & _) live n p E. unfold first_only in E. destruct live; [|discriminate]. destruct (fits _ _) eqn:Ef; [|discriminate]. injection E as <-.
  split; [now apply pow2_pos|]. split; [apply Nat.divide_refl|]. split; [exact Ef|]. intros b [].
Qed.
Lemma nodes_bytes_misaligned {D L} (ly : layout) (enc : D -> list nat) (lw : words_of L) (z : L) :
  layout_ok ly -> u64_align ly < entry_align ly -> fits (word ly) (u64_align ly + block_size ly 1) = true ->
  exists new, lawful (u64_align ly) (word ly) new /\ (forall m d, byte_step ly new enc lw (Some (Bytes m [] [])) (NNew d 1) = Panic) /\ ~ nodes_as_bytes ly new enc lw z.
Proof.
  intros Lo Big Ft. exists (first_only ly). split; [now apply first_only_lawful|].
  assert (E : forall m d, byte_step ly (first_only ly) enc lw (Some (Bytes m [] [])) (NNew d 1) = Panic).
  { intros m d. cbn [byte_step byte_op by_live first_only]. rewrite Ft. unfold store at 1, deref. rewrite Nat.mod_small by (unfold node_align; lia).
    assert (u64_align ly =? 0 = false) as ->; [|reflexivity]. apply Nat.eqb_neq. destruct Lo as (_ & Pu & _). apply pow2_pos in Pu. lia. }
  split; [exact E|]. intros G. destruct (G (fun _ => 0) [] [NNew None 1] [Some (SN None [z])] [ONode 0]) as (st & outs' & Er & _); [constructor|repeat constructor|reflexivity|].
  cbn [run] in Er. rewrite E in Er. discriminate.
Qed.
(** ** An allocator for examples: the next aligned address after all blocks in use *)
Definition bump (align w : nat) : allocator := fun live n =>
  let p := round_up (S (list_max (map (fun b => fst b + snd b) live))) align in if fits w (p + n) then Some p else None.
Lemma bump_lawful align w : 0 < align -> lawful align w (bump align w).
Proof.
  intros P live n p E. unfold bump in E. set (m := list_max (map (fun b => fst b + snd b) live)) in *. pose proof (round_up_spec (S m) align P) as (A & B & _).
  destruct (fits _ _) eqn:Ef; [|discriminate]. injection E as <-. split; [lia|]. split; [exact B|]. split; [exact Ef|]. intros b i. right.
  assert (Fm : Forall (fun x => x <= m) (map (fun b => fst b + snd b) live)) by (apply list_max_le; subst m; lia).
  rewrite Forall_forall in Fm. specialize (Fm (fst b + snd b) (in_map (fun b => fst b + snd b) _ _ i)). lia.
Qed.
