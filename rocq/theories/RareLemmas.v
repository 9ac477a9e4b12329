(** How often sums of records are large.  Used for C82. *)
From Verif Require Import RareSpec RandomLemmas.
From Coq Require Import Permutation Lia.

(** ** Picking some of the draws *)
Lemma total_draws_S M t (f : list N -> nat) : total f (draws M (S t)) = total (fun x => total (fun ps => f (x :: ps)) (draws M t)) (numbers M).
Proof. cbn [draws]. rewrite total_flat_map. apply total_ext. intros x _. now rewrite total_map. Qed.

Lemma total_insert M : forall i k (g : list N -> nat), i <= k ->
  total (fun x => total (fun ps => g (firstn i ps ++ x :: skipn i ps)) (draws M k)) (numbers M) = total g (draws M (S k)).
Proof.
  induction i as [|i IH]; intros k g L.
  - rewrite total_draws_S. reflexivity.
  - destruct k as [|k]; [lia|]. rewrite total_draws_S.
    rewrite (total_ext _ (fun x => total (fun y => total (fun ps => g (y :: firstn i ps ++ x :: skipn i ps)) (draws M k)) (numbers M))).
    2: { intros x _. rewrite total_draws_S. reflexivity. }
    rewrite total_swap. apply total_ext. intros y _. apply (IH k (fun l => g (y :: l))). lia.
Qed.

Definition pick (ps : list N) (W : list nat) : list N := map (fun w => nth w ps 0%N) W.

Lemma pick_total M : forall t (W : list nat) (g : list N -> nat), NoDup W -> (forall w, In w W -> w < t) ->
  total (fun ps => g (pick ps W)) (draws M t) = M ^ (t - length W) * total g (draws M (length W)).
Proof.
  induction t as [|t IH]; intros W g D L.
  - destruct W as [|w W]; [|specialize (L w (or_introl eq_refl)); lia]. simpl. unfold total. simpl. lia.
  - rewrite total_draws_S.
    assert (Down : forall U, ~ In 0 U -> (forall w, In w U -> w < S t) -> NoDup U ->
      NoDup (map pred U) /\ (forall w, In w (map pred U) -> w < t) /\ forall x ps, pick (x :: ps) U = pick ps (map pred U)).
    { intros U N0 LU DU. split; [|split].
      - clear -N0 DU. induction U as [|u U IHU]; [constructor|]. inversion DU as [|? ? nu DU']; subst. simpl. constructor.
        + intros i. apply in_map_iff in i as (v & E & i). apply nu. replace u with v; [easy|].
          assert (v <> 0) by (intros ->; apply N0; now right). assert (u <> 0) by (intros ->; apply N0; now left). lia.
        + apply IHU; [|easy]. intros i. apply N0. now right.
      - intros w i. apply in_map_iff in i as (v & <- & i). specialize (LU v i). assert (v <> 0) by (intros ->; auto). lia.
      - intros x ps. unfold pick. rewrite map_map. apply map_ext_in. intros [|v] i; [contradiction|reflexivity]. }
    destruct (in_dec Nat.eq_dec 0 W) as [i|n].
    + apply in_split in i as (A & B & ->).
      pose proof (NoDup_remove_1 _ _ _ D) as D1. pose proof (NoDup_remove_2 _ _ _ D) as D2.
      destruct (Down (A ++ B)) as (E1 & E2 & E3); auto.
      { intros w i. apply L. apply in_app_iff in i. apply in_app_iff. destruct i; [now left | right; now right]. }
      assert (Ep : forall x ps, pick (x :: ps) (A ++ 0 :: B) =
        firstn (length A) (pick ps (map pred (A ++ B))) ++ x :: skipn (length A) (pick ps (map pred (A ++ B)))).
      { intros x ps. rewrite <- (E3 x ps). unfold pick. rewrite !map_app. cbn [map nth].
        rewrite firstn_app, skipn_app, map_length, Nat.sub_diag. rewrite firstn_all2, skipn_all2 by now rewrite map_length. simpl.
        rewrite app_nil_r. reflexivity. }
      rewrite (total_ext _ (fun x => M ^ (t - length (A ++ B)) * total (fun q => g (firstn (length A) q ++ x :: skipn (length A) q)) (draws M (length (A ++ B))))).
      2: { intros x _. rewrite (total_ext _ (fun ps => g (firstn (length A) (pick ps (map pred (A ++ B))) ++ x :: skipn (length A) (pick ps (map pred (A ++ B)))))).
           2: { intros ps _. now rewrite Ep. }
           rewrite (IH (map pred (A ++ B)) (fun q => g (firstn (length A) q ++ x :: skipn (length A) q)) E1 E2). now rewrite map_length. }
      rewrite total_mul, total_insert by (rewrite app_length; lia). rewrite !app_length. cbn [length].
      replace (length A + S (length B)) with (S (length A + length B)) by lia. reflexivity.
    + destruct (Down W n L D) as (E1 & E2 & E3).
      rewrite (total_ext _ (fun _ => M ^ (t - length W) * total g (draws M (length W)))).
      2: { intros x _. rewrite (total_ext _ (fun ps => g (pick ps (map pred W)))) by (intros ps _; now rewrite E3).
           rewrite (IH _ g E1 E2). now rewrite map_length. }
      rewrite total_const, numbers_length.
      pose proof (filter_rest_length (map pred W) t E1 E2) as [_ Lw]. rewrite map_length in Lw.
      replace (S t - length W) with (S (t - length W)) by lia. cbn [Nat.pow]. lia.
Qed.

Lemma total_draws_app M a b (f g : list N -> nat) :
  total (fun l => f (firstn a l) * g (skipn a l)) (draws M (a + b)) = total f (draws M a) * total g (draws M b).
Proof.
  revert f. induction a as [|a IH]; intros f.
  - simpl Nat.add. cbn [draws]. rewrite (total_ext _ (fun l => f [] * g l)) by reflexivity. rewrite total_mul. unfold total at 2. simpl. lia.
  - cbn [Nat.add]. rewrite !total_draws_S. rewrite (total_ext _ (fun x => total g (draws M b) * total (fun ps => f (x :: ps)) (draws M a))).
    + rewrite total_mul. lia.
    + intros x _. rewrite Nat.mul_comm. exact (IH (fun ps => f (x :: ps))).
Qed.

(** ** Two to the power of the number of records *)
Fixpoint recs_from (m : N) (l : list N) : nat :=
  match l with [] => 0 | p :: r => b2n (m <=? p)%N + recs_from (N.max m p) r end.
Lemma recs_recs_from l : forall seen, recs seen l = recs_from (fold_right N.max 0%N seen) l.
Proof.
  induction l as [|p l IH]; intros seen; [reflexivity|]. cbn [recs recs_from]. rewrite IH. f_equal; [|f_equal].
  - f_equal. clear. induction seen as [|q seen IHs]; simpl; [symmetry; apply N.leb_le; lia|]. rewrite IHs.
    destruct (N.leb_spec q p), (N.leb_spec (fold_right N.max 0%N seen) p), (N.leb_spec (N.max q (fold_right N.max 0%N seen)) p); simpl; auto; lia.
  - clear. induction seen as [|q seen IHs]; simpl; [lia|]. rewrite IHs. lia.
Qed.

Lemma sum_down M k : forall y m, y + m = M -> 2 * total (fun v => M + k * (M - v)) (seq m y) = 2 * (y * M) + k * (y * S y).
Proof.
  induction y as [|y IH]; intros m E; [unfold total; simpl; lia|]. simpl seq. rewrite total_cons. specialize (IH (S m) ltac:(lia)).
  replace (M - m) with (S y) by lia. nia.
Qed.

Lemma pow_recs_from M k : forall m, m <= M ->
  M * total (fun l => 2 ^ recs_from (N.of_nat m) l) (draws M k) <= S M ^ k * (M + k * (M - m)).
Proof.
  induction k as [|k IH]; intros m L; [unfold total; simpl; lia|].
  set (F := fun m => total (fun l => 2 ^ recs_from (N.of_nat m) l) (draws M k)) in *.
  assert (E : total (fun l => 2 ^ recs_from (N.of_nat m) l) (draws M (S k)) = m * F m + 2 * total F (seq m (M - m))).
  { rewrite total_draws_S. unfold numbers. rewrite total_map.
    replace M with (m + (M - m)) at 1 by lia. rewrite seq_app, total_app. f_equal.
    - rewrite (total_ext _ (fun _ => F m)); [now rewrite total_const, seq_length|]. intros v i. apply in_seq in i.
      unfold F. apply total_ext. intros l _. cbn [recs_from]. destruct (N.leb_spec (N.of_nat m) (N.of_nat v)); [lia|].
      cbn [b2n]. simpl Nat.add. f_equal. f_equal. lia.
    - rewrite <- total_mul. simpl (0 + m). apply total_ext. intros v i. apply in_seq in i. unfold F. rewrite <- total_mul. apply total_ext. intros l _.
      cbn [recs_from]. destruct (N.leb_spec (N.of_nat m) (N.of_nat v)); [|lia]. cbn [b2n Nat.add Nat.pow].
      replace (N.max (N.of_nat m) (N.of_nat v)) with (N.of_nat v) by lia. reflexivity. }
  rewrite E. clear E.
  assert (S1 : M * total F (seq m (M - m)) <= S M ^ k * total (fun v => M + k * (M - v)) (seq m (M - m))).
  { rewrite <- !total_mul. apply total_le. intros v i. apply in_seq in i. apply (IH v). lia. }
  pose proof (IH m L) as S2. fold (F m) in S2. pose proof (sum_down M k (M - m) m ltac:(lia)) as S3.
  remember (M - m) as y eqn:Ey. assert (Em : M = m + y) by lia. clear Ey.
  change (S M ^ S k) with (S M * S M ^ k). remember (S M ^ k) as A eqn:EA. clear EA.
  set (T := total (fun v => M + k * (M - v)) (seq m y)) in *. clearbody T. set (T2 := total F (seq m y)) in *. clearbody T2.
  set (Fm := F m) in *. clearbody Fm. clear IH F.
  replace (M * (m * Fm + 2 * T2)) with (m * (M * Fm) + 2 * (M * T2)) by lia.
  apply Nat.le_trans with (m * (A * (M + k * y)) + 2 * (A * T)).
  - apply Nat.add_le_mono; [now apply Nat.mul_le_mono_l | now apply Nat.mul_le_mono_l].
  - replace (m * (A * (M + k * y)) + 2 * (A * T)) with (A * (m * (M + k * y) + 2 * T)) by lia. rewrite S3.
    replace (S M * A * (M + S k * y)) with (A * (S M * (M + S k * y))) by lia. apply Nat.mul_le_mono_l. subst M. nia.
Qed.

Lemma pow_recs M k : 0 < M -> total (fun l => 2 ^ recs [] l) (draws M k) <= S M ^ k * S k.
Proof.
  intros PM. pose proof (pow_recs_from M k 0 ltac:(lia)) as P. rewrite Nat.sub_0_r in P.
  rewrite (total_ext _ (fun l => 2 ^ recs_from (N.of_nat 0) l)) by (intros l _; now rewrite recs_recs_from).
  replace (S M ^ k * (M + k * M)) with (M * (S M ^ k * S k)) in P by lia. now apply Nat.mul_le_mono_pos_l in P.
Qed.

(** ** Blocks *)
Lemma recs_from_app x : forall m y, recs_from m (x ++ y) = recs_from m x + recs_from (fold_left N.max x m) y.
Proof. induction x as [|p x IH]; intros m y; [reflexivity|]. simpl. rewrite IH. lia. Qed.
Lemma fold_max_most ps b : forall m, fold_left N.max (pick ps b) m = N.max m (most ps b).
Proof. induction b as [|d b IH]; intros m; simpl; [lia|]. rewrite IH. lia. Qed.
Lemma recs_block ps b : forall m, b <> [] -> b2n (m <=? most ps b)%N <= recs_from m (pick ps b).
Proof.
  induction b as [|d b IH]; intros m nb; [easy|]. unfold pick. cbn [map recs_from most fold_right]. fold (most ps b). fold (pick ps b).
  destruct b as [|d' b].
  - unfold pick, most. simpl. rewrite N.max_0_r. lia.
  - specialize (IH (N.max m (nth d ps 0%N)) ltac:(discriminate)). set (x := most ps (d' :: b)) in *. clearbody x.
    destruct (N.leb_spec m (nth d ps 0%N)); [cbn [b2n]; destruct (m <=? N.max (nth d ps 0) x)%N; cbn [b2n]; lia|].
    destruct (N.leb_spec m (N.max (nth d ps 0) x)%N); [|cbn [b2n]; lia].
    destruct (N.leb_spec (N.max m (nth d ps 0%N)) x) in IH; [cbn [b2n] in *; lia|lia].
Qed.
Lemma recs_blocks ps bs : Forall (fun b => b <> []) bs -> recs [] (map (most ps) bs) <= recs [] (pick ps (concat bs)).
Proof.
  intros F. rewrite !recs_recs_from. simpl. generalize 0%N as m. induction F as [|b bs nb F IH]; intros m; [simpl; lia|].
  cbn [map recs_from concat]. unfold pick. rewrite map_app. fold (pick ps b). fold (pick ps (concat bs)). rewrite recs_from_app, fold_max_most.
  pose proof (recs_block ps b m nb). specialize (IH (N.max m (most ps b))). lia.
Qed.

(** ** Two lists of draws *)
Lemma pow_near M : forall n, 2 * n <= M -> S M ^ n <= 2 * M ^ n.
Proof.
  intros n L. destruct M as [|M']; [destruct n; [simpl; lia|lia]|]. set (M := S M') in *.
  assert (B : forall n, n <= M -> S M ^ n * (M - n) <= M * M ^ n).
  { induction n0 as [|n0 IH]; intros L0; [simpl; lia|]. specialize (IH ltac:(lia)). change (S M ^ S n0) with (S M * S M ^ n0). change (M ^ S n0) with (M * M ^ n0).
    apply (Nat.mul_le_mono_l _ _ M) in IH. eapply Nat.le_trans; [|exact IH].
    replace (S M * S M ^ n0 * (M - S n0)) with (S M ^ n0 * (S M * (M - S n0))) by lia.
    replace (M * (S M ^ n0 * (M - n0))) with (S M ^ n0 * (M * (M - n0))) by lia. apply Nat.mul_le_mono_l. nia. }
  specialize (B n ltac:(lia)). assert (PM : 0 < M) by (unfold M; lia).
  apply (Nat.mul_le_mono_pos_l _ _ M PM). remember (S M ^ n) as A. remember (M ^ n) as C0. nia.
Qed.

Lemma pow_two_recs M t A B n : 0 < M -> NoDup (A ++ B) -> (forall w, In w (A ++ B) -> w < t) -> length A + length B <= n -> 2 * n <= M ->
  2 * total (fun ps => 2 ^ (recs [] (pick ps A) + recs [] (pick ps B))) (draws M t) <= M ^ t * (n + 2) ^ 2.
Proof.
  intros PM D L Ln LM. pose proof (filter_rest_length _ t D L) as [_ Lt].
  rewrite (total_ext _ (fun ps => (fun l => 2 ^ recs [] (firstn (length A) l) * 2 ^ recs [] (skipn (length A) l)) (pick ps (A ++ B)))).
  2: { intros ps _. rewrite Nat.pow_add_r. unfold pick. rewrite map_app, firstn_app, skipn_app, map_length, Nat.sub_diag.
       rewrite firstn_all2, skipn_all2 by now rewrite map_length. simpl. now rewrite app_nil_r. }
  rewrite (pick_total M t (A ++ B) (fun l => 2 ^ recs [] (firstn (length A) l) * 2 ^ recs [] (skipn (length A) l)) D L). rewrite app_length in *.
  rewrite (total_draws_app M (length A) (length B) (fun l => 2 ^ recs [] l) (fun l => 2 ^ recs [] l)).
  pose proof (pow_recs M (length A) PM) as PA. pose proof (pow_recs M (length B) PM) as PB.
  remember (length A) as a. remember (length B) as b.
  set (ta := total _ (draws M a)) in *. set (tb := total _ (draws M b)) in *. clearbody ta tb.
  assert (P1 : ta * tb <= S M ^ (a + b) * (S a * S b)) by (rewrite Nat.pow_add_r; nia).
  pose proof (pow_near M (a + b) ltac:(lia)) as P2.
  assert (P3 : 4 * (S a * S b) <= (n + 2) ^ 2).
  { apply Nat.le_trans with ((a + b + 2) ^ 2); [|apply Nat.pow_le_mono_l; lia]. rewrite Nat.pow_2_r. clear.
    destruct (Nat.le_ge_cases a b) as [L|L]; [replace b with (a + (b - a)) by lia; generalize (b - a) | replace a with (b + (a - b)) by lia; generalize (a - b)]; intros; nia. }
  replace (M ^ t) with (M ^ (t - (a + b)) * M ^ (a + b)) by (rewrite <- Nat.pow_add_r; f_equal; lia).
  set (X := M ^ (t - (a + b))). set (Y := M ^ (a + b)) in *. set (Z0 := S M ^ (a + b)) in *. set (Q := (n + 2) ^ 2) in *. clearbody X Y Z0 Q.
  set (k := S a * S b) in *. set (T := ta * tb) in *. clearbody k T.
  assert (T <= 2 * Y * k) by nia. assert (2 * T <= Y * Q) by nia. nia.
Qed.

(** ** Rare events *)
Lemma count_total {X} (p : X -> bool) l : length (filter p l) = total (fun x => b2n (p x)) l.
Proof. induction l as [|x l IH]; [reflexivity|]. rewrite total_cons, <- IH. simpl. destruct (p x); reflexivity. Qed.

Lemma markov {X} (f : X -> nat) b l : 2 ^ S b * length (filter (fun x => b <? f x) l) <= total (fun x => 2 ^ f x) l.
Proof.
  rewrite count_total, <- total_mul. apply total_le. intros x _. destruct (Nat.ltb_spec b (f x)) as [L|_]; cbn [b2n]; [|lia].
  rewrite Nat.mul_1_r. apply Nat.pow_le_mono_r; lia.
Qed.

Lemma square_log n : 0 < n -> n ^ 2 <= 2 ^ (2 * Nat.log2 n + 2).
Proof.
  intros P. destruct (Nat.log2_spec n P) as [_ U]. replace (2 * Nat.log2 n + 2) with (S (Nat.log2 n) * 2) by lia. rewrite Nat.pow_mul_r.
  apply Nat.pow_le_mono_l. lia.
Qed.

Lemma two_recs_rare M t A B n s : 0 < M -> NoDup (A ++ B) -> (forall w, In w (A ++ B) -> w < t) -> length A + length B <= n -> 2 * n <= M ->
  rarely_above M t s (2 * Nat.log2 (n + 2) + s) (fun ps => recs [] (pick ps A) + recs [] (pick ps B)).
Proof.
  intros PM D L Ln LM. unfold rarely_above. pose proof (pow_two_recs M t A B n PM D L Ln LM) as P.
  pose proof (markov (fun ps => recs [] (pick ps A) + recs [] (pick ps B)) (2 * Nat.log2 (n + 2) + s) (draws M t)) as Q. cbv beta in Q.
  set (c := length _) in *. clearbody c. set (T := total _ _) in *. clearbody T. pose proof (square_log (n + 2) ltac:(lia)) as R.
  replace (2 ^ S (2 * Nat.log2 (n + 2) + s)) with (2 ^ (2 * Nat.log2 (n + 2) + 1) * 2 ^ s) in Q by (rewrite <- Nat.pow_add_r; f_equal; lia).
  replace (2 ^ (2 * Nat.log2 (n + 2) + 2)) with (2 * 2 ^ (2 * Nat.log2 (n + 2) + 1)) in R by (rewrite <- Nat.pow_succ_r'; f_equal; lia).
  assert (0 < 2 ^ (2 * Nat.log2 (n + 2) + 1)) by (apply Nat.neq_0_lt_0, Nat.pow_nonzero; lia).
  set (E := 2 ^ (2 * Nat.log2 (n + 2) + 1)) in *. set (G := 2 ^ s) in *. set (X := M ^ t) in *. set (Y := (n + 2) ^ 2) in *. clearbody E G X Y.
  rewrite <- Nat.mul_assoc in Q. set (u := G * c) in *. clearbody u. assert (X * Y <= X * (2 * E)) by now apply Nat.mul_le_mono_l.
  apply (Nat.mul_le_mono_pos_l _ _ E); lia.
Qed.

Lemma rare_le M t s b b' f g : (forall ps, In ps (draws M t) -> b' < g ps -> b < f ps) -> rarely_above M t s b f -> rarely_above M t s b' g.
Proof.
  unfold rarely_above. intros E R. eapply Nat.le_trans; [|exact R]. apply Nat.mul_le_mono_l. rewrite !count_total. apply total_le.
  intros ps i. specialize (E ps i). destruct (Nat.ltb_spec b' (g ps)); [|simpl; lia]. destruct (Nat.ltb_spec b (f ps)); [simpl; lia | lia].
Qed.

Lemma rare_sum {X} M t s b (f : X -> list N -> nat) l : (forall x, In x l -> rarely_above M t (s + Nat.log2_up (length l)) b (f x)) ->
  rarely_above M t s (length l * b) (fun ps => total (fun x => f x ps) l).
Proof.
  unfold rarely_above. intros R. destruct l as [|x0 l0] eqn:El.
  - rewrite count_total, (total_ext _ (fun _ => 0)) by reflexivity. rewrite total_const. lia.
  - rewrite <- El in *. assert (Pl : 0 < length l) by (subst; simpl; lia). clear x0 l0 El.
    assert (S1 : length (filter (fun ps => length l * b <? total (fun x => f x ps) l) (draws M t)) <= total (fun x => length (filter (fun ps => b <? f x ps) (draws M t))) l).
    { rewrite count_total. rewrite (total_ext (fun x => length _) (fun x => total (fun ps => b2n (b <? f x ps)) (draws M t))) by (intros; apply count_total).
      rewrite total_swap. apply total_le. intros ps _. destruct (Nat.ltb_spec (length l * b) (total (fun x => f x ps) l)) as [L|]; [|simpl; lia].
      cbn [b2n]. clear R Pl. induction l as [|x l IH]; [unfold total in L; simpl in L; lia|]. rewrite total_cons in *. cbn [length] in L.
      destruct (Nat.ltb_spec b (f x ps)); [simpl; lia|]. simpl b2n. apply IH. nia. }
    assert (S2 : 2 ^ (s + Nat.log2_up (length l)) * total (fun x => length (filter (fun ps => b <? f x ps) (draws M t))) l <= length l * M ^ t).
    { rewrite <- total_mul, <- total_const. apply total_le. exact R. }
    assert (U : length l <= 2 ^ Nat.log2_up (length l)).
    { destruct (length l) as [|[|k]]; [lia|simpl; lia|]. apply Nat.log2_up_spec. lia. }
    rewrite Nat.pow_add_r in S2. set (c := length (filter _ _)) in *. set (T := total _ l) in *. set (G := 2 ^ Nat.log2_up (length l)) in *. set (H0 := 2 ^ s) in *. set (X0 := M ^ t) in *.
    clearbody c T G H0 X0. assert (length l * X0 <= G * X0) by now apply Nat.mul_le_mono_r.
    assert (H0 * G * c <= H0 * G * T) by now apply Nat.mul_le_mono_l. apply (Nat.mul_le_mono_pos_l _ _ G); lia.
Qed.
(** The largest of several *)
Lemma rare_any {X} M t s b (f : X -> list N -> nat) (g : list N -> nat) l : (forall x, In x l -> rarely_above M t (s + Nat.log2_up (length l)) b (f x)) ->
  (forall ps, In ps (draws M t) -> b < g ps -> exists x, In x l /\ b < f x ps) -> rarely_above M t s b g.
Proof.
  intros R E. apply (rare_le M t s (length l * 0) b (fun ps => total (fun x => b2n (b <? f x ps)) l) g).
  - intros ps i L. destruct (E ps i L) as (x & ix & Lx). pose proof (total_pos (fun x => b2n (b <? f x ps)) x l ix) as P. cbv beta in P.
    apply Nat.ltb_lt in Lx. rewrite Lx in P. simpl in P. lia.
  - apply (rare_sum M t s 0 (fun x ps => b2n (b <? f x ps))). intros x i. eapply rare_le; [|exact (R x i)]. cbv beta. intros ps _ L.
    destruct (Nat.ltb_spec b (f x ps)); [easy | simpl in L; lia].
Qed.

(** The average of what is rarely above *)
Lemma rare_average M t b f : (forall s, rarely_above M t s (b + s) f) -> average_within M t (b + 2) 0 f.
Proof.
  intros R. unfold average_within. rewrite Nat.add_0_r.
  assert (T : total f (draws M t) <= M ^ t * (b + 2)); [|nia].
  assert (E : exists n, forall ps, In ps (draws M t) -> f ps <= b + n).
  { exists (total f (draws M t)). intros ps i. pose proof (total_pos f ps _ i). lia. }
  destruct E as (n & E). rewrite Nat.mul_add_distr_l.
  assert (S1 : total f (draws M t) <= M ^ t * b + total (fun s => length (filter (fun ps => b + s <? f ps) (draws M t))) (seq 0 n)).
  { rewrite (total_ext (fun s => length _) (fun s => total (fun ps => b2n (b + s <? f ps)) (draws M t))) by (intros; apply count_total).
    rewrite <- total_swap. rewrite <- draws_length, <- total_const, <- total_plus. apply total_le. intros ps i. specialize (E ps i).
    assert (Q : forall k, f ps <= b + k -> f ps <= b + total (fun s => b2n (b + s <? f ps)) (seq 0 k)).
    { intros k Lk. assert (G : forall k, Nat.min (f ps - b) k <= total (fun s => b2n (b + s <? f ps)) (seq 0 k)).
      { clear. induction k as [|k IH]; [lia|]. rewrite seq_S, total_app. cbn [Nat.add]. unfold total at 2. simpl.
        destruct (Nat.ltb_spec (b + k) (f ps)); simpl; lia. }
      specialize (G k). lia. }
    now apply Q. }
  assert (S2 : forall n, 2 ^ n * total (fun s => length (filter (fun ps => b + s <? f ps) (draws M t))) (seq 0 n) <= M ^ t * 2 * (2 ^ n - 1)).
  { clear S1 E n. induction n as [|n IH]; [simpl; lia|]. rewrite seq_S, total_app. cbn [Nat.add]. unfold total at 2. cbn [map list_sum fold_right].
    specialize (R n). unfold rarely_above in R. cbn [Nat.pow]. assert (0 < 2 ^ n) by (apply Nat.neq_0_lt_0, Nat.pow_nonzero; lia).
    set (c := length _) in *. set (A := 2 ^ n) in *. set (T := total _ (seq 0 n)) in *. set (X := M ^ t) in *. clearbody c A T X. 
    replace (list_sum [c]) with c by (simpl; lia). nia. }
  specialize (S2 n). assert (0 < 2 ^ n) by (apply Nat.neq_0_lt_0, Nat.pow_nonzero; lia).
  set (T := total _ (seq 0 n)) in *. set (A := 2 ^ n) in *. set (X := M ^ t) in *. clearbody T A X. assert (T <= X * 2) by nia. lia.
Qed.
