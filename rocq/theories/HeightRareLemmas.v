(** How often the heights of nodes make searches long.  Used for C84. *)
From Verif Require Export HeightLemmas RareSpec RareLemmas.
From Coq Require Import Lia.

Lemma two_pos k : 0 < 2 ^ k.
Proof. apply Nat.neq_0_lt_0, Nat.pow_nonzero. lia. Qed.

(** Powers of 3/2, times a power of 2 *)
Definition wgt (n p : nat) : nat := 3 ^ p * 2 ^ (n - p).
Lemma wgt_up n p : wgt (S n) (S p) = 3 * wgt n p.
Proof. unfold wgt. cbn [Nat.sub]. rewrite Nat.pow_succ_r'. lia. Qed.
Lemma wgt_same n p : p <= n -> wgt (S n) p = 2 * wgt n p.
Proof. intros L. unfold wgt. replace (S n - p) with (S (n - p)) by lia. rewrite Nat.pow_succ_r'. lia. Qed.
Lemma wgt_add n p m q : p <= n -> q <= m -> wgt (n + m) (p + q) = wgt n p * wgt m q.
Proof. intros L1 L2. unfold wgt. replace (n + m - (p + q)) with ((n - p) + (m - q)) by lia. rewrite !Nat.pow_add_r. lia. Qed.
Lemma three_pow k : 2 ^ (3 * k) <= 3 ^ (2 * k).
Proof. rewrite !Nat.pow_mul_r. apply Nat.pow_le_mono_l. simpl. lia. Qed.
Lemma wgt_large n k p : 2 * k <= p -> p <= n -> 2 ^ n * 2 ^ k <= wgt n p.
Proof.
  intros L1 L2. unfold wgt. replace p with (2 * k + (p - 2 * k)) at 1 by lia. set (r := p - 2 * k).
  replace n with (2 * k + (r + (n - p))) at 1 by lia. rewrite !Nat.pow_add_r.
  pose proof (three_pow k) as T. replace (3 * k) with (2 * k + k) in T by lia. rewrite Nat.pow_add_r in T.
  assert (T2 : 2 ^ r <= 3 ^ r) by (apply Nat.pow_le_mono_l; lia).
  set (A := 2 ^ (2 * k)) in *. set (B := 2 ^ k) in *. set (D := 3 ^ (2 * k)) in *. set (X := 2 ^ r) in *. set (Y := 3 ^ r) in *. set (W := 2 ^ (n - p)) in *.
  clearbody A B D X Y W. replace (A * (X * W) * B) with (A * B * (X * W)) by lia. replace (D * Y * W) with (D * (Y * W)) by lia.
  apply Nat.mul_le_mono; [exact T|]. now apply Nat.mul_le_mono_r.
Qed.
(** From an average of powers to a bound that is rarely exceeded *)
Lemma wgt_rare {X} n k j Y (f : X -> nat) (l : list X) : (forall x, In x l -> f x <= n) -> total (fun x => wgt n (f x)) l <= 2 ^ k * (2 ^ n * Y) ->
  2 ^ j * length (filter (fun x => 2 * (k + j) <? f x) l) <= Y.
Proof.
  intros L T. rewrite count_total. pose proof (two_pos (n + k)) as P. apply (Nat.mul_le_mono_pos_l _ _ (2 ^ (n + k)) P).
  rewrite (Nat.pow_add_r 2 n k) at 2. eapply Nat.le_trans; [|replace (2 ^ n * 2 ^ k * Y) with (2 ^ k * (2 ^ n * Y)) by lia; exact T].
  rewrite Nat.mul_assoc, <- total_mul. apply total_le. intros x i. destruct (Nat.ltb_spec (2 * (k + j)) (f x)) as [Lx|_]; cbn [b2n]; [|lia].
  rewrite Nat.mul_1_r, <- Nat.pow_add_r, <- Nat.add_assoc, Nat.pow_add_r. apply wgt_large; [lia | auto].
Qed.

Lemma pow_near_by c a : forall n, 2 * (n * c) <= a -> (a + c) ^ n <= 2 * a ^ n.
Proof.
  intros n L. destruct a as [|a0].
  { destruct n as [|n]; [simpl; lia|]. destruct c; [simpl; lia | lia]. }
  set (a := S a0) in *.
  assert (B : forall n, n * c <= a -> (a + c) ^ n * (a - n * c) <= a * a ^ n).
  { induction n0 as [|n0 IH]; intros L0; [simpl; lia|]. specialize (IH ltac:(lia)). rewrite !Nat.pow_succ_r'.
    apply (Nat.mul_le_mono_l _ _ a) in IH. eapply Nat.le_trans; [|exact IH].
    replace ((a + c) * (a + c) ^ n0 * (a - S n0 * c)) with ((a + c) ^ n0 * ((a + c) * (a - S n0 * c))) by lia.
    replace (a * ((a + c) ^ n0 * (a - n0 * c))) with ((a + c) ^ n0 * (a * (a - n0 * c))) by lia. apply Nat.mul_le_mono_l.
    cbn [Nat.mul] in *. set (y := n0 * c) in *. clearbody y. assert (E : exists z, a = c + y + z) by (exists (a - (c + y)); lia). destruct E as (z & ->).
    replace (c + y + z - (c + y)) with z by lia. replace (c + y + z - y) with (c + z) by lia. nia. }
  specialize (B n ltac:(lia)). assert (Pa : 0 < a) by (unfold a; lia).
  apply (Nat.mul_le_mono_pos_l _ _ a Pa). remember ((a + c) ^ n) as A. remember (a ^ n) as C0. remember (n * c) as y. nia.
Qed.

(** ** Passed nodes *)
(** The nodes that a search passes, once it is on level [m] *)
Fixpoint passed_from (s m : nat) (l : list nat) : nat :=
  match l with [] => 0 | h :: l' => if h <? m then passed_from s m l' else S (passed_from s (Nat.min h s) l') end.
Lemma passed_from_length s l : forall m, passed_from s m l <= length l.
Proof. induction l as [|h l IH]; intros m; simpl; [lia|]. destruct (h <? m); [specialize (IH m) | specialize (IH (Nat.min h s))]; lia. Qed.
Lemma passes_from s l : forall m, m <= s -> tall s l + total (fun i => run_at i l) (seq m (s - m)) = passed_from s m l.
Proof.
  induction l as [|h l IH]; intros m Lm.
  - simpl. rewrite total_const. lia.
  - cbn [passed_from]. rewrite tall_cons. destruct (Nat.ltb_spec h m) as [Lh|Lh].
    + rewrite <- (IH m Lm). destruct (Nat.leb_spec s h); [lia|]. cbn [b2n Nat.add]. f_equal. apply total_ext. intros i ii. apply in_seq in ii.
      cbn [run_at]. destruct (Nat.ltb_spec i h); [lia|]. destruct (Nat.eqb_spec h i); [lia|reflexivity].
    + rewrite <- (IH (Nat.min h s) ltac:(lia)). destruct (Nat.leb_spec s h) as [Ls|Ls]; cbn [b2n].
      * replace (Nat.min h s) with s by lia. rewrite Nat.sub_diag. cbn [seq]. rewrite (total_ext _ (fun _ => 0)).
        -- rewrite total_const. unfold total. simpl. lia.
        -- intros i ii. apply in_seq in ii. cbn [run_at]. destruct (Nat.ltb_spec i h); [reflexivity|lia].
      * replace (Nat.min h s) with h by lia. replace (s - m) with ((h - m) + S (s - S h)) by lia. rewrite seq_app, total_app.
        replace (m + (h - m)) with h by lia. cbn [seq]. rewrite total_cons. replace (s - h) with (S (s - S h)) by lia. cbn [seq]. rewrite total_cons.
        rewrite (total_ext (fun i => run_at i (h :: l)) (fun _ => 0) (seq m (h - m))).
        2: { intros i ii. apply in_seq in ii. cbn [run_at]. destruct (Nat.ltb_spec i h); [reflexivity|lia]. }
        rewrite total_const. rewrite (total_ext (fun i => run_at i (h :: l)) (fun i => run_at i l) (seq (S h) (s - S h))).
        2: { intros i ii. apply in_seq in ii. cbn [run_at]. destruct (Nat.ltb_spec i h); [lia|]. destruct (Nat.eqb_spec h i); [lia|reflexivity]. }
        cbn [run_at]. rewrite Nat.ltb_irrefl, Nat.eqb_refl. cbn [b2n]. lia.
Qed.
Lemma passes_passed_from s l : passes s l = passed_from s 0 l.
Proof. rewrite <- passes_from by lia. now rewrite Nat.sub_0_r. Qed.

Section Heights.
  Variables (M top : nat) (hgt : N -> nat).
  Hypothesis half : forall h, h <= top -> 2 ^ h * card M (fun x => h <=? hgt x) = M.
  Hypothesis hgt_le : forall x, hgt x <= top.

  Notation cd h := (card M (fun x => h <=? hgt x)).
  Lemma cd_next h : h < top -> cd h = 2 * cd (S h).
  Proof.
    intros L. pose proof (half h ltac:(lia)) as A. pose proof (half (S h) ltac:(lia)) as B. rewrite Nat.pow_succ_r' in B. pose proof (two_pos h).
    apply (Nat.mul_cancel_l _ _ (2 ^ h)); lia.
  Qed.

  (** The weight of a search from level [m] *)
  Definition pw (s m n : nat) : nat := total (fun vs => wgt n (passed_from s m (map hgt vs))) (draws M n).
  Lemma pw_S s m n : pw s m (S n) = total (fun x => if hgt x <? m then 2 * pw s m n else 3 * pw s (Nat.min (hgt x) s) n) (numbers M).
  Proof.
    unfold pw. rewrite total_draws_S. apply total_ext. intros x _. destruct (hgt x <? m) eqn:E.
    - rewrite <- total_mul. apply total_ext. intros vs iv. apply draws_in in iv as [Ev _]. cbn [map passed_from]. rewrite E. apply wgt_same.
      pose proof (passed_from_length s (map hgt vs) m) as P. rewrite map_length in P. lia.
    - rewrite <- total_mul. apply total_ext. intros vs _. cbn [map passed_from]. rewrite E. apply wgt_up.
  Qed.
  (** Sums over numbers, by height *)
  Definition lev (s m d : nat) (w : nat -> nat) (x : N) : nat := if hgt x <? m then d else w (Nat.min (hgt x) s).
  Lemma total_lev s m d (w : nat -> nat) : s <= top -> m <= s ->
    total (lev s m d w) (numbers M) + d * cd m = d * M + total (fun i => w i * cd (S i)) (seq m (s - m)) + w s * cd s.
  Proof.
    intros Ls Lm. remember (s - m) as k eqn:Ek. revert m Lm Ek. induction k as [|k IH]; intros m Lm Ek.
    - assert (m = s) by lia. subst m. simpl seq. unfold total at 2. simpl. unfold card.
      rewrite <- !total_mul, <- total_plus. rewrite Nat.add_0_r.
      replace (d * M) with (total (fun _ => d) (numbers M)) by (rewrite total_const, numbers_length; lia). rewrite <- total_plus.
      apply total_ext. intros x _. unfold lev. destruct (Nat.ltb_spec (hgt x) s), (Nat.leb_spec s (hgt x)); simpl; try lia.
      replace (Nat.min (hgt x) s) with s by lia. lia.
    - specialize (IH (S m) ltac:(lia) ltac:(lia)). cbn [seq]. rewrite total_cons.
      assert (E : total (lev s m d w) (numbers M) + d * cd m = total (lev s (S m) d w) (numbers M) + d * cd (S m) + w m * (cd m - cd (S m))).
      { pose proof (cd_next m ltac:(lia)) as Ec. replace (cd m - cd (S m)) with (card M (fun x => hgt x =? m)).
        2: { assert (card M (fun x => hgt x =? m) + cd (S m) = cd m); [|lia]. unfold card. rewrite <- total_plus. apply total_ext. intros x _.
             destruct (Nat.eqb_spec (hgt x) m), (Nat.leb_spec (S m) (hgt x)), (Nat.leb_spec m (hgt x)); simpl; lia. }
        unfold card. rewrite <- !total_mul, <- !total_plus. apply total_ext. intros x _. unfold lev.
        destruct (Nat.ltb_spec (hgt x) m), (Nat.ltb_spec (hgt x) (S m)), (Nat.leb_spec m (hgt x)), (Nat.leb_spec (S m) (hgt x)), (Nat.eqb_spec (hgt x) m); simpl; try lia.
        replace (Nat.min (hgt x) s) with m by lia. lia. }
      rewrite E. pose proof (cd_next m ltac:(lia)) as Ec. replace (cd m - cd (S m)) with (cd (S m)) by lia. lia.
  Qed.

  Lemma four_sum c s m : m <= s -> s <= top -> c = cd s -> 3 * total (fun i => 2 ^ (s - i) * cd (S i)) (seq m (s - m)) + 2 * c = 2 * (2 ^ (s - m) * cd m).
  Proof.
    intros Lm Ls ->. remember (s - m) as k eqn:Ek. revert m Lm Ek. induction k as [|k IH]; intros m Lm Ek.
    - replace m with s by lia. unfold total. simpl. lia.
    - specialize (IH (S m) ltac:(lia) ltac:(lia)). cbn [seq]. rewrite total_cons. rewrite (cd_next m ltac:(lia)). rewrite <- Ek. rewrite Nat.pow_succ_r'.
      set (T := total _ _) in *. clearbody T. lia.
  Qed.

  Lemma pw_bound s n : s <= top -> forall m, m <= s -> pw s m n <= 2 ^ (s - m) * (2 * M + cd s) ^ n.
  Proof.
    intros Ls. induction n as [|n IH]; intros m Lm.
    - unfold pw, total. simpl. pose proof (two_pos (s - m)). unfold wgt. simpl. lia.
    - rewrite pw_S. set (B := (2 * M + cd s) ^ n) in *.
      eapply Nat.le_trans.
      { apply total_le with (g := fun x => B * lev s m (2 * 2 ^ (s - m)) (fun i => 3 * 2 ^ (s - i)) x). intros x _. unfold lev.
        destruct (Nat.ltb_spec (hgt x) m) as [L|L].
        - specialize (IH m Lm). lia.
        - specialize (IH (Nat.min (hgt x) s) ltac:(lia)). lia. }
      rewrite total_mul, Nat.pow_succ_r'. fold B. rewrite (Nat.mul_comm (2 * M + cd s) B), Nat.mul_assoc, (Nat.mul_comm (2 ^ (s - m)) B), <- Nat.mul_assoc.
      apply Nat.mul_le_mono_l. pose proof (total_lev s m (2 * 2 ^ (s - m)) (fun i => 3 * 2 ^ (s - i)) Ls Lm) as T.
      pose proof (four_sum (cd s) s m Lm Ls eq_refl) as F.
      rewrite (total_ext (fun i => 3 * 2 ^ (s - i) * cd (S i)) (fun i => 3 * (2 ^ (s - i) * cd (S i)))) in T by (intros; lia). rewrite total_mul in T.
      rewrite Nat.sub_diag in T. cbn [Nat.pow] in T. pose proof (two_pos (s - m)).
      set (X := total (lev _ _ _ _) _) in *. set (Y := total _ (seq m _)) in *. set (A := 2 ^ (s - m)) in *. set (c := cd s) in *. set (e := cd m) in *. clearbody X Y A c e. clear -T F H.
      assert (c <= A * c) by nia. lia.
  Qed.
  Lemma passed_weight s n : s <= top -> n <= 2 ^ s -> total (fun vs => wgt n (passes s (map hgt vs))) (draws M n) <= 2 ^ S s * (2 ^ n * M ^ n).
  Proof.
    intros Ls Ln. rewrite (total_ext _ (fun vs => wgt n (passed_from s 0 (map hgt vs)))) by (intros; now rewrite passes_passed_from).
    pose proof (pw_bound s n Ls 0 ltac:(lia)) as P. unfold pw in P. rewrite Nat.sub_0_r in P.
    pose proof (half s Ls) as Hs. assert (Q : 2 * (n * cd s) <= 2 * M).
    { apply Nat.mul_le_mono_l. rewrite <- Hs at 2. now apply Nat.mul_le_mono_r. }
    apply pow_near_by in Q. rewrite Nat.pow_mul_l in Q. rewrite Nat.pow_succ_r'. set (A := 2 ^ s) in *. set (T := total _ _) in *. clearbody T.
    eapply Nat.le_trans; [exact P|]. replace (2 * A * (2 ^ n * M ^ n)) with (A * (2 * (2 ^ n * M ^ n))) by lia. apply Nat.mul_le_mono_l. exact Q.
  Qed.
  Lemma passed_rare s n j : s <= top -> n <= 2 ^ s ->
    2 ^ j * length (filter (fun vs => 2 * (S s + j) <? passes s (map hgt vs)) (draws M n)) <= M ^ n.
  Proof.
    intros Ls Ln. apply (wgt_rare n (S s) j (M ^ n) (fun vs => passes s (map hgt vs))).
    - intros vs iv. apply draws_in in iv as [Ev _]. rewrite passes_passed_from. pose proof (passed_from_length s (map hgt vs) 0) as P. rewrite map_length in P. lia.
    - now apply passed_weight.
  Qed.

  (** ** Sums of heights *)
  Lemma height_weight : forall k, k <= top -> 2 ^ k * total (fun x => wgt k (Nat.min (hgt x) k)) (numbers M) + 3 ^ k * M = 2 * (2 ^ k * 2 ^ k) * M.
  Proof.
    induction k as [|k IH]; intros Lk.
    - rewrite (total_ext _ (fun _ => 1)) by (intros; now rewrite Nat.min_0_r). rewrite total_const, numbers_length. simpl. lia.
    - specialize (IH ltac:(lia)).
      assert (E : total (fun x => wgt (S k) (Nat.min (hgt x) (S k))) (numbers M) = 2 * total (fun x => wgt k (Nat.min (hgt x) k)) (numbers M) + 3 ^ k * cd (S k)).
      { unfold card. rewrite <- !total_mul, <- total_plus. apply total_ext. intros x _. destruct (Nat.leb_spec (S k) (hgt x)); cbn [b2n].
        - replace (Nat.min (hgt x) (S k)) with (S k) by lia. replace (Nat.min (hgt x) k) with k by lia. rewrite wgt_up. unfold wgt. rewrite Nat.sub_diag. simpl. lia.
        - replace (Nat.min (hgt x) (S k)) with (Nat.min (hgt x) k) by lia. rewrite wgt_same by lia. lia. }
      rewrite E. pose proof (half (S k) Lk) as Hc. rewrite !Nat.pow_succ_r' in *. set (T := total _ _) in *. set (A := 2 ^ k) in *. set (B := 3 ^ k) in *. set (c := cd (S k)) in *. clearbody T A B c.
      nia.
  Qed.
  Lemma height_weight_top : total (fun x => wgt top (hgt x)) (numbers M) <= 2 * (2 ^ top * M).
  Proof.
    pose proof (height_weight top (le_n top)) as P. rewrite (total_ext _ (fun x => wgt top (hgt x))) in P.
    2: { intros x _. now rewrite Nat.min_l. }
    apply (Nat.mul_le_mono_pos_l _ _ (2 ^ top) (two_pos top)). lia.
  Qed.
  Lemma heights_weight n : total (fun vs => wgt (n * top) (total hgt vs)) (draws M n) <= 2 ^ n * (2 ^ (n * top) * M ^ n).
  Proof.
    induction n as [|n IH]; [unfold total; simpl; lia|]. rewrite total_draws_S.
    rewrite (total_ext _ (fun x => total (fun vs => wgt (n * top) (total hgt vs)) (draws M n) * wgt top (hgt x))).
    - rewrite total_mul. pose proof height_weight_top as P. cbn [Nat.mul]. rewrite Nat.pow_add_r. rewrite !Nat.pow_succ_r'.
      set (T := total _ (draws M n)) in *. set (U := total _ (numbers M)) in *. set (A := 2 ^ n) in *. set (B := 2 ^ (n * top)) in *. set (D := 2 ^ top) in *. set (Y := M ^ n) in *. clearbody T U A B D Y.
      replace (2 * A * (D * B * (M * Y))) with (A * (B * Y) * (2 * (D * M))) by lia. now apply Nat.mul_le_mono.
    - intros x _. rewrite (Nat.mul_comm _ (wgt top (hgt x))), <- total_mul. apply total_ext. intros vs iv. apply draws_in in iv as [Ev _]. rewrite total_cons. cbn [Nat.mul].
      apply wgt_add; [apply hgt_le|]. rewrite <- Ev. clear Ev. induction vs as [|v vs IHv]; [unfold total; simpl; lia|]. rewrite total_cons. cbn [length Nat.mul]. pose proof (hgt_le v). lia.
  Qed.
  Lemma heights_rare n j : 2 ^ j * length (filter (fun vs => 2 * (n + j) <? total hgt vs) (draws M n)) <= M ^ n.
  Proof.
    apply (wgt_rare (n * top) n j (M ^ n) (total hgt)); [|apply heights_weight].
    intros vs iv. apply draws_in in iv as [Ev _]. rewrite <- Ev. clear Ev. induction vs as [|v vs IHv]; [unfold total; simpl; lia|].
    rewrite total_cons. cbn [length Nat.mul]. pose proof (hgt_le v). lia.
  Qed.
End Heights.

(** ** The heights drawn at some places *)
Lemma places_rare M t W j b (f : list N -> nat) : NoDup W -> (forall w, In w W -> w < t) ->
  2 ^ j * length (filter (fun vs => b <? f vs) (draws M (length W))) <= M ^ length W -> rarely_above M t j b (fun ps => f (pick ps W)).
Proof.
  intros D L R. unfold rarely_above. rewrite count_total in *. rewrite (pick_total M t W (fun vs => b2n (b <? f vs)) D L).
  destruct (filter_rest_length W t D L) as [_ Lw].
  replace (M ^ t) with (M ^ (t - length W) * M ^ length W) by (rewrite <- Nat.pow_add_r; f_equal; lia).
  rewrite Nat.mul_assoc, (Nat.mul_comm (2 ^ j)), <- Nat.mul_assoc. now apply Nat.mul_le_mono_l.
Qed.

Section U32.
  Variable M : nat.
  Hypothesis EM : N.of_nat M = two32.
  Lemma half_u32 h : h <= 32 -> 2 ^ h * card M (fun x => h <=? height_of x) = M.
  Proof.
    intros Lh. pose proof (card_tall M EM h Lh) as A. apply (f_equal (N.mul (2 ^ N.of_nat h))) in A. rewrite <- N.pow_add_r in A.
    replace (N.of_nat h + N.of_nat (32 - h))%N with 32%N in A by lia. change (2 ^ 32)%N with two32 in A. rewrite <- EM in A.
    assert (E : N.of_nat (2 ^ h) = (2 ^ N.of_nat h)%N) by (rewrite Nat2N.inj_pow; reflexivity).
    rewrite <- E in A. lia.
  Qed.
  Lemma passes_rare t W s j : NoDup W -> (forall w, In w W -> w < t) -> s <= 32 -> length W <= 2 ^ s ->
    rarely_above M t j (2 * (S s + j)) (fun ps => passes s (map (fun d => height_of (nth d ps 0%N)) W)).
  Proof.
    intros D L Ls Ln. pose proof (places_rare M t W j (2 * (S s + j)) (fun vs => passes s (map height_of vs)) D L) as P.
    eapply rare_le; [|apply P; now apply (passed_rare M 32 height_of half_u32)]. intros ps _. cbv beta. unfold pick. rewrite map_map. easy.
  Qed.
  Lemma sum_rare t W j : NoDup W -> (forall w, In w W -> w < t) ->
    rarely_above M t j (2 * (length W + j)) (fun ps => total (fun d => height_of (nth d ps 0%N)) W).
  Proof.
    intros D L. pose proof (places_rare M t W j (2 * (length W + j)) (total height_of) D L) as P.
    eapply rare_le; [|apply P; apply (heights_rare M 32 height_of half_u32 (fun x => Nat.le_sub_l 32 _))]. intros ps _. cbv beta. unfold pick. rewrite total_map. easy.
  Qed.
End U32.
