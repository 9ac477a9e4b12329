(** Heights of skip list nodes over random numbers: how many nodes a search passes on each level, on average. *)
From Coq Require Import Permutation.
From Verif Require Export RandomLemmas SkipHeap.

(** ** The numbers at distinct places of a random sequence are a random sequence. *)
Definition at_places (idx : list nat) (ps : list N) : list N := map (fun d => nth d ps 0%N) idx.

Lemma numbers_pick M a (c : nat) : In a (numbers M) -> total (fun x => if N.eq_dec a x then c else 0) (numbers M) = c.
Proof.
  unfold numbers. rewrite in_map_iff. intros (n & <- & i). rewrite total_map. apply in_seq in i as [_ i]. simpl in i.
  rewrite (total_ext _ (fun x => if x =? n then c else 0)).
  - assert (G : forall m b, total (fun x => if x =? n then c else 0) (seq b m) = if (b <=? n) && (n <? b + m) then c else 0).
    { induction m as [|m IH]; intros b; cbn [seq].
      - unfold total. simpl. destruct (Nat.leb_spec b n), (Nat.ltb_spec n (b + 0)); auto; lia.
      - rewrite total_cons, IH. destruct (Nat.eqb_spec b n), (Nat.leb_spec (S b) n), (Nat.ltb_spec n (S b + m)), (Nat.leb_spec b n), (Nat.ltb_spec n (b + S m)); simpl; lia. }
    rewrite G. destruct (Nat.leb_spec 0 n), (Nat.ltb_spec n (0 + M)); simpl; lia.
  - intros x _. destruct (N.eq_dec (N.of_nat n) (N.of_nat x)), (Nat.eqb_spec x n); auto; lia.
Qed.
Lemma draws_pick M (f : list N -> nat) : forall t u, In u (draws M t) ->
  total (fun v => if list_eq_dec N.eq_dec u v then f v else 0) (draws M t) = f u.
Proof.
  intros t. revert f. induction t as [|t IH]; intros f u i.
  - destruct i as [<-|[]]. unfold total. simpl. lia.
  - cbn [draws] in *. apply in_flat_map in i as (a & ia & i). apply in_map_iff in i as (u' & <- & i).
    rewrite total_flat_map. rewrite (total_ext _ (fun x => if N.eq_dec a x then f (a :: u') else 0)).
    + now apply numbers_pick.
    + intros x _. rewrite total_map. destruct (N.eq_dec a x) as [<-|Nx].
      * rewrite (total_ext _ (fun v => if list_eq_dec N.eq_dec u' v then f (a :: v) else 0)); [now apply (IH (fun v => f (a :: v)))|].
        intros v _. destruct (list_eq_dec N.eq_dec (a :: u') (a :: v)), (list_eq_dec N.eq_dec u' v); congruence.
      * rewrite (total_ext _ (fun _ => 0)); [rewrite total_const; lia|].
        intros v _. destruct (list_eq_dec N.eq_dec (a :: u') (x :: v)); congruence.
Qed.

Lemma card_exactly M v : (v < N.of_nat M)%N -> card M (fun x => (v =? x)%N) = 1.
Proof.
  intros Lv. unfold card. rewrite <- (numbers_pick M v 1); [|now apply numbers_in]. apply total_ext. intros x _.
  destruct (N.eqb_spec v x), (N.eq_dec v x); auto; contradiction.
Qed.

Fixpoint place (j : nat) (idx : list nat) (v : list N) : option N :=
  match idx, v with d :: idx', x :: v' => if d =? j then Some x else place j idx' v' | _, _ => None end.
Lemma place_none j : forall idx v, ~ In j idx -> place j idx v = None.
Proof.
  induction idx as [|d idx IH]; intros [|x v] N; auto. simpl. destruct (Nat.eqb_spec d j) as [->|]; [destruct N; now left|].
  apply IH. intros i. apply N. now right.
Qed.
Lemma place_in j : forall idx v, In j idx -> length v = length idx -> exists x, In x v /\ place j idx v = Some x.
Proof.
  induction idx as [|d idx IH]; intros [|x v] i E; try easy. simpl. destruct (Nat.eqb_spec d j) as [->|Nd].
  - exists x. split; [now left|auto].
  - destruct i as [i|i]; [contradiction|]. destruct (IH v i) as (y & iy & Ey); [simpl in E; lia|]. exists y. split; [now right|auto].
Qed.
Lemma places_fit ps : forall idx v, NoDup idx -> length v = length idx ->
  at_places idx ps = v <-> (forall j, In j idx -> place j idx v = Some (nth j ps 0%N)).
Proof.
  induction idx as [|d idx IH]; intros [|x v] Nd E; try discriminate; [easy|].
  inversion Nd as [|? ? N1 N2]; subst. cbn [at_places map]. fold (at_places idx ps). simpl in E. split.
  - intros Q. injection Q as Q1 Q2. intros j [<-|i]; cbn [place].
    + rewrite Nat.eqb_refl. congruence.
    + destruct (Nat.eqb_spec d j) as [->|]; [contradiction|]. apply IH; auto.
  - intros Q. pose proof (Q d (or_introl eq_refl)) as Q1. cbn [place] in Q1. rewrite Nat.eqb_refl in Q1. injection Q1 as Q1.
    f_equal; [congruence|]. apply IH; auto. intros j i. specialize (Q j (or_intror i)). cbn [place] in Q.
    destruct (Nat.eqb_spec d j) as [->|]; [contradiction|auto].
Qed.

Lemma draws_places M t idx (f : list N -> nat) : NoDup idx -> (forall w, In w idx -> w < t) ->
  total (fun ps => f (at_places idx ps)) (draws M t) = M ^ (t - length idx) * total f (draws M (length idx)).
Proof.
  intros Nd Lt.
  rewrite (total_ext _ (fun ps => total (fun v => if list_eq_dec N.eq_dec (at_places idx ps) v then f v else 0) (draws M (length idx)))).
  2: { intros ps i. symmetry. apply draws_pick. apply draws_in in i as [El F]. rewrite Forall_forall in F. apply draws_in.
       unfold at_places. split; [apply map_length|]. apply Forall_forall. intros x ix. apply in_map_iff in ix as (w & <- & iw).
       apply F, nth_In. rewrite El. auto. }
  rewrite total_swap, <- total_mul. apply total_ext. intros v iv. apply draws_in in iv as [Lv Fv]. rewrite Forall_forall in Fv.
  set (Q := fun j x => match place j idx v with Some y => (y =? x)%N | None => true end).
  rewrite (total_ext _ (fun ps => f v * b2n (fits Q 0 ps))).
  - rewrite total_mul, fits_count, (product_perm _ _ _ (seq_split_perm idx t Nd Lt)), product_app.
    assert (P1 : product (fun j => card M (Q j)) idx = 1).
    { rewrite (product_pow _ _ 1); [apply Nat.pow_1_l|]. intros j i. destruct (place_in j idx v i Lv) as (x & ix & Ex). unfold Q. rewrite Ex.
      apply card_exactly, Fv, ix. }
    rewrite P1. rewrite (product_pow _ _ M).
    + destruct (filter_rest_length idx t Nd Lt) as [E _]. rewrite E. lia.
    + intros j i. apply filter_In in i as [_ i]. unfold Q. destruct (in_dec Nat.eq_dec j idx) as [|Nj]; [discriminate|].
      rewrite place_none; auto. apply card_true.
  - intros ps i. apply draws_in in i as [El _]. pose proof (places_fit ps idx v Nd Lv) as PF.
    destruct (list_eq_dec N.eq_dec (at_places idx ps) v) as [E|Ne].
    + rewrite fits_nth; [simpl; lia|]. intros j Lj. simpl. unfold Q. destruct (in_dec Nat.eq_dec j idx) as [ij|nj].
      * apply PF with (j := j) in E; auto. rewrite E. apply N.eqb_refl.
      * now rewrite place_none.
    + destruct (fits Q 0 ps) eqn:F; [|simpl; lia]. destruct Ne. apply PF. intros j ij.
      pose proof (fits_nth_inv _ _ _ j F) as X. rewrite El in X. specialize (X (Lt j ij)). simpl in X. unfold Q in X.
      destruct (place_in j idx v ij Lv) as (x & _ & Ex). rewrite Ex in *. apply N.eqb_eq in X. congruence.
Qed.

(** ** Heights *)
(** The nodes of height exactly [i] before the first one that is higher, and the nodes of height [s] or more *)
Fixpoint run_at (i : nat) (l : list nat) : nat :=
  match l with [] => 0 | h :: l' => if i <? h then 0 else b2n (h =? i) + run_at i l' end.
Definition tall (s : nat) (l : list nat) : nat := length (filter (fun h => s <=? h) l).

Section Heights.
  Variables (M : nat) (hgt : N -> nat).

  Lemma run_at_average i : card M (fun x => hgt x =? i) <= card M (fun x => i <? hgt x) ->
    forall n, total (fun vs => run_at i (map hgt vs)) (draws M n) <= M ^ n.
  Proof.
    intros Q. induction n as [|n IH]; [unfold total; simpl; lia|]. cbn [draws]. rewrite total_flat_map.
    eapply Nat.le_trans.
    { apply total_le with (g := fun x => b2n (hgt x =? i) * M ^ n + (1 - b2n (i <? hgt x)) * M ^ n). intros x _. rewrite total_map. cbn [map run_at].
      destruct (Nat.ltb_spec i (hgt x)).
      - rewrite total_const. lia.
      - rewrite total_plus, total_const, draws_length. cbn [b2n]. lia. }
    rewrite total_plus.
    assert (A : total (fun x => b2n (hgt x =? i) * M ^ n) (numbers M) = card M (fun x => hgt x =? i) * M ^ n).
    { rewrite (total_ext _ (fun x => M ^ n * b2n (hgt x =? i))) by (intros; lia). rewrite total_mul. unfold card. lia. }
    assert (B : total (fun x => (1 - b2n (i <? hgt x)) * M ^ n) (numbers M) + card M (fun x => i <? hgt x) * M ^ n = M * M ^ n).
    { unfold card. rewrite Nat.mul_comm with (m := M ^ n), <- total_mul, <- total_plus.
      rewrite (total_ext _ (fun _ => M ^ n)); [now rewrite total_const, numbers_length|]. intros x _. destruct (i <? hgt x); simpl; lia. }
    rewrite A. cbn [Nat.pow]. pose proof (Nat.mul_le_mono_r _ _ (M ^ n) Q). lia.
  Qed.

  Lemma tall_average s c : c * card M (fun x => s <=? hgt x) <= M ->
    forall n, c * total (fun vs => tall s (map hgt vs)) (draws M n) <= n * M ^ n.
  Proof.
    intros Q. induction n as [|n IH]; [unfold total; simpl; lia|]. cbn [draws]. rewrite total_flat_map.
    rewrite (total_ext _ (fun x => b2n (s <=? hgt x) * M ^ n + total (fun vs => tall s (map hgt vs)) (draws M n))).
    2: { intros x _. rewrite total_map.
         rewrite (total_ext _ (fun vs => b2n (s <=? hgt x) + tall s (map hgt vs))).
         - rewrite total_plus, total_const, draws_length. lia.
         - intros vs _. unfold tall. cbn [map filter]. now destruct (s <=? hgt x). }
    rewrite total_plus, total_const, numbers_length.
    assert (A : total (fun x => b2n (s <=? hgt x) * M ^ n) (numbers M) = card M (fun x => s <=? hgt x) * M ^ n).
    { rewrite (total_ext _ (fun x => M ^ n * b2n (s <=? hgt x))) by (intros; lia). rewrite total_mul. unfold card. lia. }
    rewrite A. cbn [Nat.pow]. set (T := total _ (draws M n)) in *. pose proof (Nat.mul_le_mono_r _ _ (M ^ n) Q).
    pose proof (Nat.mul_le_mono_l _ _ M IH). nia.
  Qed.
End Heights.

Lemma total_seq (f : nat -> nat) s : total f (seq 0 (S s)) = total f (seq 0 s) + f s.
Proof. rewrite seq_S, total_app. unfold total at 2. simpl. lia. Qed.
Lemma tall_app s l l' : tall s (l ++ l') = tall s l + tall s l'.
Proof. unfold tall. now rewrite filter_app, app_length. Qed.
Lemma tall_rev s l : tall s (rev l) = tall s l.
Proof. induction l as [|h l IH]; [reflexivity|]. cbn [rev]. rewrite tall_app, IH. unfold tall. cbn [filter]. destruct (s <=? h); cbn [length]; lia. Qed.
Lemma tall_cons s h l : tall s (h :: l) = b2n (s <=? h) + tall s l.
Proof. unfold tall. cbn [filter]. now destruct (s <=? h). Qed.
Lemma tall_less i l : tall (S i) l <= tall i l.
Proof. induction l as [|h l IH]; [auto|]. rewrite !tall_cons. destruct (Nat.leb_spec (S i) h), (Nat.leb_spec i h); cbn [b2n]; lia. Qed.
Lemma run_at_tall i l : run_at i l + tall (S i) l <= tall i l.
Proof.
  induction l as [|h l IH]; [auto|]. rewrite !tall_cons. cbn [run_at]. pose proof (tall_less i l).
  destruct (Nat.ltb_spec i h), (Nat.leb_spec (S i) h), (Nat.leb_spec i h), (Nat.eqb_spec h i); cbn [b2n]; lia.
Qed.

(** How many nodes a search from level [s] passes, given the heights of the nodes before its end, the last one first *)
Definition passes (s : nat) (l : list nat) : nat := tall s l + total (fun i => run_at i l) (seq 0 s).
Lemma passes_less s s' l : s <= s' -> passes s' l <= passes s l.
Proof.
  induction 1 as [|s' _ IH]; [auto|]. eapply Nat.le_trans; [|exact IH]. unfold passes. rewrite total_seq. pose proof (run_at_tall s' l). lia.
Qed.

Section U32.
  Variable M : nat.
  Hypothesis EM : N.of_nat M = two32.

  Lemma height_ge d h : (d < two32)%N -> h <= 32 -> (h <=? height_of d) = (d <? 2 ^ N.of_nat (32 - h))%N.
  Proof.
    intros Ld Lh. unfold height_of, max_height. rewrite N.mod_small by exact Ld.
    destruct (N.ltb_spec d (2 ^ N.of_nat (32 - h))) as [A|A]; [apply Nat.leb_le|apply Nat.leb_gt].
    - destruct (N.eq_dec d 0) as [->|Nz]; [simpl; lia|]. rewrite N.size_log2 by auto. apply N.log2_lt_pow2 in A; lia.
    - assert (Nz : d <> 0%N) by (pose proof (N.pow_nonzero 2 (N.of_nat (32 - h))); lia). rewrite N.size_log2 by auto.
      apply N.log2_le_pow2 in A; [|lia]. change two32 with (2 ^ 32)%N in Ld. apply N.log2_lt_pow2 in Ld; lia.
  Qed.
  Lemma card_tall h : h <= 32 -> N.of_nat (card M (fun x => h <=? height_of x)) = (2 ^ N.of_nat (32 - h))%N.
  Proof.
    intros Lh. rewrite <- (N2Nat.id (2 ^ N.of_nat (32 - h))), <- (card_below M).
    - f_equal. unfold card. apply total_ext. intros x i. apply numbers_in in i. rewrite height_ge; auto. now rewrite <- EM.
    - rewrite EM. change two32 with (2 ^ 32)%N. apply N.pow_le_mono_r; lia.
  Qed.
  Lemma card_split i : card M (fun x => height_of x =? i) + card M (fun x => i <? height_of x) = card M (fun x => i <=? height_of x).
  Proof.
    unfold card. rewrite <- total_plus. apply total_ext. intros x _.
    destruct (Nat.eqb_spec (height_of x) i), (Nat.ltb_spec i (height_of x)), (Nat.leb_spec i (height_of x)); simpl; lia.
  Qed.
  Lemma level_average i n : i < 32 -> total (fun vs => run_at i (map height_of vs)) (draws M n) <= M ^ n.
  Proof.
    intros Li. apply run_at_average. pose proof (card_split i) as E.
    assert (E1 : card M (fun x => i <? height_of x) = card M (fun x => S i <=? height_of x)) by reflexivity.
    pose proof (card_tall i) as A. pose proof (card_tall (S i)) as B. rewrite <- E1 in B.
    specialize (A ltac:(lia)). specialize (B ltac:(lia)).
    replace (N.of_nat (32 - i)) with (N.succ (N.of_nat (32 - S i))) in A by lia. rewrite N.pow_succ_r' in A. lia.
  Qed.
  Lemma tall_average_u32 s n : s <= 32 -> n <= 2 ^ s -> total (fun vs => tall s (map height_of vs)) (draws M n) <= M ^ n.
  Proof.
    intros Ls Ln. assert (P : 0 < 2 ^ s) by (pose proof (Nat.pow_nonzero 2 s); lia).
    assert (Q : 2 ^ s * card M (fun x => s <=? height_of x) <= M).
    { pose proof (card_tall s Ls) as A. apply (f_equal (N.mul (2 ^ N.of_nat s))) in A. rewrite <- N.pow_add_r in A.
      replace (N.of_nat s + N.of_nat (32 - s))%N with 32%N in A by lia. change (2 ^ 32)%N with two32 in A. rewrite <- EM in A.
      assert (E : N.of_nat (2 ^ s) = (2 ^ N.of_nat s)%N) by (rewrite Nat2N.inj_pow; reflexivity).
      rewrite <- E in A. lia. }
    pose proof (tall_average M height_of s (2 ^ s) Q n) as T. set (X := total _ _) in *.
    apply (Nat.mul_le_mono_pos_l _ _ (2 ^ s) P). eapply Nat.le_trans; [exact T|]. apply Nat.mul_le_mono_r, Ln.
  Qed.
  Lemma passes_average s n : s <= 32 -> n <= 2 ^ s -> total (fun vs => passes s (map height_of vs)) (draws M n) <= S s * M ^ n.
  Proof.
    intros Ls Ln. unfold passes. rewrite total_plus. pose proof (tall_average_u32 s n Ls Ln).
    rewrite (total_swap (fun vs i => run_at i (map height_of vs))).
    assert (G : total (fun i => total (fun vs => run_at i (map height_of vs)) (draws M n)) (seq 0 s) <= total (fun _ => M ^ n) (seq 0 s)).
    { apply total_le. intros i Hi. apply in_seq in Hi. apply level_average. lia. }
    rewrite total_const, seq_length in G. lia.
  Qed.

  (** The heights drawn at the places [idx] *)
  Lemma passes_places t idx s : NoDup idx -> (forall w, In w idx -> w < t) -> s <= 32 -> length idx <= 2 ^ s ->
    total (fun ps => passes s (map (fun d => height_of (nth d ps 0%N)) idx)) (draws M t) <= S s * M ^ t.
  Proof.
    intros Nd Lt Ls Ln. rewrite (total_ext _ (fun ps => passes s (map height_of (at_places idx ps)))).
    2: { intros ps _. unfold at_places. now rewrite map_map. }
    rewrite (draws_places M t idx (fun vs => passes s (map height_of vs)) Nd Lt).
    destruct (filter_rest_length idx t Nd Lt) as [_ L].
    replace (M ^ t) with (M ^ (t - length idx) * M ^ length idx) by (rewrite <- Nat.pow_add_r; f_equal; lia).
    pose proof (passes_average s (length idx) Ls Ln). pose proof (Nat.mul_le_mono_l _ _ (M ^ (t - length idx)) H). lia.
  Qed.
End U32.
