(** Counting sequences of random numbers. *)
From Verif Require Export RandomSpec.
From Coq Require Import Permutation.

Definition b2n (b : bool) : nat := if b then 1 else 0.

(** ** Sums *)
Lemma total_cons {X} (f : X -> nat) x l : total f (x :: l) = f x + total f l.
Proof. reflexivity. Qed.
Lemma total_app {X} (f : X -> nat) l l' : total f (l ++ l') = total f l + total f l'.
Proof. unfold total. now rewrite map_app, list_sum_app. Qed.
Lemma total_le {X} (f g : X -> nat) l : (forall x, In x l -> f x <= g x) -> total f l <= total g l.
Proof. induction l as [|x l IH]; intros E; [reflexivity|]. rewrite !total_cons. pose proof (E x (or_introl eq_refl)).
  specialize (IH (fun y i => E y (or_intror i))). lia. Qed.
Lemma total_ext {X} (f g : X -> nat) l : (forall x, In x l -> f x = g x) -> total f l = total g l.
Proof. intros E. apply Nat.le_antisymm; apply total_le; intros x i; rewrite (E x i); lia. Qed.
Lemma total_plus {X} (f g : X -> nat) l : total (fun x => f x + g x) l = total f l + total g l.
Proof. induction l as [|x l IH]; [reflexivity|]. rewrite !total_cons, IH. lia. Qed.
Lemma total_mul {X} (c : nat) (f : X -> nat) l : total (fun x => c * f x) l = c * total f l.
Proof. induction l as [|x l IH]; [unfold total; simpl; lia|]. rewrite !total_cons, IH. lia. Qed.
Lemma total_const {X} (c : nat) (l : list X) : total (fun _ => c) l = length l * c.
Proof. induction l as [|x l IH]; [reflexivity|]. rewrite total_cons, IH. simpl. lia. Qed.
Lemma total_swap {X Y} (f : X -> Y -> nat) l l' : total (fun x => total (f x) l') l = total (fun y => total (fun x => f x y) l) l'.
Proof.
  induction l as [|x l IH].
  - unfold total at 1. simpl. rewrite (total_ext _ (fun _ => 0)) by reflexivity. rewrite total_const. lia.
  - rewrite total_cons, IH, <- total_plus. apply total_ext. intros y _. now rewrite total_cons.
Qed.
Lemma total_map {X Y} (f : Y -> nat) (g : X -> Y) l : total f (map g l) = total (fun x => f (g x)) l.
Proof. unfold total. now rewrite map_map. Qed.
Lemma total_flat_map {X Y} (f : Y -> nat) (g : X -> list Y) l : total f (flat_map g l) = total (fun x => total f (g x)) l.
Proof. induction l as [|x l IH]; [reflexivity|]. simpl. rewrite total_app, total_cons, IH. reflexivity. Qed.
Lemma total_pos {X} (f : X -> nat) x l : In x l -> f x <= total f l.
Proof. induction l as [|y l IH]; intros i; [easy|]. rewrite total_cons. destruct i as [->|i]; [lia|]. specialize (IH i). lia. Qed.

(** ** Sequences *)
Lemma numbers_length M : length (numbers M) = M.
Proof. unfold numbers. now rewrite map_length, seq_length. Qed.
Lemma numbers_in M v : In v (numbers M) <-> (v < N.of_nat M)%N.
Proof.
  unfold numbers. rewrite in_map_iff. split.
  - intros (x & <- & i). apply in_seq in i. lia.
  - intros Hv. exists (N.to_nat v). split; [lia|]. apply in_seq. lia.
Qed.
Lemma draws_length M t : length (draws M t) = M ^ t.
Proof.
  induction t as [|t IH]; [reflexivity|]. simpl draws.
  assert (E : forall l, length (flat_map (fun x : N => map (cons x) (draws M t)) l) = length l * M ^ t).
  { induction l as [|x l IHl]; [reflexivity|]. simpl. rewrite app_length, map_length, IHl, IH. lia. }
  rewrite E, numbers_length. simpl. lia.
Qed.
Lemma draws_in M t : forall ps, In ps (draws M t) <-> length ps = t /\ Forall (fun v => (v < N.of_nat M)%N) ps.
Proof.
  induction t as [|t IH]; intros ps.
  - simpl. split; [intros [<-|[]]; auto|]. intros [E _]. destruct ps; [auto|discriminate].
  - simpl draws. rewrite in_flat_map. split.
    + intros (x & i & j). apply in_map_iff in j as (q & <- & j). apply IH in j as [E F]. simpl. rewrite E. split; [easy|].
      constructor; [now apply numbers_in | easy].
    + intros [E F]. destruct ps as [|x q]; [discriminate|]. inversion F; subst. exists x. split; [now apply numbers_in|].
      apply in_map. apply IH. split; [simpl in E; lia | easy].
Qed.

(** The sequences whose entries meet conditions one by one *)
Fixpoint fits (Q : nat -> N -> bool) (i : nat) (ps : list N) : bool :=
  match ps with [] => true | x :: r => Q i x && fits Q (S i) r end.
Definition card (M : nat) (P : N -> bool) : nat := total (fun x => b2n (P x)) (numbers M).
Definition product (f : nat -> nat) (l : list nat) : nat := fold_right (fun i n => f i * n) 1 l.

Lemma fits_count M Q t : forall i, total (fun ps => b2n (fits Q i ps)) (draws M t) = product (fun j => card M (Q j)) (seq i t).
Proof.
  induction t as [|t IH]; intros i; [reflexivity|]. simpl draws. simpl seq. cbn [product fold_right]. fold (product (fun j => card M (Q j)) (seq (S i) t)).
  rewrite total_flat_map. rewrite (total_ext _ (fun x => product (fun j => card M (Q j)) (seq (S i) t) * b2n (Q i x))).
  - rewrite total_mul. unfold card at 2. lia.
  - intros x _. rewrite total_map. simpl fits. destruct (Q i x).
    + simpl. rewrite IH. lia.
    + simpl. rewrite total_const. lia.
Qed.

Lemma product_perm f l l' : Permutation l l' -> product f l = product f l'.
Proof. induction 1; simpl; lia. Qed.
Lemma product_app f l l' : product f (l ++ l') = product f l * product f l'.
Proof. induction l as [|x l IH]; simpl; [lia|]. rewrite IH. lia. Qed.
Lemma product_pow_le f l c : (forall x, In x l -> f x <= c) -> product f l <= c ^ length l.
Proof. induction l as [|x l IH]; intros E; simpl; [lia|]. apply Nat.mul_le_mono; [apply E; now left | apply IH; intros; apply E; now right]. Qed.
Lemma product_pow f l c : (forall x, In x l -> f x = c) -> product f l = c ^ length l.
Proof. induction l as [|x l IH]; intros E; simpl; [lia|]. rewrite IH by (intros; apply E; now right). rewrite (E x (or_introl eq_refl)). lia. Qed.

Lemma card_le M P : card M P <= M.
Proof. unfold card. rewrite <- (numbers_length M) at 2. rewrite <- (Nat.mul_1_r (length _)), <- total_const. apply total_le. intros x _. destruct (P x); simpl; lia. Qed.
Lemma card_true M : card M (fun _ => true) = M.
Proof. unfold card. simpl. rewrite total_const, numbers_length. lia. Qed.
Lemma total_seq_filter (f : nat -> nat) n m : n <= m -> total (fun x => if x <? n then f x else 0) (seq 0 m) = total f (seq 0 n).
Proof.
  intros L. replace m with (n + (m - n)) by lia. rewrite seq_app, total_app. simpl.
  rewrite (total_ext (fun x => if x <? n then f x else 0) f (seq 0 n)).
  - rewrite (total_ext _ (fun _ => 0) (seq n (m - n))), total_const; [lia|]. intros x i. apply in_seq in i. destruct (Nat.ltb_spec x n); lia.
  - intros x i. apply in_seq in i. destruct (Nat.ltb_spec x n); lia.
Qed.
Lemma card_below M v : (v <= N.of_nat M)%N -> card M (fun x => (x <? v)%N) = N.to_nat v.
Proof.
  intros L. unfold card, numbers. rewrite total_map. rewrite (total_ext _ (fun x => if x <? N.to_nat v then 1 else 0)).
  - rewrite (total_seq_filter (fun _ => 1)) by lia. rewrite total_const, seq_length. lia.
  - intros x _. destruct (N.ltb_spec (N.of_nat x) v), (Nat.ltb_spec x (N.to_nat v)); simpl; lia.
Qed.
Lemma card_upto M v : (v < N.of_nat M)%N -> card M (fun x => (x <=? v)%N) = S (N.to_nat v).
Proof.
  intros L. transitivity (card M (fun x => (x <? v + 1)%N)).
  - unfold card. apply total_ext. intros x _. destruct (N.leb_spec x v), (N.ltb_spec x (v + 1)); simpl; lia.
  - rewrite card_below by lia. lia.
Qed.
Lemma card_one M v : card M (fun x => (x =? v)%N) <= 1.
Proof.
  unfold card, numbers. rewrite total_map.
  enough (G : forall a, total (fun x => b2n (N.of_nat x =? v)%N) (seq a M) <= 1) by apply G. induction M as [|M IH]; intros a; [unfold total; simpl; lia|].
  simpl seq. rewrite total_cons. destruct (N.eqb_spec (N.of_nat a) v) as [E|E]; simpl.
  - rewrite (total_ext _ (fun _ => 0)), total_const; [lia|]. intros x i. apply in_seq in i. destruct (N.eqb_spec (N.of_nat x) v); simpl; lia.
  - apply IH.
Qed.

(** ** The draws in which one number is among the largest of some *)
Definition tops (d : nat) (W : list nat) (ps : list N) : bool := forallb (fun w => (nth w ps 0 <=? nth d ps 0)%N) W.

Lemma fits_nth Q : forall ps i, (forall j, j < length ps -> Q (i + j) (nth j ps 0%N) = true) -> fits Q i ps = true.
Proof.
  induction ps as [|x r IH]; intros i E; [reflexivity|]. simpl. apply andb_true_intro. split.
  - specialize (E 0). rewrite Nat.add_0_r in E. apply E. simpl. lia.
  - apply IH. intros j L. specialize (E (S j)). rewrite Nat.add_succ_comm. apply E. simpl. lia.
Qed.
Lemma fits_nth_inv Q : forall ps i j, fits Q i ps = true -> j < length ps -> Q (i + j) (nth j ps 0%N) = true.
Proof.
  induction ps as [|x r IH]; intros i j E L; simpl in *; [lia|]. apply andb_prop in E as [E1 E2].
  destruct j; [now rewrite Nat.add_0_r|]. rewrite <- Nat.add_succ_comm. apply IH; [easy|lia].
Qed.

Lemma seq_split_perm (W : list nat) t : NoDup W -> (forall w, In w W -> w < t) ->
  Permutation (seq 0 t) (W ++ filter (fun i => if in_dec Nat.eq_dec i W then false else true) (seq 0 t)).
Proof.
  intros D L. apply NoDup_Permutation.
  - apply seq_NoDup.
  - apply NoDup_Permutation_bis with (l := seq 0 t) || idtac.
    assert (A : forall (l1 l2 : list nat), NoDup l1 -> NoDup l2 -> (forall x, In x l1 -> ~ In x l2) -> NoDup (l1 ++ l2)).
    { induction l1 as [|x l1 IH]; intros l2 D1 D2 E; simpl; [easy|]. inversion D1; subst. constructor.
      - rewrite in_app_iff. intros [i|i]; [contradiction|]. apply (E x); [now left|easy].
      - apply IH; auto. intros y i. apply E. now right. }
    apply A; [easy | apply NoDup_filter, seq_NoDup |]. intros x i j. apply filter_In in j as [_ j].
    destruct (in_dec Nat.eq_dec x W); [discriminate|contradiction].
  - intros x. rewrite in_app_iff, filter_In, in_seq. destruct (in_dec Nat.eq_dec x W) as [i|i].
    + specialize (L x i). intuition lia.
    + intuition lia.
Qed.

Lemma filter_rest_length (W : list nat) t : NoDup W -> (forall w, In w W -> w < t) ->
  length (filter (fun i => if in_dec Nat.eq_dec i W then false else true) (seq 0 t)) = t - length W /\ length W <= t.
Proof.
  intros D L. pose proof (Permutation_length (seq_split_perm W t D L)) as E. rewrite seq_length, app_length in E. lia.
Qed.

Lemma pow_sum m n : S m * total (fun v => S v ^ m) (seq 0 n) <= n ^ S m + S m * n ^ m.
Proof.
  (* the sum without its last member telescopes *)
  assert (B : forall v, S m * v ^ m + v ^ S m <= S v ^ S m).
  { intros v. induction m as [|m IH]; [simpl; lia|].
    change (S v ^ S (S m)) with (S v * S v ^ S m). change (v ^ S (S m)) with (v * (v * v ^ m)). change (v ^ S m) with (v * v ^ m) in *.
    pose proof (Nat.mul_le_mono_l _ _ (S v) IH). nia. }
  assert (T : forall k, S m * total (fun v => v ^ m) (seq 0 k) <= k ^ S m).
  { induction k as [|k IH]; [unfold total; simpl; lia|]. rewrite seq_S, total_app, Nat.mul_add_distr_l. simpl (0 + k).
    rewrite total_cons. unfold total at 2. simpl list_sum. rewrite Nat.add_0_r. specialize (B k). lia. }
  assert (E : total (fun v => S v ^ m) (seq 0 n) <= total (fun v => v ^ m) (seq 0 n) + n ^ m).
  { clear. induction n as [|k IH]; [unfold total; simpl; lia|]. rewrite seq_S, !total_app. simpl (0 + k).
    rewrite !total_cons. unfold total at 2 4. simpl list_sum. lia. }
  specialize (T n). nia.
Qed.

Lemma nodup_split (d : nat) (W : list nat) : In d W -> NoDup W -> exists W', Permutation W (d :: W') /\ ~ In d W' /\ length W = S (length W').
Proof.
  intros i D. apply in_split in i as (a & b & ->). exists (a ++ b). split; [symmetry; apply Permutation_middle|].
  split; [now apply NoDup_remove_2|]. rewrite !app_length. simpl. lia.
Qed.

Lemma tops_count M t d W : 0 < M -> NoDup W -> In d W -> (forall w, In w W -> w < t) ->
  total (fun ps => b2n (tops d W ps)) (draws M t) <= M ^ t / length W + M ^ (t - 1).
Proof.
  intros PM D i L. destruct (nodup_split d W i D) as (W' & P & ni & EW).
  set (Q := fun v j x => if j =? d then (x =? v)%N else if in_dec Nat.eq_dec j W then (x <=? v)%N else true).
  assert (S1 : total (fun ps => b2n (tops d W ps)) (draws M t) <=
               total (fun v => total (fun ps => b2n (fits (Q v) 0 ps)) (draws M t)) (numbers M)).
  { rewrite <- (total_swap (fun ps v => b2n (fits (Q v) 0 ps))). apply total_le. intros ps j. apply draws_in in j as [El F].
    destruct (tops d W ps) eqn:T; [|simpl; lia]. simpl.
    assert (Hd : d < length ps) by (rewrite El; auto).
    eapply Nat.le_trans; [|apply (total_pos _ (nth d ps 0%N))].
    - cbv beta. replace (fits (Q (nth d ps 0%N)) 0 ps) with true; [simpl; lia|]. symmetry. apply fits_nth. intros j Lj. simpl. unfold Q.
      destruct (Nat.eqb_spec j d) as [->|nj]; [apply N.eqb_refl|]. destruct (in_dec Nat.eq_dec j W) as [ij|]; [|easy].
      unfold tops in T. rewrite forallb_forall in T. now apply T.
    - apply numbers_in. rewrite Forall_forall in F. apply F. now apply nth_In. }
  destruct (filter_rest_length W t D L) as [ER LW]. set (rest := filter _ _) in ER.
  assert (S2 : forall v, In v (numbers M) -> total (fun ps => b2n (fits (Q v) 0 ps)) (draws M t) <= M ^ (t - length W) * S (N.to_nat v) ^ length W').
  { intros v iv. apply numbers_in in iv. rewrite fits_count. rewrite (product_perm _ _ _ (seq_split_perm W t D L)), product_app.
    fold rest. rewrite (Nat.mul_comm (M ^ _)). apply Nat.mul_le_mono.
    - rewrite (product_perm _ _ _ P). simpl. replace (S (N.to_nat v) ^ length W') with (1 * S (N.to_nat v) ^ length W') by lia.
      apply Nat.mul_le_mono.
      + unfold Q. rewrite Nat.eqb_refl. apply card_one.
      + apply product_pow_le. intros w iw. unfold Q. destruct (Nat.eqb_spec w d) as [->|_]; [contradiction|].
        destruct (in_dec Nat.eq_dec w W) as [_|nw]; [now rewrite card_upto|].
        exfalso. apply nw. apply (Permutation_in w (Permutation_sym P)). now right.
    - rewrite <- ER. apply product_pow_le. intros w _. apply card_le. }
  assert (S3 : total (fun ps => b2n (tops d W ps)) (draws M t) <= M ^ (t - length W) * total (fun v => S v ^ length W') (seq 0 M)).
  { eapply Nat.le_trans; [apply S1|]. eapply Nat.le_trans; [apply total_le, S2|]. rewrite total_mul. apply Nat.mul_le_mono_l.
    unfold numbers. rewrite total_map. apply total_le. intros x _. now rewrite Nat2N.id. }
  pose proof (pow_sum (length W') M) as S4. rewrite <- EW in S4.
  set (c := total (fun ps => b2n (tops d W ps)) (draws M t)) in *.
  set (s := total (fun v => S v ^ length W') (seq 0 M)) in *.
  assert (S5 : length W * c <= M ^ t + length W * M ^ (t - 1)).
  { replace (M ^ t) with (M ^ (t - length W) * M ^ length W) by (rewrite <- Nat.pow_add_r; f_equal; lia).
    replace (M ^ (t - 1)) with (M ^ (t - length W) * M ^ length W') by (rewrite <- Nat.pow_add_r; f_equal; lia).
    set (u := M ^ (t - length W)) in *. assert (length W * c <= u * (length W * s)) by nia. nia. }
  assert (PW : length W <> 0) by lia.
  enough (c - M ^ (t - 1) <= M ^ t / length W) by lia.
  apply Nat.div_le_lower_bound; [easy|]. rewrite Nat.mul_sub_distr_l. lia.
Qed.

(** ** Harmonic sums *)
Definition harmonic (A a n : nat) : nat := total (fun x => A / S x) (seq a n).

Lemma harmonic_app A a n m : harmonic A a (n + m) = harmonic A a n + harmonic A (a + n) m.
Proof. unfold harmonic. now rewrite seq_app, total_app. Qed.
Lemma harmonic_le A a n : harmonic A a n <= n * (A / S a).
Proof.
  unfold harmonic. rewrite <- (seq_length n a) at 2. rewrite <- total_const. apply total_le. intros x i. apply in_seq in i.
  apply Nat.div_le_compat_l. lia.
Qed.
Lemma harmonic_ge A a n : n * (A / (a + n)) <= harmonic A a n.
Proof.
  unfold harmonic. rewrite <- (seq_length n a) at 1. rewrite <- total_const. apply total_le. intros x i. apply in_seq in i.
  apply Nat.div_le_compat_l. lia.
Qed.
Lemma harmonic_mono A a n m : n <= m -> harmonic A a n <= harmonic A a m.
Proof. intros L. replace m with (n + (m - n)) by lia. rewrite harmonic_app. lia. Qed.
Lemma harmonic_pow A k : harmonic A 0 (2 ^ S k - 1) <= A * S k.
Proof.
  induction k as [|k IH].
  - unfold harmonic, total. cbn -[Nat.div]. rewrite Nat.div_1_r. lia.
  - replace (2 ^ S (S k) - 1) with ((2 ^ S k - 1) + 2 ^ S k).
    + rewrite harmonic_app. pose proof (harmonic_le A (0 + (2 ^ S k - 1)) (2 ^ S k)) as E.
      assert (P : 2 ^ S k <> 0) by (apply Nat.pow_nonzero; lia).
      replace (S (0 + (2 ^ S k - 1))) with (2 ^ S k) in E by lia.
      pose proof (Nat.mul_div_le A (2 ^ S k) P). lia.
    + pose proof (Nat.pow_nonzero 2 (S k)). change (2 ^ S (S k)) with (2 * 2 ^ S k). lia.
Qed.
Lemma harmonic_log A n : harmonic A 0 n <= A * S (Nat.log2 n).
Proof.
  destruct n as [|n]; [unfold harmonic, total; simpl; lia|].
  eapply Nat.le_trans; [|apply harmonic_pow]. apply harmonic_mono.
  destruct (Nat.log2_spec (S n)) as [_ L]; lia.
Qed.

(** ** Records: the members of a list that are not below any before them *)
Fixpoint recs (seen l : list N) : nat :=
  match l with
  | [] => 0
  | p :: r => b2n (forallb (fun q => (q <=? p)%N) seen) + recs (seen ++ [p]) r
  end.

(** The largest of some draws *)
Definition most (ps : list N) (b : list nat) : N := fold_right (fun d m => N.max (nth d ps 0%N) m) 0%N b.

Lemma most_in ps b : b <> [] -> exists d, In d b /\ most ps b = nth d ps 0%N.
Proof.
  induction b as [|d b IH]; [easy|]. intros _. simpl. destruct b as [|d' b'].
  - exists d. split; [now left|]. simpl. lia.
  - destruct IH as (x & i & E); [easy|]. rewrite E. destruct (N.max_spec (nth d ps 0%N) (nth x ps 0%N)) as [[_ ->]|[_ ->]].
    + exists x. split; [now right|easy].
    + exists d. split; [now left|easy].
Qed.
Lemma most_ge ps b d : In d b -> (nth d ps 0 <= most ps b)%N.
Proof. induction b as [|x b IH]; intros i; [easy|]. simpl. destruct i as [->|i]; [lia|]. specialize (IH i). lia. Qed.

Lemma recs_tops ps : forall bs seen, Forall (fun b => b <> []) bs ->
  recs (map (most ps) seen) (map (most ps) bs) <=
  (fix go seen bs := match bs with [] => 0 | b :: r => total (fun d => b2n (tops d (concat (seen ++ [b])) ps)) b + go (seen ++ [b]) r end) seen bs.
Proof.
  induction bs as [|b bs IH]; intros seen F; [simpl; lia|]. inversion F as [|? ? nb F']; subst. simpl map. cbn [recs].
  specialize (IH (seen ++ [b]) F'). rewrite map_app in IH. cbn [map] in IH. apply Nat.add_le_mono; [|apply IH].
  destruct (forallb _ _) eqn:T; [|simpl; lia]. rewrite forallb_forall in T. destruct (most_in ps b nb) as (d & i & E).
  eapply Nat.le_trans; [|apply (total_pos _ d _ i)].
  cbv beta. replace (tops d (concat (seen ++ [b])) ps) with true; [simpl; lia|]. symmetry. apply forallb_forall. intros w iw.
  rewrite concat_app in iw. apply in_app_iff in iw as [iw|iw].
  - apply in_concat in iw as (b' & ib & iw). specialize (T (most ps b') (in_map _ _ _ ib)). apply N.leb_le in T.
    apply N.leb_le. rewrite <- E. pose proof (most_ge ps b' w iw). lia.
  - simpl in iw. rewrite app_nil_r in iw. apply N.leb_le. rewrite <- E. now apply most_ge.
Qed.

Lemma recs_total M t : 0 < M -> forall bs seen, Forall (fun b => b <> []) bs -> NoDup (concat (seen ++ bs)) ->
  (forall w, In w (concat (seen ++ bs)) -> w < t) ->
  total (fun ps => recs (map (most ps) seen) (map (most ps) bs)) (draws M t) <=
  harmonic (M ^ t) (length (concat seen)) (length (concat bs)) + length (concat bs) * M ^ (t - 1).
Proof.
  intros PM. induction bs as [|b bs IH]; intros seen F D L.
  - simpl. rewrite total_const. lia.
  - inversion F as [|? ? nb F']; subst.
    assert (Es : seen ++ b :: bs = (seen ++ [b]) ++ bs) by now rewrite <- app_assoc.
    rewrite Es in D, L. specialize (IH (seen ++ [b]) F' D L).
    rewrite (total_ext _ (fun ps => b2n (forallb (fun q => (q <=? most ps b)%N) (map (most ps) seen)) +
                                    recs (map (most ps) (seen ++ [b])) (map (most ps) bs))).
    2: { intros ps _. simpl. now rewrite map_app. }
    rewrite total_plus.
    assert (X : total (fun ps => b2n (forallb (fun q => (q <=? most ps b)%N) (map (most ps) seen))) (draws M t) <=
                length b * (M ^ t / (length (concat seen) + length b)) + length b * M ^ (t - 1)).
    { eapply Nat.le_trans.
      - apply (total_le _ (fun ps => total (fun d => b2n (tops d (concat (seen ++ [b])) ps)) b)). intros ps _.
        pose proof (recs_tops ps [b] seen (Forall_cons b nb (Forall_nil _))) as R. simpl in R. lia.
      - rewrite total_swap. rewrite <- Nat.mul_add_distr_l, <- total_const. apply total_le. intros d i.
        rewrite concat_app in D, L. assert (EL : length (concat (seen ++ [b])) = length (concat seen) + length b).
        { rewrite concat_app, app_length. simpl. now rewrite app_nil_r. }
        rewrite <- EL. apply tops_count; [easy | | |].
        + clear -D. revert D. generalize (concat (seen ++ [b])). intros l D. induction l as [|x l IH]; [constructor|].
          simpl in D. inversion D; subst. constructor; [|auto]. intros i. apply H1. apply in_app_iff. now left.
        + rewrite concat_app. apply in_app_iff. right. simpl. now rewrite app_nil_r.
        + intros w iw. apply L. apply in_app_iff. now left. }
    simpl concat. rewrite app_length, harmonic_app.
    pose proof (harmonic_ge (M ^ t) (length (concat seen)) (length b)) as G.
    assert (EL : length (concat (seen ++ [b])) = length (concat seen) + length b).
    { rewrite concat_app, app_length. simpl. now rewrite app_nil_r. }
    rewrite EL in IH. lia.
Qed.

(** Blocks of draws, none empty, no draw twice: how often the largest of a block is a record, on average. *)
Lemma recs_average M t bs : 0 < M -> Forall (fun b => b <> []) bs -> NoDup (concat bs) -> (forall w, In w (concat bs) -> w < t) ->
  total (fun ps => recs [] (map (most ps) bs)) (draws M t) <=
  M ^ t * S (Nat.log2 (length (concat bs))) + length (concat bs) * M ^ (t - 1).
Proof.
  intros PM F D L. pose proof (recs_total M t PM bs [] F D L) as T. simpl in T.
  pose proof (harmonic_log (M ^ t) (length (concat bs))). lia.
Qed.
