(** How rarely calls on [SkipMap]s and [SkipList]s are slow. *)
From Verif Require Import HeightRareLemmas SkipProgCostProofs SkipListProgCostProofs.

Lemma bound_rare (M t c b s s' j n : nat) (W : list nat) (f : list N -> nat) : N.of_nat M = two32 -> NoDup W -> (forall w, In w W -> w < t) -> length W <= n ->
  n <= 2 ^ s -> s <= 32 -> s <= s' -> c + 2 * (S s + j) <= b ->
  (forall ps, length ps = t -> f ps <= c + passes s' (map (fun d => height_of (nth d ps 0%N)) W)) -> rarely_above M t j b f.
Proof.
  intros EM Nd Lt Lw Ln Ls Ls' Lb Bd. apply (rare_le M t j (2 * (S s + j)) b (fun ps => passes s (map (fun d => height_of (nth d ps 0%N)) W))).
  - intros ps ip Lf. apply draws_in in ip as [Ep _]. specialize (Bd ps Ep). pose proof (passes_less s s' (map (fun d => height_of (nth d ps 0%N)) W) Ls'). lia.
  - apply (passes_rare M EM); auto. lia.
Qed.

Section SkipRare.
  Context {K V : Type} `{CmpLaws K}.

  Lemma top_rare (o : map_op K V) n j : (N.of_nat n < two32)%N -> let s := starting_height n in
    s <= top o n /\ s <= 32 /\ n <= 2 ^ s /\ 3 * S (top o n) + 2 * (S s + j) <= (if insert_or_remove o then 2 * Nat.log2 n + 2 * j + 103 else 5 * Nat.log2 n + 2 * j + 10).
  Proof.
    intros Ln s. destruct (top_small o n Ln) as (A & B & D & E). fold s in A, B, D, E. destruct (starting_height_small n Ln) as [_ S2]. fold s in S2.
    split; [exact A|]. split; [exact B|]. split; [exact D|]. destruct (insert_or_remove o); lia.
  Qed.

  Lemma skip_rare (M : nat) (ops : list (map_op K V)) : N.of_nat M = two32 -> exists steps : list N -> list nat,
    (forall ps, length ps = length ops -> outputs skip_step_c skip_new (combine ops ps) = Ok (combine (map_spec_outputs ops) (steps ps)) /\ length (steps ps) = length ops) /\
    forall i o n s, nth_error ops i = Some o -> nth_error (lengths_before [] ops) i = Some n -> (N.of_nat n < two32)%N -> looks_up o = true ->
      rarely_above M (length ops) s (if insert_or_remove o then 2 * Nat.log2 n + 2 * s + 103 else 5 * Nat.log2 n + 2 * s + 10) (fun ps => nth i (steps ps) 0).
  Proof.
    intros EM. destruct (skip_steps_bound ops) as (steps & A & B). exists steps. split; [exact A|]. intros i o n j Ei En Ln Lo.
    destruct (B i o n Ei En Lo) as (W & Nd & Lt & Lw & Bd). destruct (top_rare o n j Ln) as (T & S3 & S1 & Fin).
    exact (bound_rare M _ _ _ _ _ j n W _ EM Nd Lt Lw S1 S3 T Fin Bd).
  Qed.

  Lemma skip_prog_rare (M : nat) (ops : list (prog_op K V)) : N.of_nat M = two32 -> prog_allowed (fun _ => []) ops -> exists steps : list N -> list nat,
    (forall ps, length ps = length ops ->
       outputs skip_prog_step_c (fun _ => skip_new) (combine ops ps) = Ok (combine (prog_spec_outputs ops) (steps ps)) /\ length (steps ps) = length ops) /\
    forall q o s, nth_error ops q = Some o -> let st := fst (spec_run prog_spec_step (fun _ => []) (firstn q ops)) in
      match o with
      | POp i o' => let n := length (st i) in (N.of_nat n < two32)%N -> looks_up o' = true ->
          rarely_above M (length ops) s (if insert_or_remove o' then 2 * Nat.log2 n + 2 * s + 103 else 5 * Nat.log2 n + 2 * s + 10) (fun ps => nth q (steps ps) 0)
      | PSet _ _ i j => let n := length (st i) + length (update st i [] j) in rarely_above M (length ops) s (5 * n + 2 * s + 1) (fun ps => nth q (steps ps) 0)
      | PSplit _ _ _ _ => False
      end.
  Proof.
    intros EM Al. destruct (skip_prog_bound ops Al) as (steps & A & B). exists steps. split; [exact A|]. intros q o s Eq0 st. specialize (B q o Eq0). fold st in B.
    destruct o as [i o|s0 d i j|d i k inc]; cbv zeta in *; [| |exact B].
    - intros Ln Lo. destruct (B Lo) as (W & Nd & Lt & Lw & Bd). destruct (top_rare o _ s Ln) as (T & S3 & S1 & Fin).
      exact (bound_rare M _ _ _ _ _ s _ W _ EM Nd Lt Lw S1 S3 T Fin Bd).
    - destruct B as (W & Nd & Lt & <- & Bd). apply (rare_le M _ s (2 * (length W + s)) _ (fun ps => total (fun d => height_of (nth d ps 0%N)) W)).
      + intros ps ip Lf. apply draws_in in ip as [Ep _]. specialize (Bd ps Ep). rewrite total_plus, total_const in Bd. unfold hts in Bd. lia.
      + now apply (sum_rare M EM).
  Qed.
End SkipRare.

Section SkipListRare.
  Context {T : Type}.
  Lemma slist_rare (M : nat) (ops : list (seq_op T)) : N.of_nat M = two32 -> exists steps : list N -> list nat,
    (forall ps, length ps = length ops ->
       outputs slist_step_c slist_new (combine ops ps) = Ok (combine (spec_outputs seq_spec_step [] ops) (steps ps)) /\ length (steps ps) = length ops) /\
    forall i o (n s : nat), nth_error ops i = Some o -> seeks o = true -> nth_error (seq_lengths_before [] ops) i = Some n -> (N.of_nat n < two32)%N ->
      rarely_above M (length ops) s (2 * Nat.log2 n + 2 * s + 69) (fun ps => nth i (steps ps) 0).
  Proof.
    intros EM. destruct (slist_steps_bound ops) as (steps & A & B). exists steps. split; [exact A|]. intros i o n j Ei So En Ln.
    destruct (B i o n Ei So En) as (W & Nd & Lt & Lw & Bd). destruct (log_small n Ln) as [S3 S1].
    apply (bound_rare M _ 65 _ (S (Nat.log2 n)) 32 j n W _ EM Nd Lt Lw S1 S3 S3); [lia | exact Bd].
  Qed.
  Lemma slist_prog_rare (M : nat) (ops : list (sprog_op T)) : N.of_nat M = two32 -> joins_fresh (fun _ => []) (fun _ => false) ops = true -> exists steps : list N -> list nat,
    (forall ps, length ps = length ops ->
       outputs slist_prog_step_c (fun _ => slist_new) (combine ops ps) = Ok (combine (sprog_spec_outputs ops) (steps ps)) /\ length (steps ps) = length ops) /\
    forall q o s, nth_error ops q = Some o -> let st := fst (spec_run sprog_spec_step (fun _ => []) (firstn q ops)) in
      match o with
      | QPOp i o' => let n := length (st i) in (N.of_nat n < two32)%N -> seeks o' = true ->
          rarely_above M (length ops) s (2 * Nat.log2 n + 2 * s + 69) (fun ps => nth q (steps ps) 0)
      | QPAdd _ i _ => let n := length (st i) in (N.of_nat n < two32)%N -> rarely_above M (length ops) s (2 * Nat.log2 n + 2 * s + 70) (fun ps => nth q (steps ps) 0)
      end.
  Proof.
    intros EM HF. destruct (slist_prog_bound ops HF) as (steps & A & B). exists steps. split; [exact A|]. intros q o j Eq st. specialize (B q o Eq). fold st in B.
    destruct o as [i o|d i k]; cbv zeta in *; intros Ln.
    - intros So. destruct (B So) as (W & Nd & Lt & Lw & Bd). destruct (log_small _ Ln) as [S3 S1].
      apply (bound_rare M _ 65 _ (S (Nat.log2 (length (st i)))) 32 j _ W _ EM Nd Lt Lw S1 S3 S3); [lia | exact Bd].
    - destruct (B eq_refl) as (W & Nd & Lt & Lw & Bd). destruct (log_small _ Ln) as [S3 S1].
      apply (bound_rare M _ 66 _ (S (Nat.log2 (length (st i)))) 32 j _ W _ EM Nd Lt Lw S1 S3 S3); [lia | exact Bd].
  Qed.
End SkipListRare.
