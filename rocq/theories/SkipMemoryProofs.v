(** The memory that skip lists take. *)
From Coq Require Import Permutation.
From Verif Require Import HeightRareLemmas SkipProgCostProofs SkipListProgCostProofs NodeBytesModel NodeBytesProofs.

Lemma blocks_bytes {D L} ly (h : heap D L) : forall ptrs, length ptrs = length h -> list_sum (map snd (blocks ly h ptrs)) = heap_bytes ly h.
Proof.
  induction h as [|c h IH]; intros [|p ptrs] E; try discriminate; [reflexivity|]. unfold blocks, heap_bytes in *. cbn [combine flat_map fst snd map list_sum].
  rewrite map_app, list_sum_app, IH by (cbn in E; lia). change (list_sum (?a :: ?l)) with (a + list_sum l). f_equal. destruct c; cbn; lia.
Qed.

Lemma cells_at {A} (f : option A -> nat) (f0 : f None = 0) (h : list (option A)) : forall i,
  list_sum (map f h) = total (fun a => match nth_error h (a - i) with Some c => f c | None => 0 end) (seq i (length h)).
Proof.
  induction h as [|c h IH]; intros i; [reflexivity|]. cbn [length seq]. rewrite total_cons, Nat.sub_diag. cbn [nth_error map list_sum].
  change (list_sum (?a :: ?l)) with (a + list_sum l). f_equal. rewrite (IH (S i)). apply total_ext. intros a ia. apply in_seq in ia.
  replace (a - i) with (S (a - S i)) by lia. reflexivity.
Qed.
Lemma total_perm {A} (f : A -> nat) l l' : Permutation l l' -> total f l = total f l'.
Proof. induction 1; rewrite ?total_cons; lia. Qed.
Lemma total_filter {A} (f : A -> nat) (b : A -> bool) l : (forall x, In x l -> b x = false -> f x = 0) -> total f l = total f (filter b l).
Proof.
  induction l as [|x l IH]; intros E; [reflexivity|]. cbn [filter]. rewrite total_cons, IH by (intros y iy; apply E; now right).
  destruct (b x) eqn:Eb; [now rewrite total_cons|]. now rewrite (E x (or_introl Logic.eq_refl) Eb).
Qed.
Lemma cells_by {A} (f : option A -> nat) (h : list (option A)) (as_ : list nat) : f None = 0 -> NoDup as_ -> (forall a, In a as_ <-> exists n, nth_error h a = Some (Some n)) ->
  list_sum (map f h) = total (fun a => match nth_error h a with Some c => f c | None => 0 end) as_.
Proof.
  intros f0 Nd E. rewrite (cells_at f f0 h 0). rewrite (total_ext _ (fun a => match nth_error h a with Some c => f c | None => 0 end)) by (intros a _; now rewrite Nat.sub_0_r).
  rewrite (total_filter _ (fun a => match nth_error h a with Some (Some _) => true | _ => false end)).
  - apply total_perm, NoDup_Permutation; [apply NoDup_filter, seq_NoDup|exact Nd|]. intros a. rewrite filter_In, E, in_seq. split.
    + intros [_ Q]. destruct (nth_error h a) as [[n|]|]; [eauto|discriminate..].
    + intros [n Q]. rewrite Q. split; [|reflexivity]. split; [lia|]. apply nth_error_Some. cbn. congruence.
  - intros a _ Q. destruct (nth_error h a) as [[n|]|]; [discriminate|exact f0|reflexivity].
Qed.

Section Bound.
  Variable ly : layout.
  Lemma block_size_le k : block_size ly k <= node_size ly + 7 + k * link_size ly.
  Proof. unfold block_size, size_in_u64s. rewrite (Nat.mul_comm k). set (x := node_size ly + link_size ly * k). pose proof (Nat.mul_div_le (x + 8 - 1) 8 ltac:(lia)). lia. Qed.

  Context {D L : Type}.
  Lemma srep_bytes (h : heap D L) (X : list (sitem D)) g : srep h X g -> heap_bytes ly h = block_size ly 33 + total (fun x => block_size ly (S (ht x))) X.
  Proof.
    intros R. unfold heap_bytes. rewrite (cells_by _ h (0 :: map ad X)); [|reflexivity|apply R|].
    - rewrite total_cons, (sr_head _ _ _ R). cbn [sn_links]. rewrite nlinks_length. f_equal. rewrite total_map. apply total_ext. intros x ix.
      rewrite (sr_node _ _ _ R x ix). cbn [sn_links]. now rewrite nlinks_length.
    - intros a. split.
      + intros [<-|Ha]; [exists (SN None (nlinks g 0 33)); apply R|]. apply in_map_iff in Ha as (x & <- & Hx). eexists. now apply R.
      + intros [n E]. eapply R; eauto.
  Qed.
  Lemma srep_bytes_le (h : heap D L) (X : list (sitem D)) g : srep h X g ->
    heap_bytes ly h <= (length X + 1) * (node_size ly + 7) + (33 + length X + total ht X) * link_size ly.
  Proof.
    intros R. rewrite (srep_bytes _ _ _ R). pose proof (block_size_le 33) as B. clear R. induction X as [|x X IH]; [change (total _ []) with 0; change (total _ []) with 0; cbn [length]; lia|].
    rewrite !total_cons. pose proof (block_size_le (S (ht x))). cbn [length]. nia.
  Qed.
  (** With [W] the draws that made the heights *)
  Lemma memory_bounds (M t n : nat) (bytes : list N -> nat) (W : list nat) : N.of_nat M = two32 -> NoDup W -> (forall w, In w W -> w < t) -> length W = n ->
    (forall ps, length ps = t -> bytes ps <= (n + 1) * (node_size ly + 7) + (33 + n + total (hts ps) W) * link_size ly) ->
    (forall ps, length ps = t -> bytes ps <= (n + 1) * (node_size ly + 7) + (33 + 33 * n) * link_size ly) /\
    average_within M t ((n + 1) * (node_size ly + 7) + (33 + 2 * n) * link_size ly) 0 bytes /\
    forall s, rarely_above M t s ((n + 1) * (node_size ly + 7) + (33 + 3 * n + 2 * s) * link_size ly) bytes.
  Proof.
    intros EM Nd Lt Lw Bd. split; [|split].
    - intros ps Ep. eapply Nat.le_trans; [exact (Bd ps Ep)|]. apply Nat.add_le_mono_l, Nat.mul_le_mono_r.
      assert (total (hts ps) W <= 32 * n); [|lia]. rewrite <- Lw. clear. induction W as [|w W IH]; [unfold total; cbn; lia|]. rewrite total_cons. cbn [length].
      pose proof (height_of_le (nth w ps 0%N)) as Q. fold (hts ps w) in Q. lia.
    - unfold average_within. rewrite Nat.add_0_r. replace (M ^ t * (M * ((n + 1) * (node_size ly + 7) + (33 + 2 * n) * link_size ly))) with (M * (M ^ t * ((n + 1) * (node_size ly + 7) + (33 + 2 * n) * link_size ly))) by lia.
      apply Nat.mul_le_mono_l.
      assert (Sum : total (fun ps => total (hts ps) W) (draws M t) <= n * M ^ t).
      { rewrite <- Lw. clear Bd Lw Nd. induction W as [|w W IH]; [change (total (fun _ : list N => 0) (draws M t) <= 0); rewrite total_const; lia|].
        rewrite (total_ext _ (fun ps => hts ps w + total (hts ps) W)) by (intros; apply total_cons). rewrite total_plus. cbn [length Nat.mul].
        pose proof (height_at M t w EM (Lt w (or_introl Logic.eq_refl))). specialize (IH (fun w iw => Lt w (or_intror iw))). lia. }
      eapply Nat.le_trans; [apply total_le with (g := fun ps => ((n + 1) * (node_size ly + 7) + (33 + n) * link_size ly) + link_size ly * total (hts ps) W)|].
      + intros ps ip. apply draws_in in ip as [Ep _]. eapply Nat.le_trans; [exact (Bd ps Ep)|]. lia.
      + rewrite total_plus, total_const, draws_length, total_mul. set (S0 := total _ (draws M t)) in *. set (P := M ^ t) in *. clearbody S0 P. nia.
    - intros s. apply (rare_le M t s (2 * (length W + s)) _ (fun ps => total (hts ps) W)); [|apply (sum_rare M EM); auto].
      intros ps ip Lb. apply draws_in in ip as [Ep _]. specialize (Bd ps Ep). rewrite Lw. destruct (Nat.lt_ge_cases (2 * (n + s)) (total (hts ps) W)) as [Q|Q]; [exact Q|].
      assert ((33 + n + total (hts ps) W) * link_size ly <= (33 + 3 * n + 2 * s) * link_size ly) by (apply Nat.mul_le_mono_r; lia). lia.
  Qed.
End Bound.

Section SkipMemory.
  Context {K V : Type} `{CmpLaws K}.
  Lemma skip_state_tags (ops : list (map_op K V * N)) : forall m X, sk_at m X -> exists m' X' outs, run skip_step m ops = Ok (m', outs) /\ sk_at m' X' /\
    map dt X' = fst (spec_run map_spec_step (map dt X) (map fst ops)) /\
    SkipCostProofs.tags X' = fold_left (fun l op => put_step (height_of (snd op)) l (fst op)) ops (SkipCostProofs.tags X).
  Proof.
    induction ops as [|[o d] ops IH]; intros m X A.
    - exists m, X, []. auto.
    - destruct (skip_step_c_ok m X o d A) as (m1 & X1 & c & E1 & A1 & D1 & T1 & _). destruct (IH m1 X1 A1) as (m2 & X2 & outs & E2 & A2 & D2 & T2).
      pose proof (skip_step_c_fst m (o, d)) as E. rewrite E1 in E. unfold rmap in E; cbn [bind fst snd] in E. eexists m2, X2, _. cbn [run]. rewrite <- E. cbn [bind]. rewrite E2. cbn [bind].
      split; [reflexivity|]. split; [exact A2|]. cbn [map fst snd spec_run fold_left]. rewrite D2, T2, D1, T1. split; [|reflexivity].
      destruct (map_spec_step (map dt X) o) as [l1 r1]. cbn [fst]. now destruct (spec_run map_spec_step l1 (map fst ops)).
  Qed.
  Lemma skip_memory_bounds (M : nat) (ly : layout) (ops : list (map_op K V)) : N.of_nat M = two32 -> let n := length (fst (spec_run map_spec_step [] ops)) in
    exists bytes : list N -> nat,
    (forall ps, length ps = length ops -> exists m outs, run skip_step skip_new (combine ops ps) = Ok (m, outs) /\ heap_bytes ly (sk_heap m) = bytes ps) /\
    (forall ps, length ps = length ops -> bytes ps <= (n + 1) * (node_size ly + 7) + (33 + 33 * n) * link_size ly) /\
    average_within M (length ops) ((n + 1) * (node_size ly + 7) + (33 + 2 * n) * link_size ly) 0 bytes /\
    forall s, rarely_above M (length ops) s ((n + 1) * (node_size ly + 7) + (33 + 3 * n + 2 * s) * link_size ly) bytes.
  Proof.
    intros EM n. set (bytes := fun ps => match run skip_step (skip_new : skip_map K V) (combine ops ps) with Ok (m, _) => heap_bytes ly (sk_heap m) | _ => 0 end).
    exists bytes. pose proof (ids_all_ok ops 0 [] (conj (NoDup_nil _) (fun w (f : In w (map snd [])) => match f with end))) as [Nd Lt]. set (l := ids 0 [] ops) in *.
    assert (A : forall ps, length ps = length ops -> exists m X outs, run skip_step (skip_new : skip_map K V) (combine ops ps) = Ok (m, outs) /\ sk_at m X /\ length X = n /\ SkipCostProofs.tags X = map (on2 (hts ps)) l).
    { intros ps Ep. destruct (skip_state_tags (combine ops ps) skip_new [] skip_at_new) as (m & X & outs & E1 & A & D & T).
      assert (Ef : map fst (combine ops ps) = ops).
      { clear -Ep. revert ps Ep. induction ops as [|o ops' IH]; intros [|p ps] El; try discriminate; auto. simpl. rewrite IH; auto. }
      rewrite Ef in D. cbn [map] in D. exists m, X, outs. split; [exact E1|]. split; [exact A|]. split.
      - unfold n. rewrite <- D. now rewrite map_length.
      - rewrite T. apply (ids_tags ps ops ps 0 []); [exact Ep|]. intros; reflexivity. }
    split.
    { intros ps Ep. destruct (A ps Ep) as (m & X & outs & E & _). exists m, outs. split; [exact E|]. unfold bytes. now rewrite E. }
    apply (memory_bounds ly M (length ops) n bytes (map snd l)); auto.
    - destruct (A (repeat 0%N (length ops)) (repeat_length _ _)) as (m & X & outs & _ & _ & <- & T). apply (f_equal (@length _)) in T. unfold SkipCostProofs.tags in T. rewrite !map_length in T. now rewrite map_length.
    - intros ps Ep. destruct (A ps Ep) as (m & X & outs & E & (g & (R & _) & _) & <- & T). unfold bytes. rewrite E. pose proof (srep_bytes_le ly _ _ _ R) as B.
      replace (total (hts ps) (map snd l)) with (total ht X); [exact B|].
      apply (f_equal (map snd)) in T. rewrite tags_heights, map_map in T. unfold total. rewrite T, map_map. reflexivity.
  Qed.
End SkipMemory.

Section SkipListMemory.
  Context {T : Type}.
  Lemma slist_state_tags ps (ops : list (seq_op T)) : forall qs (n : nat) l w m X, length qs = length ops ->
    (forall j, j < length ops -> nth j qs 0%N = nth (n + j) ps 0%N) -> sl_at w m X -> hs X = map (hts ps) l ->
    exists m' X' w' outs, run slist_step m (combine ops qs) = Ok (m', outs) /\ sl_at w' m' X' /\ map dt X' = fst (spec_run seq_spec_step (map dt X) ops) /\
      hs X' = map (hts ps) (TreapListCostProofs.tags n l ops).
  Proof.
    induction ops as [|o ops IH]; intros [|q qs] n l w m X El En A Ep; try discriminate.
    - exists m, X, w, []. auto.
    - pose proof (En 0 ltac:(simpl; lia)) as E0. rewrite Nat.add_0_r in E0. cbn [nth] in E0. subst q.
      destruct (slist_step_c_ok w m X o (nth n ps 0%N) A) as (m1 & X1 & c & E1 & A1 & V1 & P1 & _).
      assert (P1' : hs X1 = map (hts ps) (fst (seq_spec_step l (retag n o)))).
      { rewrite P1, Ep. symmetry. apply (seq_step_map (hts ps)). }
      destruct (IH qs (S n) (fst (seq_spec_step l (retag n o))) (worn_after o (map dt X) w) m1 X1) as (m2 & X2 & w2 & outs & E2 & A2 & V2 & P2); auto.
      { intros j Lj. rewrite Nat.add_succ_comm. apply (En (S j)). simpl. lia. }
      pose proof (slist_step_c_fst m (o, nth n ps 0%N)) as E. rewrite E1 in E. unfold rmap in E; cbn [bind fst snd] in E. eexists m2, X2, w2, _. cbn [combine run]. rewrite <- E. cbn [bind]. rewrite E2. cbn [bind].
      split; [reflexivity|]. split; [exact A2|]. split; [|exact P2].
      cbn [map fst spec_run]. rewrite V2, V1. destruct (seq_spec_step (map dt X) o) as [l1 r1]. cbn [fst]. now destruct (spec_run seq_spec_step l1 ops).
  Qed.
  Lemma slist_memory_bounds (M : nat) (ly : layout) (ops : list (seq_op T)) : N.of_nat M = two32 -> let n := length (fst (spec_run seq_spec_step [] ops)) in
    exists bytes : list N -> nat,
    (forall ps, length ps = length ops -> exists m outs, run slist_step slist_new (combine ops ps) = Ok (m, outs) /\ heap_bytes ly (sl_heap m) = bytes ps) /\
    (forall ps, length ps = length ops -> bytes ps <= (n + 1) * (node_size ly + 7) + (33 + 33 * n) * link_size ly) /\
    average_within M (length ops) ((n + 1) * (node_size ly + 7) + (33 + 2 * n) * link_size ly) 0 bytes /\
    forall s, rarely_above M (length ops) s ((n + 1) * (node_size ly + 7) + (33 + 3 * n + 2 * s) * link_size ly) bytes.
  Proof.
    intros EM n. set (bytes := fun ps => match run slist_step (slist_new : skip_list T) (combine ops ps) with Ok (m, _) => heap_bytes ly (sl_heap m) | _ => 0 end).
    exists bytes. pose proof (tags_all_ok ops 0 [] ltac:(split; [constructor | intros ? []])) as [Nd Lt]. rewrite Nat.add_0_l in Lt. set (l := TreapListCostProofs.tags 0 [] ops) in *.
    assert (A : forall ps, length ps = length ops -> exists m X w outs, run slist_step (slist_new : skip_list T) (combine ops ps) = Ok (m, outs) /\ sl_at w m X /\ length X = n /\ hs X = map (hts ps) l).
    { intros ps Ep. destruct (slist_state_tags ps ops ps 0 [] false slist_new [] Ep ltac:(intros; reflexivity) slist_at_new Logic.eq_refl) as (m & X & w & outs & E1 & A & D & P).
      exists m, X, w, outs. split; [exact E1|]. split; [exact A|]. split; [|exact P]. unfold n. cbn [map] in D. rewrite <- D. now rewrite map_length. }
    split.
    { intros ps Ep. destruct (A ps Ep) as (m & X & w & outs & E & _). exists m, outs. split; [exact E|]. unfold bytes. now rewrite E. }
    apply (memory_bounds ly M (length ops) n bytes l); auto.
    - destruct (A (repeat 0%N (length ops)) (repeat_length _ _)) as (m & X & w & outs & _ & _ & <- & P). apply (f_equal (@length _)) in P. unfold hs in P. now rewrite !map_length in P.
    - intros ps Ep. destruct (A ps Ep) as (m & X & w & outs & E & (g & e & (R & _) & _) & <- & P). unfold bytes. rewrite E. pose proof (srep_bytes_le ly _ _ _ R) as B.
      replace (total (hts ps) l) with (total ht X); [exact B|]. unfold hs in P. unfold total. now rewrite P.
  Qed.
End SkipListMemory.
