(** Crashes during calls of the on-disk B+ tree map: final forms and counterexamples. *)
From Verif Require Import BpMapModel BpNodeSpec BpCrashModel BpByteModel BpStoreProofs BpMapProofs KeyInstances.
From Verif Require Export BpCrashIterProofs.

Section Final.
  Context {K V : Type} `{CmpLaws K}.
  Variables (ksize : K -> N) (vsize : V -> N) (cfg : config).
  Notation m := (leaf_degree cfg).
  Notation d := (internal_degree cfg).
  Notation fits := (valid ksize vsize cfg).
  Notation obs s qs := (outputs (bp_step ksize vsize cfg) s qs).

  Lemma bp_crash_few ops o s outs t qs : 1 <= m -> 3 <= d -> never_harmful ksize vsize cfg (ops ++ [o]) ->
    run (bp_step ksize vsize cfg) (new_store m) ops = Ok (s, outs) ->
    length (call_states ksize vsize cfg s o) <= 2 -> In t (call_states ksize vsize cfg s o) -> forallb reads_entries qs = true ->
    obs (reopen t) qs = Ok (spec_outputs (bp_spec_step fits) (bp_spec_state fits ops) qs) \/
    obs (reopen t) qs = Ok (spec_outputs (bp_spec_step fits) (bp_spec_state fits (ops ++ [o])) qs).
  Proof. intros Hm Hd. exact (crash_few m d Hm Hd ksize vsize cfg eq_refl eq_refl ops o s outs t qs). Qed.

  Lemma bp_crash_insert ops k v s outs t : 1 <= m -> 3 <= d -> never_harmful ksize vsize cfg (ops ++ [BInsert k v]) ->
    run (bp_step ksize vsize cfg) (new_store m) ops = Ok (s, outs) ->
    In t (call_states ksize vsize cfg s (BInsert k v)) ->
    let seen (l : list (K * V)) := obs (reopen t) [BIter; BMin] = Ok [OList l; OKey (option_map fst (hd_error l))] in
    seen (bp_spec_state fits ops) \/ seen (bp_spec_state fits (ops ++ [BInsert k v])).
  Proof. intros Hm Hd. exact (crash_insert m d Hm Hd ksize vsize cfg eq_refl eq_refl ops k v s outs t). Qed.

  (** *** The last state is that after the call *)
  Lemma last_app {A} (a b : list A) x : last (a ++ b) x = last b (last a x).
  Proof.
    revert x. induction a as [|y a IH]; intros x; [reflexivity|]. cbn [app].
    assert (Lc : forall (l : list A) y x, last (y :: l) x = last l y).
    { clear. induction l as [|z l IH]; intros y x; [reflexivity|]. change (last (z :: l) x = last (z :: l) y). now rewrite !IH. }
    now rewrite !Lc.
  Qed.
  Lemma states_last {A} (c : io K V A) : forall s s' a, run_io s c = Ok (s', a) -> last (file_states s c) s = s'.
  Proof.
    assert (Lc : forall (l : list (store K V)) y x, last (y :: l) x = last l y).
    { induction l as [|z l IH]; intros y x; [reflexivity|]. change (last (z :: l) x = last (z :: l) y). now rewrite !IH. }
    induction c as [x| | |p c IH|p n c IH|n c IH|p c IH|c IH|p c IH|c IH|n c IH|c IH]; intros s s' a; cbn [run_io file_states]; try discriminate; try (apply IH).
    - intros E. injection E as -> _. reflexivity.
    - destruct (get_page s p); cbn [bind]; try discriminate. apply IH.
    - destruct (write_node s p n); cbn [bind]; try discriminate. rewrite Lc. apply IH.
    - destruct (alloc_node s n) as [[s1 q]| |] eqn:E; cbn [bind]; try discriminate. intros E1. rewrite last_app.
      replace (last (alloc_states s n) s) with s1; [exact (IH _ _ _ _ E1)|]. unfold alloc_states. rewrite E.
      now destruct (md_free (st_mem s)).
    - destruct (free_node s p) as [s1| |] eqn:E; cbn [bind]; try discriminate. intros E1. rewrite last_app.
      replace (last (free_states s p) s) with s1; [exact (IH _ _ _ E1)|]. unfold free_states. now rewrite E.
    - rewrite Lc. apply IH.
    - rewrite Lc. apply IH.
  Qed.
  Lemma call_last s o s' r : bp_step ksize vsize cfg s o = Ok (s', r) -> o <> BReopen -> last (call_states ksize vsize cfg s o) s = s'.
  Proof.
    assert (G : forall A (c : io K V A) (f : A -> bp_out K V), (let* (x, y) := run_io s c in Ok (x, f y)) = Ok (s', r) -> last (file_states s c) s = s').
    { intros A c f E. destruct (run_io s c) as [[x y]| |] eqn:E1; cbn [bind] in E; try discriminate. injection E as -> _.
      exact (states_last c _ _ _ E1). }
    intros E Ne. destruct o; cbn [bp_step call_states] in *; try (eapply G; exact E); try (injection E as -> _; reflexivity).
    - destruct (fits k v); [eapply G; exact E | injection E as -> _; reflexivity].
    - injection E as <- _. reflexivity.
    - congruence.
  Qed.
End Final.

(** *** Examples *)
Definition nat_cfg (m d : nat) : config := mkConfig 4 8 m d.
(** What a map opened from the [i]-th state of the file during call [o] answers. *)
Definition nat_crash (m d : nat) (ops : list (bp_op nat nat)) (o : bp_op nat nat) (i : nat) (qs : list (bp_op nat nat))
  : res (list (bp_out nat nat)) :=
  let ks (_ : nat) := 4%N in let vs (_ : nat) := 8%N in
  let* (s, _) := run (bp_step ks vs (nat_cfg m d)) (new_store m) ops in
  let* t := expect (nth_error (call_states ks vs (nat_cfg m d) s o) i) in
  outputs (bp_step ks vs (nat_cfg m d)) (reopen t) qs.

Lemma crash_split : nat_crash 2 3 [BInsert 0 1000; BInsert 2 1002] (BInsert 1 1001) 3 [BGet 2; BMax; BInsert 2 9; BIter] =
  Ok [OVal None; OKey (Some 1); OPair None; OList [(0, 1000); (1, 1001); (2, 9); (2, 1002)]].
Proof. vm_compute. reflexivity. Qed.
Lemma crash_reuse : exists ops o, nat_crash 2 3 ops o 0 [o] = Panic /\ exists l, nat_crash 2 3 ops o 0 [BIter] = Ok [OList l].
Proof.
  exists (map (fun i => BInsert i (i + 1000)) (seq 0 4) ++ [BRemove 0; BRemove 1; BRemove 2; BInsert 5 7]), (BInsert 6 7).
  split; [|eexists]; vm_compute; reflexivity.
Qed.
Lemma crash_merge : exists ops o, nat_crash 2 3 ops o 0 [BIter] = Panic /\ nat_crash 2 3 ops o 0 [BGet 3] = Panic.
Proof.
  exists (map (fun i => BInsert i (i + 1000)) (seq 0 4) ++ [BRemove 0; BRemove 1]), (BRemove 2). split; vm_compute; reflexivity.
Qed.
Lemma crash_borrow : exists ops, nat_crash 3 3 ops (BRemove 1) 1 [BIter] = Ok [OList [(0, 1000); (1, 1001); (3, 1003); (4, 1004)]].
Proof. exists (map (fun i => BInsert i (i + 1000)) (seq 0 5)). vm_compute. reflexivity. Qed.
Lemma crash_remove_len : nat_crash 2 3 [BInsert 0 5] (BRemove 0) 0 [BLen; BGet 0] = Ok [ONat 0; OVal (Some 5)] /\
  nat_crash 2 3 [BInsert 0 5] (BRemove 0) 0 [BRemove 0] = Panic.
Proof. vm_compute. split; reflexivity. Qed.
Lemma crash_clear : exists ops, nat_crash 2 3 ops BClear 0 [BGet 1] = Panic /\
  nat_crash 2 3 ops BClear 1 [BLen; BGet 1] = Ok [ONat 0; OVal (Some 1001)].
Proof. exists (map (fun i => BInsert i (i + 1000)) (seq 0 3)). vm_compute. split; reflexivity. Qed.

(** A page of zeros. *)
Lemma zero_u64 r : dec_u64 (repeat x00 8 ++ r) = Some (0%N, r).
Proof. reflexivity. Qed.
Lemma zero_slice {A} (p : parser A) r : dec_slice p (repeat x00 8 ++ r) = Some ([], r).
Proof. unfold dec_slice, pbind. rewrite zero_u64. now destruct (length r). Qed.
Lemma zero_page_dec (K V : Type) (CK : Codec K) (CV : Codec V) n :
  dec_node (K := K) (V := V) (repeat x00 (28 + n)) = Some (zero_page, repeat x00 n).
Proof.
  change (28 + n) with (4 + (8 + (8 + (8 + n)))). rewrite !repeat_app. unfold dec_node. unfold pbind at 1.
  change (dec_u32 (repeat x00 4 ++ ?r)) with (Some (0%N, r)). cbv beta iota. unfold pbind at 1, dec_usize, pbind at 1. rewrite zero_u64.
  unfold pret at 1. unfold pbind at 1. rewrite zero_slice. unfold pbind. rewrite zero_slice. reflexivity.
Qed.
