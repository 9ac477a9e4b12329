(** Proofs about KeySetModel.v. *)
From Verif Require Export KeySetModel SetAlgSpec BstProofs.

Lemma run_wrap {S O O' R R'} (call : O' -> O) (ret : R -> R') (step : S -> O -> res (S * R)) ops : forall s,
  run (wrap_step call ret step) s ops = rmap (fun x => (fst x, map ret (snd x))) (run step s (map call ops)).
Proof.
  induction ops as [|o ops IH]; intros s; simpl; [reflexivity|]. unfold wrap_step at 1.
  destruct (step s (call o)) as [[s1 r]| |]; simpl; auto. rewrite IH.
  destruct (run step s1 (map call ops)) as [[s2 rs]| |]; reflexivity.
Qed.

Lemma outputs_wrap {S O O' R R'} (call : O' -> O) (ret : R -> R') (step : S -> O -> res (S * R)) s ops :
  outputs (wrap_step call ret step) s ops = rmap (map ret) (outputs step s (map call ops)).
Proof.
  unfold outputs. rewrite run_wrap. destruct (run step s (map call ops)) as [[s2 rs]| |]; reflexivity.
Qed.

Section KeySetProofs.
  Context {K : Type} `{Cmp K}.
  Notation kmap := (list (K * unit)).

  Lemma keys_lt_map k (l : kmap) : keys_lt k (map fst l) = map fst (below k l).
  Proof. induction l as [|x l IH]; [reflexivity|]. unfold keys_lt, below in *. simpl. destruct (is_lt _); simpl; now rewrite IH. Qed.
  Lemma keys_eq_map k (l : kmap) : keys_eq k (map fst l) = map fst (at_key k l).
  Proof. induction l as [|x l IH]; [reflexivity|]. unfold keys_eq, at_key in *. simpl. destruct (is_eq _); simpl; now rewrite IH. Qed.
  Lemma keys_gt_map k (l : kmap) : keys_gt k (map fst l) = map fst (above k l).
  Proof. induction l as [|x l IH]; [reflexivity|]. unfold keys_gt, above in *. simpl. destruct (is_gt _); simpl; now rewrite IH. Qed.
  Lemma mem_map k (l : kmap) : mem k (map fst l) = has_key k l.
  Proof.
    unfold mem, has_key, at_key. induction l as [|x l IH]; simpl; [reflexivity|].
    destruct (is_eq _); simpl; [reflexivity | exact IH].
  Qed.
  Lemma hd_map {A B} (f : A -> B) l : hd_error (map f l) = option_map f (hd_error l).
  Proof. destruct l; reflexivity. Qed.
  Lemma last_map {A B} (f : A -> B) l : last_error (map f l) = option_map f (last_error l).
  Proof. induction l as [|x l IH]; [reflexivity|]. simpl. destruct l as [|y l]; [reflexivity|]. exact IH. Qed.

  Lemma kset_spec_sim (l : kmap) o :
    kset_spec_step (map fst l) o =
      (map fst (fst (map_spec_step l (kset_call o))), kset_ret (snd (map_spec_step l (kset_call o)))).
  Proof.
    destruct o; simpl; rewrite ?keys_lt_map, ?keys_eq_map, ?keys_gt_map, ?mem_map, ?map_app, ?map_length,
      <- ?map_app, ?hd_map, ?last_map; try reflexivity; now rewrite map_app.
  Qed.

  Lemma kset_spec_outputs_map ops :
    kset_spec_outputs ops = map kset_ret (map_spec_outputs (map kset_call ops)).
  Proof.
    unfold kset_spec_outputs, map_spec_outputs, spec_outputs. change (@nil K) with (map fst (@nil (K * unit))).
    generalize (@nil (K * unit)). induction ops as [|o ops IH]; intros l; [reflexivity|].
    cbn [spec_run map]. rewrite kset_spec_sim.
    destruct (map_spec_step l (kset_call o)) as [l' r]. cbn [fst snd]. specialize (IH l').
    destruct (spec_run kset_spec_step (map fst l') ops), (spec_run map_spec_step l' (map kset_call ops)).
    simpl in *. now rewrite IH.
  Qed.

  (** Any machine that refines the ordered map gives a machine that refines the ordered set. *)
  Lemma kset_refines {S} (step : S -> map_op K unit -> res (S * map_out K unit)) s :
    (forall ops, outputs step s ops = Ok (map_spec_outputs ops)) ->
    forall ops, outputs (wrap_step kset_call kset_ret step) s ops = Ok (kset_spec_outputs ops).
  Proof. intros HR ops. rewrite outputs_wrap, HR, kset_spec_outputs_map. reflexivity. Qed.

  (** The same for machines whose calls carry a random draw. *)
  Lemma kset_refines_draws {S D} (step : S -> map_op K unit * D -> res (S * map_out K unit)) s :
    (forall ops, outputs step s ops = Ok (map_spec_outputs (map fst ops))) ->
    forall ops, outputs (wrap_step (fun od => (kset_call (fst od), snd od)) kset_ret step) s ops
      = Ok (kset_spec_outputs (map fst ops)).
  Proof.
    intros HR ops. rewrite outputs_wrap, HR, kset_spec_outputs_map. simpl. now rewrite !map_map.
  Qed.

  (** ** Programs *)
  Lemma kunion_map a b : kspec_union (map fst a) (map fst b) = map fst (spec_union (a : kmap) b).
  Proof.
    induction a as [|x a IH]; simpl; [reflexivity|]. unfold spec_union, kspec_union in *. rewrite IH.
    rewrite keys_lt_map, keys_gt_map. unfold insert_pair. now rewrite map_app.
  Qed.
  Lemma kdiff_map a b : kspec_diff (map fst a) (map fst b) = map fst (spec_diff (a : kmap) b).
  Proof.
    unfold kspec_diff, spec_diff. induction a as [|x a IH]; simpl; [reflexivity|]. rewrite mem_map.
    destruct (has_key (fst x) b); simpl; now rewrite IH.
  Qed.
  Lemma kinter_map a b : kspec_inter (map fst a) (map fst b) = map fst (spec_inter (a : kmap) b).
  Proof.
    unfold kspec_inter, spec_inter. induction a as [|x a IH]; simpl; [reflexivity|]. rewrite mem_map.
    destruct (has_key (fst x) b); simpl; now rewrite IH.
  Qed.
  Lemma kset_map s a b : kspec_set s (map fst a) (map fst b) = map fst (spec_set s (a : kmap) b).
  Proof.
    destruct s; simpl; [apply kunion_map | apply kinter_map | apply kdiff_map|].
    unfold spec_symdiff. now rewrite !kdiff_map, kunion_map.
  Qed.

  Definition kregs_rel (ks : nat -> list K) (rs : nat -> kmap) : Prop := forall i, ks i = map fst (rs i).

  Lemma kregs_update ks rs i l m : kregs_rel ks rs -> l = map fst m -> kregs_rel (update ks i l) (update rs i m).
  Proof. intros HR E n. unfold update. destruct (n =? i); auto. Qed.

  Lemma kprog_spec_sim ks rs o : kregs_rel ks rs ->
    snd (kprog_spec_step ks o) = kset_ret (snd (prog_spec_step rs (kprog_call o))) /\
    kregs_rel (fst (kprog_spec_step ks o)) (fst (prog_spec_step rs (kprog_call o))).
  Proof.
    intros HR. destruct o as [i o|s d i j|d i k inc]; cbn [kprog_spec_step prog_spec_step kprog_call].
    - rewrite HR, kset_spec_sim. destruct (map_spec_step (rs i) (kset_call o)) as [l out]. simpl.
      split; [reflexivity | now apply kregs_update].
    - cbv zeta. simpl. split; [reflexivity|].
      pose proof (kregs_update ks rs i [] [] HR eq_refl) as R1.
      pose proof (kregs_update _ _ j [] [] R1 eq_refl) as R2.
      apply kregs_update; [exact R2|]. rewrite (HR i), (R1 j). apply kset_map.
    - cbv zeta. unfold spec_split.
      destruct inc; simpl; (split; [reflexivity|]); repeat apply kregs_update; auto;
        rewrite (HR i), ?keys_lt_map, ?keys_eq_map, ?keys_gt_map, <- ?map_app; reflexivity.
  Qed.

  Lemma kprog_spec_outputs_map ops :
    kprog_spec_outputs ops = map kset_ret (prog_spec_outputs (map kprog_call ops)).
  Proof.
    unfold kprog_spec_outputs, prog_spec_outputs, spec_outputs.
    assert (R0 : kregs_rel (fun _ => []) (fun _ => [])) by (intros i; reflexivity).
    revert R0. generalize (fun _ : nat => @nil K) (fun _ : nat => @nil (K * unit)).
    induction ops as [|o ops IH]; intros ks rs HR; [reflexivity|].
    cbn [spec_run map]. destruct (kprog_spec_sim ks rs o HR) as [E1 E2].
    destruct (kprog_spec_step ks o) as [ks' r']. destruct (prog_spec_step rs (kprog_call o)) as [rs' r].
    simpl in E1, E2. specialize (IH _ _ E2).
    destruct (spec_run kprog_spec_step ks' ops), (spec_run prog_spec_step rs' (map kprog_call ops)).
    simpl in *. now rewrite IH, E1.
  Qed.

  Lemma kprog_refines_draws {S D} (step : S -> prog_op K unit * D -> res (S * map_out K unit)) s :
    (forall ops, outputs step s ops = Ok (prog_spec_outputs (map fst ops))) ->
    forall ops, outputs (wrap_step (fun od => (kprog_call (fst od), snd od)) kset_ret step) s ops
      = Ok (kprog_spec_outputs (map fst ops)).
  Proof.
    intros HR ops. rewrite outputs_wrap, HR, kprog_spec_outputs_map. simpl. now rewrite !map_map.
  Qed.
End KeySetProofs.
