(** The on-disk B+ tree map: final forms of the theorems and counterexamples. *)
From Verif Require Import BpMapModel BpNodeSpec BpLeafProofs BpInternalProofs OrdLemmas ListLemmas RunLemmas MapSpec KeyInstances.
From Verif Require Export BpHarmProofs.

Section Final.
  Context {K V : Type} `{CmpLaws K}.
  Variables (ksize : K -> N) (vsize : V -> N) (cfg : config).
  Notation m := (leaf_degree cfg).
  Notation d := (internal_degree cfg).
  Notation fits := (valid ksize vsize cfg).
  Notation obs ops := (outputs (bp_step ksize vsize cfg) (new_store m) ops).

  (** Sufficient conditions that do not speak about the file. *)
  Lemma never_harmful_app ops1 ops2 : never_harmful ksize vsize cfg (ops1 ++ ops2) -> never_harmful ksize vsize cfg ops1.
  Proof. intros Nh o1 k v o2 s outs ->. apply (Nh o1 k v (o2 ++ ops2)). now rewrite <- app_assoc. Qed.
  Lemma never_harmful_snoc ops o : never_harmful ksize vsize cfg ops ->
    (forall k v s outs, o = BInsert k v -> run (bp_step ksize vsize cfg) (new_store m) ops = Ok (s, outs) -> fits k v = true -> ~ harmful m s k) ->
    never_harmful ksize vsize cfg (ops ++ [o]).
  Proof.
    intros Nh N1 o1 k v o2 s outs E R Fi. destruct o2 as [|x o2] using rev_ind.
    - apply app_inj_tail in E as [-> ->]. exact (N1 k v s outs eq_refl R Fi).
    - clear IHo2. change (BInsert k v :: o2 ++ [x]) with ((BInsert k v :: o2) ++ [x]) in E. rewrite app_assoc in E. apply app_inj_tail in E as [-> _].
      exact (Nh o1 k v o2 s outs eq_refl R Fi).
  Qed.
  Lemma harmless_if ops : 1 <= m -> 3 <= d -> m <= 4 \/ never_overwrites fits ops -> never_harmful ksize vsize cfg ops.
  Proof.
    intros Hm Hd. induction ops as [|o ops IH] using rev_ind; intros Sm.
    - intros o1 k v o2 s outs E. destruct o1; discriminate.
    - assert (Nh : never_harmful ksize vsize cfg ops).
      { apply IH. destruct Sm as [Sm|Sm]; [now left|right]. intros o1 k v o2 ->. apply (Sm o1 k v (o2 ++ [o])). now rewrite <- app_assoc. }
      apply never_harmful_snoc; [exact Nh|]. intros k v s outs -> R Fi.
      destruct (bp_run_inv m d Hm Hd ksize vsize cfg eq_refl eq_refl ops Nh) as (s' & E & I). rewrite R in E. injection E as <- _.
      apply (small_harmless m d Hm Hd s _ k I). destruct Sm as [Sm|Sm]; [now left|right]. exact (Sm ops k v [] eq_refl).
  Qed.

  Lemma bp_refines ops : 1 <= m -> 3 <= d -> never_harmful ksize vsize cfg ops ->
    obs ops = Ok (bp_spec_outputs fits ops).
  Proof.
    intros Hm Hd Ov. destruct (bp_run_inv m d Hm Hd ksize vsize cfg eq_refl eq_refl ops Ov) as (s & E & _).
    unfold outputs. now rewrite E.
  Qed.

  Lemma bp_pages ops s outs : 1 <= m -> 3 <= d -> never_harmful ksize vsize cfg ops ->
    run (bp_step ksize vsize cfg) (new_store m) ops = Ok (s, outs) ->
    md_pages (st_mem s) = length (st_pages s) /\ st_disk s = st_mem s /\
    exists fl, free_pages s (md_free (st_mem s)) fl /\ NoDup fl /\
      (forall p, p < length (st_pages s) -> (in_tree s p /\ ~ In p fl) \/ (~ in_tree s p /\ In p fl)) /\
      (forall p, in_tree s p \/ In p fl -> p < length (st_pages s)).
  Proof.
    intros Hm Hd Ov E. destruct (bp_run_inv m d Hm Hd ksize vsize cfg eq_refl eq_refl ops Ov) as (s' & E' & I).
    rewrite E in E'. injection E' as <- _. now apply (inv_pages m d Hm Hd s (bp_spec_state fits ops)).
  Qed.

  Lemma at_put_other k (v : V) k' l : sorted l -> cmp k k' <> Eq -> at_key k' (below k l ++ (k, v) :: above k l) = at_key k' l.
  Proof.
    intros S Ne. rewrite (sorted_split l k S) at 3. rewrite !at_app, at_cons. cbn [fst].
    assert (A : at_key k' (at_key k l) = []).
    { destruct (at_key_cases l k S) as [-> | (x & -> & E)]; [reflexivity|]. rewrite at_cons.
      destruct (cmp (fst x) k') eqn:X; cbn; [|reflexivity|reflexivity]. exfalso. apply Ne. now rewrite (cmp_eq_l _ _ _ E). }
    rewrite A. destruct (cmp k k') eqn:X; cbn; [congruence|reflexivity|reflexivity].
  Qed.

  Lemma spec_sorted ops : sorted (bp_spec_state fits ops).
  Proof.
    unfold bp_spec_state. induction ops as [|o ops IH] using rev_ind; [constructor|].
    rewrite spec_run_app. destruct (spec_run _ [] ops) as [a b]. cbn [fst] in *. cbn [spec_run].
    assert (S : sorted (fst (bp_spec_step fits a o))).
    { destruct o; cbn; auto; try constructor; [destruct (fits k v); [now apply sorted_insert | exact IH] | now apply sorted_delete]. }
    now destruct (bp_spec_step fits a o).
  Qed.

  Lemma bp_overwrite ops k v k' : 1 <= m <= 4 -> 3 <= d -> cmp k k' <> Eq ->
    exists outs o r, obs (ops ++ [BGet k']) = Ok (outs ++ [r]) /\
      obs (ops ++ [BInsert k v; BGet k']) = Ok (outs ++ [o; r]).
  Proof.
    intros Hm Hd Ne. rewrite !bp_refines by (try apply harmless_if; auto; lia). unfold bp_spec_outputs, spec_outputs.
    rewrite !spec_run_app. pose proof (spec_sorted ops) as S. unfold bp_spec_state in S.
    destruct (spec_run (bp_spec_step fits) [] ops) as [a b]. cbn [fst] in S. cbn [spec_run bp_spec_step].
    destruct (fits k v); cbn [snd]; exists b; do 2 eexists; (split; [reflexivity|]); [|reflexivity].
    now rewrite at_put_other.
  Qed.

  Lemma spec_outputs_snoc ops o : bp_spec_outputs fits (ops ++ [o]) = bp_spec_outputs fits ops ++ [snd (bp_spec_step fits (bp_spec_state fits ops) o)].
  Proof.
    unfold bp_spec_outputs, spec_outputs, bp_spec_state. rewrite spec_run_app. destruct (spec_run _ [] ops) as [a b]. cbn [fst snd].
    cbn [spec_run]. now destruct (bp_spec_step fits a o).
  Qed.
  Lemma spec_state_snoc ops o : bp_spec_state fits (ops ++ [o]) = fst (bp_spec_step fits (bp_spec_state fits ops) o).
  Proof.
    unfold bp_spec_state. rewrite spec_run_app. destruct (spec_run _ [] ops) as [a b]. cbn [fst].
    cbn [spec_run]. now destruct (bp_spec_step fits a o).
  Qed.
  (** The call after a history without harm returns the right result, whatever it is. *)
  Lemma next_right ops o : 1 <= m -> 3 <= d -> never_harmful ksize vsize cfg ops -> obs (ops ++ [o]) = Ok (bp_spec_outputs fits (ops ++ [o])).
  Proof.
    intros Hm Hd Nh. destruct (bp_run_inv m d Hm Hd ksize vsize cfg eq_refl eq_refl ops Nh) as (s & E & I).
    rewrite spec_outputs_snoc. apply (outputs_app _ _ _ _ _ _ _ E). unfold outputs. cbn [run].
    assert (Ge : (forall k v, o = BInsert k v -> fits k v = true -> ~ harmful m s k) ->
      rmap snd (let* (s1, y) := bp_step ksize vsize cfg s o in let* (s2, ys) := Ok (s1, []) in Ok (s2, y :: ys)) =
        Ok [snd (bp_spec_step fits (bp_spec_state fits ops) o)]).
    { intros N. destruct (bp_step_inv m d Hm Hd ksize vsize cfg eq_refl eq_refl s _ o I N) as (s1 & E1 & _). now rewrite E1. }
    destruct o; try (apply Ge; discriminate). destruct (harmful_dec m d Hm Hd s _ k I) as [Hf|Hn]; [|apply Ge; congruence].
    destruct (fits k v) eqn:Fi; [|apply Ge; congruence].
    destruct (harmful_step m d Hm Hd ksize vsize cfg eq_refl eq_refl s _ k v I Hf Fi) as (s' & k' & y & E1 & _).
    rewrite E1. cbn [bind bp_spec_step]. now rewrite Fi.
  Qed.
  Lemma bp_exact ops : 1 <= m -> 3 <= d ->
    (never_harmful ksize vsize cfg ops <->
     forall ops1 ops2 o, ops = ops1 ++ ops2 -> obs (ops1 ++ [o]) = Ok (bp_spec_outputs fits (ops1 ++ [o]))).
  Proof.
    intros Hm Hd. split.
    - intros Nh ops1 ops2 o ->. apply next_right; auto. now apply never_harmful_app in Nh.
    - induction ops as [|o ops IH] using rev_ind; intros R.
      + intros o1 k v o2 s outs E. destruct o1; discriminate.
      + assert (Nh : never_harmful ksize vsize cfg ops).
        { apply IH. intros ops1 ops2 o' ->. apply (R ops1 (ops2 ++ [o])). now rewrite <- app_assoc. }
        apply never_harmful_snoc; [exact Nh|]. intros k v s outs -> E Fi Hf.
        destruct (bp_run_inv m d Hm Hd ksize vsize cfg eq_refl eq_refl ops Nh) as (s' & E' & I). rewrite E in E'. injection E' as <- ->.
        destruct (harmful_step m d Hm Hd ksize vsize cfg eq_refl eq_refl s _ k v I Hf Fi) as (s' & k' & y & E1 & Ne & A & E2).
        specialize (R (ops ++ [BInsert k v]) [] (BGet k') ltac:(now rewrite app_nil_r)).
        rewrite spec_outputs_snoc, spec_state_snoc in R. cbn [bp_spec_step snd] in R. rewrite Fi in R. cbn [fst] in R.
        rewrite at_put_other, A in R by (auto using spec_sorted).
        assert (X : obs ((ops ++ [BInsert k v]) ++ [BGet k']) = Ok ((bp_spec_outputs fits ops ++ [OPair (hd_error (at_key k (bp_spec_state fits ops)))]) ++ [OVal None])).
        { eapply outputs_app.
          - eapply run_app_ok; [exact E|]. cbn [run]. rewrite E1. reflexivity.
          - unfold outputs. cbn [run]. rewrite E2. reflexivity. }
        rewrite X in R. injection R as R. apply app_inj_tail in R as [_ R]. discriminate.
  Qed.

  (** One overwriting call. *)
  Lemma bp_overwrite_exact ops s outs k v : 1 <= m -> 3 <= d -> never_harmful ksize vsize cfg ops ->
    run (bp_step ksize vsize cfg) (new_store m) ops = Ok (s, outs) -> fits k v = true ->
    (~ harmful m s k -> forall k', cmp k k' <> Eq -> exists o r,
       obs (ops ++ [BGet k']) = Ok (outs ++ [r]) /\ obs (ops ++ [BInsert k v; BGet k']) = Ok (outs ++ [o; r])) /\
    (harmful m s k -> exists k' w o, cmp k k' <> Eq /\
       obs (ops ++ [BGet k']) = Ok (outs ++ [OVal (Some w)]) /\ obs (ops ++ [BInsert k v; BGet k']) = Ok (outs ++ [o; OVal None])).
  Proof.
    intros Hm Hd Nh E Fi. destruct (bp_run_inv m d Hm Hd ksize vsize cfg eq_refl eq_refl ops Nh) as (s' & E' & I).
    rewrite E in E'. injection E' as <- ->. split.
    - intros N k' Ne. destruct (bp_step_inv m d Hm Hd ksize vsize cfg eq_refl eq_refl s _ (BInsert k v) I) as (s1 & E1 & I1).
      { intros k0 v0 Q _. now injection Q as <- <-. }
      cbn [bp_spec_step] in E1, I1. rewrite Fi in E1, I1. cbn [fst snd] in E1, I1.
      do 2 eexists. split; apply (outputs_app _ _ _ _ _ _ _ E); unfold outputs; cbn [run].
      + cbn [bp_step]. rewrite (get_inv m d Hm Hd s _ k' I). reflexivity.
      + rewrite E1. cbn [bind bp_step]. rewrite (get_inv m d Hm Hd s1 _ k' I1), at_put_other by (auto using spec_sorted). reflexivity.
    - intros Hf. destruct (harmful_step m d Hm Hd ksize vsize cfg eq_refl eq_refl s _ k v I Hf Fi) as (s' & k' & y & E1 & Ne & A & E2).
      exists k', (snd y). eexists. split; [exact Ne|]. split; apply (outputs_app _ _ _ _ _ _ _ E); unfold outputs; cbn [run].
      + cbn [bp_step]. rewrite (get_inv m d Hm Hd s _ k' I), A. reflexivity.
      + rewrite E1. cbn [bind]. rewrite E2. reflexivity.
  Qed.
End Final.

(** *** Leaves and internal nodes *)
Section Nodes.
  Context {K V : Type} `{CmpLaws K}.

  Lemma leaf_ops m : 1 <= m ->
    (forall (es : list (K * V)) nx k v, sorted es -> length es < m ->
       leaf_insert (packed_leaf m es nx) (k, v) =
         Ok (packed_leaf m (below k es ++ (k, v) :: above k es) nx, option_map IEntry (hd_error (at_key k es)))) /\
    (forall (es : list (K * V)) nx k v, sorted es -> length es = m -> at_key k es = [] ->
       exists l r sk, leaf_insert (packed_leaf m es nx) (k, v) =
           Ok (packed_leaf m l nx, Some (ISplit sk (packed_leaf m r nx))) /\
         l ++ r = below k es ++ (k, v) :: above k es /\ option_map fst (hd_error r) = Some sk /\
         (m + 1) / 2 <= length l <= m /\ (m + 1) / 2 <= length r <= m) /\
    (forall (es : list (K * V)) nx k, sorted es -> length es <= m ->
       leaf_remove (packed_leaf m es nx) k = Ok (packed_leaf m (below k es ++ above k es) nx, hd_error (at_key k es))) /\
    (forall (a b : list (K * V)) c nx, length (a ++ c :: b) <= m ->
       leaf_remove_at (packed_leaf m (a ++ c :: b) nx) (length a) = Ok (packed_leaf m (a ++ b) nx, c)) /\
    (forall (a b : list (K * V)) nx ny, length a + length b <= m ->
       leaf_merge (packed_leaf m a nx) (packed_leaf m b ny) = Ok (packed_leaf m (a ++ b) ny)) /\
    (forall (es : list (K * V)) nx k, sorted es -> length es <= m ->
       leaf_search (packed_leaf m es nx) k =
         Ok (match at_key k es with [] => None | _ => Some (length (below k es)) end)).
  Proof.
    intros Hm. repeat split.
    - intros es nx k v S L. exact (leaf_insert_room m es nx (k, v) S L).
    - intros es nx k v S L A. destruct (leaf_insert_split m es nx (k, v) S L Hm A) as (sk & E1 & E2).
      exists (firstn (m / 2 + 1) (put (k, v) es)), (skipn (m / 2 + 1) (put (k, v) es)), (fst sk).
      pose proof (put_length (k, v) es S A) as PL. pose proof (half_up m) as HU. pose proof (half_le m) as HL.
      split; [exact E2|]. split; [apply firstn_skipn|]. split; [now rewrite E1|].
      rewrite firstn_length, skipn_length, PL. lia.
    - intros es nx k S L. exact (leaf_remove_ok m es nx k S L).
    - intros a b c nx L. exact (leaf_remove_at_ok m a c b nx L).
    - intros a b nx ny L. exact (leaf_merge_ok m a b nx ny L).
    - intros es nx k S L. exact (leaf_search_ok m es nx k S L Hm).
  Qed.

  Lemma leaf_overwrite_full m (es : list (K * V)) nx k v x : sorted es -> length es = m -> 1 <= m -> at_key k es = [x] ->
    let B := below k es in
    leaf_insert (packed_leaf m es nx) (k, v) =
      Ok (mkLeaf m (map Some (firstn (m / 2 + 1) B) ++ repeat None (length B - (m / 2 + 1))
                    ++ map Some ((k, v) :: above k es)) nx, Some (IEntry x)).
  Proof. exact (leaf_insert_full_found m es nx (k, v) x). Qed.

  Lemma internal_ops d : 2 <= d ->
    (forall ks1 ks2 ps1 ps2 (k : K) p (right : bool),
       StronglySorted (fun x y => cmp x y = Lt) (k :: ks2) -> Forall (fun x => cmp k x <> Lt) ks1 ->
       length (ks1 ++ ks2) < d -> length (ps1 ++ ps2) = length (ks1 ++ ks2) + 1 ->
       length ps1 = length ks1 + (if right then 1 else 0) ->
       internal_insert (packed_internal d (ks1 ++ ks2) (ps1 ++ ps2)) k p right =
         Ok (packed_internal d (ks1 ++ k :: ks2) (ps1 ++ p :: ps2), None)) /\
    (forall p0 (kp : list (K * nat)) k p, sorted kp -> at_key k kp = [] -> length kp = d ->
       exists l sk sp r, below k kp ++ (k, p) :: above k kp = l ++ (sk, sp) :: r /\
         length l = (d + 1) / 2 /\ length r = d / 2 /\
         internal_insert (packed_internal d (map fst kp) (p0 :: map snd kp)) k p true =
           Ok (packed_internal d (map fst l) (p0 :: map snd l),
               Some (sk, packed_internal d (map fst r) (sp :: map snd r)))) /\
    (forall ks1 (k : K) ks2 ps1 p ps2 (right : bool),
       length (ks1 ++ k :: ks2) <= d -> length (ps1 ++ p :: ps2) = length (ks1 ++ k :: ks2) + 1 ->
       length ps1 = length ks1 + (if right then 1 else 0) ->
       internal_remove_at (packed_internal d (ks1 ++ k :: ks2) (ps1 ++ p :: ps2)) (length ks1) right =
         Ok (packed_internal d (ks1 ++ ks2) (ps1 ++ ps2), (k, p))) /\
    (forall ks1 ps1 (sk : K) ks2 ps2, length ks1 + length ks2 < d ->
       length ps1 = length ks1 + 1 -> length ps2 = length ks2 + 1 ->
       internal_merge (packed_internal d ks1 ps1) sk (packed_internal d ks2 ps2) =
         Ok (packed_internal d (ks1 ++ sk :: ks2) (ps1 ++ ps2))) /\
    (forall ks1 ks2 ps (k : K), length (ks1 ++ ks2) <= d ->
       Forall (fun x => cmp x k <> Gt) ks1 -> Forall (fun x => cmp x k = Gt) ks2 ->
       internal_search (packed_internal d (ks1 ++ ks2) ps) k = Ok (length ks1)).
  Proof.
    intros Hd. split; [|split; [|split; [|split]]].
    - intros ks1 ks2 ps1 ps2 k p r. exact (internal_insert_room d ks1 ks2 ps1 ps2 k p r).
    - intros p0 kp k p S A L. exact (internal_insert_split d p0 kp k p S A L Hd).
    - intros ks1 k ks2 ps1 p ps2 r. exact (internal_remove_at_ok d ks1 k ks2 ps1 p ps2 r).
    - intros ks1 ps1 sk ks2 ps2. exact (internal_merge_ok d ks1 ps1 sk ks2 ps2).
    - intros ks1 ks2 ps k L. apply (internal_search_ok d ks1 ks2 ps k L). lia.
  Qed.
End Nodes.

(** *** Counterexamples *)
Definition nat_obs (m d : nat) (ops : list (bp_op nat nat)) : res (list (bp_out nat nat)) :=
  outputs (bp_step (fun _ => 4%N) (fun _ => 8%N) (mkConfig 4 8 m d)) (new_store m) ops.
Definition fill (n : nat) : list (bp_op nat nat) := map (fun i => BInsert i (i + 1000)) (seq 0 n).

Lemma bp_overwrite_bad_list : nat_obs 5 3 (fill 5 ++ [BInsert 4 7; BIter; BGet 3; BLen]) =
  Ok (repeat (OPair None) 5 ++
      [OPair (Some (4, 1004)); OList [(0, 1000); (1, 1001); (2, 1002)]; OVal None; ONat 5]).
Proof. vm_compute. reflexivity. Qed.

Lemma bp_degree_bad : forall d, d < 3 -> exists ops, nat_obs 1 d ops = Panic.
Proof.
  intros d L. destruct d as [|[|[|d]]]; [| | |lia].
  - exists (fill 2). vm_compute. reflexivity.
  - exists (fill 4). vm_compute. reflexivity.
  - exists (fill 2 ++ [BRemove 0; BRemove 1]). vm_compute. reflexivity.
Qed.
Lemma bp_leaf_degree_bad : forall d, nat_obs 0 d [BInsert 0 0] = Panic /\ nat_obs 0 d [BGet 0] = Panic.
Proof. intros d. split; reflexivity. Qed.

(** A full node of degree 4 with keys 10, 20, 30, 40 and children 1 .. 5; inserting 15 with the left
    child 9 must give children 1, 9, 2, 3, 4, 5.  Children 4 and 5 are lost. *)
Lemma internal_left_bad : exists l sk r,
  internal_insert (packed_internal 4 [10; 20; 30; 40] [1; 2; 3; 4; 5]) 15 9 false = Ok (l, Some (sk, r)) /\
  firstn (in_len l + 1) (in_ptrs l) ++ firstn (in_len r + 1) (in_ptrs r) = [1; 9; 2; 3; 0; 0].
Proof. do 3 eexists. vm_compute. split; reflexivity. Qed.
