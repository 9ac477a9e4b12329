(** Proofs about DropModel.v. *)
From Verif Require Export DropModel ShapeSpec CostSpec RareSpec RbProofs AvlDepthProofs SplayCostProofs TreeCostProofs TreapRareProofs TreapListRareProofs TreapSeedProofs RadixProofs RadixMapProofs RadixCostSpec RadixCostProofs RunLemmas.
From Coq Require Import Permutation.

Section Tree.
  Context {A K V : Type}.
  Implicit Types t : tree A K V.

  Lemma drop_ok t : forall f, depth t <= f -> exists d, drop_tree f t = Ok d /\ Permutation d (inorder t).
  Proof.
    induction t as [|a l IHl e r IHr]; intros f L; [exists []; now split|]. cbn [depth] in L. destruct f as [|f]; [lia|].
    destruct (IHl f) as (x & E1 & P1); [lia|]. destruct (IHr f) as (y & E2 & P2); [lia|].
    exists (e :: x ++ y). cbn [drop_tree]. rewrite E1. cbn [bind]. rewrite E2. split; [reflexivity|].
    cbn [inorder]. rewrite P1, P2. apply Permutation_middle.
  Qed.
  Lemma drop_overflow t : forall f, f < depth t -> drop_tree f t = Panic.
  Proof.
    induction t as [|a l IHl e r IHr]; intros f L; cbn [depth] in L; [lia|]. destruct f as [|f]; [reflexivity|]. cbn [drop_tree].
    destruct (Nat.lt_ge_cases f (depth l)) as [Ll|Ll]; [now rewrite (IHl f Ll)|]. destruct (drop_ok l f Ll) as (x & -> & _). cbn [bind].
    now rewrite (IHr f) by lia.
  Qed.

  Definition shallow (f : nat) (s : @iter_state A K V) : Prop := depth (fst s) <= f /\ Forall (fun er => depth (snd er) <= f) (snd s).
  Lemma push_shallow t : forall st f, depth t <= f -> Forall (fun er => depth (snd er) <= f) st -> Forall (fun er => depth (snd er) <= f) (push_left t st).
  Proof. induction t as [|a l IHl e r _]; intros st f L F; [exact F|]. cbn [depth] in L. apply IHl; [lia|]. constructor; [cbn; lia | exact F]. Qed.
  Lemma next_shallow f s : shallow f s -> shallow f (snd (iter_next s)).
  Proof.
    intros [L F]. unfold iter_next. pose proof (push_shallow (fst s) (snd s) f L F) as X. destruct (push_left (fst s) (snd s)) as [|[e r] st].
    - split; [cbn; lia | constructor].
    - inversion X as [|? ? Y Z]; subst. split; [exact Y | exact Z].
  Qed.
  Lemma skip_shallow f n : forall s, shallow f s -> shallow f (iter_skip n s) /\ iter_list (iter_skip n s) = skipn n (iter_list s).
  Proof.
    induction n as [|n IH]; intros s X; [now split|]. cbn [iter_skip]. destruct (IH _ (next_shallow f s X)) as [Y Z]. split; [exact Y|].
    rewrite Z, (proj2 (iter_next_spec s)). destruct (iter_list s); [now rewrite skipn_nil | reflexivity].
  Qed.
  Lemma drop_stack_ok f (st : list ((K * V) * tree A K V)) : Forall (fun er => depth (snd er) <= f) st -> exists d, drop_stack (A := A) f st = Ok d /\ Permutation d (stack_list st).
  Proof.
    induction 1 as [|[e r] st L F (x & E1 & P1)]; [exists []; now split|]. destruct (drop_ok r f L) as (y & E2 & P2).
    exists (x ++ e :: y). cbn [drop_stack]. rewrite E1. cbn [bind]. rewrite E2. split; [reflexivity|].
    unfold stack_list. cbn [map concat fst snd]. fold (stack_list st). rewrite P1, P2, Permutation_app_comm. reflexivity.
  Qed.
  Lemma drop_iter_ok t n f : depth t <= f -> exists d, drop_into_iter f (iter_skip n (iter_new t)) = Ok d /\ Permutation d (skipn n (inorder t)).
  Proof.
    intros L. destruct (skip_shallow f n (iter_new t)) as [[X1 X2] Y]; [split; [exact L | constructor]|].
    destruct (drop_ok _ _ X1) as (x & E1 & P1). destruct (drop_stack_ok _ _ X2) as (y & E2 & P2).
    exists (x ++ y). unfold drop_into_iter. rewrite E1. cbn [bind]. rewrite E2. split; [reflexivity|].
    assert (Ei : inorder t = iter_list (iter_new t)) by (unfold iter_list, iter_new, stack_list; simpl; now rewrite app_nil_r).
    rewrite Ei, <- Y, P1, P2. reflexivity.
  Qed.

  (** What all balanced trees share *)
  Lemma drop_contents t l f : inorder t = l -> depth t <= f ->
    (exists d, drop_tree f t = Ok d /\ Permutation d l) /\ forall n, exists d, drop_into_iter f (iter_skip n (iter_new t)) = Ok d /\ Permutation d (skipn n l).
  Proof. intros <- L. split; [now apply drop_ok | intros n; now apply drop_iter_ok]. Qed.
End Tree.

(** What iterating shows is what the specification holds. *)
Lemma spec_run_snoc {S O R} (step : S -> O -> S * R) o ops : forall s,
  snd (spec_run step s (ops ++ [o])) = snd (spec_run step s ops) ++ [snd (step (fst (spec_run step s ops)) o)].
Proof.
  induction ops as [|x ops IH]; intros s; cbn [app spec_run].
  - cbn [fst snd app]. destruct (step s o). reflexivity.
  - destruct (step s x) as [s1 r]. specialize (IH s1). destruct (spec_run step s1 (ops ++ [o])), (spec_run step s1 ops). cbn [fst snd] in *. now rewrite IH.
Qed.
Lemma shown {K V S} `{Cmp K} (step : S -> map_op K V -> res (S * map_out K V)) s ops m outs l :
  outputs step s (ops ++ [MIter]) = Ok (map_spec_outputs (ops ++ [MIter])) -> run step s ops = Ok (m, outs) -> step m MIter = Ok (m, RList l) ->
  l = fst (spec_run map_spec_step [] ops).
Proof.
  intros E1 E2 E3. unfold outputs in E1. assert (E4 : run step m [MIter] = Ok (m, [RList l])) by (cbn [run]; now rewrite E3).
  rewrite (run_app_ok step _ _ _ _ _ _ _ E2 E4) in E1. cbn in E1. injection E1 as E1.
  unfold map_spec_outputs, spec_outputs in E1. rewrite spec_run_snoc in E1. apply app_inj_tail in E1 as [_ E1]. cbn in E1. now injection E1.
Qed.

Section Maps.
  Context {K V : Type} `{CmpLaws K}.

  Lemma rb_drop (ops : list (map_op K V)) m outs : run rb_step rb_new ops = Ok (m, outs) ->
    let l := fst (spec_run map_spec_step [] ops) in let f := 2 * Nat.log2 (S (length l)) in
    (exists d, drop_tree f (bm_tree m) = Ok d /\ Permutation d l) /\
    forall n, exists d, drop_into_iter f (iter_skip n (iter_new (bm_tree m))) = Ok d /\ Permutation d (skipn n l).
  Proof.
    intros E l f. assert (Ei : inorder (bm_tree m) = l).
    { eapply shown; [apply rb_refines | exact E |]. unfold rb_step. cbn [bmap_step]. rewrite iter_all_spec. reflexivity. }
    apply drop_contents; [exact Ei|]. unfold f. rewrite <- Ei, size_inorder. exact (proj2 (rb_reachable_balanced ops m outs E)).
  Qed.
  Lemma avl_drop (ops : list (map_op K V)) m outs : removes_ends [] ops -> run avl_step avl_new ops = Ok (m, outs) ->
    let l := fst (spec_run map_spec_step [] ops) in let f := 2 * Nat.log2 (S (length l)) + 1 in
    (exists d, drop_tree f (bm_tree m) = Ok d /\ Permutation d l) /\
    forall n, exists d, drop_into_iter f (iter_skip n (iter_new (bm_tree m))) = Ok d /\ Permutation d (skipn n l).
  Proof.
    intros Re E l f. assert (Ei : inorder (bm_tree m) = l).
    { eapply shown; [apply avl_refines | exact E |]. unfold avl_step. cbn [bmap_step]. rewrite iter_all_spec. reflexivity. }
    apply drop_contents; [exact Ei|]. unfold f. rewrite <- Ei, size_inorder. apply fib_log. exact (proj2 (avl_ends_balanced ops m outs Re E)).
  Qed.

  Lemma treap_drop (M : nat) (ops : list (map_op K V)) : 0 < M -> 2 * insertions ops <= M ->
    exists maps : list N -> tree (N * nat) K V,
      (forall ps, length ps = length ops -> exists outs, run treap_step_c Leaf (combine ops ps) = Ok (maps ps, outs)) /\
      (forall ps f d, length ps = length ops -> drop_tree f (maps ps) = Ok d -> Permutation d (fst (spec_run map_spec_step [] ops))) /\
      forall s, rarely_above M (length ops) s 0
        (fun ps => match drop_tree (3 * Nat.log2 (insertions ops + 2) + s + 2) (maps ps) with Ok _ => 0 | _ => 1 end).
  Proof.
    intros PM LM. destruct (treap_rare M ops PM) as (maps & steps & R1 & _ & R3). destruct (R3 LM) as [R4 _]. exists maps. split; [|split].
    - intros ps El. destruct (R1 ps El) as [E _]. eauto.
    - intros ps f d El Ed. destruct (R1 ps El) as [E _].
      destruct (Nat.lt_ge_cases f (depth (maps ps))) as [Lf|Lf]; [rewrite (drop_overflow _ _ Lf) in Ed; discriminate|].
      destruct (drop_ok _ _ Lf) as (d' & Ed' & P). assert (d' = d) by congruence. subst d'. rewrite P.
      enough (Ei : inorder (maps ps) = fst (spec_run map_spec_step [] ops)) by now rewrite Ei.
      destruct (treap_steps_average M (ops ++ [MIter]) PM) as (steps2 & S1 & _).
      destruct (S1 (ps ++ [0%N])) as [S2 S3]; [rewrite !app_length; simpl; lia|].
      assert (Ec : combine (ops ++ [MIter]) (ps ++ [0%N]) = combine ops ps ++ [(MIter, 0%N)]).
      { clear -El. revert ps El. induction ops as [|o ops' IH]; intros [|p ps] El; try discriminate; [reflexivity|]. simpl. rewrite IH; auto. }
      assert (E4 : exists c, run treap_step_c (maps ps) [(MIter, 0%N)] = Ok (maps ps, [(RList (inorder (maps ps)), c)])).
      { exists 0. cbn [run]. unfold treap_step_c. cbn [fst]. unfold treap_step. cbn [fst]. rewrite iter_all_spec. reflexivity. }
      destruct E4 as [c E4]. rewrite Ec in S2. unfold outputs in S2. rewrite (run_app_ok treap_step_c _ _ _ _ _ _ _ E E4) in S2.
      assert (Eo := f_equal (fun r => rmap (map fst) r) S2). cbn in Eo. injection Eo as Eo. rewrite map_app in Eo. cbn [map fst] in Eo.
      assert (Ef : forall X Y (x : list X) (y : list Y), length y = length x -> map fst (combine x y) = x).
      { clear. induction x as [|a x IH]; intros [|b y] L; try discriminate; [reflexivity|]. simpl. rewrite IH; auto. }
      rewrite (Ef _ _ (map_spec_outputs (ops ++ [MIter])) (steps2 (ps ++ [0%N]))) in Eo.
      + unfold map_spec_outputs, spec_outputs in Eo. rewrite spec_run_snoc in Eo. apply app_inj_tail in Eo as [_ Eo]. cbn in Eo. now injection Eo.
      + rewrite S3. symmetry. apply spec_run_length.
    - intros s. eapply rare_le; [|exact (R4 s)]. cbv beta. intros ps ips X.
      destruct (Nat.lt_ge_cases (3 * Nat.log2 (insertions ops + 2) + s + 2) (depth (maps ps))) as [Lf|Lf]; [exact Lf|].
      destruct (drop_ok _ _ Lf) as (d & Ed & _). rewrite Ed in X. lia.
  Qed.
End Maps.

Lemma tl_drop {T : Type} (M : nat) (ops : list (seq_op T)) : let l := fst (spec_run seq_spec_step [] ops) in 0 < M -> 2 * length l <= M ->
  exists lists : list N -> tree (N * nat) unit T,
    (forall ps, length ps = length ops -> exists outs, run tl_step_c Leaf (combine ops ps) = Ok (lists ps, outs)) /\
    (forall ps f d, length ps = length ops -> drop_tree f (lists ps) = Ok d -> Permutation (map snd d) l) /\
    forall s, rarely_above M (length ops) s 0
      (fun ps => match drop_tree (3 * Nat.log2 (length l + 2) + s + 2) (lists ps) with Ok _ => 0 | _ => 1 end).
Proof.
  intros l PM LM. destruct (tl_rare M ops PM) as (lists & steps & R1 & _ & R3). destruct (R3 LM) as [R4 _]. exists lists. split; [|split].
  - intros ps El. destruct (R1 ps El) as [E _]. eauto.
  - intros ps f d El Ed. destruct (R1 ps El) as [E _].
    destruct (Nat.lt_ge_cases f (depth (lists ps))) as [Lf|Lf]; [rewrite (drop_overflow _ _ Lf) in Ed; discriminate|].
    destruct (drop_ok _ _ Lf) as (d' & Ed' & P). assert (d' = d) by congruence. subst d'. rewrite P.
    enough (Ei : map snd (inorder (lists ps)) = l) by now rewrite Ei.
    destruct (tl_steps_average M (ops ++ [QIter]) PM) as (steps2 & S1 & _).
    destruct (S1 (ps ++ [0%N])) as [S2 S3]; [rewrite !app_length; simpl; lia|].
    assert (Ec : combine (ops ++ [QIter]) (ps ++ [0%N]) = combine ops ps ++ [(QIter, 0%N)]).
    { clear -El. revert ps El. induction ops as [|o ops' IH]; intros [|p ps] El; try discriminate; [reflexivity|]. simpl. rewrite IH; auto. }
    assert (E4 : exists c, run tl_step_c (lists ps) [(QIter, 0%N)] = Ok (lists ps, [(QList (map snd (inorder (lists ps))), c)])).
    { exists 0. cbn [run]. unfold tl_step_c. cbn [fst]. unfold tl_step. cbn [fst]. rewrite iter_all_spec. reflexivity. }
    destruct E4 as [c E4]. rewrite Ec in S2. unfold outputs in S2. rewrite (run_app_ok tl_step_c _ _ _ _ _ _ _ E E4) in S2.
    assert (Eo := f_equal (fun r => rmap (map fst) r) S2). cbn in Eo. injection Eo as Eo. rewrite map_app in Eo. cbn [map fst] in Eo.
    assert (Ef : forall X Y (x : list X) (y : list Y), length y = length x -> map fst (combine x y) = x).
    { clear. induction x as [|a x IH]; intros [|b y] L; try discriminate; [reflexivity|]. simpl. rewrite IH; auto. }
    rewrite (Ef _ _ (spec_outputs seq_spec_step [] (ops ++ [QIter])) (steps2 (ps ++ [0%N]))) in Eo.
    + unfold spec_outputs in Eo. rewrite spec_run_snoc in Eo. apply app_inj_tail in Eo as [_ Eo]. cbn in Eo. now injection Eo.
    + rewrite S3. symmetry. apply spec_run_length.
  - intros s. eapply rare_le; [|exact (R4 s)]. cbv beta. intros ps ips X.
    destruct (Nat.lt_ge_cases (3 * Nat.log2 (length l + 2) + s + 2) (depth (lists ps))) as [Lf|Lf]; [exact Lf|].
    destruct (drop_ok _ _ Lf) as (d & Ed & _). rewrite Ed in X. lia.
Qed.

Lemma avl_drop_slow c : exists (ops : list (map_op nat unit)) m outs,
  run avl_step avl_new ops = Ok (m, outs) /\ drop_tree (c * Nat.log2 (S (size (bm_tree m))) + c) (bm_tree m) = Panic.
Proof.
  destruct (avl_not_logarithmic (2 * c)) as (ops & m & outs & E & L). exists ops, m, outs. split; [exact E|]. apply drop_overflow.
  destruct (Nat.eq_dec (size (bm_tree m)) 0) as [E0|E0].
  - destruct (bm_tree m); cbn in E0, L; lia.
  - assert (1 <= Nat.log2 (S (size (bm_tree m)))) by (apply (Nat.log2_le_mono 2); lia). nia.
Qed.

Lemma chain_depth {V} (v : V) n : depth (SplayCostProofs.chain v n) = n.
Proof. induction n as [|n IH]; [reflexivity|]. cbn [SplayCostProofs.chain depth]. rewrite IH. lia. Qed.
Lemma splay_chain (n : nat) : forall j, exists outs, run splay_step {| bm_tree := SplayCostProofs.chain tt j; bm_len := j |} (map (fun k => MInsert k tt) (seq j n)) = Ok ({| bm_tree := SplayCostProofs.chain tt (j + n); bm_len := j + n |}, outs).
Proof.
  induction n as [|n IH]; intros j; [exists []; cbn; now rewrite Nat.add_0_r|]. cbn [seq map run].
  unfold splay_step at 1. cbn [bmap_step]. unfold bmap_insert. cbn [bm_tree bm_len]. rewrite chain_insert. cbn [bind].
  destruct (IH (S j)) as (outs & E). eexists. rewrite E. cbn [bind]. rewrite Nat.add_succ_comm. reflexivity.
Qed.
Lemma splay_drop_slow frames : exists m outs,
  run splay_step splay_new (map (fun k => MInsert k tt) (seq 0 (S frames))) = Ok (m, outs) /\ drop_tree frames (bm_tree m) = Panic.
Proof.
  destruct (splay_chain (S frames) 0) as (outs & E). eexists _, outs. split; [exact E|]. apply drop_overflow. cbn [bm_tree]. rewrite chain_depth. lia.
Qed.

Lemma rchain_depth p ks : depth (rchain p ks) = length ks.
Proof. induction ks as [|k ks IH]; [reflexivity|]. cbn [rchain depth length]. rewrite IH. lia. Qed.
Lemma lchain_depth p n : depth (lchain p n) = n.
Proof. induction n as [|n IH]; [reflexivity|]. cbn [lchain depth]. rewrite IH. lia. Qed.
Lemma lchain_size p n : size (lchain p n) = n.
Proof. induction n as [|n IH]; [reflexivity|]. cbn [lchain size]. rewrite IH. lia. Qed.
Lemma map_seeded_drop (f : nat -> N) (frames : nat) : exists (ops : list (prog_op nat unit)) maps gens outs,
  run (map_seeded_step f) map_seeded ops = Ok ((maps, gens), outs) /\ size (maps 0) = S frames /\ drop_tree frames (maps 0) = Panic.
Proof.
  destruct (joins_run f (S frames)) as (rs & g & outs & E & E0 & _). exists (joins (S frames)), rs, g, outs. split; [exact E|]. rewrite E0.
  split; [now rewrite rchain_size, seq_length|]. apply drop_overflow. rewrite rchain_depth, seq_length. lia.
Qed.
Lemma list_seeded_drop (f : nat -> N) (frames : nat) : exists (ops : list (sprog_op unit)) lists gens outs,
  run (list_seeded_step f) list_seeded ops = Ok ((lists, gens), outs) /\ size (lists 0) = S frames /\ drop_tree frames (lists 0) = Panic.
Proof.
  destruct (ljoins_run f (S frames)) as (rs & g & outs & E & E0 & _). exists (ljoins (S frames)), rs, g, outs. split; [exact E|]. rewrite E0.
  split; [apply lchain_size|]. apply drop_overflow. rewrite lchain_depth. lia.
Qed.

(** ** Radix trees *)
Section Radix.
  Context {T : Type}.
  Implicit Types t : rtree T.

  Fixpoint rdepth t : nat := match t with RNil => 0 | RNode _ _ n c => S (Nat.max (rdepth n) (rdepth c)) end.
  Lemma own_values (v : option T) : map snd (own v) = match v with Some x => [x] | None => [] end.
  Proof. now destruct v. Qed.
  Lemma pre_values k (l : list (bytes * T)) : map snd (map (pre k) l) = map snd l.
  Proof. rewrite map_map. reflexivity. Qed.
  Lemma rdrop_ok t : forall f, rdepth t <= f -> exists d, drop_rtree f t = Ok d /\ Permutation d (map snd (rent t)).
  Proof.
    induction t as [|k v n IHn c IHc]; intros f L; [exists []; now split|]. cbn [rdepth] in L. destruct f as [|f]; [lia|].
    destruct (IHn f) as (x & E1 & P1); [lia|]. destruct (IHc f) as (y & E2 & P2); [lia|].
    eexists. cbn [drop_rtree]. rewrite E1. cbn [bind]. rewrite E2. split; [reflexivity|].
    cbn [rent]. rewrite map_app, pre_values, map_app, own_values, P1, P2, <- app_assoc. apply Permutation_app_head, Permutation_app_comm.
  Qed.

  Lemma wf_entry t : wf t -> t <> RNil -> exists q w, In (q, w) (rent t) /\ 1 <= length q.
  Proof.
    induction t as [|k v n _ c IHc]; intros W Nn; [easy|]. destruct W as (Nk & _ & Tw & _ & Wc). cbn [rent].
    assert (Lk : 1 <= length k) by (destruct k; [easy | simpl; lia]). destruct v as [x|].
    - exists k, x. split; [|exact Lk]. apply in_or_app. left. apply in_map_iff. exists ([], x). split; [unfold pre; cbn; now rewrite app_nil_r | now left].
    - destruct IHc as (q & w & i & _); [exact Wc | intros ->; now apply Tw |]. exists (k ++ q), w. split; [|rewrite app_length; lia].
      apply in_or_app. left. apply in_map_iff. exists (q, w). split; [reflexivity | exact i].
  Qed.
  Lemma rdepth_le t : forall m, wf t -> thin 256 t -> t <> RNil -> (forall q w, In (q, w) (rent t) -> length q <= m) ->
    rdepth t + 256 <= length (heads t) + 256 * m.
  Proof.
    induction t as [|k v n IHn c IHc]; intros m W Th Nn Lm; [easy|]. pose proof (wf_entry _ W Nn) as (q0 & w0 & i0 & L0). specialize (Lm _ _ i0) as L1.
    destruct W as (Nk & _ & _ & Wn & Wc). destruct Th as (Lc & Tn & Tc). rewrite heads_node. cbn [rdepth length].
    assert (A : rdepth n + 256 <= length (heads n) + 256 * m).
    { destruct n as [|k' v' n' c']; [cbn [rdepth heads length]; lia|]. apply IHn; auto; [discriminate|]. intros q w i. apply (Lm q w). cbn [rent]. apply in_or_app. now right. }
    assert (B : rdepth c + 256 <= 256 * m).
    { destruct c as [|k' v' n' c']; [cbn [rdepth]; lia|]. pose proof (wf_entry _ Wc ltac:(discriminate)) as (q1 & w1 & i1 & L2).
      assert (Lk : 1 <= length k) by (destruct k; [easy | simpl; lia]).
      assert (Lq : forall q w, In (q, w) (rent (RNode k' v' n' c')) -> length q <= m - 1).
      { intros q w i. assert (length (k ++ q) <= m); [|rewrite app_length in *; lia]. apply (Lm _ w). cbn [rent]. apply in_or_app. left. apply in_map_iff. exists (q, w). split; [reflexivity|]. apply in_or_app. now right. }
      pose proof (Lq _ _ i1). specialize (IHc (m - 1) Wc Tc ltac:(discriminate) Lq). lia. }
    lia.
  Qed.

  Lemma radix_drop (ops : list (radix_op T)) m outs len : inserts_bytes ops -> run radix_step radix_new ops = Ok (m, outs) ->
    (forall k v, In (k, v) (radix_contents ops) -> length k <= len) ->
    exists d, drop_rtree (256 * len + 1) (rm_root m) = Ok d /\ Permutation d (map snd (radix_contents ops)).
  Proof.
    intros Hb E Ll. destruct (radix_reachable ops m outs E) as (dead & El & _ & Ro & _).
    pose proof (root_below (rm_root m) Ro) as Bo. rewrite El in Bo. specialize (Bo (contents_bytes ops Hb)). rewrite <- El in *.
    apply rdrop_ok. destruct (rm_root m) as [|k v n c]; [cbn; lia|]. destruct Ro as (-> & W & _). destruct Bo as (_ & Th & Lh). cbn [rdepth].
    destruct c as [|k' v' n' c']; [cbn [rdepth]; lia|].
    assert (Lc : forall q w, In (q, w) (rent (RNode k' v' n' c')) -> length q <= len).
    { intros q w i. assert (length (k ++ q) <= len); [|rewrite app_length in *; lia]. apply (Ll _ w). cbn [rent]. apply in_or_app. left. apply in_map_iff. exists (q, w). split; [reflexivity|]. apply in_or_app. now right. }
    pose proof (rdepth_le _ len W Th ltac:(discriminate) Lc). cbn [rdepth] in *. lia.
  Qed.
End Radix.
