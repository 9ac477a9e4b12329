(** Steps and priorities of the set operations on treaps. *)
From Verif Require Export TreapCostProofs PermTac.
From Coq Require Import Permutation.

(** ** Set operations that combine the values of common keys *)
Section SetWithLemmas.
  Context {K W : Type} `{CmpLaws K}.
  Implicit Types (a b : list (K * W)) (k : K).

  Definition f_with (c : W -> W -> W) (s : set_op) (x y : list (K * W)) : list (K * W) :=
    match s, x, y with
    | SUnion, [], y => y
    | SUnion, x, [] => x
    | SUnion, p :: _, q :: _ => [(fst p, c (snd p) (snd q))]
    | SInter, p :: _, q :: _ => [(fst p, c (snd p) (snd q))]
    | SInter, _, _ => []
    | SDiff, x, [] => x
    | SDiff, _, _ => []
    | SSymDiff, [], y => y
    | SSymDiff, x, [] => x
    | SSymDiff, _, _ => []
    end.
  Lemma f_with_nil c s : f_with c s [] [] = [].
  Proof. now destruct s. Qed.

  Lemma joined_at c b k a : at_key k (map (joined c b) a) = map (joined c b) (at_key k a).
  Proof. induction a as [|x a IH]; [reflexivity|]. cbn [map]. rewrite !at_cons, IH. cbn [joined fst]. now destruct (cmp (fst x) k). Qed.
  Lemma joined_sorted c b a : sorted a -> sorted (map (joined c b) a).
  Proof.
    induction a as [|x a IH]; intros S; [exact S|]. apply sorted_cons in S as [F S]. cbn [map]. apply sorted_cons. split; [|now apply IH].
    unfold all_gt in *. apply Forall_map. eapply Forall_impl; [|exact F]. now intros y.
  Qed.
  Lemma joined_single c b x k : cmp (fst x) k = Eq -> joined c b x = (fst x, match at_key k b with (_, w) :: _ => c (snd x) w | [] => snd x end).
  Proof. intros Ck. unfold joined. now rewrite (at_key_eq _ k b Ck). Qed.

  Lemma set_with_pw c s a b : sorted a -> sorted b -> pw (f_with c s) (set_with c s a b) a b.
  Proof.
    intros SA SB. destruct s.
    - destruct (union_pw (map (joined c b) a) b (joined_sorted _ _ _ SA) SB) as [S E]. split; [exact S|]. intros k. cbn [set_with]. rewrite E, joined_at.
      destruct (at_key_cases a k SA) as [->|(x & Ex & Cx)]; [reflexivity|]. rewrite Ex. simpl. rewrite (joined_single _ _ _ k) by now apply cmp_eq_sym.
      destruct (at_key k b) as [|[k' w] b']; [now destruct x | reflexivity].
    - destruct (inter_pw a b SA SB) as [S E]. split; [now apply joined_sorted|]. intros k. cbn [set_with]. rewrite joined_at, E.
      destruct (at_key_cases a k SA) as [->|(x & Ex & Cx)]; [now destruct (at_key k b)|]. rewrite Ex. unfold f_inter, f_with.
      destruct (at_key k b) as [|[k' w] b'] eqn:Eb; [reflexivity|]. simpl. rewrite (joined_single _ _ _ k) by now apply cmp_eq_sym. now rewrite Eb.
    - destruct (diff_pw a b SA SB) as [S E]. split; [exact S|]. intros k. cbn [set_with]. rewrite E. unfold f_diff, f_with. now destruct (at_key k a), (at_key k b).
    - destruct (symdiff_pw a b SA SB) as [S E]. split; [exact S|]. intros k. cbn [set_with]. rewrite E. unfold f_symdiff, f_with. now destruct (at_key k a), (at_key k b).
  Qed.
End SetWithLemmas.

Section SetWithMap.
  Context {K A B : Type} `{CmpLaws K}.
  Lemma on2_sorted (g : A -> B) (l : list (K * A)) : sorted l -> sorted (map (on2 g) l).
  Proof.
    induction l as [|x l IH]; intros S; [constructor|]. apply sorted_cons in S as [F S]. cbn [map]. apply sorted_cons. split; [|now apply IH].
    unfold all_gt in *. apply Forall_map. eapply Forall_impl; [|exact F]. now intros y.
  Qed.
  Lemma set_with_map (g : A -> B) c c' s (a b : list (K * A)) : (forall x y, g (c x y) = c' (g x) (g y)) -> sorted a -> sorted b ->
    map (on2 g) (set_with c s a b) = set_with c' s (map (on2 g) a) (map (on2 g) b).
  Proof.
    intros G SA SB. apply (pw_unique (f_with c' s) _ _ (map (on2 g) a) (map (on2 g) b)); [|apply set_with_pw; now apply on2_sorted].
    destruct (set_with_pw c s a b SA SB) as [S E]. split; [now apply on2_sorted|]. intros k. rewrite <- !(on2_at g), E.
    destruct (at_key k a) as [|x xs], (at_key k b) as [|y ys]; destruct s; cbn [f_with map]; try reflexivity; unfold on2; cbn [fst snd]; now rewrite G.
  Qed.
End SetWithMap.

(** ** Records around a key *)
Section Around.
  Context {K : Type} `{CmpLaws K}.
  Implicit Types (l : list (K * N)) (k : K).

  Definition around k l : nat := recs [] (map snd (above k l)) + recs [] (rev (map snd (below k l))).

  Lemma around_more_r k l l2 : all_gt l2 k -> around k l <= around k (l ++ l2).
  Proof.
    intros G. unfold around. rewrite above_app, below_app, (below_all_gt l2) by exact G. rewrite app_nil_r, map_app.
    pose proof (recs_more (map snd (above k l)) (map snd (above k l2))). lia.
  Qed.
  Lemma around_more_l k l l1 : all_lt l1 k -> around k l <= around k (l1 ++ l).
  Proof.
    intros G. unfold around. rewrite above_app, below_app, (above_all_lt l1) by exact G. rewrite app_nil_l, map_app, rev_app_distr.
    pose proof (recs_more (rev (map snd (below k l))) (rev (map snd (below k l1)))). lia.
  Qed.

  (** What a set operation that makes [T] of [A] and [B] may cost *)
  Definition set_bound (A B T : list (K * N)) : nat :=
    total (fun x => 4 + 2 * (around (fst x) A + around (fst x) B) + around (fst x) T) (A ++ B).

  Lemma total_perm {X} (f : X -> nat) (l l' : list X) : Permutation l l' -> total f l = total f l'.
  Proof. unfold total. induction 1; simpl; try lia. Qed.
  Lemma set_bound_swap A B T : set_bound A B T = set_bound B A T.
  Proof.
    unfold set_bound. rewrite (total_perm _ _ _ (Permutation_app_comm A B)). apply total_ext. intros x _. lia.
  Qed.

  Lemma set_bound_node Al (a : K * N) Ar B T1 M T2 : sorted (Al ++ a :: Ar) -> sorted B -> all_lt T1 (fst a) -> all_gt T2 (fst a) ->
    (M = [] \/ exists m, M = [m] /\ cmp (fst m) (fst a) = Eq) ->
    set_bound Al (below (fst a) B) T1 + set_bound Ar (above (fst a) B) T2 + (4 + 2 * around (fst a) B + around (fst a) (T1 ++ M ++ T2)) <=
    set_bound (Al ++ a :: Ar) B (T1 ++ M ++ T2).
  Proof.
    intros SA SB G1 G2 HM. set (k := fst a) in *. pose proof (proj1 (sorted_mid _ _ _) SA) as (S1 & S2 & F1 & F2). fold k in F1, F2.
    set (w := fun x : K * N => 4 + 2 * (around (fst x) (Al ++ a :: Ar) + around (fst x) B) + around (fst x) (T1 ++ M ++ T2)).
    assert (P : Permutation ((Al ++ a :: Ar) ++ B) ((Al ++ below k B) ++ [a] ++ (Ar ++ above k B) ++ at_key k B)).
    { rewrite (sorted_split B k SB) at 1. generalize (below k B) (at_key k B) (above k B). intros b1 b2 b3. perm. }
    unfold set_bound at 3. fold w. rewrite (total_perm w _ _ P), !total_app.
    assert (GM : forall x, cmp x k = Lt -> all_gt M x).
    { intros x Cx. destruct HM as [->|(m & -> & Cm)]; [constructor|]. constructor; [korder | constructor]. }
    assert (LM : forall x, cmp k x = Lt -> all_lt M x).
    { intros x Cx. destruct HM as [->|(m & -> & Cm)]; [constructor|]. constructor; [korder | constructor]. }
    assert (GB : forall x, cmp x k = Lt -> all_gt (at_key k B ++ above k B) x).
    { intros x Cx. apply all_gt_app. split.
      - apply Forall_forall. intros y i. apply in_at in i as [_ i]. korder.
      - eapply all_gt_weaken; [apply above_gt | exact Cx]. }
    assert (LB : forall x, cmp k x = Lt -> all_lt (below k B ++ at_key k B) x).
    { intros x Cx. apply all_lt_app. split.
      - eapply all_lt_weaken; [apply below_lt | exact Cx].
      - apply Forall_forall. intros y i. apply in_at in i as [_ i]. korder. }
    assert (X1 : set_bound Al (below k B) T1 <= total w (Al ++ below k B)).
    { apply total_le. intros x i. unfold w. assert (Cx : cmp (fst x) k = Lt).
      { apply in_app_iff in i as [i|i]; [|now apply in_below in i]. unfold all_lt in F1. rewrite Forall_forall in F1. now apply F1. }
      pose proof (around_more_r (fst x) Al (a :: Ar)) as Y1. pose proof (around_more_r (fst x) (below k B) (at_key k B ++ above k B) (GB _ Cx)) as Y2.
      rewrite <- (sorted_split B k SB) in Y2. pose proof (around_more_r (fst x) T1 (M ++ T2)) as Y3.
      rewrite all_gt_cons in Y1. rewrite all_gt_app in Y3.
      specialize (Y1 (conj Cx (all_gt_weaken _ _ _ F2 Cx))). specialize (Y3 (conj (GM _ Cx) (all_gt_weaken _ _ _ G2 Cx))). lia. }
    assert (X2 : set_bound Ar (above k B) T2 <= total w (Ar ++ above k B)).
    { apply total_le. intros x i. unfold w. assert (Cx : cmp k (fst x) = Lt).
      { apply in_app_iff in i as [i|i]; [|apply in_above in i as [_ i]; now apply cmp_gt_lt]. unfold all_gt in F2. rewrite Forall_forall in F2. now apply F2. }
      pose proof (around_more_l (fst x) Ar (Al ++ [a])) as Y1. pose proof (around_more_l (fst x) (above k B) (below k B ++ at_key k B) (LB _ Cx)) as Y2.
      rewrite <- app_assoc, <- (sorted_split B k SB) in Y2. pose proof (around_more_l (fst x) T2 (T1 ++ M)) as Y3.
      rewrite all_lt_app, all_lt_cons in Y1. rewrite all_lt_app in Y3. rewrite <- app_assoc in Y1, Y3. simpl in Y1.
      specialize (Y1 (conj (all_lt_weaken _ _ _ F1 Cx) (conj Cx (all_lt_nil _)))). specialize (Y3 (conj (all_lt_weaken _ _ _ G1 Cx) (LM _ Cx))). lia. }
    assert (X3 : 4 + 2 * around k B + around k (T1 ++ M ++ T2) <= total w [a]).
    { unfold total. cbn [map list_sum fold_right]. unfold w. fold k. lia. }
    rewrite total_app in X1, X2. lia.
  Qed.
End Around.

(** ** The set operations of treaps *)
Section TreapSetCost.
  Context {K V : Type} `{CmpLaws K}.
  Notation treap := (tree (N * nat) K V).
  Implicit Types (t lt rt : treap) (e : K * V) (k : K) (p q : N).
  Notation ip := (inorder_prio tprio).
  Notation heap := (heap_ordered tprio).
  Notation rle := (root_le tprio).
  Notation kp l := (map (on2 snd) l).

  Lemma kp_prios (l : list (K * (V * N))) : map snd (kp l) = map (fun x => snd (snd x)) l.
  Proof. rewrite map_map. reflexivity. Qed.
  Lemma search_around t k : tinv t -> search_steps t k <= 2 + 2 * around k (kp (ip t)).
  Proof.
    intros (S & _ & Hh). pose proof (search_bound t k S Hh) as B. unfold around. rewrite <- (on2_above snd), <- (on2_below snd), !kp_prios. exact B.
  Qed.

  Definition priced (f : list (K * N) -> list (K * N) -> list (K * N)) lt rt t (c : nat) : Prop :=
    pw f (kp (ip t)) (kp (ip lt)) (kp (ip rt)) /\ c <= set_bound (kp (ip lt)) (kp (ip rt)) (kp (ip t)).

  Lemma priced_swap f (s : bool) lt rt lt' rt' s' t c :
    (lt' = lt /\ rt' = rt /\ s' = s) \/ (lt' = rt /\ rt' = lt /\ s' = negb s) ->
    priced (flipped s' f) lt' rt' t c -> priced (flipped s f) lt rt t c.
  Proof.
    intros [(-> & -> & ->)|(-> & -> & ->)]; [auto|]. intros [[S E] B]. split; [|now rewrite set_bound_swap].
    split; [exact S|]. intros k. rewrite E. unfold flipped. now destruct s.
  Qed.

  Lemma kp_sorted t : tinv t -> sorted (kp (ip t)).
  Proof. intros (S & _). apply on2_sorted. now apply ip_sorted. Qed.

  Lemma priced_node f p (n : nat) l e r rt l' r' (cl cr : nat) : f [] [] = [] ->
    tinv (Node (p, n) l e r) -> tinv rt -> tinv l' -> tinv r' ->
    (let '(rl, (d, rr)) := t_split rt (fst e) in
     priced f l rl l' cl -> priced f r rr r' cr ->
     (f [(fst e, p)] (kp (ip d)) = [] -> priced f (Node (p, n) l e r) rt (t_merge l' r') (1 + search_steps rt (fst e) + cl + cr + merge_steps l' r')) /\
     (forall e', f [(fst e, p)] (kp (ip d)) = [(fst e', p)] -> cmp (fst e') (fst e) = Eq ->
        priced f (Node (p, n) l e r) rt (t_upd p l' e' r') (1 + search_steps rt (fst e) + cl + cr))).
  Proof.
    intros F0 TA TB Tl Tr. pose proof (kp_sorted _ TA) as SA. pose proof (kp_sorted _ TB) as SB. pose proof (t_split_ip rt (fst e) (proj1 TB)) as Sp.
    pose proof (search_around rt (fst e) TB) as Sr.
    destruct (t_split rt (fst e)) as [rl [d rr]]. destruct Sp as (I1 & I2 & I3). intros [Pl Bl] [Pr Br].
    rewrite I1 in Pl, Bl. rewrite I3 in Pr, Br. rewrite I2. rewrite (on2_below snd) in Pl, Bl. rewrite (on2_above snd) in Pr, Br. rewrite (on2_at snd).
    assert (Ek : kp (ip (Node (p, n) l e r)) = kp (ip l) ++ (fst e, p) :: kp (ip r)) by (cbn [inorder_prio]; rewrite map_app; reflexivity).
    unfold priced. rewrite Ek in *.
    pose proof (proj1 (sorted_mid _ _ _) SA) as (S1 & S2 & F1 & F2). cbn [fst] in F1, F2.
    assert (L1 : all_lt (kp (ip l')) (fst e)) by (eapply pw_all_lt; [exact F0 | exact Pl | exact F1 | apply below_lt]).
    assert (L2 : all_gt (kp (ip r')) (fst e)) by (eapply pw_all_gt; [exact F0 | exact Pr | exact F2 | apply above_gt]).
    pose proof (fun M => pw_node f (kp (ip l)) (fst e, p) (kp (ip r)) (kp (ip rt)) (kp (ip l')) M (kp (ip r')) F0 SA SB Pl Pr) as Nd.
    pose proof (fun M => set_bound_node (kp (ip l)) (fst e, p) (kp (ip r)) (kp (ip rt)) (kp (ip l')) M (kp (ip r')) SA SB L1 L2) as Bd.
    cbn [fst] in Nd, Bd. split.
    - intros E0. rewrite t_merge_prio, map_app. split.
      + apply (Nd []); auto.
      + specialize (Bd [] (or_introl eq_refl)). cbn [app] in Bd.
        pose proof (merge_bound l' r') as Mb. pose proof (max_records l' (proj2 (proj2 Tl))) as M1. pose proof (min_records r' (proj2 (proj2 Tr))) as M2.
        assert (Ar : around (fst e) (kp (ip l') ++ kp (ip r')) = recs [] (map (fun x => snd (snd x)) (ip r')) + recs [] (rev (map (fun x => snd (snd x)) (ip l')))).
        { unfold around. rewrite above_app, below_app, (above_all_lt _ _ L1), (below_all_lt _ _ L1), (above_all_gt _ _ L2), (below_all_gt _ _ L2).
          now rewrite app_nil_r, app_nil_l, !kp_prios. }
        lia.
    - intros e' E1 Ce.
      assert (Et : kp (ip (t_upd p l' e' r')) = kp (ip l') ++ (fst e', p) :: kp (ip r')) by (cbn [t_upd inorder_prio]; rewrite map_app; reflexivity).
      rewrite Et.
      assert (HM : [(fst e', p)] = [] \/ (exists m, [(fst e', p)] = [m] /\ cmp (fst m) (fst e) = Eq)) by (right; exists (fst e', p); auto).
      split.
      + apply (Nd [(fst e', p)]); auto.
      + specialize (Bd [(fst e', p)] HM). cbn [app] in Bd. lia.
  Qed.

  Lemma dup_prio rt k p : tinv rt -> rle p rt ->
    let '(rl, (d, rr)) := t_split rt k in
    (d = Leaf /\ kp (ip d) = []) \/
    (exists e' q, t_entry d = Some e' /\ is_none d = false /\ kp (ip d) = [(fst e', q)] /\ (q <= p)%N /\ cmp (fst e') k = Eq).
  Proof.
    intros (S & L & Hh) R. pose proof (dup_entry rt k S) as D. pose proof (t_split_heap rt k Hh) as Sh.
    destruct (t_split rt k) as [rl [d rr]]. destruct Sh as (_ & Hd & _ & G). destruct (G p R) as (_ & Rd & _).
    destruct D as [(-> & _)|(e' & E1 & E2 & E3 & E4)]; [left; auto|]. right.
    pose proof (ip_inorder d) as X. rewrite E2 in X. pose proof (heap_all d p Hd Rd) as A.
    destruct (ip d) as [|[k1 [v1 q]] [|y l]]; try discriminate X. injection X as <-. exists (k1, v1), q. repeat split; auto.
    inversion A; subst. auto.
  Qed.
  Lemma priority_rle rt (p : N) : (priority rt <= p)%N -> rle p rt.
  Proof. destruct rt as [|[q n] ? ? ?]; simpl; auto. Qed.
  Lemma result_tinv f lt rt t : set_result f lt rt t -> tinv t.
  Proof. intros ([S _] & L & Hh & _). split; auto. Qed.
  Lemma priced_leaf f lt rt t : pw f (kp (ip t)) (kp (ip lt)) (kp (ip rt)) -> priced f lt rt t 0.
  Proof. intros P. split; [exact P | lia]. Qed.
  Lemma t_union_priced fuel : forall lt rt s, size lt + size rt < fuel -> tinv lt -> tinv rt ->
    exists t c, t_union fuel lt rt s = Ok t /\ t_union_c fuel lt rt s = Ok (t, c) /\ priced (flipped s (f_with N.max SUnion)) lt rt t c.
  Proof.
    induction fuel as [|fu IH]; intros lt rt s Hf Tl Tr; [lia|]. cbn [t_union t_union_c].
    destruct lt as [|a1 l1 e1 r1]; [|destruct rt as [|a2 l2 e2 r2]].
    - exists rt, 0. repeat split; [now apply kp_sorted | | lia]. intros k. cbn. unfold flipped, f_with. now destruct s, (at_key k (kp (ip rt))).
    - eexists _, 0. repeat split; [now apply kp_sorted | | lia]. intros k. set (x := Node a1 l1 e1 r1). cbn [inorder_prio map at_key filter].
      unfold flipped, f_with. now destruct s, (at_key k (kp (ip x))).
    - destruct (swap_cases (Node a1 l1 e1 r1) (Node a2 l2 e2 r2) s) as (lt' & rt' & s' & E & D & Pp).
      rewrite E. clear E.
      assert (Tl' : tinv lt') by (destruct D as [(-> & _)|(-> & _)]; auto).
      assert (Tr' : tinv rt') by (destruct D as [(_ & -> & _)|(_ & -> & _)]; auto).
      assert (Hsz : size lt' + size rt' < S fu) by (destruct D as [(-> & -> & _)|(-> & -> & _)]; simpl in *; lia).
      assert (Nl : lt' <> Leaf) by (destruct D as [(-> & _)|(-> & _)]; discriminate).
      destruct lt' as [|[p n] l e r]; [congruence|]. rewrite t_split_c_eq.
      destruct (tinv_node _ _ _ _ Tl') as [T1 T2]. pose proof (priority_rle rt' p Pp) as Rp.
      pose proof (tinv_split rt' (fst e) Tr') as Ts. pose proof (below_split_size rt' (fst e)) as Ss.
      pose proof (dup_prio rt' (fst e) p Tr' Rp) as Dd.
      pose proof (fun l' r' cl cr F0 => priced_node (flipped s' (f_with N.max SUnion)) p n l e r rt' l' r' cl cr F0 Tl' Tr') as Nd.
      destruct (t_split rt' (fst e)) as [rl [d rr]]. destruct Ts as (Ts1 & Ts2 & Ts3). cbn [size] in Hsz.
      destruct (IH l rl s' ltac:(lia) T1 Ts1) as (l' & cl & E1 & E1' & Q1).
      destruct (IH r rr s' ltac:(lia) T2 Ts3) as (r' & cr & E2 & E2' & Q2).
      destruct (t_union_ok fu l rl s' ltac:(lia) T1 Ts1) as (x1 & E1'' & X1). assert (x1 = l') by congruence. subst x1. apply result_tinv in X1.
      destruct (t_union_ok fu r rr s' ltac:(lia) T2 Ts3) as (x2 & E2'' & X2). assert (x2 = r') by congruence. subst x2. apply result_tinv in X2.
      rewrite E1, E2, E1', E2'. cbn [bind].
      destruct (Nd l' r' cl cr ltac:(unfold flipped; now destruct s') X1 X2 Q1 Q2) as [_ N2]. eexists _, _. split; [reflexivity|]. split; [reflexivity|].
      eapply priced_swap; [exact D|]. apply N2.
      + destruct Dd as [(-> & ->)|(e' & q & -> & _ & -> & Lq & Ce)]; unfold flipped, f_with; simpl; destruct s'; cbn [fst snd]; auto; do 2 f_equal; lia.
      + destruct Dd as [(-> & _)|(e' & q & -> & _ & _ & _ & Ce)]; simpl; [apply cmp_refl|]. destruct s'; [exact Ce | apply cmp_refl].
  Qed.

  Lemma t_inter_priced fuel : forall lt rt s, size lt + size rt < fuel -> tinv lt -> tinv rt ->
    exists t c, t_inter fuel lt rt s = Ok t /\ t_inter_c fuel lt rt s = Ok (t, c) /\ priced (flipped s (f_with N.max SInter)) lt rt t c.
  Proof.
    induction fuel as [|fu IH]; intros lt rt s Hf Tl Tr; [lia|]. cbn [t_inter t_inter_c].
    destruct lt as [|a1 l1 e1 r1]; [|destruct rt as [|a2 l2 e2 r2]].
    - eexists _, 0. repeat split; [constructor | | lia]. intros k. cbn. unfold flipped, f_with. now destruct s, (at_key k (kp (ip rt))).
    - eexists _, 0. repeat split; [constructor | | lia]. intros k. set (x := Node a1 l1 e1 r1). cbn [inorder_prio map at_key filter].
      unfold flipped, f_with. now destruct s, (at_key k (kp (ip x))).
    - destruct (swap_cases (Node a1 l1 e1 r1) (Node a2 l2 e2 r2) s) as (lt' & rt' & s' & E & D & Pp).
      rewrite E. clear E.
      assert (Tl' : tinv lt') by (destruct D as [(-> & _)|(-> & _)]; auto).
      assert (Tr' : tinv rt') by (destruct D as [(_ & -> & _)|(_ & -> & _)]; auto).
      assert (Hsz : size lt' + size rt' < S fu) by (destruct D as [(-> & -> & _)|(-> & -> & _)]; simpl in *; lia).
      assert (Nl : lt' <> Leaf) by (destruct D as [(-> & _)|(-> & _)]; discriminate).
      destruct lt' as [|[p n] l e r]; [congruence|]. rewrite t_split_c_eq.
      destruct (tinv_node _ _ _ _ Tl') as [T1 T2]. pose proof (priority_rle rt' p Pp) as Rp.
      pose proof (tinv_split rt' (fst e) Tr') as Ts. pose proof (below_split_size rt' (fst e)) as Ss.
      pose proof (dup_prio rt' (fst e) p Tr' Rp) as Dd.
      pose proof (fun l' r' cl cr F0 => priced_node (flipped s' (f_with N.max SInter)) p n l e r rt' l' r' cl cr F0 Tl' Tr') as Nd.
      destruct (t_split rt' (fst e)) as [rl [d rr]]. destruct Ts as (Ts1 & Ts2 & Ts3). cbn [size] in Hsz.
      destruct (IH l rl s' ltac:(lia) T1 Ts1) as (l' & cl & E1 & E1' & Q1).
      destruct (IH r rr s' ltac:(lia) T2 Ts3) as (r' & cr & E2 & E2' & Q2).
      destruct (t_inter_ok fu l rl s' ltac:(lia) T1 Ts1) as (x1 & E1'' & X1). assert (x1 = l') by congruence. subst x1. apply result_tinv in X1.
      destruct (t_inter_ok fu r rr s' ltac:(lia) T2 Ts3) as (x2 & E2'' & X2). assert (x2 = r') by congruence. subst x2. apply result_tinv in X2.
      rewrite E1, E2, E1', E2'. cbn [bind]. rewrite t_merge_c_eq.
      destruct (Nd l' r' cl cr ltac:(unfold flipped; now destruct s') X1 X2 Q1 Q2) as [N1 N2].
      destruct Dd as [(-> & Ed)|(e' & q & -> & _ & Ed & Lq & Ce)]; rewrite Ed in N1, N2; cbn [t_entry];
        eexists _, _; (split; [reflexivity|]); (split; [reflexivity|]); (eapply priced_swap; [exact D|]).
      + apply N1. now destruct s'.
      + apply N2; [|destruct s'; [exact Ce | apply cmp_refl]]. unfold flipped, f_with. destruct s'; cbn [fst snd]; do 2 f_equal; lia.
  Qed.

  Lemma t_diff_priced fuel : forall lt rt s sym, size lt + size rt < fuel -> tinv lt -> tinv rt ->
    exists t c, t_diff fuel lt rt s sym = Ok t /\ t_diff_c fuel lt rt s sym = Ok (t, c) /\
      priced (flipped s (f_with N.max (if sym then SSymDiff else SDiff))) lt rt t c.
  Proof.
    induction fuel as [|fu IH]; intros lt rt s sym Hf Tl Tr; [lia|]. cbn [t_diff t_diff_c].
    destruct lt as [|a1 l1 e1 r1]; [|destruct rt as [|a2 l2 e2 r2]].
    - exists (if sym then rt else if s then rt else Leaf), 0.
      split; [destruct sym; [rewrite t_merge_eq; now destruct rt | now destruct s]|].
      split; [destruct sym; [rewrite t_merge_c_eq, t_merge_eq; now destruct rt | now destruct s]|].
      split; [|lia]. split; [destruct sym, s; first [constructor | now apply kp_sorted]|]. intros k. cbn [inorder_prio map at_key filter].
      unfold flipped, f_with. destruct sym, s; cbn [inorder_prio map at_key filter]; try reflexivity; now destruct (at_key k (kp (ip rt))).
    - exists (if sym then Node a1 l1 e1 r1 else if s then Leaf else Node a1 l1 e1 r1), 0.
      split; [destruct sym; [rewrite t_merge_eq; now destruct a1 | now destruct s]|].
      split; [destruct sym; [rewrite t_merge_c_eq, t_merge_eq; now destruct a1 | now destruct s]|].
      split; [|lia]. split; [destruct sym, s; first [constructor | now apply kp_sorted]|]. intros k.
      unfold flipped, f_with. set (x := Node a1 l1 e1 r1). destruct sym, s; cbn [inorder_prio map at_key filter]; try reflexivity; now destruct (at_key k (kp (ip x))).
    - destruct (swap_cases (Node a1 l1 e1 r1) (Node a2 l2 e2 r2) s) as (lt' & rt' & s' & E & D & Pp).
      rewrite E. clear E.
      assert (Tl' : tinv lt') by (destruct D as [(-> & _)|(-> & _)]; auto).
      assert (Tr' : tinv rt') by (destruct D as [(_ & -> & _)|(_ & -> & _)]; auto).
      assert (Hsz : size lt' + size rt' < S fu) by (destruct D as [(-> & -> & _)|(-> & -> & _)]; simpl in *; lia).
      assert (Nl : lt' <> Leaf) by (destruct D as [(-> & _)|(-> & _)]; discriminate).
      destruct lt' as [|[p n] l e r]; [congruence|]. rewrite t_split_c_eq.
      destruct (tinv_node _ _ _ _ Tl') as [T1 T2]. pose proof (priority_rle rt' p Pp) as Rp.
      pose proof (tinv_split rt' (fst e) Tr') as Ts. pose proof (below_split_size rt' (fst e)) as Ss.
      pose proof (dup_prio rt' (fst e) p Tr' Rp) as Dd.
      pose proof (fun l' r' cl cr F0 => priced_node (flipped s' (f_with N.max (if sym then SSymDiff else SDiff))) p n l e r rt' l' r' cl cr F0 Tl' Tr') as Nd.
      destruct (t_split rt' (fst e)) as [rl [d rr]]. destruct Ts as (Ts1 & Ts2 & Ts3). cbn [size] in Hsz.
      destruct (IH l rl s' sym ltac:(lia) T1 Ts1) as (l' & cl & E1 & E1' & Q1).
      destruct (IH r rr s' sym ltac:(lia) T2 Ts3) as (r' & cr & E2 & E2' & Q2).
      destruct (t_diff_ok fu l rl s' sym ltac:(lia) T1 Ts1) as (x1 & E1'' & X1). assert (x1 = l') by congruence. subst x1. apply result_tinv in X1.
      destruct (t_diff_ok fu r rr s' sym ltac:(lia) T2 Ts3) as (x2 & E2'' & X2). assert (x2 = r') by congruence. subst x2. apply result_tinv in X2.
      rewrite E1, E2, E1', E2'. cbn [bind]. rewrite t_merge_c_eq.
      destruct (Nd l' r' cl cr ltac:(unfold flipped; now destruct s', sym) X1 X2 Q1 Q2) as [N1 N2].
      destruct Dd as [(-> & Ed)|(e' & q & _ & Hn & Ed & Lq & Ce)]; rewrite Ed in N1, N2; [simpl is_none | rewrite Hn]; cbn [negb orb andb].
      + destruct s', sym; cbn [negb orb andb] in *; eexists _, _; (split; [reflexivity|]); (split; [reflexivity|]); (eapply priced_swap; [exact D|]);
          first [apply N1; reflexivity | apply N2; [reflexivity | apply cmp_refl]].
      + eexists _, _; (split; [reflexivity|]); (split; [reflexivity|]); (eapply priced_swap; [exact D|]). apply N1. unfold flipped. destruct s', sym; reflexivity.
  Qed.

  Lemma t_set_op_priced s lt rt : tinv lt -> tinv rt -> exists t c, t_set_op s lt rt = Ok t /\ t_set_op_c s lt rt = Ok (t, c) /\ tinv t /\
    inorder t = spec_set s (inorder lt) (inorder rt) /\
    kp (ip t) = set_with N.max s (kp (ip lt)) (kp (ip rt)) /\ c <= set_bound (kp (ip lt)) (kp (ip rt)) (kp (ip t)).
  Proof.
    intros Tl Tr.
    assert (X : exists t c, t_set_op s lt rt = Ok t /\ t_set_op_c s lt rt = Ok (t, c) /\ priced (flipped false (f_with N.max s)) lt rt t c).
    { destruct s; unfold t_set_op, t_set_op_c, t_fuel;
        [apply t_union_priced | apply t_inter_priced | apply (t_diff_priced _ lt rt false false)
        | apply (t_diff_priced _ lt rt false true)]; auto; lia. }
    destruct X as (t & c & E1 & E2 & P & B). exists t, c. destruct (t_set_op_ok s lt rt Tl Tr) as (t0 & E0 & I0 & T0).
    assert (t0 = t) by congruence. subst t0. repeat (split; [assumption|]). split; [|exact B].
    eapply pw_unique; [exact P|]. apply set_with_pw; now apply kp_sorted.
  Qed.

  (** ** split_off *)
  Lemma t_split_off_priced t k inc : tinv t -> let '(stay, give) := t_split_off t k inc in
    exists c, t_split_off_c t k inc = ((stay, give), c) /\ tinv stay /\ tinv give /\ (inorder stay, inorder give) = spec_split k inc (inorder t) /\
    (kp (ip stay), kp (ip give)) = spec_split k inc (kp (ip t)) /\ c <= 3 + 3 * around k (kp (ip t)).
  Proof.
    intros T. pose proof (t_split_off_ok t k inc T) as A. unfold t_split_off, t_split_off_c in *. rewrite t_split_c_eq.
    pose proof (t_split_ip t k (proj1 T)) as Si. pose proof (search_around t k T) as Sa. pose proof (tinv_split t k T) as Ts.
    pose proof (dup_entry t k (proj1 T)) as Dd.
    destruct (t_split t k) as [l [d g]]. destruct Si as (I1 & I2 & I3). destruct Ts as ((_ & _ & H1) & (_ & _ & H2) & (_ & _ & H3)). rewrite !t_merge_c_eq.
    assert (Ld : max_steps d <= 1 /\ min_steps d <= 1).
    { pose proof (max_records d H2). pose proof (min_records d H2).
      assert (length (ip d) <= 1).
      { pose proof (ip_inorder d) as X. destruct Dd as [(-> & _)|(e' & _ & E & _)]; [simpl; lia|]. rewrite E in X. apply (f_equal (@length _)) in X.
        rewrite map_length in X. simpl in X. lia. }
      destruct (ip d) as [|x [|y z]]; simpl in *; lia. }
    pose proof (max_records l H1) as M1. pose proof (min_records g H3) as M3.
    rewrite I1 in M1. rewrite I3 in M3.
    assert (Ar : around k (kp (ip t)) = recs [] (map (fun x => snd (snd x)) (above k (ip t))) + recs [] (rev (map (fun x => snd (snd x)) (below k (ip t))))).
    { unfold around. now rewrite <- (on2_above snd), <- (on2_below snd), !kp_prios. }
    destruct inc; destruct A as (A1 & A2 & A3); (eexists; split; [reflexivity|]); (split; [exact A2|]); (split; [exact A3|]); (split; [exact A1|]);
      unfold spec_split; rewrite t_merge_prio, map_app, I1, I2, I3, !(on2_above snd), !(on2_below snd), !(on2_at snd); (split; [reflexivity|]).
    - pose proof (merge_bound l d). lia.
    - pose proof (merge_bound d g). lia.
  Qed.
End TreapSetCost.
