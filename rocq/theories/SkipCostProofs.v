(** Average running time of [SkipMap]. *)
From Coq Require Import Permutation.
From Verif Require Export SkipCostModel SkipMapProofs CostSpec HeightLemmas TreapCostProofs.

Lemma combine_nth_error {A} (ops : list A) (o : A) : forall (ps : list N) i, length ps = length ops -> nth_error ops i = Some o ->
  nth_error (combine ops ps) i = Some (o, nth i ps 0%N).
Proof.
  induction ops as [|o' ops IH]; intros [|p ps] [|i] El Ei; try discriminate; simpl in *.
  - now injection Ei as ->.
  - apply IH; auto.
Qed.

Section SkipCostProofs.
  Context {K V : Type} `{CmpLaws K}.
  Notation hp := (heap (K * V) (option nat)).
  Notation item := (sitem (K * V)).
  Notation links := (nat -> nat -> option nat).
  Implicit Types (h : hp) (X Y A B Lo M R Hi All : list item) (x y : item) (f g : links) (k : K) (go : K -> bool).

  (** ** Leaving out the counts *)
  Lemma walk_c_fst fuel : forall h cur i go, rmap fst (walk_c fuel h cur i go) = walk fuel h cur i go.
  Proof.
    induction fuel as [|fuel IH]; intros h cur i go; [reflexivity|]. cbn [walk_c walk].
    destruct (get_link h cur i) as [[y|]| |]; [|reflexivity..]. cbn [bind]. destruct (get_data h y) as [e| |]; [|reflexivity..]. cbn [bind].
    destruct (go (fst e)); [|reflexivity]. rewrite <- IH. now destruct (walk_c fuel h y i go) as [[? ?]| |].
  Qed.
  Lemma walk_all_c_fst h cur i go : rmap fst (walk_all_c h cur i go) = walk_all h cur i go.
  Proof. apply walk_c_fst. Qed.
  Lemma insert_loop_c_fst : forall i h cur new hn k, rmap fst (insert_loop_c i h cur new hn k) = insert_loop i h cur new hn k.
  Proof.
    induction i as [|i IH]; intros h cur new hn k; cbn [insert_loop_c insert_loop]; rewrite <- walk_all_c_fst;
      destruct (walk_all_c h cur _ _) as [[[c' nx] c]| |]; try reflexivity; cbn [bind rmap fst];
      destruct (unlink h c' _ nx k) as [[h1 r]| |]; try reflexivity; cbn [bind rmap];
      match goal with |- context [bind (if ?b then ?x else ?y)] => destruct (if b then x else y) as [h2| |] end; try reflexivity; cbn [bind rmap fst].
    rewrite <- IH. now destruct (insert_loop_c i h2 c' new hn k) as [[? ?]| |].
  Qed.
  Lemma remove_loop_c_fst : forall i h cur k, rmap fst (remove_loop_c i h cur k) = remove_loop i h cur k.
  Proof.
    induction i as [|i IH]; intros h cur k; cbn [remove_loop_c remove_loop]; rewrite <- walk_all_c_fst;
      destruct (walk_all_c h cur _ _) as [[[c' nx] c]| |]; try reflexivity; cbn [bind rmap fst];
      destruct (unlink h c' _ nx k) as [[h1 r]| |]; try reflexivity; cbn [bind rmap fst].
    rewrite <- IH. now destruct (remove_loop_c i h1 c' k) as [[? ?]| |].
  Qed.
  Lemma find_loop_c_fst : forall i h cur k, rmap fst (find_loop_c i h cur k) = find_loop i h cur k.
  Proof.
    induction i as [|i IH]; intros h cur k; cbn [find_loop_c find_loop]; rewrite <- walk_all_c_fst;
      destruct (walk_all_c h cur _ _) as [[[c' nx] c]| |]; try reflexivity; cbn [bind rmap fst];
      match goal with |- context [bind ?m _] => destruct m as [[y|]| |] end; try reflexivity; cbn [bind rmap fst].
    rewrite <- IH. now destruct (find_loop_c i h c' k) as [[? ?]| |].
  Qed.
  Lemma descend_c_fst : forall i h cur go, rmap fst (descend_c i h cur go) = descend i h cur go.
  Proof.
    induction i as [|i IH]; intros h cur go; cbn [descend_c descend]; rewrite <- walk_all_c_fst;
      destruct (walk_all_c h cur _ _) as [[[c' nx] c]| |]; try reflexivity; cbn [bind rmap fst].
    rewrite <- IH. now destruct (descend_c i h c' go) as [[? ?]| |].
  Qed.
  Lemma skip_step_c_fst (m : skip_map K V) op : rmap (fun r => (fst r, fst (snd r))) (skip_step_c m op) = skip_step m op.
  Proof.
    destruct op as [o d]. unfold skip_step_c. cbn [fst snd].
    destruct o as [k v|k|k|k v|k|k|k|k| | | | | | |vs|];
      try (destruct (skip_step m (_, d)) as [[? ?]| |]; reflexivity);
      try (cbn [skip_step]; unfold skip_get_mut, skip_get, skip_find, skip_find_c; rewrite <- find_loop_c_fst;
           destruct (find_loop_c _ _ _ _) as [[[y|] c]| |]; try reflexivity; cbn [bind rmap fst];
           destruct (get_data (sk_heap m) y) as [e| |]; try reflexivity; cbn [bind];
           destruct (set_data _ _ _); reflexivity).
    - cbn [skip_step]. unfold skip_insert, skip_insert_c. destruct (alloc _ _ _ _) as [h1 a]. rewrite <- insert_loop_c_fst.
      destruct (insert_loop_c _ _ _ _ _ _) as [[[h2 r] c]| |]; try reflexivity. cbn [bind rmap fst]. now destruct r.
    - cbn [skip_step]. unfold skip_remove, skip_remove_c. rewrite <- remove_loop_c_fst.
      destruct (remove_loop_c _ _ _ _) as [[[h2 r] c]| |]; try reflexivity. cbn [bind rmap fst]. destruct r; [|reflexivity].
      now destruct (checked_pred (sk_len m)).
    - cbn [skip_step]. unfold skip_floor. rewrite <- descend_c_fst. destruct (descend_c _ _ _ _) as [[[u w] c]| |]; try reflexivity. cbn [bind rmap fst].
      now destruct (key_at _ _).
    - cbn [skip_step]. unfold skip_ceil. rewrite <- descend_c_fst. destruct (descend_c _ _ _ _) as [[[u w] c]| |]; try reflexivity. cbn [bind rmap fst].
      now destruct (key_at _ _).
    - cbn [skip_step]. unfold skip_max. rewrite <- descend_c_fst. destruct (descend_c _ _ _ _) as [[[u w] c]| |]; try reflexivity. cbn [bind rmap fst].
      now destruct (key_at _ _).
  Qed.

  (** ** One level *)
  Lemma walk_c_ok h All g i go A R : srep h All g -> incl (A ++ R) All ->
    (forall x, In x A -> go (key x) = true) -> (forall x, In x R -> go (key x) = false) ->
    forall fuel c, length A < fuel -> onlevel All c i -> seg g i c (A ++ R) None ->
    walk_c fuel h c i go = Ok ((last_at i c A, first_or i R None), tall i (map ht A) + equal_c (first_or i R None)).
  Proof.
    intros Rp. induction A as [|x A IH]; intros I GA GR fuel c Hf Hc S.
    - destruct fuel as [|fuel]; [simpl in Hf; lia|]. cbn [walk_c app last_at map] in *.
      rewrite (get_link_ok _ _ _ _ _ Rp Hc). cbn [bind]. rewrite (seg_first _ _ _ _ _ S).
      destruct (first_or_in i R None) as [->|(y & Hy & -> & _)]; auto.
      rewrite (get_data_ok _ _ _ y Rp) by (apply I; auto). cbn [bind]. fold (key y). now rewrite GR.
    - cbn [app seg last_at map] in *. rewrite tall_cons. destruct (Nat.leb_spec i (ht x)) as [Hi|Hi].
      + destruct S as [E S]. destruct fuel as [|fuel]; [simpl in Hf; lia|]. cbn [walk_c].
        rewrite (get_link_ok _ _ _ _ _ Rp Hc), E. cbn [bind].
        assert (Hx : In x All) by (apply I; now left).
        rewrite (get_data_ok _ _ _ x Rp Hx). cbn [bind]. fold (key x). rewrite GA by now left.
        rewrite IH; auto; [intros y Hy; apply I; now right|intros; apply GA; now right|simpl in Hf; lia|].
        right. exists x. auto.
      + rewrite IH; auto; [intros y Hy; apply I; now right|intros; apply GA; now right|simpl in Hf; lia].
  Qed.

  (** Where the walk on level [i] starts, and how many nodes it passes *)
  Definition start (i c w : nat) Lo : Prop :=
    (c = 0 /\ w = tall i (map ht Lo)) \/ (c = last_at (S i) 0 Lo /\ w = run_at i (rev (map ht Lo))).
  Lemma last_cut i X : forall a, exists A B, X = A ++ B /\ last_at (S i) a X = last_at i a A /\ run_at i (rev (map ht X)) = tall i (map ht B).
  Proof.
    induction X as [|x X IH] using rev_ind; intros a.
    - exists [], []. auto.
    - rewrite last_at_app, map_app, rev_app_distr. cbn [last_at rev map app run_at].
      destruct (Nat.leb_spec (S i) (ht x)), (Nat.ltb_spec i (ht x)); try lia.
      + exists (X ++ [x]), []. rewrite app_nil_r, last_at_app. cbn [last_at].
        rewrite (proj2 (Nat.leb_le i (ht x))) by lia. auto.
      + destruct (IH a) as (A & B & -> & E1 & E2). exists A, (B ++ [x]). rewrite app_assoc. split; [reflexivity|]. split; [exact E1|].
        rewrite E2, !map_app, tall_app. cbn [map]. rewrite tall_cons. change (tall i []) with 0.
        destruct (Nat.eqb_spec (ht x) i), (Nat.leb_spec i (ht x)); simpl; lia.
  Qed.
  Lemma walk_c_start h All g i go Lo R c w : srep h All g -> incl (Lo ++ R) All -> length (Lo ++ R) <= length All -> i <= 32 ->
    (forall x, In x Lo -> go (key x) = true) -> (forall x, In x R -> go (key x) = false) ->
    seg g i 0 (Lo ++ R) None -> start i c w Lo ->
    walk_all_c h c i go = Ok ((last_at i 0 Lo, first_or i R None), w + equal_c (first_or i R None)).
  Proof.
    intros Rp I Ln Hi GL GR S [[-> ->]|[-> ->]]; unfold walk_all_c; pose proof (srep_length _ _ _ Rp) as L; rewrite app_length in Ln.
    - apply (walk_c_ok _ All g); auto; [lia|now left].
    - destruct (last_cut i Lo 0) as (A & B & -> & E1 & E2). rewrite E1, E2. rewrite last_at_app.
      rewrite <- app_assoc in S. apply seg_app in S as [_ S]. rewrite app_length in Ln.
      apply (walk_c_ok _ All g); auto.
      + intros x Hx. apply I. rewrite <- app_assoc. apply in_app_iff. now right.
      + intros x Hx. apply GL. apply in_app_iff. now right.
      + lia.
      + destruct (last_at_in i A 0) as [->|(x & Hx & -> & Q)]; [now left|].
        right. exists x. repeat split; auto. apply I, in_app_iff. left. apply in_app_iff. now left.
  Qed.

  Lemma walk_c_level h All g i go Lo R : srep h All g -> incl (Lo ++ R) All -> length (Lo ++ R) <= length All -> i <= 32 ->
    (forall x, In x Lo -> go (key x) = true) -> (forall x, In x R -> go (key x) = false) -> seg g i 0 (Lo ++ R) None ->
    walk_all_c h (last_at (S i) 0 Lo) i go = Ok ((last_at i 0 Lo, first_or i R None), run_at i (rev (map ht Lo)) + equal_c (first_or i R None)).
  Proof. intros. apply (walk_c_start h All g i go Lo R); auto. now right. Qed.

  Lemma equal_c_le (p : option nat) : equal_c p <= 1.
  Proof. destruct p; simpl; lia. Qed.
  Definition below_cost (i w : nat) Lo : nat := 3 * S i + w + total (fun j => run_at j (rev (map ht Lo))) (seq 0 i).
  Lemma start_next i Lo : start i (last_at (S i) 0 Lo) (run_at i (rev (map ht Lo))) Lo.
  Proof. now right. Qed.
  Lemma below_cost_step i w Lo a b c : a <= w + 1 -> b <= 1 -> c <= below_cost i (run_at i (rev (map ht Lo))) Lo ->
    1 + a + b + c <= below_cost (S i) w Lo.
  Proof. unfold below_cost. rewrite total_seq. lia. Qed.

  (** ** The loops *)
  Lemma insert_loop_c_ok (n : item) Lo M Hi k : lt_all k Lo -> eq_opt k M -> gt_all k Hi ->
    forall i h g, i <= 32 -> srep h (n :: Lo ++ M ++ Hi) g ->
    (forall j, i < j <= 32 -> seg g j 0 (Lo ++ n :: Hi) None) ->
    (forall j, j <= i -> seg g j 0 (Lo ++ M ++ Hi) None) ->
    exists h' g' c, insert_loop_c i h (last_at (S i) 0 Lo) (ad n) (ht n) k = Ok ((h', hd_error (map dt M)), c)
      /\ srep h' (n :: Lo ++ Hi) g' /\ (forall j, j <= 32 -> seg g' j 0 (Lo ++ n :: Hi) None)
      /\ c <= below_cost i (run_at i (rev (map ht Lo))) Lo.
  Proof.
    intros HL HM HH.
    induction i as [|i IH]; intros h g Hi32 Rp HA HB;
      destruct (insert_level_ok n Lo M Hi k _ h g HL HM HH Hi32 Rp HA HB) as (h1 & h' & g' & _ & E1 & E2 & R' & SA & SB);
      cbn [insert_loop_c]; (rewrite (walk_c_level h (n :: Lo ++ M ++ Hi) g _ _ Lo (M ++ Hi) Rp);
        [|intros x Hx; now right|cbn [length]; lia|exact Hi32|exact HL|now apply not_lt_rest|now apply HB]);
      cbn [bind]; rewrite E1; cbn [bind]; rewrite E2; cbn [bind]; cbn [Nat.eqb] in *; pose proof (equal_c_le (first_or 0 (M ++ Hi) None)) as Q0.
    - exists h', g'. eexists. split; [reflexivity|]. split; [exact R'|]. split; [intros j Hj; apply SA; lia|].
      unfold below_cost. cbn [seq]. unfold total. cbn [map list_sum fold_right]. lia.
    - destruct (IH h' g') as (h2 & g2 & c & E & R2 & S2 & Lc); [lia|exact R'|intros; apply SA; lia|intros; apply SB; lia|].
      rewrite E. cbn [bind]. exists h2, g2. eexists. split; [reflexivity|]. split; [exact R2|]. split; [exact S2|].
      pose proof (equal_c_le (first_or (S i) (M ++ Hi) None)). apply below_cost_step; auto. lia.
  Qed.
  Lemma remove_loop_c_ok Lo M Hi k : lt_all k Lo -> eq_opt k M -> gt_all k Hi ->
    forall i h g, i <= 32 -> srep h (Lo ++ M ++ Hi) g ->
    (forall j, i < j <= 32 -> seg g j 0 (Lo ++ Hi) None) ->
    (forall j, j <= i -> seg g j 0 (Lo ++ M ++ Hi) None) ->
    exists h' g' c, remove_loop_c i h (last_at (S i) 0 Lo) k = Ok ((h', hd_error (map dt M)), c)
      /\ srep h' (Lo ++ Hi) g' /\ (forall j, j <= 32 -> seg g' j 0 (Lo ++ Hi) None)
      /\ c <= below_cost i (run_at i (rev (map ht Lo))) Lo.
  Proof.
    intros HL HM HH.
    induction i as [|i IH]; intros h g Hi32 Rp HA HB;
      destruct (remove_level_ok Lo M Hi k _ h g HL HM HH Hi32 Rp HA HB) as (h' & g' & _ & E1 & R' & SA & SB);
      cbn [remove_loop_c]; (rewrite (walk_c_level h (Lo ++ M ++ Hi) g _ _ Lo (M ++ Hi) Rp);
        [|intros x Hx; exact Hx|lia|exact Hi32|exact HL|now apply not_lt_rest|now apply HB]);
      cbn [bind]; rewrite E1; cbn [bind]; cbn [Nat.eqb] in *; pose proof (equal_c_le (first_or 0 (M ++ Hi) None)) as Q0.
    - exists h', g'. eexists. split; [reflexivity|]. split; [exact R'|]. split; [intros j Hj; apply SA; lia|].
      unfold below_cost. cbn [seq]. unfold total. cbn [map list_sum fold_right]. lia.
    - destruct (IH h' g') as (h2 & g2 & c & E & R2 & S2 & Lc); [lia|exact R'|intros; apply SA; lia|intros; apply SB; lia|].
      rewrite E. cbn [bind]. exists h2, g2. eexists. split; [reflexivity|]. split; [exact R2|]. split; [exact S2|].
      pose proof (equal_c_le (first_or (S i) (M ++ Hi) None)). apply below_cost_step; auto. lia.
  Qed.
  Lemma walk_c_good h X g i go Lo R c w : sk_ok h X g -> X = Lo ++ R -> i <= 32 -> start i c w Lo ->
    (forall x, In x Lo -> go (key x) = true) -> (forall x, In x R -> go (key x) = false) ->
    walk_all_c h c i go = Ok ((last_at i 0 Lo, first_or i R None), w + equal_c (first_or i R None)).
  Proof. intros [Rp Sg] -> Hi Hs GL GR. apply (walk_c_start _ (Lo ++ R) g); auto. apply incl_refl. Qed.

  Lemma descend_c_ok h X g go Lo R : sk_ok h X g -> X = Lo ++ R ->
    (forall x, In x Lo -> go (key x) = true) -> (forall x, In x R -> go (key x) = false) ->
    forall i c w, i <= 32 -> start i c w Lo -> exists n, rmap snd (descend_c i h c go) = Ok n /\ n <= below_cost i w Lo.
  Proof.
    intros HO EX GL GR. induction i as [|i IH]; intros c w Hi Hs; cbn [descend_c];
      rewrite (walk_c_good h X g _ go Lo R c w HO EX Hi Hs GL GR); cbn [bind].
    - cbn [rmap bind snd]. eexists. split; [reflexivity|]. pose proof (equal_c_le (first_or 0 R None)). unfold below_cost. lia.
    - destruct (IH _ _ ltac:(lia) (start_next i Lo)) as (n & E & Ln).
      destruct (descend_c i h (last_at (S i) 0 Lo) go) as [[r c']| |]; try discriminate. cbn [bind rmap snd] in *. injection E as ->. cbn [rmap bind snd].
      eexists. split; [reflexivity|]. pose proof (equal_c_le (first_or (S i) R None)).
      pose proof (below_cost_step i w Lo (w + equal_c (first_or (S i) R None)) 0 n ltac:(lia) ltac:(lia) Ln). cbn [snd]. lia.
  Qed.
  Lemma find_loop_c_ok h X g Lo M Hi k : sk_ok h X g -> X = Lo ++ M ++ Hi -> lt_all k Lo -> eq_opt k M -> gt_all k Hi ->
    forall i c w, i <= 32 -> start i c w Lo -> exists n, rmap snd (find_loop_c i h c k) = Ok n /\ n <= below_cost i w Lo.
  Proof.
    intros HO EX HL HM HH.
    assert (D : forall i, exists r, match first_or i (M ++ Hi) None with
                  | None => Ok None
                  | Some y => let* e := get_data h y in Ok (if is_eq (cmp (fst e) k) then Some y else None)
                  end = Ok r).
    { intros i. destruct (first_or_in i (M ++ Hi) None) as [->|(y & Hy & -> & _)]; [eauto|].
      rewrite (get_data_ok h X g y); [|apply HO|rewrite EX; apply in_app_iff; now right]. cbn [bind]. eauto. }
    assert (Sm : forall i w, 1 + w + 1 + 1 <= below_cost i w Lo) by (intros; unfold below_cost; lia).
    induction i as [|i IH]; intros c w Hi32 Hs; cbn [find_loop_c];
      rewrite (walk_c_good h X g _ (fun z => is_lt (cmp z k)) Lo (M ++ Hi) c w HO EX Hi32 Hs HL (not_lt_rest k M Hi HM HH)); cbn [bind].
    - destruct (D 0) as [r ->]. cbn [bind]. pose proof (equal_c_le (first_or 0 (M ++ Hi) None)). specialize (Sm 0 w).
      destruct r; cbn [rmap bind snd]; eexists; (split; [reflexivity|lia]).
    - destruct (D (S i)) as [r ->]. cbn [bind]. pose proof (equal_c_le (first_or (S i) (M ++ Hi) None)). specialize (Sm (S i) w).
      destruct r; [cbn [rmap bind snd]; eexists; (split; [reflexivity|lia])|].
      destruct (IH _ _ ltac:(lia) (start_next i Lo)) as (n & E & Ln).
      destruct (find_loop_c i h (last_at (S i) 0 Lo) k) as [[r c']| |]; try discriminate. cbn [bind rmap snd] in *. injection E as ->. cbn [rmap bind snd].
      eexists. split; [reflexivity|]. apply below_cost_step; auto; lia.
  Qed.

  (** ** Calls *)
  Definition tags X : list (K * nat) := map (fun x => (key x, ht x)) X.
  (** What a list that keeps one thing per key becomes; [x] is what an insertion puts there. *)
  Definition put_step {W} (x : W) (l : list (K * W)) (o : map_op K V) : list (K * W) :=
    match o with
    | MInsert k _ => below k l ++ (k, x) :: above k l
    | MRemove k => below k l ++ above k l
    | MClear | MIntoIter => []
    | _ => l
    end.
  (** What a call passes, and where it starts *)
  Definition passed {W} (o : map_op K V) (l : list (K * W)) : list (K * W) :=
    match o with
    | MInsert k _ | MRemove k | MGet k | MGetMut k _ | MIndex k | MContains k | MCeil k => below k l
    | MFloor k => below k l ++ at_key k l
    | MMax => l
    | _ => []
    end.
  Definition top (o : map_op K V) (n : nat) : nat := match o with MInsert _ _ | MRemove _ => 32 | _ => starting_height n end.

  Lemma tags_heights Lo : map snd (tags Lo) = map ht Lo.
  Proof. unfold tags. now rewrite map_map. Qed.
  Lemma tags_parts k Lo M Hi : lt_all k Lo -> eq_opt k M -> gt_all k Hi ->
    below k (tags (Lo ++ M ++ Hi)) = tags Lo /\ at_key k (tags (Lo ++ M ++ Hi)) = tags M /\ above k (tags (Lo ++ M ++ Hi)) = tags Hi.
  Proof.
    intros HL HM HH.
    assert (HM' : forall x, In x M -> cmp (key x) k = Eq).
    { destruct HM as [->|(e & -> & E)]; [intros x []|]. intros x [<-|[]]. exact E. }
    assert (HL' : forall x, In x Lo -> cmp (key x) k = Lt).
    { intros x i. specialize (HL x i). destruct (cmp (key x) k); easy. }
    clear HL HM. unfold below, at_key, above, tags.
    assert (F : forall (P : comparison -> bool) Y, filter (fun p : K * nat => P (cmp (fst p) k)) (map (fun x => (key x, ht x)) Y) =
       map (fun x => (key x, ht x)) (filter (fun x => P (cmp (key x) k)) Y)).
    { intros P. induction Y as [|y Y IH]; [reflexivity|]. cbn [map filter fst]. rewrite IH. now destruct (P (cmp (key y) k)). }
    assert (G : forall (P : comparison -> bool) c Y, (forall x, In x Y -> cmp (key x) k = c) -> filter (fun x => P (cmp (key x) k)) Y = if P c then Y else []).
    { intros P c. induction Y as [|y Y IH]; intros E; [now destruct (P c)|]. cbn [filter]. rewrite (E y (or_introl eq_refl)), IH by (intros; apply E; now right).
      now destruct (P c). }
    repeat split.
    - rewrite (F is_lt), !filter_app, (G is_lt _ _ HL'), (G is_lt _ _ HM'), (G is_lt _ _ HH). cbn [is_lt]. now rewrite !app_nil_r.
    - rewrite (F is_eq), !filter_app, (G is_eq _ _ HL'), (G is_eq _ _ HM'), (G is_eq _ _ HH). cbn [is_eq]. now rewrite !app_nil_r.
    - rewrite (F is_gt), !filter_app, (G is_gt _ _ HL'), (G is_gt _ _ HM'), (G is_gt _ _ HH). reflexivity.
  Qed.
  Lemma tags_shape X Y : map ishape X = map ishape Y -> map fst (map dt X) = map fst (map dt Y) -> tags X = tags Y.
  Proof.
    revert Y. induction X as [|x X IH]; intros [|y Y] E1 E2; try discriminate; auto. unfold tags in *. cbn [map] in *. unfold ishape at 1 3 in E1. injection E1 as E3 E4 E5.
    injection E2 as E6 E7. rewrite (IH Y); auto. f_equal. unfold key. congruence.
  Qed.

  Lemma skip_insert_c_ok m X k v d : sk_at m X ->
    exists m' X' c, skip_insert_c m k v d = Ok ((m', hd_error (at_key k (map dt X))), c) /\ sk_at m' X'
      /\ map dt X' = below k (map dt X) ++ (k, v) :: above k (map dt X)
      /\ tags X' = below k (tags X) ++ (k, height_of d) :: above k (tags X)
      /\ c <= 99 + passes 32 (rev (map snd (below k (tags X)))).
  Proof.
    intros (g & (Rp & Sg) & Sl & Ln).
    destruct (split_items X k Sl) as (Lo & M & Hi & EX & E1 & E2 & E3 & HL & HM & HH).
    unfold skip_insert_c.
    pose proof (alloc_ok (sk_heap m) X g (k, v) (height_of d) None Rp (height_of_le d)) as Al.
    destruct (alloc (sk_heap m) (Some (k, v)) (S (height_of d)) None) as [h1 a] eqn:Ea.
    destruct Al as (R1 & _ & Fr). set (n := It a (height_of d) (k, v)) in *.
    set (g1 := fun b j => if b =? a then None else g b j) in *.
    assert (Sg1 : forall j, j <= 32 -> seg g1 j 0 X None).
    { intros j Hj. eapply seg_frame; [|apply (Sg j Hj)]. intros b Hb. unfold g1.
      rewrite (proj2 (Nat.eqb_neq b a)); auto. intros ->. apply Fr. destruct Hb as [->|Hb]; [now left|now right]. }
    rewrite EX in R1, Sg1.
    destruct (insert_loop_c_ok n Lo M Hi k HL HM HH 32 h1 g1) as (h2 & g2 & c & E & R2 & S2 & Lc); auto; [lia|].
    rewrite (last_at_top _ _ _ Lo (M ++ Hi) R1) in E by (intros x Hx; now right).
    cbn [ad ht n] in E. unfold max_height. rewrite E. cbn [bind].
    rewrite E2.
    assert (Q : exists len, match hd_error (at_key k (map dt X)) with Some _ => checked_pred (S (sk_len m)) | None => Ok (S (sk_len m)) end = Ok len
            /\ len = length (below k (map dt X) ++ (k, v) :: above k (map dt X))).
    { rewrite Ln, <- (map_length dt X), (split_length _ k Sl), !app_length. cbn [length].
      destruct (at_key_cases _ k Sl) as [-> |(e & -> & _)]; cbn [hd_error length checked_pred];
        eexists; (split; [reflexivity|lia]). }
    destruct Q as (len & Q & El). rewrite Q. cbn [bind].
    assert (Ed : map dt (Lo ++ n :: Hi) = below k (map dt X) ++ (k, v) :: above k (map dt X)) by (rewrite map_app; cbn [map dt n]; now rewrite E1, E3).
    eexists. exists (Lo ++ n :: Hi), c. split; [reflexivity|]. split; [|split; [exact Ed|]].
    - exists g2. split; [split|]; cbn [sk_heap sk_len].
      + eapply srep_equiv; [apply Permutation_middle|exact R2].
      + exact S2.
      + rewrite Ed. split; [now apply sorted_insert|]. now rewrite El, <- Ed, map_length.
    - destruct (tags_parts k Lo M Hi HL HM HH) as (T1 & _ & T3). rewrite EX, T1, T3. split.
      + unfold tags. rewrite map_app. reflexivity.
      + rewrite tags_heights. unfold below_cost in Lc. unfold passes.
        pose proof (run_at_tall 32 (rev (map ht Lo))). lia.
  Qed.
  Lemma skip_remove_c_ok m X k : sk_at m X ->
    exists m' X' c, skip_remove_c m k = Ok ((m', hd_error (at_key k (map dt X))), c) /\ sk_at m' X'
      /\ map dt X' = below k (map dt X) ++ above k (map dt X) /\ tags X' = below k (tags X) ++ above k (tags X)
      /\ c <= 99 + passes 32 (rev (map snd (below k (tags X)))).
  Proof.
    intros (g & (Rp & Sg) & Sl & Ln).
    destruct (split_items X k Sl) as (Lo & M & Hi & EX & E1 & E2 & E3 & HL & HM & HH).
    unfold skip_remove_c. pose proof Rp as Rp0. rewrite EX in Rp, Sg.
    destruct (remove_loop_c_ok Lo M Hi k HL HM HH 32 (sk_heap m) g) as (h2 & g2 & c & E & R2 & S2 & Lc); auto; [lia|].
    rewrite (last_at_top _ _ _ Lo (M ++ Hi) Rp) in E by (intros x Hx; auto).
    unfold max_height. rewrite E. cbn [bind]. rewrite E2.
    assert (Q : exists len, match hd_error (at_key k (map dt X)) with Some _ => checked_pred (sk_len m) | None => Ok (sk_len m) end = Ok len
            /\ len = length (below k (map dt X) ++ above k (map dt X))).
    { rewrite Ln, <- (map_length dt X), (split_length _ k Sl), !app_length.
      destruct (at_key_cases _ k Sl) as [-> |(e & -> & _)]; cbn [hd_error length].
      - eexists. split; [reflexivity|lia].
      - rewrite Nat.add_1_r. cbn [checked_pred Nat.add]. eexists. split; [reflexivity|lia]. }
    destruct Q as (len & Q & El). rewrite Q. cbn [bind].
    assert (Ed : map dt (Lo ++ Hi) = below k (map dt X) ++ above k (map dt X)) by (rewrite map_app; now rewrite E1, E3).
    eexists. exists (Lo ++ Hi), c. split; [reflexivity|]. split; [|split; [exact Ed|]].
    - exists g2. split; [split|]; cbn [sk_heap sk_len]; auto.
      rewrite Ed. split; [now apply sorted_delete|]. now rewrite El, <- Ed, map_length.
    - destruct (tags_parts k Lo M Hi HL HM HH) as (T1 & _ & T3). rewrite EX, T1, T3. split.
      + unfold tags. now rewrite map_app.
      + rewrite tags_heights. unfold below_cost in Lc. unfold passes.
        pose proof (run_at_tall 32 (rev (map ht Lo))). lia.
  Qed.

  Lemma from_start s c Lo : c <= below_cost s (tall s (map ht Lo)) Lo -> c <= 3 * S s + passes s (rev (map snd (tags Lo))).
  Proof. unfold below_cost, passes. rewrite tags_heights, tall_rev. lia. Qed.

  Lemma find_c_bound m X k : sk_at m X -> exists r c, skip_find_c m k = Ok (r, c) /\
    c <= 3 * S (starting_height (length X)) + passes (starting_height (length X)) (rev (map snd (below k (tags X)))) /\
    (starting_height (length X) = 0 -> length (below k (tags X)) <= c).
  Proof.
    intros (g & HO & Sl & Ln). destruct (split_items X k Sl) as (Lo & M & Hi & EX & E1 & E2 & E3 & HL & HM & HH).
    destruct (find_loop_c_ok _ X g Lo M Hi k HO EX HL HM HH (starting_height (length X)) 0 _ (starting_height_le _) (or_introl (conj eq_refl eq_refl))) as (n & E & Lc).
    unfold skip_find_c. rewrite Ln. destruct (find_loop_c _ _ _ _) as [[r c]| |] eqn:Ef; try discriminate. injection E as ->.
    exists r, n. split; [reflexivity|]. destruct (tags_parts k Lo M Hi HL HM HH) as (T1 & _). rewrite <- EX in T1. rewrite T1.
    split; [now apply from_start|]. intros Z. rewrite Z in Ef. cbn [find_loop_c] in Ef.
    rewrite (walk_c_good _ X g 0 (fun z => is_lt (cmp z k)) Lo (M ++ Hi) 0 _ HO EX ltac:(lia) (or_introl (conj eq_refl eq_refl)) HL (not_lt_rest k M Hi HM HH)) in Ef.
    cbn [bind] in Ef. assert (Q : tall 0 (map ht Lo) = length (tags Lo)).
    { unfold tags. rewrite map_length. clear. induction Lo as [|x Lo IH]; [reflexivity|]. cbn [map length]. rewrite tall_cons, IH. reflexivity. }
    destruct (match first_or 0 (M ++ Hi) None with Some _ => _ | None => _ end) as [[y|]| |]; try discriminate; cbn [bind] in Ef; injection Ef as _ Ef; lia.
  Qed.
  Lemma descend_c_bound m X go Lo R : sk_at m X -> X = Lo ++ R ->
    (forall x, In x Lo -> go (key x) = true) -> (forall x, In x R -> go (key x) = false) ->
    exists r c, descend_c (starting_height (sk_len m)) (sk_heap m) 0 go = Ok (r, c) /\
      c <= 3 * S (starting_height (length X)) + passes (starting_height (length X)) (rev (map snd (tags Lo))).
  Proof.
    intros (g & HO & Sl & Ln) EX GL GR.
    destruct (descend_c_ok _ X g go Lo R HO EX GL GR (starting_height (length X)) 0 _ (starting_height_le _) (or_introl (conj eq_refl eq_refl))) as (n & E & Lc).
    rewrite Ln. destruct (descend_c _ _ _ _) as [[r c]| |]; try discriminate. injection E as ->.
    exists r, n. split; [reflexivity|]. now apply from_start.
  Qed.

  Lemma skip_step_c_ok m X o d : sk_at m X ->
    exists m' X' c, skip_step_c m (o, d) = Ok (m', (snd (map_spec_step (map dt X) o), c)) /\ sk_at m' X'
      /\ map dt X' = fst (map_spec_step (map dt X) o) /\ tags X' = put_step (height_of d) (tags X) o
      /\ (looks_up o = true -> c <= 3 * S (top o (length X)) + passes (top o (length X)) (rev (map snd (passed o (tags X)))))
      /\ (forall k, o = MGet k -> starting_height (length X) = 0 -> length (below k (tags X)) <= c).
  Proof.
    intros A. pose proof (sk_at_rel _ _ A) as Rl. destruct (skip_step_ok m _ (o, d) Rl) as (m1 & E1 & R1). cbn [fst] in E1, R1.
    pose proof (skip_step_c_fst m (o, d)) as Er. rewrite E1 in Er.
    assert (Same : forall c, skip_step_c m (o, d) = Ok (m, (snd (map_spec_step (map dt X) o), c)) -> fst (map_spec_step (map dt X) o) = map dt X ->
        put_step (height_of d) (tags X) o = tags X ->
        (looks_up o = true -> c <= 3 * S (top o (length X)) + passes (top o (length X)) (rev (map snd (passed o (tags X))))) ->
        (forall k, o = MGet k -> starting_height (length X) = 0 -> length (below k (tags X)) <= c) ->
        exists m' X' c, skip_step_c m (o, d) = Ok (m', (snd (map_spec_step (map dt X) o), c)) /\ sk_at m' X'
      /\ map dt X' = fst (map_spec_step (map dt X) o) /\ tags X' = put_step (height_of d) (tags X) o
      /\ (looks_up o = true -> c <= 3 * S (top o (length X)) + passes (top o (length X)) (rev (map snd (passed o (tags X)))))
      /\ (forall k, o = MGet k -> starting_height (length X) = 0 -> length (below k (tags X)) <= c)).
    { intros c Q1 Q2 Q3 Q4 Q5. exists m, X, c. rewrite Q2, Q3. auto 10. }
    destruct o as [k v|k|k|k v|k|k|k|k| | | | | | |vs|]; cbn [put_step passed top looks_up].
    - destruct (skip_insert_c_ok m X k v d A) as (m' & X' & c & E & A' & D & T & Lc). exists m', X', c. unfold skip_step_c. cbn [fst snd].
      rewrite E. cbn [bind map_spec_step fst snd]. repeat (split; auto); discriminate.
    - destruct (skip_remove_c_ok m X k A) as (m' & X' & c & E & A' & D & T & Lc). exists m', X', c. unfold skip_step_c. cbn [fst snd].
      rewrite E. cbn [bind map_spec_step fst snd]. repeat (split; auto); discriminate.
    - destruct (find_c_bound m X k A) as (r & c & E & Lc & Lw). apply (Same c); auto; [|intros k' Ek; injection Ek as ->; exact Lw]. unfold skip_step_c. cbn [fst snd]. rewrite E. cbn [bind skip_step].
      now rewrite (skip_get_ok _ _ _ Rl).
    - destruct (find_c_bound m X k A) as (r & c & E & Lc & Lw). destruct (skip_get_mut_at m X k v A) as (m' & X' & E2 & A' & Sh & D). exists m', X', c.
      unfold skip_step_c. cbn [fst snd]. rewrite E. cbn [bind skip_step]. rewrite E2. cbn [bind map_spec_step fst snd].
      split; [reflexivity|]. split; [exact A'|]. split; [exact D|]. split; [|split; [auto|discriminate]]. apply tags_shape; [exact Sh|]. rewrite D.
      destruct A as (g & _ & Sl & _). rewrite (sorted_split _ k Sl) at 4. rewrite !map_app, map_map. reflexivity.
    - destruct (find_c_bound m X k A) as (r & c & E & Lc & Lw). apply (Same c); auto; try discriminate. unfold skip_step_c. cbn [fst snd]. rewrite E. cbn [bind skip_step].
      now rewrite (skip_get_ok _ _ _ Rl).
    - destruct (find_c_bound m X k A) as (r & c & E & Lc & Lw). apply (Same c); auto; try discriminate. unfold skip_step_c. cbn [fst snd]. rewrite E. cbn [bind].
      rewrite E1. cbn [bind]. cbn [skip_step] in E1. rewrite (skip_get_ok _ _ _ Rl) in E1. injection E1 as -> _. reflexivity.
    - pose proof A as (g & HO & Sl & Ln). destruct (split_items X k Sl) as (Lo & M & Hi & EX & D1 & D2 & D3 & HL & HM & HH).
      destruct (descend_c_bound m X (fun z => negb (is_gt (cmp z k))) (Lo ++ M) Hi A) as (r & c & E & Lc).
      + now rewrite <- app_assoc.
      + intros x Hx. apply in_app_iff in Hx as [Hx|Hx].
        * apply HL in Hx. destruct (cmp (key x) k); auto; discriminate.
        * destruct HM as [->|(e & -> & Ce)]; [destruct Hx|]. destruct Hx as [<-|[]]. now rewrite Ce.
      + intros x Hx. now rewrite HH.
      + apply (Same c); auto; try discriminate.
        * unfold skip_step_c in Er |- *. cbn [fst snd] in *. rewrite E in *. cbn [bind] in *. destruct r as [cur nx]. cbn [bind] in *.
          destruct (key_at _ _); try discriminate. cbn [bind rmap fst snd] in *. injection Er as _ Er. now rewrite Er.
        * intros _. destruct (tags_parts k Lo M Hi HL HM HH) as (T1 & T2 & _). rewrite <- EX in T1, T2. cbn [top passed]. rewrite T1, T2. replace (tags Lo ++ tags M) with (tags (Lo ++ M)) by apply map_app. exact Lc.
    - pose proof A as (g & HO & Sl & Ln). destruct (split_items X k Sl) as (Lo & M & Hi & EX & D1 & D2 & D3 & HL & HM & HH).
      destruct (descend_c_bound m X (fun z => is_lt (cmp z k)) Lo (M ++ Hi) A EX HL) as (r & c & E & Lc); [now apply not_lt_rest|].
      apply (Same c); auto; try discriminate.
      + unfold skip_step_c in Er |- *. cbn [fst snd] in *. rewrite E in *. cbn [bind] in *. destruct r as [cur nx]. cbn [bind] in *.
        destruct (key_at _ _); try discriminate. cbn [bind rmap fst snd] in *. injection Er as _ Er. now rewrite Er.
      + intros _. destruct (tags_parts k Lo M Hi HL HM HH) as (T1 & T2 & _). rewrite <- EX in T1. cbn [top passed]. now rewrite T1.
    - apply (Same 1); auto; [|intros _; lia|discriminate]. unfold skip_step_c. cbn [fst snd]. cbn [skip_step]. now rewrite (skip_min_ok _ _ Rl).
    - destruct (descend_c_bound m X (fun _ => true) X [] A) as (r & c & E & Lc); [now rewrite app_nil_r|auto|intros x []|].
      apply (Same c); auto; try discriminate.
      unfold skip_step_c in Er |- *. cbn [fst snd] in *. rewrite E in *. cbn [bind] in *. destruct r as [cur nx]. cbn [bind] in *.
      destruct (key_at _ _); try discriminate. cbn [bind rmap fst snd] in *. injection Er as _ Er. now rewrite Er.
    - apply (Same 0); auto; try discriminate. unfold skip_step_c. cbn [fst snd skip_step bind map_spec_step].
      destruct A as (g & _ & _ & Ln). now rewrite Ln, map_length.
    - apply (Same 0); auto; try discriminate. unfold skip_step_c. cbn [fst snd skip_step bind map_spec_step].
      destruct A as (g & _ & _ & Ln). now rewrite Ln, map_length.
    - apply sk_rel_at in R1 as (X1 & A1 & D1). cbn [map_spec_step fst] in D1. apply map_eq_nil in D1. subst X1. exists m1, [], 0.
      unfold skip_step_c. cbn [fst snd]. rewrite E1. cbn [bind]. repeat (split; auto); discriminate.
    - apply (Same 0); auto; try discriminate. unfold skip_step_c. cbn [fst snd skip_step]. now rewrite (skip_iter_ok _ _ Rl).
    - destruct (skip_iter_mut_at m X vs A) as (m' & X' & E2 & A' & Sh & D). exists m', X', 0.
      unfold skip_step_c. cbn [fst snd skip_step]. rewrite E2. cbn [bind map_spec_step fst snd].
      split; [reflexivity|]. split; [exact A'|]. split; [exact D|]. split; [|split; discriminate]. apply tags_shape; [exact Sh|]. rewrite D.
      clear. generalize (map dt X). induction vs as [|v vs IH]; intros [|[k w] l]; auto. cbn [write_vals map fst]. now rewrite IH.
    - apply sk_rel_at in R1 as (X1 & A1 & D1). cbn [map_spec_step fst] in D1. apply map_eq_nil in D1. subst X1. exists m1, [], 0.
      unfold skip_step_c. cbn [fst snd]. rewrite E1. cbn [bind]. repeat (split; auto); discriminate.
  Qed.

  (** ** Runs *)
  Lemma skip_run_c (ops : list (map_op K V * N)) : forall m X, sk_at m X -> exists m' outs,
    run skip_step_c m ops = Ok (m', outs) /\ map fst outs = snd (spec_run map_spec_step (map dt X) (map fst ops)) /\
    forall i o d, nth_error ops i = Some (o, d) ->
      exists Xi, tags Xi = fold_left (fun l op => put_step (height_of (snd op)) l (fst op)) (firstn i ops) (tags X) /\
      nth_error (lengths_before (map dt X) (map fst ops)) i = Some (length Xi) /\
      (looks_up o = true -> nth i (map snd outs) 0 <= 3 * S (top o (length Xi)) + passes (top o (length Xi)) (rev (map snd (passed o (tags Xi))))) /\
      (forall k, o = MGet k -> starting_height (length Xi) = 0 -> length (below k (tags Xi)) <= nth i (map snd outs) 0).
  Proof.
    induction ops as [|[o d] ops IH]; intros m X A.
    - exists m, []. repeat split; auto. intros [|i] ? ?; discriminate.
    - destruct (skip_step_c_ok m X o d A) as (m1 & X1 & c & E1 & A1 & D1 & T1 & Lc & Lw).
      destruct (IH m1 X1 A1) as (m2 & outs & E2 & E3 & E4). exists m2, ((snd (map_spec_step (map dt X) o), c) :: outs).
      cbn [run]. rewrite E1. cbn [bind]. rewrite E2. cbn [bind]. split; [easy|]. split.
      + cbn [map fst spec_run]. rewrite E3, D1. destruct (map_spec_step (map dt X) o) as [l1 r1]. cbn [fst snd].
        now destruct (spec_run map_spec_step l1 (map fst ops)).
      + intros [|i] o' d' E.
        * injection E as <- <-. exists X. cbn [firstn fold_left map nth snd lengths_before nth_error fst]. rewrite map_length. auto.
        * destruct (E4 i o' d' E) as (Xi & Ei & El & En). exists Xi. cbn [firstn fold_left map nth snd lengths_before nth_error fst].
          rewrite <- T1, <- D1. auto.
  Qed.

  (** ** The draw that made the height of each key *)
  Fixpoint ids (n : nat) (l : list (K * nat)) (ops : list (map_op K V)) : list (K * nat) :=
    match ops with [] => l | o :: r => ids (S n) (put_step n l o) r end.
  Lemma put_on2 {W W'} (f : W -> W') (w : W) l (o : map_op K V) : map (on2 f) (put_step w l o) = put_step (f w) (map (on2 f) l) o.
  Proof. destruct o; cbn [put_step]; auto; rewrite ?map_app; cbn [map]; now rewrite on2_below, on2_above. Qed.
  Lemma passed_on2 {W W'} (f : W -> W') (l : list (K * W)) (o : map_op K V) : map (on2 f) (passed o l) = passed o (map (on2 f) l).
  Proof. destruct o; cbn [passed]; auto; rewrite ?map_app, ?on2_below, ?on2_at; reflexivity. Qed.
  Definition hts (ps : list N) (d : nat) : nat := height_of (nth d ps 0%N).
  Lemma ids_tags ps : forall ops qs n l, length qs = length ops -> (forall j, j < length ops -> nth j qs 0%N = nth (n + j) ps 0%N) ->
    fold_left (fun l op => put_step (height_of (snd op)) l (fst op)) (combine ops qs) (map (on2 (hts ps)) l) = map (on2 (hts ps)) (ids n l ops).
  Proof.
    induction ops as [|o ops IH]; intros [|q qs] n l El En; try discriminate; [reflexivity|]. cbn [combine fold_left ids].
    pose proof (En 0 ltac:(simpl; lia)) as E0. rewrite Nat.add_0_r in E0. cbn [nth] in E0. subst q. cbn [fst snd].
    change (height_of (nth n ps 0%N)) with (hts ps n). rewrite <- put_on2. apply IH; [simpl in El; lia|].
    intros j Lj. rewrite Nat.add_succ_comm. apply (En (S j)). simpl. lia.
  Qed.
  Definition ids_ok (n : nat) (l : list (K * nat)) : Prop := NoDup (map snd l) /\ forall w, In w (map snd l) -> w < n.
  Lemma ids_ok_incl n l l' : ids_ok n (l ++ l') -> ids_ok n l /\ ids_ok n l'.
  Proof.
    intros [Nd L]. rewrite map_app in Nd, L. apply nodup_parts in Nd as [N1 N2]. split; split; auto; intros; apply L, in_app_iff; auto.
  Qed.
  Lemma ids_ok_perm n l l' : Permutation l l' -> ids_ok n l -> ids_ok n l'.
  Proof.
    intros P [Nd L]. split.
    - eapply Permutation_NoDup; [apply (Permutation_map snd P)|exact Nd].
    - intros w i. apply L. eapply Permutation_in; [apply Permutation_sym, (Permutation_map snd P)|exact i].
  Qed.
  Lemma ids_step_ok n l o : ids_ok n l -> ids_ok (S n) (put_step n l o).
  Proof.
    intros A. assert (A' : ids_ok (S n) l) by (destruct A as [Nd L]; split; auto; intros w i; specialize (L w i); lia).
    destruct o as [k v|k|k|k v|k|k|k|k| | | | | | |vs|]; cbn [put_step]; auto; try (split; [constructor|intros w []]).
    - apply (ids_ok_perm _ ((k, n) :: below k l ++ above k l)); [apply Permutation_middle|].
      assert (B : ids_ok n (below k l ++ above k l)).
      { assert (P : Permutation l (at_key k l ++ below k l ++ above k l)).
        { rewrite (parts_perm k l) at 1. rewrite !app_assoc. apply Permutation_app_tail, Permutation_app_comm. }
        apply (ids_ok_perm _ _ _ P) in A. now apply ids_ok_incl in A. }
      destruct B as [Nd L]. split; cbn [map snd].
      + constructor; auto. intros i. specialize (L n i). lia.
      + intros w [<-|i]; [lia|]. specialize (L w i). lia.
    - assert (P : Permutation l (at_key k l ++ below k l ++ above k l)).
      { rewrite (parts_perm k l) at 1. rewrite !app_assoc. apply Permutation_app_tail, Permutation_app_comm. }
      apply (ids_ok_perm _ _ _ P) in A'. now apply ids_ok_incl in A'.
  Qed.
  Lemma ids_all_ok ops : forall n l, ids_ok n l -> ids_ok (n + length ops) (ids n l ops).
  Proof.
    induction ops as [|o ops IH]; intros n l A; cbn [ids length]; [now rewrite Nat.add_0_r|]. rewrite <- Nat.add_succ_comm. apply IH, ids_step_ok, A.
  Qed.
  Lemma passed_ok n l o : ids_ok n l -> ids_ok n (passed o l) /\ length (passed o l) <= length l.
  Proof.
    intros A. assert (P : exists r, Permutation l (passed o l ++ r)).
    { destruct o as [k v|k|k|k v|k|k|k|k| | | | | | |vs|]; cbn [passed];
        try (exists l; reflexivity); try (exists []; now rewrite app_nil_r); try (eexists; apply parts_perm).
      exists (above k l). rewrite <- app_assoc. apply parts_perm. }
    destruct P as [r P]. split.
    - apply (ids_ok_perm _ _ _ P) in A. now apply ids_ok_incl in A.
    - rewrite (Permutation_length P), app_length. lia.
  Qed.

  Lemma starting_height_small n : (N.of_nat n < two32)%N -> n <= 2 ^ starting_height n /\ starting_height n <= Nat.log2 n + 1.
  Proof.
    intros Ln. unfold starting_height. rewrite N.mod_small by exact Ln. destruct n as [|n]; [simpl; lia|]. rewrite N.size_log2 by lia.
    rewrite N2Nat.inj_succ. assert (E : N.to_nat (N.log2 (N.of_nat (S n))) = Nat.log2 (S n)).
    { symmetry. apply Nat.log2_unique; [lia|]. destruct (N.log2_spec (N.of_nat (S n)) ltac:(lia)) as [Q1 Q2]. revert Q1 Q2.
      generalize (N.log2 (N.of_nat (S n))). intros a Q1 Q2. split.
      - assert (Q : N.to_nat (2 ^ a) <= S n) by lia. now rewrite N2Nat.inj_pow in Q.
      - assert (Q : S n < N.to_nat (2 ^ N.succ a)) by lia. now rewrite N2Nat.inj_pow, N2Nat.inj_succ in Q. }
    rewrite E. pose proof (Nat.log2_spec (S n) ltac:(lia)). lia.
  Qed.

  Lemma skip_at_new : sk_at (skip_new : skip_map K V) [].
  Proof. destruct (sk_rel_at (V := V) _ _ skip_rel_new) as (X & A & D). apply map_eq_nil in D. now subst X. Qed.

  (** Each call passes nodes whose heights were drawn by different calls. *)
  Lemma skip_steps_bound (ops : list (map_op K V)) : exists steps : list N -> list nat,
    (forall ps, length ps = length ops -> outputs skip_step_c skip_new (combine ops ps) = Ok (combine (map_spec_outputs ops) (steps ps)) /\ length (steps ps) = length ops) /\
    forall i o n, nth_error ops i = Some o -> nth_error (lengths_before [] ops) i = Some n -> looks_up o = true ->
      exists W, NoDup W /\ (forall w, In w W -> w < length ops) /\ length W <= n /\
        forall ps, length ps = length ops -> nth i (steps ps) 0 <= 3 * S (top o n) + passes (top o n) (map (hts ps) W).
  Proof.
    set (steps := fun ps => match run skip_step_c (skip_new : skip_map K V) (combine ops ps) with Ok (_, outs) => map snd outs | _ => [] end).
    exists steps.
    assert (A : forall ps, length ps = length ops -> outputs skip_step_c skip_new (combine ops ps) = Ok (combine (map_spec_outputs ops) (steps ps)) /\
      length (steps ps) = length ops /\
      forall i o n, nth_error ops i = Some o -> nth_error (lengths_before [] ops) i = Some n -> let l := ids 0 [] (firstn i ops) in
        length l = n /\ (looks_up o = true ->
        nth i (steps ps) 0 <= 3 * S (top o n) + passes (top o n) (map (hts ps) (rev (map snd (passed o l)))))).
    { intros ps El. destruct (skip_run_c (combine ops ps) skip_new [] skip_at_new) as (t' & outs & E1 & E2 & E3).
      unfold outputs, steps. rewrite E1. simpl rmap.
      assert (Ef : map fst (combine ops ps) = ops).
      { clear -El. revert ps El. induction ops as [|o ops' IH]; intros [|p ps] El; try discriminate; auto. simpl. rewrite IH; auto. }
      rewrite Ef in E2, E3. cbn [map] in E2, E3. split; [|split].
      - f_equal. unfold map_spec_outputs, spec_outputs. rewrite <- E2. clear. induction outs as [|[a c] outs IH]; simpl; congruence.
      - rewrite map_length, <- (map_length fst outs), E2. apply spec_run_length.
      - intros i o n Ei En. set (l := ids 0 [] (firstn i ops)).
        assert (Ein : nth_error (combine ops ps) i = Some (o, nth i ps 0%N)) by now apply combine_nth_error.
        destruct (E3 i o (nth i ps 0%N) Ein) as (Xi & Et & Eli & Eb & _). rewrite En in Eli. injection Eli as ->.
        assert (Ek : tags Xi = map (on2 (hts ps)) l).
        { rewrite Et, combine_firstn. apply (ids_tags ps _ _ 0 []); [rewrite !firstn_length; lia|].
          intros j Lj. simpl. rewrite firstn_length in Lj. rewrite <- (firstn_skipn i ps) at 2. rewrite app_nth1; [easy|]. rewrite firstn_length. lia. }
        assert (El' : length l = length Xi).
        { apply (f_equal (@length _)) in Ek. unfold tags in Ek. rewrite !map_length in Ek. lia. }
        split; [exact El'|]. intros Lo. specialize (Eb Lo). eapply Nat.le_trans; [exact Eb|]. rewrite Ek, <- passed_on2, map_rev.
        apply Nat.eq_le_incl. f_equal. f_equal. f_equal. unfold on2. rewrite !map_map. reflexivity. }
    split; [intros ps El; destruct (A ps El) as (A1 & A2 & _); auto|]. intros i o n Ei En Lo.
    assert (Li : i < length ops) by (apply nth_error_Some; congruence).
    pose proof (ids_all_ok (firstn i ops) 0 []) as B. simpl in B. rewrite firstn_length_le in B by lia.
    specialize (B (conj (NoDup_nil _) (fun w (f : In w (map snd [])) => match f with end))). set (l := ids 0 [] (firstn i ops)) in *.
    destruct (passed_ok i l o B) as [[B1 B2] B3].
    assert (El : length l = n).
    { assert (Q : length (repeat 0%N (length ops)) = length ops) by apply repeat_length. destruct (A _ Q) as (_ & _ & A3). now destruct (A3 i o n Ei En). }
    exists (rev (map snd (passed o l))). split; [now apply NoDup_rev|]. split; [|split].
    - intros w iw. apply in_rev in iw. specialize (B2 w iw). lia.
    - rewrite rev_length, map_length. lia.
    - intros ps Ep. destruct (A ps Ep) as (_ & _ & A3). destruct (A3 i o n Ei En) as [_ A4]. exact (A4 Lo).
  Qed.
  Lemma top_small (o : map_op K V) n : (N.of_nat n < two32)%N -> let s := starting_height n in
    s <= top o n /\ s <= 32 /\ n <= 2 ^ s /\ 3 * S (top o n) + S s <= (if insert_or_remove o then Nat.log2 n + 101 else 4 * Nat.log2 n + 8).
  Proof.
    intros Ln s. destruct (starting_height_small n Ln) as [S1 S2]. pose proof (starting_height_le n) as S3. fold s in S1, S2, S3.
    split; [destruct o; cbn [top]; auto|]. split; [exact S3|]. split; [exact S1|]. destruct o; cbn [top insert_or_remove]; fold s; lia.
  Qed.

  Lemma skip_steps_average (M : nat) (ops : list (map_op K V)) : N.of_nat M = two32 -> exists steps : list N -> list nat,
    (forall ps, length ps = length ops -> outputs skip_step_c skip_new (combine ops ps) = Ok (combine (map_spec_outputs ops) (steps ps)) /\ length (steps ps) = length ops) /\
    forall i o n, nth_error ops i = Some o -> nth_error (lengths_before [] ops) i = Some n -> (N.of_nat n < two32)%N -> looks_up o = true ->
      average_within M (length ops) (if insert_or_remove o then Nat.log2 n + 101 else 4 * Nat.log2 n + 8) 0 (fun ps => nth i (steps ps) 0).
  Proof.
    intros EM. destruct (skip_steps_bound ops) as (steps & A & B). exists steps. split; [exact A|]. intros i o n Ei En Ln Lo. unfold average_within.
    destruct (B i o n Ei En Lo) as (W & Nd & Lt & Lw & Bd). destruct (top_small o n Ln) as (T & S3 & S1 & Fin). set (s := starting_height n) in *.
    pose proof (passes_places M EM (length ops) W s Nd Lt S3 ltac:(lia)) as Av.
    assert (Le : total (fun ps => nth i (steps ps) 0) (draws M (length ops)) <= M ^ length ops * (3 * S (top o n) + S s)).
    { eapply Nat.le_trans with (total (fun ps => 3 * S (top o n) + passes s (map (fun d => height_of (nth d ps 0%N)) W)) (draws M (length ops))).
      - apply total_le. intros ps ip'. apply draws_in in ip' as [Ep _]. eapply Nat.le_trans; [exact (Bd ps Ep)|]. apply Nat.add_le_mono_l. now apply passes_less.
      - rewrite total_plus, total_const, draws_length. lia. }
    pose proof (Nat.mul_le_mono_l _ _ (M ^ length ops) Fin) as F1. pose proof (Nat.mul_le_mono_l _ _ M (Nat.le_trans _ _ _ Le F1)). nia.
  Qed.
End SkipCostProofs.

(** ** 2^32 keys *)
Lemma ids_app {K V} `{Cmp K} (ops ops' : list (map_op K V)) : forall n l, ids n l (ops ++ ops') = ids (n + length ops) (ids n l ops) ops'.
Proof. induction ops as [|o ops IH]; intros n l; simpl; [now rewrite Nat.add_0_r|]. now rewrite IH, Nat.add_succ_comm. Qed.
Definition ascending (n : nat) : list (map_op nat unit) := map (fun k => MInsert k tt) (seq 0 n).
Lemma ascending_length n : length (ascending n) = n.
Proof. unfold ascending. now rewrite map_length, seq_length. Qed.
Lemma ascending_S n : ascending (S n) = ascending n ++ [MInsert n tt].
Proof. unfold ascending. now rewrite seq_S, map_app. Qed.
Lemma ids_ascending n : ids 0 [] (ascending n) = map (fun j => (j, j)) (seq 0 n).
Proof.
  induction n as [|n IH]; [reflexivity|]. rewrite ascending_S, ids_app, IH, ascending_length, seq_S, map_app. cbn [ids put_step Nat.add map].
  destruct (parts_less n (map (fun j => (j, j)) (seq 0 n)) []) as (E1 & E2 & E3); [|easy|].
  - intros x i. apply in_map_iff in i as (j & <- & i). apply in_seq in i. simpl. lia.
  - rewrite app_nil_r in E1, E3. now rewrite E1, E3.
Qed.
Lemma ascending_keys n : fst (spec_run map_spec_step [] (ascending n)) = map (fun j => (j, tt)) (seq 0 n).
Proof.
  induction n as [|n IH]; [reflexivity|]. rewrite ascending_S, spec_run_app, IH, seq_S, map_app. cbn [spec_run map_spec_step fst Nat.add map].
  destruct (parts_less n (map (fun j => (j, tt)) (seq 0 n)) []) as (E1 & E2 & E3); [|easy|].
  - intros x i. apply in_map_iff in i as (j & <- & i). apply in_seq in i. simpl. lia.
  - rewrite app_nil_r in E1, E3. now rewrite E1, E3.
Qed.
Lemma pow_beats_later c k : c * k + c < 2 ^ k -> forall j, c * (j + k) + c < 2 ^ (j + k).
Proof.
  intros E. induction j as [|j IH]; [exact E|]. cbn [Nat.add]. rewrite Nat.pow_succ_r'. nia.
Qed.

Lemma skip_slow (M c : nat) : N.of_nat M = two32 -> exists (ops : list (map_op nat unit)) (i n k : nat),
  nth_error ops i = Some (MGet k) /\ nth_error (lengths_before [] ops) i = Some n /\
  forall steps : list N -> list nat,
    (forall ps, length ps = length ops -> outputs skip_step_c skip_new (combine ops ps) = Ok (combine (map_spec_outputs ops) (steps ps)) /\ length (steps ps) = length ops) ->
    ~ average_within M (length ops) (c * Nat.log2 n + c) 0 (fun ps => nth i (steps ps) 0).
Proof.
  intros EM.
  assert (Ek : exists k, 32 <= k /\ c * k + c < 2 ^ k).
  { destruct (pow_beats c c) as (k0 & Ek0). exists (32 + k0). split; [apply Nat.le_add_r|exact (pow_beats_later c k0 Ek0 32)]. }
  destruct Ek as (k & L32 & Ek).
  assert (Em : (N.of_nat (2 ^ k) mod two32 = 0)%N).
  { rewrite Nat2N.inj_pow. assert (Q : N.of_nat k = (32 + N.of_nat (k - 32))%N) by (clear -L32; lia). rewrite Q, N.pow_add_r, N.mul_comm. now apply N.mod_mul. }
  assert (El : Nat.log2 (2 ^ k) = k) by (apply Nat.log2_pow2, Nat.le_0_l).
  set (n := 2 ^ k) in *. rewrite <- El in Ek. clearbody n. clear El L32 k.
  exists (ascending n ++ [MGet n]), n, n, n.
  assert (Ei : nth_error (ascending n ++ [MGet n]) n = Some (MGet n)).
  { rewrite nth_error_app2; rewrite ascending_length; [|lia]. now rewrite Nat.sub_diag. }
  split; [exact Ei|]. split.
  { rewrite lengths_before_app, nth_error_app2; rewrite lengths_before_length, ascending_length; [|lia].
    rewrite Nat.sub_diag, ascending_keys. cbn [lengths_before nth_error]. now rewrite map_length, seq_length. }
  set (ops := ascending n ++ [MGet n]) in *. intros steps Hs Av. unfold average_within in Av.
  assert (PM : 0 < M) by (unfold two32 in EM; lia).
  assert (L : n * M ^ length ops <= total (fun ps => nth n (steps ps) 0) (draws M (length ops))).
  { eapply Nat.le_trans with (total (fun _ => n) (draws M (length ops))); [rewrite total_const, draws_length; lia|].
    apply total_le. intros ps ips. apply draws_in in ips as [Elp _]. destruct (Hs ps Elp) as [E0 E0'].
    destruct (skip_run_c (combine ops ps) skip_new [] skip_at_new) as (t' & outs & E1 & E2 & E3).
    unfold outputs in E0. rewrite E1 in E0. simpl in E0. injection E0 as E0.
    assert (Est : steps ps = map snd outs).
    { rewrite E0. assert (Lo : length (map_spec_outputs ops) = length (steps ps)) by (rewrite E0'; apply spec_run_length).
      clear -Lo. revert Lo. generalize (map_spec_outputs ops). intros l. revert l. generalize (steps ps). clear.
      induction l as [|x l IH]; intros [|y l'] E; try discriminate; auto. simpl. rewrite <- IH; auto. }
    rewrite Est.
    assert (Ein : nth_error (combine ops ps) n = Some (MGet n, nth n ps 0%N)) by now apply combine_nth_error.
    destruct (E3 _ _ _ Ein) as (Xi & Et & _ & _ & Lw).
    assert (Ek2 : tags Xi = map (on2 (hts ps)) (map (fun j => (j, j)) (seq 0 n))).
    { rewrite Et, combine_firstn, <- ids_ascending.
      assert (Ef : firstn n ops = ascending n) by (unfold ops; rewrite firstn_app, ascending_length, Nat.sub_diag, firstn_all2 by (rewrite ascending_length; lia); apply app_nil_r).
      rewrite Ef. apply (ids_tags ps _ _ 0 []).
      - rewrite firstn_length, ascending_length. unfold ops in Elp. rewrite app_length, ascending_length in Elp. simpl in Elp. lia.
      - intros j Lj. simpl. rewrite ascending_length in Lj. rewrite <- (firstn_skipn n ps) at 2. rewrite app_nth1; [easy|]. rewrite firstn_length.
        unfold ops in Elp. rewrite app_length, ascending_length in Elp. simpl in Elp. lia. }
    assert (Elx : length Xi = n).
    { apply (f_equal (@length _)) in Ek2. unfold tags in Ek2. rewrite !map_length, seq_length in Ek2. exact Ek2. }
    specialize (Lw n eq_refl). rewrite Elx in Lw. unfold starting_height in Lw. rewrite Em in Lw. specialize (Lw eq_refl).
    rewrite Ek2, <- on2_below, map_length in Lw.
    destruct (parts_less n (map (fun j => (j, j)) (seq 0 n)) []) as (P1 & _); [|easy|].
    - intros x ix. apply in_map_iff in ix as (j & <- & ix). apply in_seq in ix. simpl. lia.
    - rewrite app_nil_r in P1. rewrite P1, map_length, seq_length in Lw. exact Lw. }
  assert (Ps : 0 < M ^ length ops) by (pose proof (Nat.pow_nonzero M (length ops)); lia).
  set (P := M ^ length ops) in *. set (T := total _ _) in *.
  assert (F : n <= c * Nat.log2 n + c).
  { apply (Nat.mul_le_mono_pos_l _ _ P Ps). apply (Nat.mul_le_mono_pos_l _ _ M PM). pose proof (Nat.mul_le_mono_l _ _ M L). nia. }
  lia.
Qed.
