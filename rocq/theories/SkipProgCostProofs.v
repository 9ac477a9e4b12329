(** Average running time of programs over several [SkipMap]s: C70. *)
From Coq Require Import Permutation.
From Verif Require Export SkipProgCostModel SkipSetProofs SkipCostProofs TreapProgCostProofs.

(** ** Leaving out the counts *)
Section Counts.
  Context {K V : Type} `{Cmp K}.
  Notation hp := (heap (K * V) (option nat)).
  Implicit Types (h hl hr : hp) (b : builder K V).

  Lemma link_tails_c_fst n : forall i h tails a, rmap fst (link_tails_c n i h tails a) = link_tails n i h tails a.
  Proof.
    induction n as [|n IH]; intros i h tails a; [reflexivity|]. cbn [link_tails_c link_tails]. destruct (nth_error tails i) as [t|]; [|reflexivity].
    destruct (set_link h t i (Some a)) as [h1| |]; [|reflexivity..]. cbn [bind]. rewrite <- IH. now destruct (link_tails_c n (S i) h1 _ a) as [[? ?]| |].
  Qed.
  Lemma append_c_fst b e n extra : rmap fst (append_c b e n extra) = append b e n extra.
  Proof.
    unfold append_c, append. destruct (alloc _ _ _ _) as [h a]. rewrite <- link_tails_c_fst. now destruct (link_tails_c _ _ _ _ _) as [[[? ?] ?]| |].
  Qed.
  Lemma plus_fst c (x : res ((hp * hp * builder K V) * nat)) : rmap fst (plus c x) = rmap fst x.
  Proof. now destruct x as [[? ?]| |]. Qed.
  Ltac counted IH := repeat (first
    [ reflexivity
    | rewrite <- IH, plus_fst; reflexivity
    | match goal with
      | |- context [bind (append_c ?b ?e ?n ?x) _] => rewrite <- (append_c_fst b e n x); destruct (append_c b e n x) as [[? ?]| |]; cbn [bind rmap fst]
      | |- context [bind (take ?h ?p) _] => destruct (take h p) as [[[[? ?] ?] ?]| |]; cbn [bind rmap fst]
      | |- context [bind (discard ?h ?p) _] => destruct (discard h p) as [[? ?]| |]; cbn [bind rmap fst]
      | |- context [bind (get_data ?h ?p) _] => destruct (get_data h p) as [?| |]; cbn [bind rmap fst]
      | |- context [match cmp ?a ?b with _ => _ end] => destruct (cmp a b)
      | |- context [if ?s then _ else _] => destruct s
      end ]).
  Lemma union_loop_c_fst fuel : forall hl pl hr pr b, rmap fst (union_loop_c fuel hl pl hr pr b) = union_loop fuel hl pl hr pr b.
  Proof. induction fuel as [|fuel IH]; intros hl pl hr pr b; [reflexivity|]. cbn [union_loop_c union_loop]. destruct pl, pr; counted IH. Qed.
  Lemma inter_loop_c_fst fuel : forall hl pl hr pr b, rmap fst (inter_loop_c fuel hl pl hr pr b) = inter_loop fuel hl pl hr pr b.
  Proof. induction fuel as [|fuel IH]; intros hl pl hr pr b; [reflexivity|]. cbn [inter_loop_c inter_loop]. destruct pl, pr; counted IH. Qed.
  Lemma diff_loop_c_fst fuel : forall hl pl hr pr s b, rmap fst (diff_loop_c fuel hl pl hr pr s b) = diff_loop fuel hl pl hr pr s b.
  Proof. induction fuel as [|fuel IH]; intros hl pl hr pr s b; [reflexivity|]. cbn [diff_loop_c diff_loop]. destruct pl, pr; counted IH. Qed.
  Lemma skip_set_op_c_fst s (l r : skip_map K V) : rmap fst (skip_set_op_c s l r) = skip_set_op s l r.
  Proof.
    unfold skip_set_op_c, skip_set_op. destruct (get_link (sk_heap l) 0 0) as [pl| |]; try reflexivity. cbn [bind].
    destruct (get_link (sk_heap r) 0 0) as [pr| |]; try reflexivity. cbn [bind].
    destruct (zero_links (sk_heap l) 0 None) as [hl| |]; try reflexivity. cbn [bind].
    destruct (zero_links (sk_heap r) 0 None) as [hr| |]; try reflexivity. cbn [bind].
    rewrite <- union_loop_c_fst, <- inter_loop_c_fst, <- !diff_loop_c_fst.
    set (x := match s with SUnion => union_loop_c _ _ _ _ _ _ | _ => _ end).
    replace (match s with SUnion => rmap fst (union_loop_c _ _ _ _ _ _) | _ => _ end) with (rmap fst x) by (unfold x; now destruct s).
    destruct x as [[[[h1 h2] b] c]| |]; try reflexivity. cbn [bind rmap fst].
    destruct (skip_drop (SkipMap h1 (sk_len l))) as [[? ?]| |]; try reflexivity. cbn [bind].
    now destruct (skip_drop (SkipMap h2 (sk_len r))) as [[? ?]| |].
  Qed.
  Lemma skip_prog_step_c_fst (rs : nat -> skip_map K V) op : rmap (fun r => (fst r, fst (snd r))) (skip_prog_step_c rs op) = skip_prog_step rs op.
  Proof.
    destruct op as [[i o|s d i j|d i k inc] p]; cbn [skip_prog_step_c skip_prog_step]; [| |reflexivity].
    - rewrite <- skip_step_c_fst. now destruct (skip_step_c (rs i) (o, p)) as [[? [? ?]]| |].
    - rewrite <- skip_set_op_c_fst. now destruct (skip_set_op_c s _ _) as [[[[? ?] ?] ?]| |].
  Qed.
End Counts.

(** ** Changing the values *)
Section OnValues.
  Context {K : Type} `{CmpLaws K} {W W' : Type} (h : W -> W').
  Notation t := (map (on2 h)).
  Implicit Types (a b l : list (K * W)).
  Lemma on2_has k l : has_key k (t l) = has_key k l.
  Proof. unfold has_key. rewrite <- on2_at. now destruct (at_key k l). Qed.
  Lemma on2_filter (P : K -> bool) l : t (filter (fun p => P (fst p)) l) = filter (fun p => P (fst p)) (t l).
  Proof. induction l as [|x l IH]; [reflexivity|]. cbn [filter map]. unfold on2 at 2. cbn [fst]. destruct (P (fst x)); cbn [map]; now rewrite IH. Qed.
  Lemma on2_union a b : t (spec_union a b) = spec_union (t a) (t b).
  Proof.
    induction a as [|x a IH]; [reflexivity|]. cbn [map]. unfold spec_union in *. cbn [fold_right]. rewrite <- IH. unfold insert_pair. rewrite map_app. cbn [map].
    now rewrite (on2_below h), (on2_above h).
  Qed.
  Lemma on2_inter a b : t (spec_inter a b) = spec_inter (t a) (t b).
  Proof. unfold spec_inter. rewrite (on2_filter (fun k => has_key k b)). apply filter_ext. intros x. now rewrite on2_has. Qed.
  Lemma on2_diff a b : t (spec_diff a b) = spec_diff (t a) (t b).
  Proof. unfold spec_diff. rewrite (on2_filter (fun k => negb (has_key k b))). apply filter_ext. intros x. now rewrite on2_has. Qed.
  Lemma on2_set s a b : t (spec_set s a b) = spec_set s (t a) (t b).
  Proof. destruct s; cbn [spec_set]; [apply on2_union|apply on2_inter|apply on2_diff|]. unfold spec_symdiff. now rewrite on2_union, !on2_diff. Qed.
  Lemma on2_last l : last_error (t l) = option_map (on2 h) (last_error l).
  Proof. induction l as [|x [|y l] IH]; [reflexivity..|]. exact IH. Qed.
  Lemma on2_beyond a b : reaches_beyond (t a) (t b) = reaches_beyond a b.
  Proof.
    unfold reaches_beyond. rewrite on2_last. destruct (last_error a) as [p|]; [|reflexivity]. cbn [option_map]. clear a.
    induction b as [|q b IH]; [reflexivity|]. cbn [map forallb]. now rewrite IH.
  Qed.
  Lemma on2_allowed s a b : set_allowed s (t a) (t b) <-> set_allowed s a b.
  Proof.
    destruct s; cbn [set_allowed]; rewrite ?on2_beyond; try tauto. rewrite <- on2_inter. split; [apply map_eq_nil|now intros ->].
  Qed.
End OnValues.

Section SkipProgCostProofs.
  Context {K V : Type} `{CmpLaws K}.
  Notation hp := (heap (K * V) (option nat)).
  Notation item := (sitem (K * V)).
  Notation links := (nat -> nat -> option nat).
  Notation out := (res ((hp * hp * builder K V) * nat)).
  Implicit Types (h : hp) (X Y A B : list item) (x y : item) (g : links) (k : K) (b : builder K V).

  (** A node with its height *)
  Notation full x := (key x, (snd (dt x), ht x)).
  Notation fulls X := (map (fun x => full x) X).
  Notation fmap := (list (K * (V * nat))).
  Lemma fulls_data X : map (on2 fst) (fulls X) = map dt X.
  Proof. rewrite map_map. apply map_ext. intros [a n [k v]]. reflexivity. Qed.
  Lemma fulls_tags X : map (on2 snd) (fulls X) = tags X.
  Proof. rewrite map_map. reflexivity. Qed.

  (** ** The result under construction *)
  Lemma link_tails_c_count (a : nat) n : forall i h tails r c, link_tails_c n i h tails a = Ok (r, c) -> c <= n.
  Proof.
    induction n as [|n IH]; intros i h tails r c; cbn [link_tails_c]; [intros E; injection E as _ <-; lia|].
    destruct (nth_error tails i); [|intros E; injection E as _ <-; lia]. destruct (set_link h _ i _) as [h1| |]; try discriminate. cbn [bind].
    destruct (link_tails_c n (S i) h1 _ a) as [[r' c']| |] eqn:E'; try discriminate. cbn [bind]. intros E. injection E as _ <-. apply IH in E'. lia.
  Qed.
  Lemma append_c_ok b X g e hgt : bok b X g -> hgt <= 32 ->
    exists b' g' x c, append_c b e (S hgt) 0 = Ok (b', c) /\ bok b' (X ++ [x]) g' /\ full x = (fst e, (snd e, hgt)) /\ c <= S hgt.
  Proof.
    intros ([Rp Sg] & T & L) Hh.
    pose proof (alloc_ok (b_heap b) X g e hgt None Rp Hh) as Al.
    destruct (alloc (b_heap b) (Some e) (S hgt) None) as [h1 a] eqn:Ea. destruct Al as (R1 & _ & Fr).
    set (n := It a hgt e) in *.
    set (g1 := fun u j => if u =? a then None else g u j) in *.
    destruct (link_tails_ok n X (S hgt) 0 h1 g1) as (h2 & g2 & E2 & R2 & S2).
    - cbn [ht n]. lia.
    - exact R1.
    - intros j. unfold g1. cbn [ad n]. now rewrite Nat.eqb_refl.
    - intros j Hj. lia.
    - intros j Hj. eapply seg_frame; [|apply (Sg j); lia]. intros u Hb. unfold g1.
      rewrite (proj2 (Nat.eqb_neq u a)); auto. intros ->. apply Fr. destruct Hb as [->|Hb]; [now left|now right].
    - cbn [Nat.ltb Nat.leb] in E2. cbn [ad n] in E2. cbn [Nat.leb] in E2. unfold append_c. rewrite Ea, Nat.add_0_r, T.
      rewrite <- link_tails_c_fst in E2. destruct (link_tails_c (S hgt) 0 h1 _ a) as [[[h3 t3] c]| |] eqn:E3; try discriminate. cbn [rmap fst bind] in E2 |- *.
      injection E2 as -> ->. eexists _, g2, n, c. split; [reflexivity|]. split; [|split; [reflexivity|now apply link_tails_c_count in E3]].
      split; [split|]; cbn [b_heap b_tails b_len]; auto.
      + eapply srep_equiv; [|exact R2]. apply (Permutation_app_comm [n]).
      + split; auto. rewrite app_length, L. simpl. lia.
  Qed.

  (** ** The loops *)
  Definition weight X : nat := total (fun x => 3 + ht x) X.
  Lemma weight_cons x X : weight (x :: X) = 3 + ht x + weight X.
  Proof. exact (total_cons (fun x => 3 + ht x) x X). Qed.
  Definition merged_c (f : fmap -> fmap -> fmap) (r : out) X XL XR : Prop :=
    exists hl gl hr gr b g Y c, r = Ok ((hl, hr, b), c) /\ srep hl [] gl /\ gl 0 0 = None /\ srep hr [] gr /\ gr 0 0 = None
      /\ bok b (X ++ Y) g /\ pw f (fulls Y) (fulls XL) (fulls XR) /\ c <= 1 + weight XL + weight XR.

  Lemma merged_c_done (f : fmap -> fmap -> fmap) hl pl gl hr pr gr b X g : f [] [] = [] ->
    srcok hl pl [] gl -> srcok hr pr [] gr -> bok b X g -> merged_c f (Ok ((hl, hr, b), 1)) X [] [].
  Proof.
    intros F0 (R1 & _ & _ & Z1) (R2 & _ & _ & Z2) B. exists hl, gl, hr, gr, b, g, [], 1. rewrite app_nil_r.
    repeat (split; [now auto|]). split; [now apply pw_nil|lia].
  Qed.
  Lemma merged_c_step (f : fmap -> fmap -> fmap) r X Z XL XR XL' XR' n :
    (forall R, pw f R (fulls XL) (fulls XR) -> pw f (fulls Z ++ R) (fulls XL') (fulls XR')) ->
    n + weight XL + weight XR <= weight XL' + weight XR' ->
    merged_c f r (X ++ Z) XL XR -> merged_c f (plus n r) X XL' XR'.
  Proof.
    intros P Ln (hl & gl & hr & gr & b & g & Y & c & -> & R1 & Z1 & R2 & Z2 & B & Pw & Lc).
    exists hl, gl, hr, gr, b, g, (Z ++ Y), (n + c). rewrite app_assoc, map_app. cbn [plus bind]. repeat (split; [now auto|]). lia.
  Qed.

  Lemma keep_left_c (f : fmap -> fmap -> fmap) (loop : hp -> option nat -> builder K V -> out) hl pl x XL gl b X g XR n :
    f [] [] = [] -> f [full x] [] = [full x] -> n <= 2 -> srcok hl pl (x :: XL) gl -> bok b X g ->
    sorted (fulls (x :: XL)) -> sorted (fulls XR) -> all_gt (fulls XR) (key x) ->
    (forall h' p' b' g' X', srcok h' p' XL gl -> bok b' X' g' -> merged_c f (loop h' p' b') X' XL XR) ->
    merged_c f (let* (hl, pl, e, m) := take hl pl in let* (b, c) := append_c b e m 0 in plus (n + c) (loop hl pl b)) X (x :: XL) XR.
  Proof.
    intros F0 F1 Ln SL B OL OR G Lp. destruct (take_ok _ _ _ _ _ SL) as (_ & -> & h' & p' & T & _ & S').
    rewrite T. cbn [bind].
    destruct (append_c_ok b X g (dt x) (ht x) B (src_ht _ _ _ _ _ SL)) as (b' & g' & z & c & -> & B' & Ez & Lc). cbn [bind].
    eapply merged_c_step; [| |eapply Lp; eauto].
    - intros R P. cbn [map]. rewrite Ez. change (fst (dt x), (snd (dt x), ht x)) with (full x). rewrite <- F1. apply (pw_cons_left f (full x)); auto.
    - rewrite weight_cons. lia.
  Qed.
  Lemma keep_right_c (f : fmap -> fmap -> fmap) (loop : hp -> option nat -> builder K V -> out) hr pr y XR gr b X g XL n :
    f [] [] = [] -> f [] [full y] = [full y] -> n <= 2 -> srcok hr pr (y :: XR) gr -> bok b X g ->
    sorted (fulls XL) -> sorted (fulls (y :: XR)) -> all_gt (fulls XL) (key y) ->
    (forall h' p' b' g' X', srcok h' p' XR gr -> bok b' X' g' -> merged_c f (loop h' p' b') X' XL XR) ->
    merged_c f (let* (hr, pr, e, m) := take hr pr in let* (b, c) := append_c b e m 0 in plus (n + c) (loop hr pr b)) X XL (y :: XR).
  Proof.
    intros F0 F1 Ln SL B OL OR G Lp. destruct (take_ok _ _ _ _ _ SL) as (_ & -> & h' & p' & T & _ & S').
    rewrite T. cbn [bind].
    destruct (append_c_ok b X g (dt y) (ht y) B (src_ht _ _ _ _ _ SL)) as (b' & g' & z & c & -> & B' & Ez & Lc). cbn [bind].
    eapply merged_c_step; [| |eapply Lp; eauto].
    - intros R P. cbn [map]. rewrite Ez. change (fst (dt y), (snd (dt y), ht y)) with (full y). rewrite <- F1. apply (pw_cons_right f (full y)); auto.
    - rewrite weight_cons. lia.
  Qed.
  Lemma drop_left_c (f : fmap -> fmap -> fmap) (loop : hp -> option nat -> out) hl pl x XL gl X XR n :
    f [] [] = [] -> f [full x] [] = [] -> n <= 2 -> srcok hl pl (x :: XL) gl ->
    sorted (fulls (x :: XL)) -> sorted (fulls XR) -> all_gt (fulls XR) (key x) ->
    (forall h' p', srcok h' p' XL gl -> merged_c f (loop h' p') X XL XR) ->
    merged_c f (let* (hl, pl) := discard hl pl in plus n (loop hl pl)) X (x :: XL) XR.
  Proof.
    intros F0 F1 Ln SL OL OR G Lp. destruct (take_ok _ _ _ _ _ SL) as (_ & -> & h' & p' & _ & T & S').
    rewrite T. cbn [bind]. eapply (merged_c_step f _ X []); [| |rewrite app_nil_r; eapply Lp; eauto].
    - intros R P. cbn [map]. rewrite <- F1. apply (pw_cons_left f (full x)); auto.
    - rewrite weight_cons. lia.
  Qed.
  Lemma drop_right_c (f : fmap -> fmap -> fmap) (loop : hp -> option nat -> out) hr pr y XR gr X XL n :
    f [] [] = [] -> f [] [full y] = [] -> n <= 2 -> srcok hr pr (y :: XR) gr ->
    sorted (fulls XL) -> sorted (fulls (y :: XR)) -> all_gt (fulls XL) (key y) ->
    (forall h' p', srcok h' p' XR gr -> merged_c f (loop h' p') X XL XR) ->
    merged_c f (let* (hr, pr) := discard hr pr in plus n (loop hr pr)) X XL (y :: XR).
  Proof.
    intros F0 F1 Ln SL OL OR G Lp. destruct (take_ok _ _ _ _ _ SL) as (_ & -> & h' & p' & _ & T & S').
    rewrite T. cbn [bind]. eapply (merged_c_step f _ X []); [| |rewrite app_nil_r; eapply Lp; eauto].
    - intros R P. cbn [map]. rewrite <- F1. apply (pw_cons_right f (full y)); auto.
    - rewrite weight_cons. lia.
  Qed.

  Lemma union_loop_c_ok fuel : forall hl pl XL gl hr pr XR gr b X g,
    srcok hl pl XL gl -> srcok hr pr XR gr -> bok b X g -> sorted (fulls XL) -> sorted (fulls XR) ->
    length XL + length XR < fuel -> merged_c f_union (union_loop_c fuel hl pl hr pr b) X XL XR.
  Proof.
    induction fuel as [|fuel IH]; intros hl pl XL gl hr pr XR gr b X g SL SR B OL OR Hf; [lia|].
    destruct XL as [|x XL], XR as [|y XR].
    - pose proof (src_nil _ _ _ SL) as ->. pose proof (src_nil _ _ _ SR) as ->. cbn [union_loop_c].
      now apply (merged_c_done f_union hl None gl hr None gr b X g).
    - pose proof (src_nil _ _ _ SL) as ->. pose proof (src_data _ _ _ _ _ SR) as [_ ->]. cbn [union_loop_c].
      apply (keep_right_c f_union (fun h p b => union_loop_c fuel hl None h p b) hr _ y XR gr b X g [] 1); auto; [constructor|].
      intros. eapply (IH _ _ [] gl); eauto; [eapply sorted_tl; exact OR|simpl in *; lia].
    - pose proof (src_nil _ _ _ SR) as ->. pose proof (src_data _ _ _ _ _ SL) as [_ ->]. cbn [union_loop_c].
      apply (keep_left_c f_union (fun h p b => union_loop_c fuel h p hr None b) hl _ x XL gl b X g [] 1); auto; [constructor|].
      intros. eapply (IH _ _ XL gl _ _ [] gr); eauto; [eapply sorted_tl; exact OL|simpl in *; lia].
    - pose proof (src_data _ _ _ _ _ SR) as [Dy Ey]. pose proof (src_data _ _ _ _ _ SL) as [Dx Ex].
      cbn [union_loop_c]. rewrite Ex, Ey, Dx, Dy. cbn [bind]. fold (key x) (key y). rewrite <- Ex, <- Ey.
      cbn [map] in OL, OR. pose proof (sorted_tl _ _ OL) as OL'. pose proof (sorted_tl _ _ OR) as OR'.
      destruct (cmp (key x) (key y)) eqn:Cm.
      + destruct (take_ok _ _ _ _ _ SR) as (_ & _ & h' & p' & _ & T & S'). rewrite T. cbn [bind].
        eapply (merged_c_step f_union _ X []); [| |rewrite app_nil_r; eapply IH; eauto; simpl in *; lia].
        * intros R P. cbn [map app]. apply pw_union_drop; auto.
        * rewrite !weight_cons. lia.
      + apply (keep_left_c f_union (fun h p b => union_loop_c fuel h p hr pr b) hl _ x XL gl b X g (y :: XR) 2); auto.
        * now apply (sorted_lt_gt (full x) (full y)).
        * intros. eapply IH; eauto. simpl in *. lia.
      + apply (keep_right_c f_union (fun h p b => union_loop_c fuel hl pl h p b) hr _ y XR gr b X g (x :: XL) 2); auto.
        * apply (sorted_lt_gt (full y) (full x)); auto. now apply cmp_gt_lt.
        * intros. eapply IH; eauto. simpl in *. lia.
  Qed.

  Lemma inter_loop_c_ok fuel : forall hl pl XL gl hr pr XR gr b X g,
    srcok hl pl XL gl -> srcok hr pr XR gr -> bok b X g -> sorted (fulls XL) -> sorted (fulls XR) ->
    (forall x y, In x XL -> In y XR -> cmp (key x) (key y) <> Eq) ->
    length XL + length XR < fuel -> merged_c f_inter (inter_loop_c fuel hl pl hr pr b) X XL XR.
  Proof.
    induction fuel as [|fuel IH]; intros hl pl XL gl hr pr XR gr b X g SL SR B OL OR NE Hf; [lia|].
    destruct XL as [|x XL], XR as [|y XR].
    - pose proof (src_nil _ _ _ SL) as ->. pose proof (src_nil _ _ _ SR) as ->. cbn [inter_loop_c].
      now apply (merged_c_done f_inter hl None gl hr None gr b X g).
    - pose proof (src_nil _ _ _ SL) as ->. pose proof (src_data _ _ _ _ _ SR) as [_ ->]. cbn [inter_loop_c].
      apply (drop_right_c f_inter (fun h p => inter_loop_c fuel hl None h p b) hr _ y XR gr X [] 1); auto; [constructor|].
      intros. eapply (IH _ _ [] gl); eauto; [eapply sorted_tl; exact OR|simpl in *; lia].
    - pose proof (src_nil _ _ _ SR) as ->. pose proof (src_data _ _ _ _ _ SL) as [_ ->]. cbn [inter_loop_c].
      apply (drop_left_c f_inter (fun h p => inter_loop_c fuel h p hr None b) hl _ x XL gl X [] 1); auto; [constructor|].
      intros. eapply (IH _ _ XL gl _ _ [] gr); eauto; [eapply sorted_tl; exact OL|simpl in *; lia].
    - pose proof (src_data _ _ _ _ _ SR) as [Dy Ey]. pose proof (src_data _ _ _ _ _ SL) as [Dx Ex].
      cbn [inter_loop_c]. rewrite Ex, Ey, Dx, Dy. cbn [bind]. fold (key x) (key y). rewrite <- Ex, <- Ey.
      cbn [map] in OL, OR. pose proof (sorted_tl _ _ OL) as OL'. pose proof (sorted_tl _ _ OR) as OR'.
      destruct (cmp (key x) (key y)) eqn:Cm.
      + destruct (NE x y); [now left|now left|auto].
      + apply (drop_left_c f_inter (fun h p => inter_loop_c fuel h p hr pr b) hl _ x XL gl X (y :: XR) 2); auto.
        * now apply (sorted_lt_gt (full x) (full y)).
        * intros. eapply IH; eauto; [|simpl in *; lia]. intros. apply NE; auto. now right.
      + apply (drop_right_c f_inter (fun h p => inter_loop_c fuel hl pl h p b) hr _ y XR gr X (x :: XL) 2); auto.
        * apply (sorted_lt_gt (full y) (full x)); auto. now apply cmp_gt_lt.
        * intros. eapply IH; eauto; [|simpl in *; lia]. intros. apply NE; auto. now right.
  Qed.

  Lemma diff_loop_c_ok sym fuel : forall hl pl XL gl hr pr XR gr b X g,
    srcok hl pl XL gl -> srcok hr pr XR gr -> bok b X g -> sorted (fulls XL) -> sorted (fulls XR) ->
    reaches_beyond (fulls XL) (fulls XR) = false ->
    length XL + length XR < fuel -> merged_c (f_dif sym) (diff_loop_c fuel hl pl hr pr sym b) X XL XR.
  Proof.
    induction fuel as [|fuel IH]; intros hl pl XL gl hr pr XR gr b X g SL SR B OL OR NB Hf; [lia|].
    destruct XL as [|x XL], XR as [|y XR].
    - pose proof (src_nil _ _ _ SL) as ->. pose proof (src_nil _ _ _ SR) as ->. cbn [diff_loop_c].
      apply (merged_c_done (f_dif sym) hl None gl hr None gr b X g); auto. now destruct sym.
    - pose proof (src_nil _ _ _ SL) as ->. pose proof (src_data _ _ _ _ _ SR) as [_ ->]. cbn [diff_loop_c].
      destruct sym.
      + apply (keep_right_c f_symdiff (fun h p b => diff_loop_c fuel hl None h p true b) hr _ y XR gr b X g [] 1); auto; [constructor|].
        intros. eapply (IH _ _ [] gl); eauto; [eapply sorted_tl; exact OR|simpl in *; lia].
      + apply (drop_right_c f_diff (fun h p => diff_loop_c fuel hl None h p false b) hr _ y XR gr X [] 1); auto; [constructor|].
        intros. eapply (IH _ _ [] gl); eauto; [eapply sorted_tl; exact OR|simpl in *; lia].
    - exfalso. cbn [map] in OL, NB. revert OL NB. generalize (fulls XL). intros l OL NB.
      destruct (beyond_last _ _ OL) as (p & E & _). unfold reaches_beyond in NB. rewrite E in NB. discriminate.
    - pose proof (src_data _ _ _ _ _ SR) as [Dy Ey]. pose proof (src_data _ _ _ _ _ SL) as [Dx Ex].
      cbn [diff_loop_c]. rewrite Ex, Ey, Dx, Dy. cbn [bind]. fold (key x) (key y). rewrite <- Ex, <- Ey.
      cbn [map] in OL, OR, NB. pose proof (sorted_tl _ _ OL) as OL'. pose proof (sorted_tl _ _ OR) as OR'.
      destruct (cmp (key x) (key y)) eqn:Cm.
      + rewrite beyond_eq in NB by auto.
        destruct (take_ok _ _ _ _ _ SR) as (_ & _ & h' & p' & _ & T & S').
        destruct (take_ok _ _ _ _ _ SL) as (_ & _ & h2 & p2 & _ & T2 & S2). rewrite T2. cbn [bind]. rewrite T. cbn [bind].
        eapply (merged_c_step (f_dif sym) _ X []); [| |rewrite app_nil_r; eapply IH; eauto; simpl in *; lia].
        * intros R P. cbn [map app].
          assert (Q : f_dif sym [full x] [full y] = []) by (now destruct sym).
          change R with ([] ++ R). rewrite <- Q. apply pw_cons_both; auto. now destruct sym.
        * rewrite !weight_cons. lia.
      + rewrite beyond_lt in NB by auto.
        apply (keep_left_c (f_dif sym) (fun h p b => diff_loop_c fuel h p hr pr sym b) hl _ x XL gl b X g (y :: XR) 2); auto;
          try (now destruct sym).
        * now apply (sorted_lt_gt (full x) (full y)).
        * intros. eapply IH; eauto. simpl in *. lia.
      + rewrite beyond_gt in NB by auto. destruct sym.
        * apply (keep_right_c f_symdiff (fun h p b => diff_loop_c fuel hl pl h p true b) hr _ y XR gr b X g (x :: XL) 2); auto.
          -- apply (sorted_lt_gt (full y) (full x)); auto. now apply cmp_gt_lt.
          -- intros. eapply IH; eauto. simpl in *. lia.
        * apply (drop_right_c f_diff (fun h p => diff_loop_c fuel hl pl h p false b) hr _ y XR gr X (x :: XL) 2); auto.
          -- apply (sorted_lt_gt (full y) (full x)); auto. now apply cmp_gt_lt.
          -- intros. eapply IH; eauto. simpl in *. lia.
  Qed.

  (** ** The operations *)
  Lemma src_at m X : sk_at m X -> exists g h,
    get_link (sk_heap m) 0 0 = Ok (option_map ad (hd_error X)) /\ zero_links (sk_heap m) 0 None = Ok h
    /\ srcok h (option_map ad (hd_error X)) X g /\ length X < length h.
  Proof.
    intros (g & HO & Sl & Ln). pose proof (first_link _ _ _ HO) as FL. destruct HO as [Rp Sg].
    destruct (zero_links_ok _ _ _ None Rp) as (h & E & R1 & L1).
    exists (fun z j => if z =? 0 then None else g z j), h. repeat (split; [now auto|]). split.
    - split; [exact R1|]. split; [|auto]. apply (chain_zeroed (sk_heap m)); auto. apply (seg_chain _ _ 0), Sg. lia.
    - rewrite L1. eapply srep_length; eauto.
  Qed.
  Lemma fulls_sorted X : sorted (map dt X) -> sorted (fulls X).
  Proof.
    rewrite <- fulls_data. generalize (fulls X). intros l. induction l as [|x l IH]; intros Sx; [constructor|]. cbn [map] in Sx.
    apply sorted_cons in Sx as [G Sx]. apply sorted_cons. split; [|auto]. unfold all_gt in *. rewrite Forall_forall in *. intros y i.
    exact (G (on2 fst y) (in_map (on2 fst) _ _ i)).
  Qed.
  Lemma skip_set_c_ok s (m m' : skip_map K V) X X' : sk_at m X -> sk_at m' X' -> set_allowed s (map dt X) (map dt X') ->
    exists hl hr m2 Y c, skip_set_op_c s m m' = Ok ((hl, hr, m2), c) /\ sk_at m2 Y /\ map dt Y = spec_set s (map dt X) (map dt X') /\
      tags Y = spec_set s (tags X) (tags X') /\ c <= 1 + weight X + weight X'.
  Proof.
    intros A1 A2 Al. destruct (src_at _ _ A1) as (g & h & E1 & E2 & S1 & L1). destruct (src_at _ _ A2) as (g' & h' & E1' & E2' & S1' & L1').
    assert (Sx : sorted (fulls X)) by (apply fulls_sorted; now destruct A1 as (? & _ & ? & _)).
    assert (Sx' : sorted (fulls X')) by (apply fulls_sorted; now destruct A2 as (? & _ & ? & _)).
    rewrite <- !fulls_data in Al. apply on2_allowed in Al.
    unfold skip_set_op_c. rewrite E1. cbn [bind]. rewrite E1'. cbn [bind]. rewrite E2. cbn [bind]. rewrite E2'. cbn [bind].
    assert (Mg : merged_c (f_set s) match s with
              | SUnion => union_loop_c (S (length h + length h')) h (option_map ad (hd_error X)) h' (option_map ad (hd_error X')) builder_new
              | SInter => inter_loop_c (S (length h + length h')) h (option_map ad (hd_error X)) h' (option_map ad (hd_error X')) builder_new
              | SDiff => diff_loop_c (S (length h + length h')) h (option_map ad (hd_error X)) h' (option_map ad (hd_error X')) false builder_new
              | SSymDiff => diff_loop_c (S (length h + length h')) h (option_map ad (hd_error X)) h' (option_map ad (hd_error X')) true builder_new
              end [] X X').
    { destruct s; cbn [f_set set_allowed] in *.
      - eapply union_loop_c_ok; eauto; [apply bok_new|lia].
      - eapply inter_loop_c_ok; eauto; [apply bok_new| |lia].
        intros x y Hx Hy. apply (no_common _ _ Al (full x) (full y)); [now apply (in_map (fun x => full x))|now apply (in_map (fun x => full x))].
      - eapply (diff_loop_c_ok false); eauto; [apply bok_new|lia].
      - eapply (diff_loop_c_ok true); eauto; [apply bok_new|lia]. }
    destruct Mg as (hl & gl & hr & gr & b & gb & Y & c & E & Rl & Zl & Rr & Zr & B & P & Lc). rewrite E. cbn [bind].
    destruct (drop_empty hl gl (sk_len m) Rl Zl) as (hl' & -> & Ll). cbn [bind].
    destruct (drop_empty hr gr (sk_len m') Rr Zr) as (hr' & -> & Lr). cbn [bind].
    pose proof (pw_unique _ _ _ _ _ P (set_pw s _ _ Sx Sx')) as EY.
    assert (SY : sorted (map dt Y)) by (rewrite <- fulls_data; apply on2_sorted, P).
    eexists _, _, _, Y, c. split; [reflexivity|]. split; [|split; [|split; [|exact Lc]]].
    - exists gb. destruct B as (HO & _ & Lb). cbn [app sk_heap sk_len] in *. auto.
    - rewrite <- !fulls_data, EY. apply on2_set.
    - rewrite <- !fulls_tags, EY. apply on2_set.
  Qed.
End SkipProgCostProofs.

Section SkipProgAverage.
  Context {K V : Type} `{CmpLaws K}.
  Notation item := (sitem (K * V)).

  (** ** The draw that made the height of each key *)
  Notation idm := (list (K * nat)).
  Implicit Types (r : nat -> idm) (l : idm) (X Y : list item) (ps : list N).
  Definition pids_step (n : nat) r (o : prog_op K V) : nat -> idm :=
    match o with
    | POp i o => update r i (put_step n (r i) o)
    | PSet s d i j => update (update (update r i []) j []) d (spec_set s (r i) (update r i [] j))
    | PSplit _ _ _ _ => r
    end.
  Fixpoint pids (n : nat) r (ops : list (prog_op K V)) : nat -> idm :=
    match ops with [] => r | o :: ops' => pids (S n) (pids_step n r o) ops' end.
  (** The draws of different keys differ. *)
  Definition pinv (n : nat) r : Prop := (forall i, sorted (r i)) /\ (forall i x, In x (r i) -> snd x < n) /\
    forall i j x y, In x (r i) -> In y (r j) -> snd x = snd y -> i = j /\ cmp (fst x) (fst y) = Eq.

  Lemma pinv_0 : pinv 0 (fun _ => []).
  Proof. split; [intros i; constructor|]. split; [intros i x []|intros i j x y []]. Qed.
  Lemma put_in n l (o : map_op K V) x : In x (put_step n l o) -> In x l \/ snd x = n /\ exists k v, o = MInsert k v /\ x = (k, n).
  Proof.
    destruct o as [k v|k|k|k v|k|k|k|k| | | | | | |vs|]; cbn [put_step]; auto; try (intros []).
    - rewrite in_app_iff. intros [i|[<-|i]]; [left; now apply in_below in i|right; split; [reflexivity|eauto]|left; now apply in_above in i].
    - rewrite in_app_iff. intros [i|i]; left; [now apply in_below in i|now apply in_above in i].
  Qed.
  Lemma put_sorted n l (o : map_op K V) : sorted l -> sorted (put_step n l o).
  Proof. intros S0. destruct o; cbn [put_step]; auto using sorted_nil, sorted_insert, sorted_delete. Qed.
  Lemma set_in s (a b : idm) x : sorted a -> sorted b -> In x (spec_set s a b) -> In x a \/ In x b.
  Proof.
    intros Sa Sb i. destruct (set_pw s a b Sa Sb) as [_ E]. apply in_at_self in i. rewrite E in i.
    assert (Ia : forall y, In y (at_key (fst x) a) -> In y a) by (intros y j; now apply in_at in j).
    assert (Ib : forall y, In y (at_key (fst x) b) -> In y b) by (intros y j; now apply in_at in j).
    destruct (at_key (fst x) a) as [|y ys], (at_key (fst x) b) as [|z zs]; destruct s; cbn in i; auto; try (now destruct i).
  Qed.
  Lemma set_sorted s (a b : idm) : sorted a -> sorted b -> sorted (spec_set s a b).
  Proof. intros Sa Sb. apply (set_pw s a b Sa Sb). Qed.

  Lemma pids_step_inv n r o : pinv n r -> pinv (S n) (pids_step n r o).
  Proof.
    intros (S0 & E & O). destruct o as [i o|s d i j|d i k inc]; cbn [pids_step].
    - assert (I0 : forall u x, In x (update r i (put_step n (r i) o) u) -> In x (r u) \/ u = i /\ snd x = n /\ exists k v, o = MInsert k v /\ x = (k, n)).
      { intros u x. destruct (update_cases r i (put_step n (r i) o) u) as [[-> ->]|[_ ->]]; [|now left]. intros ix. apply put_in in ix as [ix|ix]; auto. }
      split; [|split].
      + intros u. destruct (update_cases r i (put_step n (r i) o) u) as [[-> ->]|[_ ->]]; [now apply put_sorted|apply S0].
      + intros u x ix. apply I0 in ix as [ix|(_ & -> & _)]; [|lia]. specialize (E u x ix). lia.
      + intros u v x y ix iy Exy. apply I0 in ix as [ix|(-> & Ex & k & w & Eo & ->)]; apply I0 in iy as [iy|(-> & Ey & k' & w' & Eo' & ->)].
        * eauto.
        * specialize (E u x ix). cbn [snd] in *. lia.
        * specialize (E v y iy). cbn [snd] in *. lia.
        * split; [reflexivity|]. rewrite Eo in Eo'. injection Eo' as -> _. apply cmp_refl.
    - assert (S1 : sorted (update r i [] j)) by (destruct (update_cases r i [] j) as [[_ ->]|[_ ->]]; [constructor|apply S0]).
      assert (I0 : forall u x, In x (update (update (update r i []) j []) d (spec_set s (r i) (update r i [] j)) u) ->
                 exists v, In x (r v) /\ if u =? d then v = i \/ v = j else v = u /\ u <> i /\ u <> j).
      { intros u x. unfold update at 1. destruct (Nat.eqb_spec u d) as [->|Nu].
        - intros ix. apply set_in in ix; auto. destruct ix as [ix|ix]; [eauto|]. destruct (update_cases r i [] j) as [[_ Eq0]|[_ Eq0]]; rewrite Eq0 in ix; [destruct ix|eauto].
        - destruct (update_cases (update r i []) j [] u) as [[_ ->]|[N1 ->]]; [intros []|]. destruct (update_cases r i [] u) as [[_ ->]|[N2 ->]]; [intros []|]. eauto. }
      split; [|split].
      + intros u. destruct (update_cases (update (update r i []) j []) d (spec_set s (r i) (update r i [] j)) u) as [[_ ->]|[_ ->]]; [now apply set_sorted|].
        destruct (update_cases (update r i []) j [] u) as [[_ ->]|[_ ->]]; [constructor|]. destruct (update_cases r i [] u) as [[_ ->]|[_ ->]]; [constructor|apply S0].
      + intros u x ix. apply I0 in ix as (v & ix & _). specialize (E v x ix). lia.
      + intros u v x y ix iy Exy. apply I0 in ix as (u' & ix & Hu). apply I0 in iy as (v' & iy & Hv). destruct (O _ _ _ _ ix iy Exy) as [<- Cm]. split; [|exact Cm].
        destruct (Nat.eqb_spec u d) as [->|Nu], (Nat.eqb_spec v d) as [->|Nv]; intuition congruence.
    - split; [exact S0|]. split; [intros u x ix; specialize (E u x ix); lia|exact O].
  Qed.
  Lemma pids_inv ops : forall n r, pinv n r -> pinv (n + length ops) (pids n r ops).
  Proof. induction ops as [|o ops IH]; intros n r A; cbn [pids length]; [now rewrite Nat.add_0_r|]. rewrite <- Nat.add_succ_comm. apply IH, pids_step_inv, A. Qed.
  Lemma pinv_ok n r i : pinv n r -> ids_ok n (r i).
  Proof.
    intros (S0 & E & O). split.
    - specialize (S0 i). assert (I0 : incl (r i) (r i)) by apply incl_refl. revert S0 I0. generalize (r i) at 1 2 4. intros l.
      induction l as [|x l IH]; intros Sl I0; [constructor|]. apply sorted_cons in Sl as [F Sl]. cbn [map]. constructor.
      + intros j. apply in_map_iff in j as (y & Ey & j). destruct (O i i x y) as [_ Cm]; [apply I0; now left|apply I0; now right|congruence|].
        unfold all_gt in F. rewrite Forall_forall in F. specialize (F y j). korder.
      + apply IH; auto. intros y j. apply I0. now right.
    - intros w iw. apply in_map_iff in iw as (x & <- & ix). now apply (E i).
  Qed.

  (** ** One call *)
  Definition pbound ps r (o : prog_op K V) : nat :=
    match o with
    | POp i o => let n := length (r i) in 3 * S (top o n) + passes (top o n) (map (hts ps) (rev (map snd (passed o (r i)))))
    | PSet _ _ i j => 1 + total (fun d => 3 + hts ps d) (map snd (r i ++ update r i [] j))
    | PSplit _ _ _ _ => 0
    end.
  Definition pcounted (o : prog_op K V) : bool := match o with POp _ o => looks_up o | _ => true end.
  Definition prel ps (rs : nat -> skip_map K V) (sp : nat -> list (K * V)) r : Prop :=
    forall u, exists X, sk_at (rs u) X /\ map dt X = sp u /\ tags X = map (on2 (hts ps)) (r u).
  Lemma prel_length ps rs sp r u : prel ps rs sp r -> length (sp u) = length (r u).
  Proof. intros R. destruct (R u) as (X & _ & D & T). rewrite <- D, map_length. transitivity (length (tags X)); [unfold tags; now rewrite map_length|]. now rewrite T, map_length. Qed.
  Lemma prel_update ps rs sp r i m X l : prel ps rs sp r -> sk_at m X -> tags X = map (on2 (hts ps)) l ->
    prel ps (update rs i m) (update sp i (map dt X)) (update r i l).
  Proof. intros R A T u. unfold update. destruct (u =? i); [now exists X|apply R]. Qed.
  Lemma weight_tags ps X l : tags X = map (on2 (hts ps)) l -> weight X = total (fun d => 3 + hts ps d) (map snd l).
  Proof.
    intros T. unfold weight. rewrite total_map. transitivity (total (fun x => 3 + snd x) (tags X)); [unfold tags; now rewrite total_map|]. rewrite T, total_map. reflexivity.
  Qed.

  Lemma prog_step_c ps n r (rs : nat -> skip_map K V) sp o : prel ps rs sp r ->
    match o with POp _ _ => True | PSet s _ i j => set_allowed s (sp i) (update sp i [] j) | PSplit _ _ _ _ => False end ->
    exists rs' c, skip_prog_step_c rs (o, nth n ps 0%N) = Ok (rs', (snd (prog_spec_step sp o), c)) /\ prel ps rs' (fst (prog_spec_step sp o)) (pids_step n r o) /\
      (pcounted o = true -> c <= pbound ps r o).
  Proof.
    intros R Al. destruct o as [i o|s d i j|d i k inc]; cbn [skip_prog_step_c prog_spec_step pids_step pcounted pbound] in *; [| |easy].
    - destruct (R i) as (X & A & D & T). destruct (skip_step_c_ok (rs i) X o (nth n ps 0%N) A) as (m' & X' & c & E & A' & D' & T' & Lc & _).
      rewrite E. cbn [bind]. rewrite <- D. destruct (map_spec_step (map dt X) o) as [l out0] eqn:Em. cbn [fst snd] in *. eexists _, _. split; [reflexivity|]. split.
      + rewrite <- D'. apply prel_update; auto. rewrite T', T. change (height_of (nth n ps 0%N)) with (hts ps n). now rewrite put_on2.
      + intros Lo. eapply Nat.le_trans; [now apply Lc|]. assert (El : length X = length (r i)) by (apply (f_equal (@length _)) in T; unfold tags in T; now rewrite !map_length in T).
        rewrite El, T, <- passed_on2, map_rev. unfold on2. rewrite !map_map. cbn [snd]. lia.
    - destruct (R i) as (X & A & D & T).
      assert (R1 : prel ps (update rs i skip_new) (update sp i []) (update r i [])) by (apply (prel_update ps rs sp r i skip_new [] []); auto; apply skip_at_new).
      destruct (R1 j) as (X' & A' & D' & T'). rewrite <- D, <- D' in *.
      destruct (skip_set_c_ok s _ _ X X' A A' Al) as (hl & hr & m2 & Y & c & E & AY & DY & TY & Lc). rewrite E. cbn [bind snd fst].
      eexists _, _. split; [reflexivity|]. split.
      + rewrite <- DY. apply prel_update; auto.
        * apply (prel_update ps _ _ _ j skip_new [] []); auto. apply skip_at_new.
        * rewrite TY, T, T'. symmetry. apply on2_set.
      + intros _. rewrite map_app, total_app, <- (weight_tags ps X), <- (weight_tags ps X') by assumption. lia.
  Qed.

  Lemma prog_run_c ps : forall ops qs n r (rs : nat -> skip_map K V) sp, length qs = length ops -> (forall j, j < length ops -> nth j qs 0%N = nth (n + j) ps 0%N) ->
    prel ps rs sp r -> prog_allowed sp ops ->
    exists rs' outs, run skip_prog_step_c rs (combine ops qs) = Ok (rs', outs) /\ map fst outs = snd (spec_run prog_spec_step sp ops) /\
      forall q o, nth_error ops q = Some o -> let rq := pids n r (firstn q ops) in
        (forall u, length (fst (spec_run prog_spec_step sp (firstn q ops)) u) = length (rq u)) /\ (pcounted o = true -> nth q (map snd outs) 0 <= pbound ps rq o).
  Proof.
    induction ops as [|o ops IH]; intros [|q qs] n r rs sp El En R Al; try discriminate.
    - exists rs, []. repeat split; destruct q; discriminate.
    - pose proof (En 0 ltac:(simpl; lia)) as E0. rewrite Nat.add_0_r in E0. cbn [nth] in E0. subst q. cbn [prog_allowed] in Al. destruct Al as [Ao Al].
      destruct (prog_step_c ps n r rs sp o R Ao) as (rs1 & c & E1 & R1 & B1).
      destruct (IH qs (S n) (pids_step n r o) rs1 (fst (prog_spec_step sp o))) as (rs2 & outs & E2 & E3 & E4); auto.
      + intros j Lj. rewrite Nat.add_succ_comm. apply (En (S j)). simpl. lia.
      + eexists _, _. split; [cbn [combine run]; rewrite E1; cbn [bind]; rewrite E2; reflexivity|]. split.
        * cbn [map fst spec_run]. rewrite E3. destruct (prog_spec_step sp o) as [sp1 o1]. cbn [fst snd]. now destruct (spec_run prog_spec_step sp1 ops).
        * intros [|q] o' Eq0; cbn [nth_error] in Eq0.
          -- injection Eq0 as <-. cbn [firstn spec_run fst pids map nth snd]. split; [|exact B1]. intros u. eapply prel_length; eauto.
          -- destruct (E4 q o' Eq0) as [E5 E6]. cbn [firstn spec_run pids map nth]. split; [|exact E6]. intros u. rewrite <- E5.
             destruct (prog_spec_step sp o) as [sp1 o1]. cbn [fst]. now destruct (spec_run prog_spec_step sp1 (firstn q ops)).
  Qed.

  (** ** Averages *)
  Lemma height_average (M : nat) : N.of_nat M = two32 -> total height_of (numbers M) <= M.
  Proof.
    intros EM. assert (E : forall n, n <= 32 -> total (fun x => Nat.min n (height_of x)) (numbers M) = total (fun h => card M (fun x => S h <=? height_of x)) (seq 0 n)).
    { induction n as [|n IH]; intros Ln; [simpl; now rewrite total_const, Nat.mul_0_r|]. rewrite total_seq, <- IH by lia. unfold card. rewrite <- total_plus. apply total_ext. intros x _.
      unfold b2n. destruct (Nat.leb_spec (S n) (height_of x)); lia. }
    assert (B : forall x, In x (numbers M) -> height_of x <= 32).
    { intros x _. apply height_of_le. }
    rewrite (total_ext height_of (fun x => Nat.min 32 (height_of x))) by (intros x ix; specialize (B x ix); lia). rewrite E by lia. clear E B.
    assert (G : forall n, n <= 32 -> (N.of_nat (total (fun h => card M (fun x => (S h <=? height_of x)%nat)) (seq 0 n)) + 2 ^ N.of_nat (32 - n) = 2 ^ 32)%N).
    { induction n as [|n IH]; intros Ln; [reflexivity|]. rewrite total_seq, Nat2N.inj_add, (card_tall M EM (S n) Ln).
      assert (P : (2 ^ N.of_nat (32 - n) = 2 * 2 ^ N.of_nat (32 - S n))%N).
      { replace (32 - n) with (S (32 - S n)) by lia. rewrite Nat2N.inj_succ. apply N.pow_succ_r'. }
      specialize (IH ltac:(lia)). lia. }
    specialize (G 32 (le_n 32)). unfold two32 in EM. change (2 ^ N.of_nat (32 - 32))%N with 1%N in G. change (2 ^ 32)%N with 4294967296%N in G. lia.
  Qed.
  Lemma height_at (M t d : nat) : N.of_nat M = two32 -> d < t -> total (fun ps => hts ps d) (draws M t) <= M ^ t.
  Proof.
    intros EM Ld. pose proof (draws_places M t [d] (fun v => hts v 0)) as P. unfold at_places in P. cbn [map length] in P. unfold hts in *. cbn [nth] in P.
    rewrite P.
    - pose proof (height_average M EM) as A. cbn [draws]. rewrite total_flat_map, (total_ext _ height_of); [|intros x _; cbn [map]; rewrite total_cons; cbn; lia].
      replace t with (S (t - 1)) at 2 by lia. rewrite Nat.pow_succ_r'. nia.
    - repeat constructor. easy.
    - intros w [<-|[]]. exact Ld.
  Qed.

  Lemma join_nodup (l1 l2 : list nat) : NoDup l1 -> NoDup l2 -> (forall x, In x l1 -> In x l2 -> False) -> NoDup (l1 ++ l2).
  Proof.
    induction l1 as [|x l1 IH]; intros D1 D2 O; [exact D2|]. inversion D1 as [|? ? n D1']; subst. cbn [app]. constructor.
    - intros i. apply in_app_iff in i as [i|i]; [auto|]. apply (O x); [now left|exact i].
    - apply IH; auto. intros y i1 i2. apply (O y); [now right|exact i2].
  Qed.
  (** Each call passes nodes whose heights were drawn by different calls. *)
  Lemma skip_prog_bound (ops : list (prog_op K V)) : prog_allowed (fun _ => []) ops -> exists steps : list N -> list nat,
    (forall ps, length ps = length ops ->
       outputs skip_prog_step_c (fun _ => skip_new) (combine ops ps) = Ok (combine (prog_spec_outputs ops) (steps ps)) /\ length (steps ps) = length ops) /\
    forall q o, nth_error ops q = Some o -> let st := fst (spec_run prog_spec_step (fun _ => []) (firstn q ops)) in
      match o with
      | POp i o' => let n := length (st i) in looks_up o' = true -> exists W, NoDup W /\ (forall w, In w W -> w < length ops) /\ length W <= n /\
          forall ps, length ps = length ops -> nth q (steps ps) 0 <= 3 * S (top o' n) + passes (top o' n) (map (hts ps) W)
      | PSet _ _ i j => exists W, NoDup W /\ (forall w, In w W -> w < length ops) /\ length W = length (st i) + length (update st i [] j) /\
          forall ps, length ps = length ops -> nth q (steps ps) 0 <= 1 + total (fun d => 3 + hts ps d) W
      | PSplit _ _ _ _ => False
      end.
  Proof.
    intros Al.
    set (steps := fun ps => match run skip_prog_step_c (fun _ => skip_new : skip_map K V) (combine ops ps) with Ok (_, outs) => map snd outs | _ => [] end).
    exists steps.
    assert (A : forall ps, length ps = length ops -> outputs skip_prog_step_c (fun _ => skip_new) (combine ops ps) = Ok (combine (prog_spec_outputs ops) (steps ps)) /\
      length (steps ps) = length ops /\
      forall q o, nth_error ops q = Some o -> let rq := pids 0 (fun _ => []) (firstn q ops) in
        (forall u, length (fst (spec_run prog_spec_step (fun _ => []) (firstn q ops)) u) = length (rq u)) /\ (pcounted o = true -> nth q (steps ps) 0 <= pbound ps rq o)).
    { intros ps El. destruct (prog_run_c ps ops ps 0 (fun _ => []) (fun _ => skip_new) (fun _ => [])) as (rs' & outs & E1 & E2 & E3); auto.
      - intros u. exists []. split; [apply skip_at_new|auto].
      - unfold outputs, steps. rewrite E1. simpl rmap. split; [|split; [|exact E3]].
        + f_equal. unfold prog_spec_outputs, spec_outputs. rewrite <- E2. clear. induction outs as [|[a c] outs IH]; simpl; congruence.
        + rewrite map_length, <- (map_length fst outs), E2. apply spec_run_length. }
    split; [intros ps El; destruct (A ps El) as (A1 & A2 & _); auto|]. intros q o Eq0 st.
    assert (Lq : q < length ops) by (apply nth_error_Some; congruence).
    pose proof (pids_inv (firstn q ops) 0 (fun _ => []) pinv_0) as B. simpl in B. rewrite firstn_length_le in B by lia. set (r := pids 0 (fun _ => []) (firstn q ops)) in *.
    assert (Es : forall u, length (st u) = length (r u)).
    { assert (Q : length (repeat 0%N (length ops)) = length ops) by apply repeat_length. destruct (A _ Q) as (_ & _ & A3). now destruct (A3 q o Eq0). }
    assert (Bd : pcounted o = true -> forall ps, length ps = length ops -> nth q (steps ps) 0 <= pbound ps r o).
    { intros Pc ps Ep. destruct (A ps Ep) as (_ & _ & A3). now apply A3. }
    clearbody st. destruct o as [i o|s d i j|d i k inc].
    - cbv zeta. rewrite Es. intros Lo. specialize (Bd Lo). cbn [pbound] in Bd.
      destruct (passed_ok q (r i) o (pinv_ok _ _ _ B)) as [[B1 B2] B3]. exists (rev (map snd (passed o (r i)))). split; [now apply NoDup_rev|]. split; [|split; [|exact Bd]].
      + intros w iw. apply in_rev in iw. specialize (B2 w iw). lia.
      + now rewrite rev_length, map_length.
    - cbv zeta. assert (Eu : length (update st i [] j) = length (update r i [] j)) by (unfold update; destruct (j =? i); auto). rewrite Es, Eu. clear Es Eu st.
      specialize (Bd eq_refl). cbn [pbound] in Bd. exists (map snd (r i ++ update r i [] j)). split; [|split; [|split; [|exact Bd]]].
      + destruct (update_cases r i [] j) as [[_ ->]|[Nj ->]]; [rewrite app_nil_r; apply (pinv_ok _ _ _ B)|]. rewrite map_app. apply join_nodup; try apply (pinv_ok _ _ _ B).
        intros w i1 i2. apply in_map_iff in i1 as (x & Ex & i1). apply in_map_iff in i2 as (y & Ey & i2). destruct B as (_ & _ & O).
        destruct (O i j x y i1 i2 ltac:(congruence)) as [Ei _]. auto.
      + intros w iw. destruct B as (_ & B & _). apply in_map_iff in iw as (x & <- & ix). apply in_app_iff in ix as [ix|ix]; [specialize (B _ _ ix); lia|].
        destruct (update_cases r i [] j) as [[_ Eu]|[_ Eu]]; rewrite Eu in ix; [destruct ix|specialize (B _ _ ix); lia].
      + now rewrite map_length, app_length.
    - assert (N0 : forall ops q sp, prog_allowed sp ops -> nth_error ops q <> Some (PSplit d i k inc : prog_op K V)).
      { clear. induction ops as [|o ops IH]; intros [|q] sp; cbn [prog_allowed nth_error]; try discriminate; intros [A0 A1].
        - intros E. injection E as ->. exact A0.
        - eapply IH; eauto. }
      exact (N0 _ _ _ Al Eq0).
  Qed.

  Lemma skip_prog_average (M : nat) (ops : list (prog_op K V)) : N.of_nat M = two32 -> prog_allowed (fun _ => []) ops -> exists steps : list N -> list nat,
    (forall ps, length ps = length ops ->
       outputs skip_prog_step_c (fun _ => skip_new) (combine ops ps) = Ok (combine (prog_spec_outputs ops) (steps ps)) /\ length (steps ps) = length ops) /\
    forall q o, nth_error ops q = Some o -> let st := fst (spec_run prog_spec_step (fun _ => []) (firstn q ops)) in
      match o with
      | POp i o' => let n := length (st i) in (N.of_nat n < two32)%N -> looks_up o' = true ->
          average_within M (length ops) (if insert_or_remove o' then Nat.log2 n + 101 else 4 * Nat.log2 n + 8) 0 (fun ps => nth q (steps ps) 0)
      | PSet _ _ i j => let n := length (st i) + length (update st i [] j) in average_within M (length ops) (4 * n + 1) 0 (fun ps => nth q (steps ps) 0)
      | PSplit _ _ _ _ => False
      end.
  Proof.
    intros EM Al. destruct (skip_prog_bound ops Al) as (steps & A & B). exists steps. split; [exact A|]. intros q o Eq0 st. specialize (B q o Eq0). fold st in B.
    destruct o as [i o|s d i j|d i k inc]; cbv zeta in *; [| |exact B].
    - set (n := length (st i)) in *. intros Ln Lo. unfold average_within. destruct (B Lo) as (W & Nd & Lt & Lw & Bd).
      destruct (top_small o n Ln) as (T & S3 & S1 & Fin). set (s := starting_height n) in *.
      pose proof (passes_places M EM (length ops) W s Nd Lt S3 ltac:(lia)) as Av.
      assert (Le : total (fun ps => nth q (steps ps) 0) (draws M (length ops)) <= M ^ length ops * (3 * S (top o n) + S s)).
      { eapply Nat.le_trans with (total (fun ps => 3 * S (top o n) + passes s (map (fun d => height_of (nth d ps 0%N)) W)) (draws M (length ops))).
        - apply total_le. intros ps ip'. apply draws_in in ip' as [Ep _]. eapply Nat.le_trans; [exact (Bd ps Ep)|]. apply Nat.add_le_mono_l. now apply passes_less.
        - rewrite total_plus, total_const, draws_length. lia. }
      pose proof (Nat.mul_le_mono_l _ _ (M ^ length ops) Fin) as F1. pose proof (Nat.mul_le_mono_l _ _ M (Nat.le_trans _ _ _ Le F1)). nia.
    - unfold average_within. destruct B as (w & _ & W & <- & Bd).
      assert (Le : total (fun ps => nth q (steps ps) 0) (draws M (length ops)) <= M ^ length ops * (4 * length w + 1)).
      { eapply Nat.le_trans; [apply total_le; intros ps ip'; apply draws_in in ip' as [Ep _]; exact (Bd ps Ep)|]. rewrite total_plus, total_const, draws_length, total_swap.
        assert (Q : total (fun d => total (fun ps => 3 + hts ps d) (draws M (length ops))) w <= length w * (4 * M ^ length ops)).
        { rewrite <- (total_const (4 * M ^ length ops) w). apply total_le. intros e ie. rewrite total_plus, total_const, draws_length. pose proof (height_at M (length ops) e EM (W e ie)). lia. }
        nia. }
      pose proof (Nat.mul_le_mono_l _ _ M Le). nia.
  Qed.
End SkipProgAverage.
