(** Set operations of SkipMap. *)
From Coq Require Import Permutation.
From Verif Require Export SkipMapProofs SkipSpec TreapProofs KeySetProofs KeyInstances.

Section SkipSetProofs.
  Context {K V : Type} `{CmpLaws K}.
  Notation hp := (heap (K * V) (option nat)).
  Notation item := (sitem (K * V)).
  Notation links := (nat -> nat -> option nat).
  Notation amap := (list (K * V)).
  Implicit Types (h : hp) (X Y A B : list item) (x y : item) (f g : links) (k : K) (b : builder K V).

  (** ** The result under construction. *)
  Definition bok b X g : Prop :=
    sk_ok (b_heap b) X g /\ b_tails b = map (fun i => last_at i 0 X) (seq 0 33) /\ b_len b = length X.

  Lemma bok_new : bok builder_new [] (fun _ _ => None).
  Proof.
    split; [split|split; reflexivity].
    - apply (srep_new (D := K * V) (L := option nat) None).
    - intros i _. reflexivity.
  Qed.

  Lemma tails_nth (t : nat -> nat) i : i < 33 -> nth_error (map t (seq 0 33)) i = Some (t i).
  Proof. intros Hi. now apply (nlinks_nth (fun _ => t) 0 33 i). Qed.
  Lemma tails_set (t : nat -> nat) i v : i < 33 ->
    list_set (map t (seq 0 33)) i v = map (fun j => if j =? i then v else t j) (seq 0 33).
  Proof.
    intros Hi. pose proof (nlinks_set (fun _ => t) 0 33 i v Hi) as E. unfold nlinks in E. rewrite E.
    apply map_ext. intros j. unfold upd. now rewrite Nat.eqb_refl.
  Qed.

  Lemma link_tails_ok (n : item) X : forall c i h g, c + i = S (ht n) -> srep h (n :: X) g ->
    (forall j, g (ad n) j = None) ->
    (forall j, j < i -> seg g j 0 (X ++ [n]) None) -> (forall j, i <= j <= 32 -> seg g j 0 X None) ->
    exists h' g', link_tails c i h (map (fun j => if j <? i then ad n else last_at j 0 X) (seq 0 33)) (ad n)
        = Ok (h', map (fun j => last_at j 0 (X ++ [n])) (seq 0 33))
      /\ srep h' (n :: X) g' /\ (forall j, j <= 32 -> seg g' j 0 (X ++ [n]) None).
  Proof.
    induction c as [|c IH]; intros i h g Ec Rp Zn SA SB; cbn [link_tails].
    - assert (Hn : ht n <= 32) by (apply (sr_ht _ _ _ Rp); now left). exists h, g. split; [|split; [exact Rp|]].
      + do 2 f_equal. apply map_ext. intros j. rewrite last_at_app. cbn [last_at].
        destruct (Nat.ltb_spec j i), (Nat.leb_spec j (ht n)); auto; lia.
      + intros j Hj. destruct (Nat.lt_ge_cases j i); [auto|].
        apply (seg_skip g j X [n] [] None); [intros x [<-|[]]; lia|]. rewrite app_nil_r. apply SB. lia.
    - assert (Hn : ht n <= 32) by (apply (sr_ht _ _ _ Rp); now left).
      rewrite (tails_nth (fun j => if j <? i then ad n else last_at j 0 X)) by lia. rewrite Nat.ltb_irrefl.
      assert (OL : onlevel (n :: X) (last_at i 0 X) i).
      { apply last_at_onlevel; [lia|]. intros x Hx. now right. }
      destruct (set_link_ok _ _ _ _ _ (Some (ad n)) Rp OL) as (h1 & E1 & R1 & _). rewrite E1. cbn [bind].
      rewrite tails_set by lia.
      assert (Nd : NoDup (0 :: map ad (X ++ n :: []))).
      { eapply Permutation_NoDup; [|apply (sr_nodup _ _ _ Rp)]. apply perm_skip, Permutation_map.
        apply (Permutation_app_comm [n]). }
      assert (Nn : ad n <> last_at i 0 X) by (apply (disj_last i X [n] Nd); now left).
      destruct (IH (S i) h1 (upd g (last_at i 0 X) i (Some (ad n)))) as (h' & g' & E & R' & S').
      + lia.
      + exact R1.
      + intros j. rewrite upd_other; auto.
      + intros j Hj. destruct (Nat.eq_dec j i) as [->|Nj].
        * eapply seg_splice with (R := []); [now apply nodup_head in Nd| |rewrite app_nil_r; apply SB; lia|].
          -- intros u Nb _. apply upd_other. auto.
          -- cbn [seg]. rewrite (proj2 (Nat.leb_le i (ht n))) by lia. rewrite upd_same, upd_other; auto.
        * eapply seg_level; [|apply SA; lia]. intros a. apply upd_other. auto.
      + intros j Hj. eapply seg_level; [|apply SB; lia]. intros a. apply upd_other. right. lia.
      + exists h', g'. split; [|auto]. rewrite <- E. f_equal. apply map_ext. intros j.
        destruct (Nat.eqb_spec j i) as [->|Nj].
        * rewrite (proj2 (Nat.ltb_lt i (S i))); auto.
        * destruct (Nat.ltb_spec j i), (Nat.ltb_spec j (S i)); auto; lia.
  Qed.

  Lemma append_ok b X g e hgt : bok b X g -> hgt <= 32 ->
    exists b' g' x, append b e (S hgt) 0 = Ok b' /\ bok b' (X ++ [x]) g' /\ dt x = e.
  Proof.
    intros ([Rp Sg] & T & L) Hh. unfold append.
    pose proof (alloc_ok (b_heap b) X g e hgt None Rp Hh) as Al.
    destruct (alloc (b_heap b) (Some e) (S hgt) None) as [h1 a] eqn:Ea. destruct Al as (R1 & _ & Fr).
    set (n := It a hgt e) in *.
    set (g1 := fun u j => if u =? a then None else g u j) in *.
    destruct (link_tails_ok n X (S hgt) 0 h1 g1) as (h2 & g2 & E2 & R2 & S2).
    - cbn [ht n]. lia.
    - exact R1.
    - intros j. unfold g1. cbn [ad n]. now rewrite Nat.eqb_refl.
    - intros j Hj. lia.
    - intros j Hj. eapply seg_frame; [|apply (Sg j); lia]. intros u Hb. unfold g1.
      rewrite (proj2 (Nat.eqb_neq u a)); auto. intros ->. apply Fr. destruct Hb as [->|Hb]; [now left|now right].
    - cbn [Nat.ltb Nat.leb] in E2. rewrite Nat.add_0_r, T. cbn [ad n] in E2. cbn [Nat.leb] in E2.
      rewrite E2. cbn [bind]. eexists _, g2, n. split; [reflexivity|]. split; [|reflexivity].
      split; [split|]; cbn [b_heap b_tails b_len]; auto.
      + eapply srep_equiv; [|exact R2]. apply (Permutation_app_comm [n]).
      + split; auto. rewrite app_length, L. simpl. lia.
  Qed.

  (** ** The operands. *)
  Definition srcok h (p : option nat) X g : Prop :=
    srep h X g /\ chain g X /\ p = option_map ad (hd_error X) /\ g 0 0 = None.

  Lemma take_ok h p x X g : srcok h p (x :: X) g ->
    get_data h (ad x) = Ok (dt x) /\ p = Some (ad x) /\
    exists h' p', take h p = Ok (h', p', dt x, S (ht x)) /\ discard h p = Ok (h', p') /\ srcok h' p' X g.
  Proof.
    intros (Rp & [C1 C2] & -> & Z). destruct (nodes_head _ _ _ _ (srep_nodes _ _ _ Rp)) as (E1 & E2 & (n & E3 & E3') & E4 & _).
    destruct (dealloc_ok _ _ _ _ Rp) as (h' & E5 & R5 & _).
    split; [exact E1|]. split; [reflexivity|].
    assert (T : take h (option_map ad (hd_error (x :: X))) = Ok (h', option_map ad (hd_error X), dt x, S (ht x))).
    { cbn [hd_error option_map take]. rewrite E2. cbn [bind]. rewrite E1. cbn [bind]. rewrite E3. cbn [bind].
      rewrite E5. cbn [bind]. now rewrite E3', C1. }
    exists h', (option_map ad (hd_error X)). split; [exact T|]. split; [|repeat split; auto; apply R5].
    unfold discard. rewrite T. reflexivity.
  Qed.
  Lemma src_ht h p x X g : srcok h p (x :: X) g -> ht x <= 32.
  Proof. intros (Rp & _). apply (sr_ht _ _ _ Rp). now left. Qed.

  (** ** Key-wise merging. *)
  Lemma pw_nil (f : amap -> amap -> amap) : f [] [] = [] -> pw f [] [] [].
  Proof. intros F0. split; [constructor|]. intros k. cbn. now rewrite F0. Qed.

  Lemma pw_cons_left (f : amap -> amap -> amap) e l r R : f [] [] = [] -> sorted (e :: l) -> sorted r -> all_gt r (fst e) ->
    (f [e] [] = [] \/ f [e] [] = [e]) -> pw f R l r -> pw f (f [e] [] ++ R) (e :: l) r.
  Proof.
    intros F0 S1 S2 G HF P. apply (pw_node f [] e l r [] (f [e] []) R); auto.
    - rewrite below_all_gt by auto. now apply pw_nil.
    - now rewrite above_all_gt.
    - now rewrite at_all_gt.
    - destruct HF as [->| ->]; [now left|right]. exists e. split; auto. apply cmp_refl.
  Qed.
  Lemma pw_cons_right (f : amap -> amap -> amap) e l r R : f [] [] = [] -> sorted l -> sorted (e :: r) -> all_gt l (fst e) ->
    (f [] [e] = [] \/ f [] [e] = [e]) -> pw f R l r -> pw f (f [] [e] ++ R) l (e :: r).
  Proof.
    intros F0 S1 S2 G HF P. apply pw_flip in P. apply (pw_flip (fun u v => f v u)).
    apply (pw_cons_left (fun u v => f v u)); auto.
  Qed.
  Lemma pw_cons_both (f : amap -> amap -> amap) e e' l r R : f [] [] = [] -> sorted (e :: l) -> sorted (e' :: r) -> cmp (fst e) (fst e') = Eq ->
    (f [e] [e'] = [] \/ f [e] [e'] = [e]) -> pw f R l r -> pw f (f [e] [e'] ++ R) (e :: l) (e' :: r).
  Proof.
    intros F0 S1 S2 Ce HF P. destruct (pieces_eq [] e' r (fst e) S2 Ce) as (E1 & E2 & E3). cbn [app] in *.
    apply (pw_node f [] e l (e' :: r) [] (f [e] [e']) R); auto.
    - rewrite E1. now apply pw_nil.
    - now rewrite E3.
    - now rewrite E2.
    - destruct HF as [->| ->]; [now left|right]. exists e. split; auto. apply cmp_refl.
  Qed.
  Lemma pw_union_drop (e e' : K * V) l r R : sorted (e' :: r) -> cmp (fst e) (fst e') = Eq ->
    pw f_union R (e :: l) r -> pw f_union R (e :: l) (e' :: r).
  Proof.
    intros S Ce [SR E]. split; auto. intros k. rewrite E. destruct (cmp (fst e) k) eqn:Ck.
    - rewrite at_cons, Ck. reflexivity.
    - f_equal. rewrite (at_cons k e' r). destruct (cmp (fst e') k) eqn:C1; auto. exfalso. korder.
    - f_equal. rewrite (at_cons k e' r). destruct (cmp (fst e') k) eqn:C1; auto. exfalso. korder.
  Qed.
  Lemma sorted_lt_gt (e e' : K * V) r : sorted (e' :: r) -> cmp (fst e) (fst e') = Lt -> all_gt (e' :: r) (fst e).
  Proof. intros S Ce. apply (sorted_suffix_gt [] e' r); auto. Qed.

  (** ** The loops. *)
  Definition merged (f : amap -> amap -> amap) (r : res (hp * hp * builder K V)) X XL XR : Prop :=
    exists hl gl hr gr b g Y, r = Ok (hl, hr, b) /\ srep hl [] gl /\ gl 0 0 = None /\ srep hr [] gr /\ gr 0 0 = None
      /\ bok b (X ++ Y) g /\ pw f (map dt Y) (map dt XL) (map dt XR).

  Lemma merged_done (f : amap -> amap -> amap) hl pl gl hr pr gr b X g : f [] [] = [] ->
    srcok hl pl [] gl -> srcok hr pr [] gr -> bok b X g -> merged f (Ok (hl, hr, b)) X [] [].
  Proof.
    intros F0 (R1 & _ & _ & Z1) (R2 & _ & _ & Z2) B. exists hl, gl, hr, gr, b, g, []. rewrite app_nil_r.
    repeat (split; [now auto|]). now apply pw_nil.
  Qed.
  (** Prepending an item that was appended to the result, or nothing. *)
  Lemma merged_step (f : amap -> amap -> amap) r X Z XL XR XL' XR' :
    (forall R, pw f R (map dt XL) (map dt XR) -> pw f (map dt Z ++ R) (map dt XL') (map dt XR')) ->
    merged f r (X ++ Z) XL XR -> merged f r X XL' XR'.
  Proof.
    intros P (hl & gl & hr & gr & b & g & Y & E & R1 & Z1 & R2 & Z2 & B & Pw).
    exists hl, gl, hr, gr, b, g, (Z ++ Y). rewrite app_assoc, map_app. auto 10.
  Qed.

  (** One iteration that keeps the first item of the left (right) operand. *)
  Lemma keep_left (f : amap -> amap -> amap) (loop : hp -> option nat -> builder K V -> res (hp * hp * builder K V)) hl pl x XL gl b X g XR :
    f [] [] = [] -> f [dt x] [] = [dt x] -> srcok hl pl (x :: XL) gl -> bok b X g ->
    sorted (map dt (x :: XL)) -> sorted (map dt XR) -> all_gt (map dt XR) (key x) ->
    (forall h' p' b' g' X', srcok h' p' XL gl -> bok b' X' g' -> merged f (loop h' p' b') X' XL XR) ->
    merged f (let* (hl, pl, e, n) := take hl pl in let* b := append b e n 0 in loop hl pl b) X (x :: XL) XR.
  Proof.
    intros F0 F1 SL B OL OR G Lp. destruct (take_ok _ _ _ _ _ SL) as (_ & -> & h' & p' & T & _ & S').
    rewrite T. cbn [bind].
    destruct (append_ok b X g (dt x) (ht x) B (src_ht _ _ _ _ _ SL)) as (b' & g' & z & -> & B' & Ez). cbn [bind].
    eapply merged_step; [|eapply Lp; eauto].
    intros R P. cbn [map]. rewrite Ez, <- F1. apply (pw_cons_left f (dt x)); auto.
  Qed.
  Lemma keep_right (f : amap -> amap -> amap) (loop : hp -> option nat -> builder K V -> res (hp * hp * builder K V)) hr pr y XR gr b X g XL :
    f [] [] = [] -> f [] [dt y] = [dt y] -> srcok hr pr (y :: XR) gr -> bok b X g ->
    sorted (map dt XL) -> sorted (map dt (y :: XR)) -> all_gt (map dt XL) (key y) ->
    (forall h' p' b' g' X', srcok h' p' XR gr -> bok b' X' g' -> merged f (loop h' p' b') X' XL XR) ->
    merged f (let* (hr, pr, e, n) := take hr pr in let* b := append b e n 0 in loop hr pr b) X XL (y :: XR).
  Proof.
    intros F0 F1 SL B OL OR G Lp. destruct (take_ok _ _ _ _ _ SL) as (_ & -> & h' & p' & T & _ & S').
    rewrite T. cbn [bind].
    destruct (append_ok b X g (dt y) (ht y) B (src_ht _ _ _ _ _ SL)) as (b' & g' & z & -> & B' & Ez). cbn [bind].
    eapply merged_step; [|eapply Lp; eauto].
    intros R P. cbn [map]. rewrite Ez, <- F1. apply (pw_cons_right f (dt y)); auto.
  Qed.
  Lemma drop_left (f : amap -> amap -> amap) (loop : hp -> option nat -> res (hp * hp * builder K V)) hl pl x XL gl X XR :
    f [] [] = [] -> f [dt x] [] = [] -> srcok hl pl (x :: XL) gl ->
    sorted (map dt (x :: XL)) -> sorted (map dt XR) -> all_gt (map dt XR) (key x) ->
    (forall h' p', srcok h' p' XL gl -> merged f (loop h' p') X XL XR) ->
    merged f (let* (hl, pl) := discard hl pl in loop hl pl) X (x :: XL) XR.
  Proof.
    intros F0 F1 SL OL OR G Lp. destruct (take_ok _ _ _ _ _ SL) as (_ & -> & h' & p' & _ & T & S').
    rewrite T. cbn [bind]. eapply (merged_step f _ X []); [|rewrite app_nil_r; eapply Lp; eauto].
    intros R P. cbn [map]. rewrite <- F1. apply (pw_cons_left f (dt x)); auto.
  Qed.
  Lemma drop_right (f : amap -> amap -> amap) (loop : hp -> option nat -> res (hp * hp * builder K V)) hr pr y XR gr X XL :
    f [] [] = [] -> f [] [dt y] = [] -> srcok hr pr (y :: XR) gr ->
    sorted (map dt XL) -> sorted (map dt (y :: XR)) -> all_gt (map dt XL) (key y) ->
    (forall h' p', srcok h' p' XR gr -> merged f (loop h' p') X XL XR) ->
    merged f (let* (hr, pr) := discard hr pr in loop hr pr) X XL (y :: XR).
  Proof.
    intros F0 F1 SL OL OR G Lp. destruct (take_ok _ _ _ _ _ SL) as (_ & -> & h' & p' & _ & T & S').
    rewrite T. cbn [bind]. eapply (merged_step f _ X []); [|rewrite app_nil_r; eapply Lp; eauto].
    intros R P. cbn [map]. rewrite <- F1. apply (pw_cons_right f (dt y)); auto.
  Qed.
  Lemma src_data h p x X g : srcok h p (x :: X) g -> get_data h (ad x) = Ok (dt x) /\ p = Some (ad x).
  Proof. intros S. destruct (take_ok _ _ _ _ _ S) as (E & E' & _). auto. Qed.
  Lemma src_nil h p g : srcok h p [] g -> p = None.
  Proof. intros (_ & _ & -> & _). reflexivity. Qed.
  Lemma sorted_tl (e : K * V) l : sorted (e :: l) -> sorted l.
  Proof. intros S. now apply sorted_cons in S as [_ S]. Qed.

  Lemma union_loop_ok fuel : forall hl pl XL gl hr pr XR gr b X g,
    srcok hl pl XL gl -> srcok hr pr XR gr -> bok b X g -> sorted (map dt XL) -> sorted (map dt XR) ->
    length XL + length XR < fuel -> merged f_union (union_loop fuel hl pl hr pr b) X XL XR.
  Proof.
    induction fuel as [|fuel IH]; intros hl pl XL gl hr pr XR gr b X g SL SR B OL OR Hf; [lia|].
    destruct XL as [|x XL], XR as [|y XR].
    - pose proof (src_nil _ _ _ SL) as ->. pose proof (src_nil _ _ _ SR) as ->. cbn [union_loop].
      now apply (merged_done f_union hl None gl hr None gr b X g).
    - pose proof (src_nil _ _ _ SL) as ->. pose proof (src_data _ _ _ _ _ SR) as [_ ->]. cbn [union_loop].
      apply (keep_right f_union (fun h p b => union_loop fuel hl None h p b) hr _ y XR gr b X g []); auto; [constructor|].
      intros. eapply (IH _ _ [] gl); eauto; [eapply sorted_tl; exact OR|simpl in *; lia].
    - pose proof (src_nil _ _ _ SR) as ->. pose proof (src_data _ _ _ _ _ SL) as [_ ->]. cbn [union_loop].
      apply (keep_left f_union (fun h p b => union_loop fuel h p hr None b) hl _ x XL gl b X g []); auto; [constructor|].
      intros. eapply (IH _ _ XL gl _ _ [] gr); eauto; [eapply sorted_tl; exact OL|simpl in *; lia].
    - pose proof (src_data _ _ _ _ _ SR) as [Dy Ey]. pose proof (src_data _ _ _ _ _ SL) as [Dx Ex].
      cbn [union_loop]. rewrite Ex, Ey, Dx, Dy. cbn [bind]. fold (key x) (key y). rewrite <- Ex, <- Ey.
      cbn [map] in OL, OR. pose proof (sorted_tl _ _ OL) as OL'. pose proof (sorted_tl _ _ OR) as OR'.
      destruct (cmp (key x) (key y)) eqn:Cm.
      + destruct (take_ok _ _ _ _ _ SR) as (_ & _ & h' & p' & _ & T & S'). rewrite T. cbn [bind].
        eapply (merged_step f_union _ X []); [|rewrite app_nil_r; eapply IH; eauto; simpl in *; lia].
        intros R P. cbn [map app]. apply pw_union_drop; auto.
      + apply (keep_left f_union (fun h p b => union_loop fuel h p hr pr b) hl _ x XL gl b X g (y :: XR)); auto.
        * now apply sorted_lt_gt.
        * intros. eapply IH; eauto. simpl in *. lia.
      + apply (keep_right f_union (fun h p b => union_loop fuel hl pl h p b) hr _ y XR gr b X g (x :: XL)); auto.
        * apply sorted_lt_gt; auto. now apply cmp_gt_lt.
        * intros. eapply IH; eauto. simpl in *. lia.
  Qed.

  Lemma inter_loop_ok fuel : forall hl pl XL gl hr pr XR gr b X g,
    srcok hl pl XL gl -> srcok hr pr XR gr -> bok b X g -> sorted (map dt XL) -> sorted (map dt XR) ->
    (forall x y, In x XL -> In y XR -> cmp (key x) (key y) <> Eq) ->
    length XL + length XR < fuel -> merged f_inter (inter_loop fuel hl pl hr pr b) X XL XR.
  Proof.
    induction fuel as [|fuel IH]; intros hl pl XL gl hr pr XR gr b X g SL SR B OL OR NE Hf; [lia|].
    destruct XL as [|x XL], XR as [|y XR].
    - pose proof (src_nil _ _ _ SL) as ->. pose proof (src_nil _ _ _ SR) as ->. cbn [inter_loop].
      now apply (merged_done f_inter hl None gl hr None gr b X g).
    - pose proof (src_nil _ _ _ SL) as ->. pose proof (src_data _ _ _ _ _ SR) as [_ ->]. cbn [inter_loop].
      apply (drop_right f_inter (fun h p => inter_loop fuel hl None h p b) hr _ y XR gr X []); auto; [constructor|].
      intros. eapply (IH _ _ [] gl); eauto; [eapply sorted_tl; exact OR|simpl in *; lia].
    - pose proof (src_nil _ _ _ SR) as ->. pose proof (src_data _ _ _ _ _ SL) as [_ ->]. cbn [inter_loop].
      apply (drop_left f_inter (fun h p => inter_loop fuel h p hr None b) hl _ x XL gl X []); auto; [constructor|].
      intros. eapply (IH _ _ XL gl _ _ [] gr); eauto; [eapply sorted_tl; exact OL|simpl in *; lia].
    - pose proof (src_data _ _ _ _ _ SR) as [Dy Ey]. pose proof (src_data _ _ _ _ _ SL) as [Dx Ex].
      cbn [inter_loop]. rewrite Ex, Ey, Dx, Dy. cbn [bind]. fold (key x) (key y). rewrite <- Ex, <- Ey.
      cbn [map] in OL, OR. pose proof (sorted_tl _ _ OL) as OL'. pose proof (sorted_tl _ _ OR) as OR'.
      destruct (cmp (key x) (key y)) eqn:Cm.
      + destruct (NE x y); [now left|now left|auto].
      + apply (drop_left f_inter (fun h p => inter_loop fuel h p hr pr b) hl _ x XL gl X (y :: XR)); auto.
        * now apply sorted_lt_gt.
        * intros. eapply IH; eauto; [|simpl in *; lia]. intros. apply NE; auto. now right.
      + apply (drop_right f_inter (fun h p => inter_loop fuel hl pl h p b) hr _ y XR gr X (x :: XL)); auto.
        * apply sorted_lt_gt; auto. now apply cmp_gt_lt.
        * intros. eapply IH; eauto; [|simpl in *; lia]. intros. apply NE; auto. now right.
  Qed.

  (** The keys of [a] beyond the last key of [b] are where the difference goes wrong. *)
  Lemma beyond_cons e e' (l r : amap) : reaches_beyond (e :: e' :: l) r = reaches_beyond (e' :: l) r.
  Proof. reflexivity. Qed.
  Lemma beyond_last (e : K * V) l : sorted (e :: l) -> exists p, last_error (e :: l) = Some p /\ (p = e \/ cmp (fst e) (fst p) = Lt).
  Proof.
    intros S. destruct (last_error (e :: l)) as [p|] eqn:E; [|apply last_error_none in E; discriminate].
    exists p. split; auto. apply last_error_in in E as [->|E]; auto. right.
    apply sorted_cons in S as [G _]. unfold all_gt in G. rewrite Forall_forall in G. now apply G.
  Qed.
  (** The three comparisons. *)
  Lemma beyond_lt (e e' : K * V) l r : sorted (e' :: r) -> cmp (fst e) (fst e') = Lt ->
    reaches_beyond (e :: l) (e' :: r) = reaches_beyond l (e' :: r).
  Proof.
    intros S Ce. destruct l as [|q l]; [|reflexivity]. unfold reaches_beyond. cbn [last_error forallb].
    assert (cmp (fst e') (fst e) = Gt) as -> by (now apply cmp_lt_gt). reflexivity.
  Qed.
  Lemma beyond_gt (e e' : K * V) l r : sorted (e :: l) -> cmp (fst e) (fst e') = Gt ->
    reaches_beyond (e :: l) (e' :: r) = reaches_beyond (e :: l) r.
  Proof.
    intros S Ce. destruct (beyond_last e l S) as (p & E & Q). unfold reaches_beyond. rewrite E. cbn [forallb].
    assert (cmp (fst e') (fst p) = Lt) as ->; [|reflexivity]. destruct Q as [->|Q]; korder.
  Qed.
  Lemma beyond_eq (e e' : K * V) l r : sorted (e :: l) -> sorted (e' :: r) -> cmp (fst e) (fst e') = Eq ->
    reaches_beyond (e :: l) (e' :: r) = reaches_beyond l r.
  Proof.
    intros S S' Ce. destruct l as [|q l].
    - unfold reaches_beyond. cbn [last_error forallb].
      assert (cmp (fst e') (fst e) = Eq) as -> by (now apply cmp_eq_sym). reflexivity.
    - rewrite beyond_cons. pose proof (sorted_tl _ _ S) as S1. destruct (beyond_last q l S1) as (p & E & Q).
      apply sorted_cons in S as [G _]. apply all_gt_cons in G as [G _].
      unfold reaches_beyond. rewrite E. cbn [forallb].
      assert (cmp (fst e') (fst p) = Lt) as ->; [|reflexivity]. destruct Q as [->|Q]; korder.
  Qed.

  Definition f_dif (symmetric : bool) : amap -> amap -> amap := if symmetric then f_symdiff else f_diff.

  Lemma diff_loop_ok sym fuel : forall hl pl XL gl hr pr XR gr b X g,
    srcok hl pl XL gl -> srcok hr pr XR gr -> bok b X g -> sorted (map dt XL) -> sorted (map dt XR) ->
    reaches_beyond (map dt XL) (map dt XR) = false ->
    length XL + length XR < fuel -> merged (f_dif sym) (diff_loop fuel hl pl hr pr sym b) X XL XR.
  Proof.
    induction fuel as [|fuel IH]; intros hl pl XL gl hr pr XR gr b X g SL SR B OL OR NB Hf; [lia|].
    destruct XL as [|x XL], XR as [|y XR].
    - pose proof (src_nil _ _ _ SL) as ->. pose proof (src_nil _ _ _ SR) as ->. cbn [diff_loop].
      apply (merged_done (f_dif sym) hl None gl hr None gr b X g); auto. now destruct sym.
    - pose proof (src_nil _ _ _ SL) as ->. pose proof (src_data _ _ _ _ _ SR) as [_ ->]. cbn [diff_loop].
      destruct sym.
      + apply (keep_right f_symdiff (fun h p b => diff_loop fuel hl None h p true b) hr _ y XR gr b X g []); auto; [constructor|].
        intros. eapply (IH _ _ [] gl); eauto; [eapply sorted_tl; exact OR|simpl in *; lia].
      + apply (drop_right f_diff (fun h p => diff_loop fuel hl None h p false b) hr _ y XR gr X []); auto; [constructor|].
        intros. eapply (IH _ _ [] gl); eauto; [eapply sorted_tl; exact OR|simpl in *; lia].
    - exfalso. cbn [map] in OL, NB. revert OL NB. generalize (map dt XL). intros l OL NB.
      destruct (beyond_last _ _ OL) as (p & E & _). unfold reaches_beyond in NB. rewrite E in NB. discriminate.
    - pose proof (src_data _ _ _ _ _ SR) as [Dy Ey]. pose proof (src_data _ _ _ _ _ SL) as [Dx Ex].
      cbn [diff_loop]. rewrite Ex, Ey, Dx, Dy. cbn [bind]. fold (key x) (key y). rewrite <- Ex, <- Ey.
      cbn [map] in OL, OR, NB. pose proof (sorted_tl _ _ OL) as OL'. pose proof (sorted_tl _ _ OR) as OR'.
      destruct (cmp (key x) (key y)) eqn:Cm.
      + rewrite beyond_eq in NB by auto.
        destruct (take_ok _ _ _ _ _ SR) as (_ & _ & h' & p' & _ & T & S').
        destruct (take_ok _ _ _ _ _ SL) as (_ & _ & h2 & p2 & _ & T2 & S2). rewrite T2. cbn [bind]. rewrite T. cbn [bind].
        eapply (merged_step (f_dif sym) _ X []); [|rewrite app_nil_r; eapply IH; eauto; simpl in *; lia].
        intros R P. cbn [map app].
        assert (Q : f_dif sym [dt x] [dt y] = []) by (now destruct sym).
        change R with ([] ++ R). rewrite <- Q. apply pw_cons_both; auto. now destruct sym.
      + rewrite beyond_lt in NB by auto.
        apply (keep_left (f_dif sym) (fun h p b => diff_loop fuel h p hr pr sym b) hl _ x XL gl b X g (y :: XR)); auto;
          try (now destruct sym).
        * now apply sorted_lt_gt.
        * intros. eapply IH; eauto. simpl in *. lia.
      + rewrite beyond_gt in NB by auto. destruct sym.
        * apply (keep_right f_symdiff (fun h p b => diff_loop fuel hl pl h p true b) hr _ y XR gr b X g (x :: XL)); auto.
          -- apply sorted_lt_gt; auto. now apply cmp_gt_lt.
          -- intros. eapply IH; eauto. simpl in *. lia.
        * apply (drop_right f_diff (fun h p => diff_loop fuel hl pl h p false b) hr _ y XR gr X (x :: XL)); auto.
          -- apply sorted_lt_gt; auto. now apply cmp_gt_lt.
          -- intros. eapply IH; eauto. simpl in *. lia.
  Qed.

  Lemma diff_loop_panic sym fuel : forall hl pl XL gl hr pr XR gr b X g,
    srcok hl pl XL gl -> srcok hr pr XR gr -> bok b X g -> sorted (map dt XL) -> sorted (map dt XR) ->
    reaches_beyond (map dt XL) (map dt XR) = true ->
    length XL + length XR < fuel -> diff_loop fuel hl pl hr pr sym b = Panic.
  Proof.
    induction fuel as [|fuel IH]; intros hl pl XL gl hr pr XR gr b X g SL SR B OL OR NB Hf; [lia|].
    destruct XL as [|x XL]; [discriminate NB|]. destruct XR as [|y XR].
    - pose proof (src_nil _ _ _ SR) as ->. pose proof (src_data _ _ _ _ _ SL) as [_ ->]. reflexivity.
    - pose proof (src_data _ _ _ _ _ SR) as [Dy Ey]. pose proof (src_data _ _ _ _ _ SL) as [Dx Ex].
      cbn [diff_loop]. rewrite Ex, Ey, Dx, Dy. cbn [bind]. fold (key x) (key y). rewrite <- Ex, <- Ey.
      cbn [map] in OL, OR, NB. pose proof (sorted_tl _ _ OL) as OL'. pose proof (sorted_tl _ _ OR) as OR'.
      destruct (take_ok _ _ _ _ _ SR) as (_ & _ & h' & p' & T & T' & S').
      destruct (take_ok _ _ _ _ _ SL) as (_ & _ & h2 & p2 & T2 & T2' & S2).
      destruct (cmp (key x) (key y)) eqn:Cm.
      + rewrite beyond_eq in NB by auto. rewrite T2'. cbn [bind]. rewrite T'. cbn [bind].
        eapply IH; eauto. simpl in *. lia.
      + rewrite beyond_lt in NB by auto. rewrite T2. cbn [bind].
        destruct (append_ok b X g (dt x) (ht x) B (src_ht _ _ _ _ _ SL)) as (b' & g' & z & -> & B' & Ez). cbn [bind].
        eapply IH; eauto. simpl in *. lia.
      + rewrite beyond_gt in NB by auto. destruct sym.
        * rewrite T. cbn [bind].
          destruct (append_ok b X g (dt y) (ht y) B (src_ht _ _ _ _ _ SR)) as (b' & g' & z & -> & B' & Ez). cbn [bind].
          eapply IH; eauto. simpl in *. lia.
        * rewrite T'. cbn [bind]. eapply IH; eauto. simpl in *. lia.
  Qed.

  (** ** The operations. *)
  Lemma src_new m l : sk_rel m l -> exists X g h,
    get_link (sk_heap m) 0 0 = Ok (option_map ad (hd_error X)) /\ zero_links (sk_heap m) 0 None = Ok h
    /\ srcok h (option_map ad (hd_error X)) X g /\ map dt X = l /\ sorted l /\ length X < length h.
  Proof.
    intros (X & g & HO & El & Sl & Ln). pose proof (first_link _ _ _ HO) as FL. destruct HO as [Rp Sg].
    destruct (zero_links_ok _ _ _ None Rp) as (h & E & R1 & L1).
    exists X, (fun z j => if z =? 0 then None else g z j), h. repeat (split; [now auto|]). split.
    - split; [exact R1|]. split; [|auto]. apply (chain_zeroed (sk_heap m)); auto. apply (seg_chain _ _ 0), Sg. lia.
    - repeat (split; [now auto|]). rewrite L1. eapply srep_length; eauto.
  Qed.
  Lemma merged_rel (f : amap -> amap -> amap) b g Y l r R : pw f R l r -> bok b ([] ++ Y) g -> pw f (map dt Y) l r ->
    sk_rel (SkipMap (b_heap b) (b_len b)) R.
  Proof.
    intros P (HO & _ & Ln) PY. rewrite (pw_unique _ _ _ _ _ P PY). exists Y, g. cbn [sk_heap sk_len app] in *.
    split; [exact HO|]. split; [reflexivity|]. split; [apply PY|]. now rewrite map_length.
  Qed.
  Lemma drop_empty h g len : srep h [] g -> g 0 0 = None -> exists h',
    skip_drop (SkipMap h len) = Ok (h', []) /\ live_nodes h' = 0.
  Proof.
    intros Rp Z. rewrite (drop_zeroed _ _ _ _ Rp Z). eexists. split; [reflexivity|].
    destruct (dealloc_head _ _ _ Rp) as (_ & _ & A). apply live_none. intros a n E. now apply A in E.
  Qed.

  Lemma no_common (a b : amap) : spec_inter a b = [] -> forall p q, In p a -> In q b -> cmp (fst p) (fst q) <> Eq.
  Proof.
    intros E p q Hp Hq Cm. assert (I : In p (spec_inter a b)).
    { apply filter_In. split; auto. unfold has_key.
      assert (J : In q (at_key (fst p) b)) by (apply in_at; split; auto; now apply cmp_eq_sym).
      destruct (at_key (fst p) b); [destruct J|reflexivity]. }
    now rewrite E in I.
  Qed.

  Lemma skip_set_ok s (m : skip_map K V) (l : amap) (m' : skip_map K V) (l' : amap) : sk_rel m l -> sk_rel m' l' -> set_allowed s l l' ->
    exists hl hr m2, skip_set_op s m m' = Ok (hl, hr, m2) /\ sk_rel m2 (spec_set s l l')
      /\ live_nodes hl = 0 /\ live_nodes hr = 0.
  Proof.
    intros R1 R2 Al. destruct (src_new _ _ R1) as (X & g & h & E1 & E2 & S1 & EX & Sl & L1).
    destruct (src_new _ _ R2) as (X' & g' & h' & E1' & E2' & S1' & EX' & Sl' & L1').
    unfold skip_set_op. rewrite E1. cbn [bind]. rewrite E1'. cbn [bind]. rewrite E2. cbn [bind]. rewrite E2'. cbn [bind].
    subst l l'.
    assert (Mg : merged (f_set s) match s with
              | SUnion => union_loop (S (length h + length h')) h (option_map ad (hd_error X)) h' (option_map ad (hd_error X')) builder_new
              | SInter => inter_loop (S (length h + length h')) h (option_map ad (hd_error X)) h' (option_map ad (hd_error X')) builder_new
              | SDiff => diff_loop (S (length h + length h')) h (option_map ad (hd_error X)) h' (option_map ad (hd_error X')) false builder_new
              | SSymDiff => diff_loop (S (length h + length h')) h (option_map ad (hd_error X)) h' (option_map ad (hd_error X')) true builder_new
              end [] X X').
    { destruct s; cbn [f_set set_allowed] in *.
      - eapply union_loop_ok; eauto; [apply bok_new|lia].
      - eapply inter_loop_ok; eauto; [apply bok_new| |lia].
        intros x y Hx Hy. apply (no_common _ _ Al); now apply in_map.
      - eapply (diff_loop_ok false); eauto; [apply bok_new|lia].
      - eapply (diff_loop_ok true); eauto; [apply bok_new|lia]. }
    destruct Mg as (hl & gl & hr & gr & b & gb & Y & E & Rl & Zl & Rr & Zr & B & P). rewrite E. cbn [bind].
    destruct (drop_empty hl gl (sk_len m) Rl Zl) as (hl' & -> & Ll). cbn [bind].
    destruct (drop_empty hr gr (sk_len m') Rr Zr) as (hr' & -> & Lr). cbn [bind].
    eexists _, _, _. split; [reflexivity|]. split; [|auto]. eapply merged_rel; eauto. now apply set_pw.
  Qed.

  Lemma skip_diff_panics s (m : skip_map K V) (l : amap) (m' : skip_map K V) (l' : amap) : s = SDiff \/ s = SSymDiff -> sk_rel m l -> sk_rel m' l' ->
    reaches_beyond l l' = true -> skip_set_op s m m' = Panic.
  Proof.
    intros Hs R1 R2 Al. destruct (src_new _ _ R1) as (X & g & h & E1 & E2 & S1 & EX & Sl & L1).
    destruct (src_new _ _ R2) as (X' & g' & h' & E1' & E2' & S1' & EX' & Sl' & L1').
    unfold skip_set_op. rewrite E1. cbn [bind]. rewrite E1'. cbn [bind]. rewrite E2. cbn [bind]. rewrite E2'. cbn [bind].
    subst l l'. destruct Hs as [-> | ->].
    - erewrite (diff_loop_panic false); eauto; [apply bok_new|lia].
    - erewrite (diff_loop_panic true); eauto; [apply bok_new|lia].
  Qed.

  Lemma run_rel (ops : list (map_op K V * N)) m outs : run skip_step skip_new ops = Ok (m, outs) ->
    exists l, skip_iter m = Ok l /\ sk_rel m l.
  Proof.
    intros E. destruct (run_sim skip_step (fun s o => map_spec_step s (fst o)) sk_rel (fun s a o => skip_step_ok s a o) ops skip_new [] skip_rel_new)
      as (m' & E' & HR). rewrite E in E'. injection E' as <- _. eexists. split; [exact (skip_iter_ok _ _ HR)|exact HR].
  Qed.

  (** Union, and difference exactly when it does not panic, on reachable maps. *)
  Theorem skip_union_ok (ops1 ops2 : list (map_op K V * N)) m1 m2 o1 o2 :
    run skip_step skip_new ops1 = Ok (m1, o1) -> run skip_step skip_new ops2 = Ok (m2, o2) ->
    exists l1 l2 hl hr m, skip_iter m1 = Ok l1 /\ skip_iter m2 = Ok l2 /\
      skip_set_op SUnion m1 m2 = Ok (hl, hr, m) /\ skip_iter m = Ok (spec_union l1 l2)
      /\ live_nodes hl = 0 /\ live_nodes hr = 0 /\ live_nodes (sk_heap m) = S (length (spec_union l1 l2)).
  Proof.
    intros E1 E2. destruct (run_rel _ _ _ E1) as (l1 & I1 & R1). destruct (run_rel _ _ _ E2) as (l2 & I2 & R2).
    destruct (skip_set_ok SUnion _ _ _ _ R1 R2 I) as (hl & hr & m & Es & R & L1 & L2).
    exists l1, l2, hl, hr, m. repeat (split; [now auto|]). split; [exact (skip_iter_ok _ _ R)|]. split; auto. split; auto.
    destruct R as (X & g & (Rp & _) & El & _). rewrite (srep_live _ _ _ Rp). cbn [spec_set] in El. now rewrite <- El, map_length.
  Qed.
  Theorem skip_diff_exact (ops1 ops2 : list (map_op K V * N)) m1 m2 o1 o2 s : s = SDiff \/ s = SSymDiff ->
    run skip_step skip_new ops1 = Ok (m1, o1) -> run skip_step skip_new ops2 = Ok (m2, o2) ->
    exists l1 l2, skip_iter m1 = Ok l1 /\ skip_iter m2 = Ok l2 /\
      if reaches_beyond l1 l2 then skip_set_op s m1 m2 = Panic
      else exists hl hr m, skip_set_op s m1 m2 = Ok (hl, hr, m) /\ skip_iter m = Ok (spec_set s l1 l2)
             /\ live_nodes hl = 0 /\ live_nodes hr = 0 /\ live_nodes (sk_heap m) = S (length (spec_set s l1 l2)).
  Proof.
    intros Hs E1 E2. destruct (run_rel _ _ _ E1) as (l1 & I1 & R1). destruct (run_rel _ _ _ E2) as (l2 & I2 & R2).
    exists l1, l2. repeat (split; [now auto|]). destruct (reaches_beyond l1 l2) eqn:RB.
    - eapply skip_diff_panics; eauto.
    - destruct (skip_set_ok s _ _ _ _ R1 R2) as (hl & hr & m & Es & R & L1 & L2).
      { now destruct Hs as [-> | ->]. }
      exists hl, hr, m. split; auto. split; [exact (skip_iter_ok _ _ R)|]. split; auto. split; auto.
      destruct R as (X & g & (Rp & _) & El & _). rewrite (srep_live _ _ _ Rp). now rewrite <- El, map_length.
  Qed.

  (** ** Programs. *)
  Definition prog_rel (rs : nat -> skip_map K V) (as_ : nat -> amap) : Prop := forall i, sk_rel (rs i) (as_ i).
  Lemma prog_rel_update rs as_ i m l : prog_rel rs as_ -> sk_rel m l -> prog_rel (update rs i m) (update as_ i l).
  Proof. intros R Rm j. unfold update. now destruct (j =? i). Qed.

  Lemma skip_prog_run (ops : list (prog_op K V * N)) : forall rs as_, prog_rel rs as_ -> prog_allowed as_ (map fst ops) ->
    exists rs', run skip_prog_step rs ops = Ok (rs', snd (spec_run prog_spec_step as_ (map fst ops)))
      /\ prog_rel rs' (fst (spec_run prog_spec_step as_ (map fst ops))).
  Proof.
    induction ops as [|[o d] ops IH]; intros rs as_ R Al; cbn [map fst run spec_run].
    - exists rs. auto.
    - cbn [map fst prog_allowed] in Al. destruct Al as [A1 A2].
      assert (St : exists rs1, skip_prog_step rs (o, d) = Ok (rs1, snd (prog_spec_step as_ o)) /\ prog_rel rs1 (fst (prog_spec_step as_ o))).
      { destruct o as [i o|s dd i j|dd i k inc]; [| |contradiction].
        - cbn [skip_prog_step prog_spec_step]. destruct (skip_step_ok _ _ (o, d) (R i)) as (m' & E & R'). rewrite E. cbn [bind fst] in *.
          destruct (map_spec_step (as_ i) o) as [l out]. cbn [fst snd] in *. eexists. split; [reflexivity|]. now apply prog_rel_update.
        - cbn [skip_prog_step prog_spec_step fst snd].
          assert (R1 : prog_rel (update rs i skip_new) (update as_ i [])) by (apply prog_rel_update; auto; apply skip_rel_new).
          destruct (skip_set_ok s _ _ _ _ (R i) (R1 j) A1) as (hl & hr & m2 & E & R2 & _). rewrite E. cbn [bind].
          eexists. split; [reflexivity|]. apply prog_rel_update; auto. apply prog_rel_update; auto. apply skip_rel_new. }
      destruct St as (rs1 & E1 & R1). rewrite E1. cbn [bind].
      destruct (prog_spec_step as_ o) as [as1 out] eqn:Es. cbn [fst snd] in *.
      destruct (IH rs1 as1 R1 A2) as (rs2 & E2 & R2). rewrite E2. cbn [bind].
      destruct (spec_run prog_spec_step as1 (map fst ops)) as [as2 outs]. cbn [fst snd] in *. eauto.
  Qed.
  Theorem skip_prog_refines (ops : list (prog_op K V * N)) : prog_allowed (fun _ => []) (map fst ops) ->
    outputs skip_prog_step (fun _ => skip_new) ops = Ok (prog_spec_outputs (map fst ops)).
  Proof.
    intros Al. unfold outputs, prog_spec_outputs, spec_outputs.
    destruct (skip_prog_run ops (fun _ => skip_new) (fun _ => [])) as (rs' & E & _); auto.
    - intros i. apply skip_rel_new.
    - now rewrite E.
  Qed.
End SkipSetProofs.

Lemma skip_refines_draws {K V} `{CmpLaws K} (d : nat -> N) (ops : list (map_op K V)) :
  outputs skip_step skip_new (combine ops (map d (seq 0 (length ops)))) = Ok (map_spec_outputs ops).
Proof. rewrite skip_refines, map_fst_draws. reflexivity. Qed.

Lemma skip_kprog_refines {K} `{CmpLaws K} (ops : list (kprog_op K * N)) :
  prog_allowed (fun _ => []) (map (fun o => kprog_call (fst o)) ops) ->
  outputs (wrap_step (fun od => (kprog_call (fst od), snd od)) kset_ret skip_prog_step) (fun _ => skip_new) ops
    = Ok (kprog_spec_outputs (map fst ops)).
Proof.
  intros Al. rewrite outputs_wrap, skip_prog_refines; [|rewrite map_map; exact Al].
  rewrite kprog_spec_outputs_map. cbn [bind]. now rewrite !map_map.
Qed.

(** Violations. *)
Lemma skip_inter_bad : exists (ops : list (prog_op nat nat * N)),
  outputs skip_prog_step (fun _ => skip_new) ops = Panic /\
  map fst ops = [POp 0 (MInsert 1 10); POp 1 (MInsert 1 11); PSet SInter 2 0 1; POp 2 (MInsert 2 20)].
Proof.
  exists [(POp 0 (MInsert 1 10), 4294967295%N); (POp 1 (MInsert 1 11), 4294967295%N); (PSet SInter 2 0 1, 0%N); (POp 2 (MInsert 2 20), 4294967295%N)].
  vm_compute. auto.
Qed.
Lemma skip_inter_bad2 : exists (ops : list (prog_op nat nat * N)),
  outputs skip_prog_step (fun _ => skip_new) ops = Panic /\
  map fst ops = [POp 0 (MInsert 1 10); POp 0 (MInsert 2 20); POp 1 (MInsert 1 11); POp 1 (MInsert 2 21); PSet SInter 2 0 1].
Proof.
  exists (combine [POp 0 (MInsert 1 10); POp 0 (MInsert 2 20); POp 1 (MInsert 1 11); POp 1 (MInsert 2 21); PSet SInter 2 0 1]
    (repeat 4294967295%N 5)).
  vm_compute. auto.
Qed.
Lemma skip_diff_bad : exists (ops : list (prog_op nat nat * N)),
  outputs skip_prog_step (fun _ => skip_new) ops = Panic /\
  map fst ops = [POp 0 (MInsert 1 10); PSet SDiff 2 0 1].
Proof. exists [(POp 0 (MInsert 1 10), 0%N); (PSet SDiff 2 0 1, 0%N)]. vm_compute. auto. Qed.
Lemma skip_into_iter_bad : exists (m : skip_map nat nat) outs h,
  run skip_step skip_new [(MInsert 1 10, 0%N); (MInsert 2 20, 0%N)] = Ok (m, outs) /\
  skip_into_iter m 1 = Ok (h, [(1, 10)], [(2, 20); (2, 20)]).
Proof. do 3 eexists. split; vm_compute; reflexivity. Qed.
