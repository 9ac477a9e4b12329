(** SkipList on bytes does what SkipList on a heap of nodes does, as long as the distances fit into words. *)
From Verif Require Import SkipListModel SkipListProofs SkipDistProofs NodeBytesProofs NodePtrProofs ListLemmas SkipBytesProofs ListBytesModel ListBytesInstances SkipBytesSpec.

(** ** Distances in a heap *)
Section Bound.
  Context {T : Type}.
  Notation hp := (heap T (option nat * nat)).
  Implicit Types (h : hp) (f : nat -> nat).

  Definition bnd h f : Prop := forall a i l, get_link h a i = Ok l -> snd l <= f i.
  Lemma bnd_more h f f' : (forall i, f i <= f' i) -> bnd h f -> bnd h f'.
  Proof. intros L B a i l E. specialize (B a i l E). specialize (L i). lia. Qed.
  Lemma bnd_set_link h a i l h' f : bnd h f -> snd l <= f i -> set_link h a i l = Ok h' -> bnd h' f.
  Proof.
    intros B Hl E b j k G. unfold set_link in E. open E n Er. pose proof (read_some _ _ _ Er) as En. destruct (i <? length (sn_links n)) eqn:Hi; [|discriminate]. injection E as <-.
    unfold get_link, read in G. rewrite list_set_nth in G. destruct (Nat.eqb_spec a b) as [->|Nb].
    - rewrite (proj2 (Nat.ltb_lt _ _)) in G by (apply nth_error_Some; congruence). cbn [bind sn_links] in G. rewrite list_set_nth in G. destruct (Nat.eqb_spec i j) as [->|Nj].
      + rewrite Hi in G. injection G as <-. exact Hl.
      + apply (B b j). unfold get_link. rewrite Er. exact G.
    - exact (B b j k G).
  Qed.
  Lemma bnd_set_dist h a i d h' f : bnd h f -> d <= f i -> set_dist h a i d = Ok h' -> bnd h' f.
  Proof. intros B Hd E. unfold set_dist in E. open E l El. eapply bnd_set_link; [exact B| |exact E]. exact Hd. Qed.
  Lemma bnd_alloc h v n f : bnd h f -> bnd (fst (alloc h v n null_link)) f.
  Proof.
    intros B b j k G. cbn [alloc fst] in G. unfold get_link, read in G. destruct (Nat.lt_ge_cases b (length h)) as [L|L].
    - rewrite nth_error_app1 in G by auto. exact (B b j k G).
    - rewrite nth_error_app2 in G by auto. destruct (b - length h) as [|c]; [|destruct c; discriminate]. cbn [nth_error bind sn_links] in G.
      destruct (nth_error (repeat null_link n) j) as [l|] eqn:El; [|discriminate]. apply nth_error_In, repeat_spec in El. subst l. injection G as <-. cbn. lia.
  Qed.

  (** What the walks of [insert] have moved *)
  Definition total (last : list (nat * nat)) : nat := fold_right (fun x n => snd x + n) 0 last.
  Lemma total_set : forall last i x y, nth_error last i = Some x -> total (list_set last i y) + snd x = total last + snd y.
  Proof.
    unfold total. induction last as [|z last IH]; intros [|i] x y E; try discriminate.
    - injection E as ->. cbn [list_set fold_right]. lia.
    - cbn [list_set fold_right nth_error] in *. specialize (IH i x y E). lia.
  Qed.
End Bound.

Section ListBytes.
  Context {T : Type}.
  Variables (ly : layout) (new : allocator) (enc : T -> list nat) (dec : list nat -> option T) (other : list (nat * nat)) (m0 : memory).
  Hypothesis Lo : layout_ok ly.
  Hypothesis Two : link_words ly = 2.
  Hypothesis Fair : entry_align ly <= u64_align ly.
  Hypothesis Elen : forall d, length (enc d) = entry_size ly.
  Hypothesis Dec : forall d, dec (enc d) = Some d.
  Hypothesis Law : lawful (u64_align ly) (word ly) new.
  Hypothesis Oth : Forall (fun b => 0 < snd b) other.
  Notation rel := (rel ly enc list_link other m0).
  Notation link := (option nat * nat)%type.
  Notation hp := (heap T link).
  Notation fit n := (fits (word ly) n = true).

  Lemma Zero2 : list_link null_link = (None, repeat 0 (link_words ly - 1)).
  Proof. now rewrite Two. Qed.

  Definition lk2 (s : bytes) (l : link) (q : nat * nat) : Prop := lk s (fst l) (fst q) /\ snd q = snd l.
  Lemma lk2_words (s : bytes) l q : lk2 s l q -> words_at list_link s l [fst q; snd q].
  Proof.
    intros [Q ->]. unfold words_at, link_words_of, list_link. cbn [fst snd]. destruct (fst l) as [j|]; cbn [lk address] in *.
    - split; [do 2 f_equal; symmetry; now apply nth_error_nth|]. apply nth_error_Some. unfold at_ptr in Q. congruence.
    - rewrite Q. auto.
  Qed.
  Lemma words_lk2 (s : bytes) l ws : words_at list_link s l ws -> lk2 s l (hd 0 ws, nth 1 ws 0).
  Proof.
    unfold words_at, link_words_of, list_link. cbn [fst snd]. intros [-> X]. cbn [hd nth]. split; [|reflexivity]. cbn [fst]. destruct (fst l) as [j|]; cbn [lk address]; [|reflexivity].
    unfold at_ptr. now apply nth_error_nth'.
  Qed.
  Lemma lk2_same s s' l q : by_ptrs s' = by_ptrs s -> lk2 s l q -> lk2 s' l q.
  Proof. intros P [Q1 Q2]. split; [exact (lk_same _ _ _ _ P Q1)|exact Q2]. Qed.

  Lemma q_link (h : hp) s a p i l : rel h s -> at_ptr s a p -> get_link h a i = Ok l -> exists q, c_link ly s p i = Ok q /\ lk2 s l q.
  Proof.
    intros R0 Ep E. destruct (rel_link ly new enc list_link other m0 Lo Fair h s a p i l R0 Ep E) as (ws & Ew & W). unfold c_link. rewrite Ew. cbn [bind].
    eexists. split; [reflexivity|]. now apply words_lk2.
  Qed.
  Lemma q_entry (h : hp) s a p d : rel h s -> at_ptr s a p -> get_data h a = Ok d -> c_entry ly dec s p = Ok d.
  Proof. exact (rel_entry ly new enc dec list_link other m0 Lo Fair Dec h s a p d). Qed.
  Lemma q_set_link (h : hp) s a p i l q h' : rel h s -> at_ptr s a p -> lk2 s l q -> set_link h a i l = Ok h' -> fit (snd l) ->
    exists s', c_set_link ly s p i q = Ok s' /\ by_ptrs s' = by_ptrs s /\ rel h' s'.
  Proof.
    intros R0 Ep Q E Ft. apply (rel_set_link ly new enc list_link other m0 Lo Fair h s a p i l _ h' R0 Ep (lk2_words s l q Q)); [|exact E].
    split; [now rewrite Two|]. constructor; [exact Ft|constructor].
  Qed.
  Lemma q_set_dist (h : hp) s a p i d h' : rel h s -> at_ptr s a p -> set_dist h a i d = Ok h' -> fit d ->
    exists s', c_set_dist ly s p i d = Ok s' /\ by_ptrs s' = by_ptrs s /\ rel h' s'.
  Proof.
    intros R0 Ep E Ft. unfold set_dist, c_set_dist in *. open E l El. destruct (q_link _ _ _ _ _ _ R0 Ep El) as (q & -> & [Q _]). cbn [bind].
    apply (q_set_link h s a p i (fst l, d) (fst q, d) h'); auto. split; auto.
  Qed.
  Lemma q_set_entry (h : hp) s a p d h' : rel h s -> at_ptr s a p -> set_data h a d = Ok h' ->
    exists s', c_set_entry ly enc s p d = Ok s' /\ by_ptrs s' = by_ptrs s /\ rel h' s'.
  Proof. exact (rel_set_entry ly new enc list_link other m0 Lo Fair Elen h s a p d h'). Qed.
  Lemma q_free (h : hp) s a p h' : rel h s -> at_ptr s a p -> dealloc h a = Ok h' ->
    exists s', c_free ly s p = Ok s' /\ by_ptrs s' = by_ptrs s /\ rel h' s'.
  Proof. exact (rel_free ly new enc list_link other m0 Lo Fair Oth h s a p h'). Qed.
  Lemma q_zero (h : hp) s p h' : rel h s -> at_ptr s 0 p -> zero_links h 0 null_link = Ok h' ->
    exists s', c_zero ly s p = Ok s' /\ by_ptrs s' = by_ptrs s /\ rel h' s'.
  Proof. exact (rel_zero ly new enc list_link null_link other m0 Lo Fair Zero2 h s p h'). Qed.
  Lemma null2_no (h : hp) s (j q : nat) : rel h s -> at_ptr s j q -> (q =? 0) = false.
  Proof. intros R0 E. apply Nat.eqb_neq. pose proof (at_pos ly enc list_link other m0 h s j q R0 E). lia. Qed.
  Lemma usize_fit d N0 : fit N0 -> d <= N0 -> usize ly d = Ok d.
  Proof. intros F L. unfold usize. now rewrite (fits_less _ _ _ L F). Qed.

  Lemma q_walk (h : hp) s i : rel h s -> forall fuel a p index moved b l index' moved', at_ptr s a p -> lwalk fuel h a i index moved = Ok (b, l, index', moved') ->
    exists p' q, c_walk ly fuel s p i index moved = Ok (p', q, index', moved') /\ at_ptr s b p' /\ lk2 s l q /\ get_link h b i = Ok l /\ moved' + index' = moved + index.
  Proof.
    intros R0. induction fuel as [|f IH]; intros a p index moved b l index' moved' Ep E; [discriminate|]. cbn [lwalk c_walk] in *. open E nx Ex.
    destruct (q_link _ _ _ _ _ _ R0 Ep Ex) as (q & -> & Q & Qd). cbn [bind]. rewrite Qd. destruct (fst nx) as [y|] eqn:Ey; cbn [lk] in Q.
    - rewrite (null2_no _ _ _ _ R0 Q). destruct (Nat.leb_spec (snd nx) index) as [L|L].
      + destruct (IH _ _ _ _ _ _ _ _ Q E) as (p' & q' & E' & A & K & G & S1). exists p', q'. repeat (split; [auto|]). lia.
      + injection E as <- <- <- <-. exists p, q. split; [reflexivity|]. split; [auto|]. split; [split; [now rewrite Ey|auto]|]. auto.
    - rewrite Q. cbn [Nat.eqb]. injection E as <- <- <- <-. exists p, q. split; [reflexivity|]. split; [auto|]. split; [split; [now rewrite Ey|auto]|]. auto.
  Qed.
  Lemma q_walk_all (h : hp) s i a p index b l index' moved : rel h s -> at_ptr s a p -> lwalk_all h a i index = Ok (b, l, index', moved) ->
    exists p' q, c_walk_all ly s p i index = Ok (p', q, index', moved) /\ at_ptr s b p' /\ lk2 s l q /\ get_link h b i = Ok l /\ moved + index' = index.
  Proof. intros R0. unfold lwalk_all, c_walk_all. rewrite (rel_length ly enc list_link other m0 h s R0). intros A E. exact (q_walk _ _ _ R0 _ _ _ _ _ _ _ _ _ A E). Qed.

  Definition lasts (s : bytes) (l1 l2 : list (nat * nat)) : Prop := Forall2 (fun x y => at_ptr s (fst x) (fst y) /\ snd y = snd x) l1 l2.
  Lemma lasts_same s s' l1 l2 : by_ptrs s' = by_ptrs s -> lasts s l1 l2 -> lasts s' l1 l2.
  Proof. unfold lasts, at_ptr. now intros ->. Qed.
  Lemma lasts_set s : forall l1 l2 i a p d, lasts s l1 l2 -> at_ptr s a p -> lasts s (list_set l1 i (a, d)) (list_set l2 i (p, d)).
  Proof.
    induction l1 as [|x l1 IH]; intros l2 i a p d Ls A; inversion Ls as [|? y ? l2' Hh Ht]; subst; [destruct i; constructor|]. destruct i as [|i]; cbn; constructor; auto.
    now apply IH.
  Qed.
  Lemma lasts_nth s l1 : forall l2 i x, lasts s l1 l2 -> nth_error l1 i = Some x -> exists y, nth_error l2 i = Some (y, snd x) /\ at_ptr s (fst x) y.
  Proof.
    induction l1 as [|z l1 IH]; intros l2 [|i] x Ls E; inversion Ls as [|? y ? l2' [Hh Hd] Ht]; subst; try discriminate.
    - injection E as <-. destruct y as [y d]. cbn in *. subst d. eauto.
    - cbn in *. eapply IH; eauto.
  Qed.

  (** The two writes of a level of [insert] *)
  Lemma q_put N0 (h : hp) s a p x y i l q nh h' f : fit N0 -> 1 <= N0 -> rel h s -> at_ptr s a p -> at_ptr s x y -> lk2 s l q -> bnd h f -> snd l <= f i -> (i <= nh -> 1 <= f i) -> f i <= N0 ->
    (if i <=? nh then let* h := set_link h a i (Some x, 1) in set_link h x i l else Ok h) = Ok h' ->
    exists s', (if i <=? nh then let* s := c_set_link ly s p i (y, 1) in c_set_link ly s y i q else Ok s) = Ok s' /\ by_ptrs s' = by_ptrs s /\ rel h' s' /\ bnd h' f.
  Proof.
    intros Ft N1 R0 Ep Ey Q B Hl H1 HN E. destruct (Nat.leb_spec i nh) as [Hi|Hi]; [|injection E as <-; eauto]. open E h1 E1.
    destruct (q_set_link h s a p i (Some x, 1) (y, 1) h1 R0 Ep) as (s1 & -> & P1 & R1); [split; auto|exact E1|exact (fits_less _ _ _ N1 Ft)|]. cbn [bind].
    destruct (q_set_link h1 s1 x y i l q h' R1 (at_same _ _ _ _ P1 Ey) (lk2_same _ _ _ _ P1 Q)) as (s2 & -> & P2 & R2); [exact E|apply (fits_less _ _ _ (Nat.le_trans _ _ _ Hl HN) Ft)|].
    exists s2. split; [reflexivity|]. split; [congruence|]. split; [auto|]. eapply bnd_set_link; [|exact Hl|exact E]. eapply bnd_set_link; [exact B| |exact E1]. cbn. auto.
  Qed.
  Lemma q_insert_loop N0 nh f : fit N0 -> 1 <= N0 -> (forall j, f j <= N0) -> (forall j, j <= nh -> 1 <= f j) -> forall i (h : hp) s a p x y index last last2 h' last',
    rel h s -> at_ptr s a p -> at_ptr s x y -> lasts s last last2 -> bnd h f -> (forall j, j <= i -> exists c, nth_error last j = Some (c, 0)) ->
    linsert_loop i h a index x nh last = Ok (h', last') ->
    exists s' last2', c_insert_loop ly i s p index y nh last2 = Ok (s', last2') /\ by_ptrs s' = by_ptrs s /\ rel h' s' /\ lasts s' last' last2' /\ bnd h' f /\ total last' <= total last + index.
  Proof.
    intros Ft N1 HN H1. induction i as [|i IH]; intros h s a p x y index last last2 h' last' R0 Ep Ex Ls B Z0 E; cbn [linsert_loop c_insert_loop] in *;
    (open E bl Eb; destruct bl as [[[b l] index'] moved]; destruct (q_walk_all _ _ _ _ _ _ _ _ _ _ R0 Ep Eb) as (p' & q & -> & Ep' & Q & G & S1); cbn [bind];
     open E h1 E1; destruct (q_put N0 _ _ _ _ _ _ _ _ _ _ _ _ Ft N1 R0 Ep' Ex Q B (B _ _ _ G) (H1 _) (HN _) E1) as (s1 & -> & P1 & R1 & B1); cbn [bind]).
    - pose proof (lasts_same _ _ _ _ P1 (lasts_set s last last2 0 b p' moved Ls Ep')) as Ls1. injection E as <- <-. eexists s1, _. split; [reflexivity|]. split; [auto|]. split; [auto|]. split; [exact Ls1|]. split; [auto|].
      destruct (Z0 0 (le_n 0)) as (c & Ec). pose proof (total_set last 0 _ (b, moved) Ec). cbn [snd] in *. lia.
    - pose proof (lasts_same _ _ _ _ P1 (lasts_set s last last2 (S i) b p' moved Ls Ep')) as Ls1. destruct (Z0 (S i) (le_n _)) as (c & Ec). pose proof (total_set last (S i) _ (b, moved) Ec) as Tt. cbn [snd] in *.
      assert (Z1 : forall j, j <= i -> exists c, nth_error (list_set last (S i) (b, moved)) j = Some (c, 0)).
      { intros j Hj. rewrite list_set_nth, (proj2 (Nat.eqb_neq (S i) j)) by lia. apply Z0. lia. }
      destruct (IH _ _ _ _ _ _ _ _ _ _ _ R1 (at_same _ _ _ _ P1 Ep') (at_same _ _ _ _ P1 Ex) Ls1 B1 Z1 E) as (s2 & last2' & -> & P2 & R2 & Ls2 & B2 & T2).
      exists s2, last2'. split; [reflexivity|]. split; [congruence|]. repeat (split; [auto|]). lia.
  Qed.

  Definition grown (b N0 nh i j : nat) : nat := if (j <? i) || (j <=? nh) then N0 else b.
  Lemma grown_more b N0 nh i j : b <= N0 -> grown b N0 nh i j <= grown b N0 nh (S i) j.
  Proof.
    intros L. unfold grown. destruct (Nat.leb_spec j nh); rewrite ?orb_true_r, ?orb_false_r; [lia|]. destruct (Nat.ltb_spec j i), (Nat.ltb_spec j (S i)); lia.
  Qed.
  Lemma skipn_cons {U} : forall (l : list U) i x, nth_error l i = Some x -> skipn i l = x :: skipn (S i) l.
  Proof. induction l as [|y l IH]; intros [|i] x E; try discriminate; [now injection E as ->|]. exact (IH i x E). Qed.
  Lemma q_dist_loop b N0 M nh : fit N0 -> b + 1 <= N0 -> M + 1 <= N0 -> forall n i prev (h : hp) s x y last last2 h',
    rel h s -> at_ptr s x y -> lasts s last last2 -> bnd h (grown b N0 nh i) -> prev + total (skipn i last) <= M ->
    ldist_loop n i prev h x nh last = Ok h' ->
    exists s', c_dist_loop ly n i prev s y nh last2 = Ok s' /\ by_ptrs s' = by_ptrs s /\ rel h' s'.
  Proof.
    intros Ft Hb HM. induction n as [|n IH]; intros i prev h s x y last last2 h' R0 Ex Ls B Hp E; cbn [ldist_loop c_dist_loop] in *; [injection E as <-; eauto|].
    destruct (nth_error last i) as [[a d]|] eqn:Ea; [|discriminate]. cbn [expect bind] in E. destruct (lasts_nth _ _ _ _ _ Ls Ea) as (p & -> & Ep). cbn [expect bind snd fst] in *.
    rewrite (skipn_cons _ _ _ Ea) in Hp. unfold total in Hp. cbn [fold_right snd] in Hp. fold (total (skipn (S i) last)) in Hp.
    assert (B' : bnd h (grown b N0 nh (S i))) by (eapply bnd_more; [intros j; apply grown_more; lia|exact B]).
    assert (Gi : grown b N0 nh (S i) i = N0) by (unfold grown; now rewrite (proj2 (Nat.ltb_lt _ _)) by lia).
    open E h1 E1.
    assert (X : exists s1, (if i <=? nh then let* d1 := usize ly (prev + 1) in let* s := c_set_dist ly s p i d1 in let* l := c_link ly s y i in let* d' := checked_sub (snd l) prev in c_set_dist ly s y i d'
                            else let* l := c_link ly s p i in let* d1 := usize ly (snd l + 1) in c_set_dist ly s p i d1) = Ok s1 /\ by_ptrs s1 = by_ptrs s /\ rel h1 s1 /\ bnd h1 (grown b N0 nh (S i))).
    { destruct (Nat.leb_spec i nh) as [Hi|Hi].
      - rewrite (usize_fit _ N0 Ft) by lia. cbn [bind]. open E1 h2 E2. destruct (q_set_dist _ _ _ _ _ _ _ R0 Ep E2) as (s2 & -> & P2 & R2); [apply (fits_less _ _ N0); [lia|auto]|]. cbn [bind].
        assert (B2 : bnd h2 (grown b N0 nh (S i))) by (eapply bnd_set_dist; [exact B'| |exact E2]; cbn beta; rewrite Gi; lia).
        open E1 l El. destruct (q_link _ _ _ _ _ _ R2 (at_same _ _ _ _ P2 Ex) El) as (q & -> & _ & Qd). cbn [bind]. rewrite Qd. open E1 d' Ed. cbn [bind].
        assert (d' <= snd l) by (unfold checked_sub in Ed; destruct (prev <=? snd l); [injection Ed as <-; lia|discriminate]). pose proof (B2 _ _ _ El) as Bl. rewrite Gi in Bl.
        destruct (q_set_dist _ _ _ _ _ _ _ R2 (at_same _ _ _ _ P2 Ex) E1) as (s3 & -> & P3 & R3); [apply (fits_less _ _ N0); [lia|auto]|].
        exists s3. split; [reflexivity|]. split; [congruence|]. split; [auto|]. eapply bnd_set_dist; [exact B2| |exact E1]; cbn beta; rewrite Gi; lia.
      - open E1 l El. destruct (q_link _ _ _ _ _ _ R0 Ep El) as (q & -> & _ & Qd). cbn [bind]. rewrite Qd. pose proof (B _ _ _ El) as Bl. unfold grown in Bl.
        rewrite (proj2 (Nat.ltb_ge _ _)), (proj2 (Nat.leb_gt _ _)) in Bl by lia. cbn [orb] in Bl. rewrite (usize_fit _ N0 Ft) by lia. cbn [bind].
        destruct (q_set_dist _ _ _ _ _ _ _ R0 Ep E1) as (s2 & -> & P2 & R2); [apply (fits_less _ _ N0); [lia|auto]|].
        exists s2. split; [reflexivity|]. split; [auto|]. split; [auto|]. eapply bnd_set_dist; [exact B'| |exact E1]; cbn beta; rewrite Gi; lia. }
    destruct X as (s1 & -> & P1 & R1 & B1). cbn [bind].
    assert (Hp' : d + prev + total (skipn (S i) last) <= M) by lia.
    destruct (IH _ _ _ _ _ _ _ _ _ R1 (at_same _ _ _ _ P1 Ex) (lasts_same _ _ _ _ P1 Ls) B1 Hp' E) as (s2 & -> & P2 & R2).
    exists s2. split; [reflexivity|]. split; [congruence|auto].
  Qed.

  Definition shrunk (b N0 i j : nat) : nat := if j <=? i then b else N0.
  Lemma q_remove_loop b N0 : fit N0 -> b + b <= N0 -> forall i (h : hp) s a p index h' v,
    rel h s -> at_ptr s a p -> bnd h (shrunk b N0 i) -> lremove_loop i h a index = Ok (h', v) ->
    exists s', c_remove_loop ly dec i s p index = Ok (s', v) /\ by_ptrs s' = by_ptrs s /\ rel h' s'.
  Proof.
    intros Ft Hb.
    assert (Lv : forall i (h : hp) s a p l q index r, rel h s -> at_ptr s a p -> lk2 s l q -> get_link h a i = Ok l -> bnd h (shrunk b N0 i) ->
      match fst l with
      | None => Ok (h, None)
      | Some y => if snd l =? index + 1 then let* ly0 := get_link h y i in let* h := set_link h a i ly0 in let* h := set_link h y i l in let* d := checked_sub (snd l) 1 in
                    let* h := set_dist h a i (snd ly0 + d) in Ok (h, Some y)
                  else let* d := checked_sub (snd l) 1 in let* h := set_dist h a i d in Ok (h, None)
      end = Ok r ->
      exists s' y, (if fst q =? 0 then Ok (s, 0)
        else if snd q =? index + 1 then let* ly0 := c_link ly s (fst q) i in let* s := c_set_link ly s p i ly0 in let* s := c_set_link ly s (fst q) i q in let* d := checked_sub (snd q) 1 in
               let* d := usize ly (snd ly0 + d) in let* s := c_set_dist ly s p i d in Ok (s, fst q)
             else let* d := checked_sub (snd q) 1 in let* s := c_set_dist ly s p i d in Ok (s, 0)) = Ok (s', y) /\
        by_ptrs s' = by_ptrs s /\ rel (fst r) s' /\ lk s' (snd r) y /\ bnd (fst r) (fun j => if j <? i then b else N0)).
    { intros i h s a p l q index r R0 Ep [Q Qd] G B E. pose proof (B _ _ _ G) as Bl. unfold shrunk in Bl. rewrite Nat.leb_refl in Bl.
      assert (B' : bnd h (fun j => if j <? i then b else N0)).
      { eapply bnd_more; [|exact B]. intros j. unfold shrunk. cbn beta. destruct (Nat.leb_spec j i), (Nat.ltb_spec j i); lia. }
      assert (Gi : (if i <? i then b else N0) = N0) by now rewrite Nat.ltb_irrefl.
      rewrite Qd. destruct (fst l) as [y|] eqn:Ey; cbn [lk] in Q.
      - rewrite (null2_no _ _ _ _ R0 Q). destruct (snd l =? index + 1).
        + open E l2 E2. destruct (q_link _ _ _ _ _ _ R0 Q E2) as (q2 & -> & Q2). cbn [bind]. pose proof (B _ _ _ E2) as Bl2. unfold shrunk in Bl2. rewrite Nat.leb_refl in Bl2.
          open E h1 E1. destruct (q_set_link _ _ _ _ _ _ _ _ R0 Ep Q2 E1) as (s1 & -> & P1 & R1); [apply (fits_less _ _ N0); [lia|auto]|]. cbn [bind].
          assert (B1 : bnd h1 (fun j => if j <? i then b else N0)) by (eapply bnd_set_link; [exact B'| |exact E1]; cbn beta; rewrite Gi; lia).
          open E h3 E3. destruct (q_set_link h1 s1 y (fst q) i l q h3 R1 (at_same _ _ _ _ P1 Q)) as (s3 & -> & P3 & R3); [split; [rewrite Ey; exact (at_same _ _ _ _ P1 Q)|auto]|exact E3|apply (fits_less _ _ N0); [lia|auto]|]. cbn [bind].
          assert (B3 : bnd h3 (fun j => if j <? i then b else N0)) by (eapply bnd_set_link; [exact B1| |exact E3]; cbn beta; rewrite Gi; lia).
          open E d Ed. assert (d <= snd l) by (unfold checked_sub in Ed; destruct (1 <=? snd l); [injection Ed as <-; lia|discriminate]).
          open E h4 E4. injection E as <-. destruct Q2 as [_ Q2]. cbn [bind]. rewrite Q2. rewrite (usize_fit _ N0 Ft) by lia. cbn [bind].
          assert (P03 : by_ptrs s3 = by_ptrs s) by congruence.
          destruct (q_set_dist _ _ _ _ _ _ _ R3 (at_same _ _ _ _ P03 Ep) E4) as (s4 & -> & P4 & R4); [apply (fits_less _ _ N0); [lia|auto]|]. cbn [bind].
          exists s4, (fst q). split; [reflexivity|]. assert (P04 : by_ptrs s4 = by_ptrs s) by congruence. split; [auto|]. split; [auto|]. split; [exact (at_same _ _ _ _ P04 Q)|].
          cbn [fst]. eapply bnd_set_dist; [exact B3| |exact E4]; cbn beta; rewrite Gi; lia.
        + open E d Ed. assert (d <= snd l) by (unfold checked_sub in Ed; destruct (1 <=? snd l); [injection Ed as <-; lia|discriminate]). cbn [bind].
          open E h4 E4. injection E as <-. destruct (q_set_dist _ _ _ _ _ _ _ R0 Ep E4) as (s4 & -> & P4 & R4); [apply (fits_less _ _ N0); [lia|auto]|]. cbn [bind].
          exists s4, 0. split; [reflexivity|]. split; [auto|]. split; [auto|]. split; [reflexivity|]. cbn [fst]. eapply bnd_set_dist; [exact B'| |exact E4]; cbn beta; rewrite Gi; lia.
      - rewrite Q. cbn [Nat.eqb]. injection E as <-. exists s, 0. split; [reflexivity|]. split; [auto|]. split; [auto|]. split; [reflexivity|]. exact B'. }
    induction i as [|i IH]; intros h s a p index h' v R0 Ep B E; cbn [lremove_loop c_remove_loop] in *;
    (open E bl Eb; destruct bl as [[[c l] index'] moved]; destruct (q_walk_all _ _ _ _ _ _ _ _ _ _ R0 Ep Eb) as (p' & q & -> & Ep' & Q & G & S1); cbn [bind];
     open E r Er; destruct (Lv _ _ _ _ _ _ _ _ _ R0 Ep' Q G B Er) as (s1 & y & -> & P1 & R1 & K & B1); cbn [bind]; destruct r as [h1 [x|]]; cbn [fst snd lk] in *).
    - rewrite (null2_no _ _ _ _ R1 K). open E w Ew. rewrite (q_entry _ _ _ _ _ R1 K Ew). cbn [bind]. open E h2 E2. destruct (q_free _ _ _ _ _ R1 K E2) as (s2 & -> & P2 & R2). cbn [bind].
      injection E as <- <-. exists s2. split; [reflexivity|]. split; [congruence|auto].
    - discriminate.
    - assert (B2 : bnd h1 (shrunk b N0 i)).
      { eapply bnd_more; [|exact B1]. intros j. unfold shrunk. cbn beta. destruct (Nat.leb_spec j i), (Nat.ltb_spec j (S i)); lia. }
      destruct (IH _ _ _ _ _ _ _ R1 (at_same _ _ _ _ P1 Ep') B2 E) as (s2 & -> & P2 & R2). exists s2. split; [reflexivity|]. split; [congruence|auto].
    - assert (B2 : bnd h1 (shrunk b N0 i)).
      { eapply bnd_more; [|exact B1]. intros j. unfold shrunk. cbn beta. destruct (Nat.leb_spec j i), (Nat.ltb_spec j (S i)); lia. }
      destruct (IH _ _ _ _ _ _ _ R1 (at_same _ _ _ _ P1 Ep') B2 E) as (s2 & -> & P2 & R2). exists s2. split; [reflexivity|]. split; [congruence|auto].
  Qed.

  Lemma q_find_loop : forall i (h : hp) s a p index l, rel h s -> at_ptr s a p -> lfind_loop i h a index = Ok l -> exists q, c_find_loop ly i s p index = Ok q /\ lk s l q.
  Proof.
    induction i as [|i IH]; intros h s a p index r R0 Ep E; cbn [lfind_loop c_find_loop] in *;
    (open E bl Eb; destruct bl as [[[b l] index'] moved]; destruct (q_walk_all _ _ _ _ _ _ _ _ _ _ R0 Ep Eb) as (p' & q & -> & Ep' & [Q Qd] & _ & _); cbn [bind]; rewrite Qd;
     destruct (fst l) as [y|]; cbn [lk] in Q; [rewrite (null2_no _ _ _ _ R0 Q); destruct (snd l =? index' + 1)|rewrite Q; cbn [Nat.eqb]]).
    1,4: injection E as <-; eauto.
    1,2: injection E as <-; exists 0; split; reflexivity.
    1,2: exact (IH _ _ _ _ _ _ R0 Ep' E).
  Qed.
  Lemma q_free_from : forall fuel (h : hp) s l q h' ds, rel h s -> lk s l q -> lfree_from fuel h l = Ok (h', ds) ->
    exists s', c_free_from ly dec fuel s q = Ok s' /\ by_ptrs s' = by_ptrs s /\ rel h' s'.
  Proof.
    induction fuel as [|f IH]; intros h s [y|] q h' ds R0 Q E; cbn [lfree_from c_free_from lk] in *; try discriminate; try (subst q; injection E as <- <-; exists s; cbn [Nat.eqb]; auto; fail).
    rewrite (null2_no _ _ _ _ R0 Q). open E nn En. destruct (q_link _ _ _ _ _ _ R0 Q En) as (r & -> & Qn & _). cbn [bind]. open E e Ee. rewrite (q_entry _ _ _ _ _ R0 Q Ee). cbn [bind].
    open E h1 E1. destruct (q_free _ _ _ _ _ R0 Q E1) as (s1 & -> & P1 & R1). cbn [bind]. open E t Et. destruct t as [h2 es]. injection E as <- <-.
    destruct (IH _ _ _ _ _ _ R1 (lk_same _ _ _ _ P1 Qn) Et) as (s2 & -> & P2 & R2). exists s2. split; [reflexivity|]. split; [congruence|auto].
  Qed.
  Lemma q_iter_from : forall fuel (h : hp) s l q es, rel h s -> lk s l q -> liter_from fuel h l = Ok es -> c_iter_from ly dec fuel s q = Ok es.
  Proof.
    induction fuel as [|f IH]; intros h s [y|] q es R0 Q E; cbn [liter_from c_iter_from lk] in *; try discriminate; try (subst q; exact E).
    rewrite (null2_no _ _ _ _ R0 Q). open E e Ee. rewrite (q_entry _ _ _ _ _ R0 Q Ee). cbn [bind]. open E nn En. destruct (q_link _ _ _ _ _ _ R0 Q En) as (r & -> & Qn & _). cbn [bind].
    open E t Et. now rewrite (IH _ _ _ _ _ R0 Qn Et).
  Qed.
  Lemma q_itermut_from : forall vs (h : hp) s l q h' es, rel h s -> lk s l q -> litermut_from h l vs = Ok (h', es) ->
    exists s', c_itermut_from ly enc dec s q vs = Ok (s', es) /\ by_ptrs s' = by_ptrs s /\ rel h' s'.
  Proof.
    induction vs as [|v vs IH]; intros h s [y|] q h' es R0 Q E; cbn [litermut_from c_itermut_from lk] in *; try (subst q); try (injection E as <- <-; exists s; cbn [Nat.eqb]; auto; fail).
    rewrite (null2_no _ _ _ _ R0 Q). open E e Ee. rewrite (q_entry _ _ _ _ _ R0 Q Ee). cbn [bind]. open E nn En. destruct (q_link _ _ _ _ _ _ R0 Q En) as (r & -> & Qn & _). cbn [bind].
    open E h1 E1. destruct (q_set_entry _ _ _ _ _ _ R0 Q E1) as (s1 & -> & P1 & R1). cbn [bind]. open E t Et. destruct t as [h2 es2]. injection E as <- <-.
    destruct (IH _ _ _ _ _ _ R1 (lk_same _ _ _ _ P1 Qn) Et) as (s2 & -> & P2 & R2). exists s2. split; [reflexivity|]. split; [congruence|auto].
  Qed.
  Lemma q_into_iter_take : forall n (h : hp) s l q h' l' es, rel h s -> lk s l q -> linto_iter_take n h l = Ok (h', l', es) ->
    exists s' q', c_into_iter_take ly dec n s q = Ok (s', q', es) /\ by_ptrs s' = by_ptrs s /\ rel h' s' /\ lk s' l' q'.
  Proof.
    induction n as [|n IH]; intros h s [y|] q h' l' es R0 Q E; cbn [linto_iter_take c_into_iter_take lk] in *; try (injection E as <- <- <-; exists s, q; auto; fail).
    - rewrite (null2_no _ _ _ _ R0 Q). open E e Ee. rewrite (q_entry _ _ _ _ _ R0 Q Ee). cbn [bind]. open E nn En. destruct (q_link _ _ _ _ _ _ R0 Q En) as (r & -> & Qn & _). cbn [bind].
      open E h1 E1. destruct (q_free _ _ _ _ _ R0 Q E1) as (s1 & -> & P1 & R1). cbn [bind]. open E t Et. destruct t as [[h2 l2] es2]. injection E as <- <- <-.
      destruct (IH _ _ _ _ _ _ _ R1 (lk_same _ _ _ _ P1 Qn) Et) as (s2 & q2 & -> & P2 & R2 & Q2). cbn [bind]. exists s2, q2. split; [reflexivity|]. split; [congruence|auto].
    - subst q. injection E as <- <- <-. exists s, 0. cbn [Nat.eqb]. split; [reflexivity|]. split; [reflexivity|]. split; [exact R0|reflexivity].
  Qed.
  Lemma q_into_iter_drop : forall fuel (h : hp) s l q h' ds, rel h s -> lk s l q -> linto_iter_drop fuel h l = Ok (h', ds) ->
    exists s', c_into_iter_drop ly dec fuel s q = Ok s' /\ by_ptrs s' = by_ptrs s /\ rel h' s'.
  Proof.
    induction fuel as [|f IH]; intros h s [y|] q h' ds R0 Q E; cbn [linto_iter_drop c_into_iter_drop lk] in *; try discriminate; try (subst q; injection E as <- <-; exists s; cbn [Nat.eqb]; auto; fail).
    rewrite (null2_no _ _ _ _ R0 Q). open E e Ee. rewrite (q_entry _ _ _ _ _ R0 Q Ee). cbn [bind]. open E nn En. destruct (q_link _ _ _ _ _ _ R0 Q En) as (r & -> & Qn & _). cbn [bind].
    open E h1 E1. destruct (q_free _ _ _ _ _ R0 Q E1) as (s1 & -> & P1 & R1). cbn [bind]. open E t Et. destruct t as [h2 es]. injection E as <- <-.
    destruct (IH _ _ _ _ _ _ R1 (lk_same _ _ _ _ P1 Qn) Et) as (s2 & -> & P2 & R2). exists s2. split; [reflexivity|]. split; [congruence|auto].
  Qed.

  (** ** The list *)
  Record lrel (m : skip_list T) (b : byte_list) : Prop := {
    lr_rel : rel (sl_heap m) (bl_bytes b);
    lr_head : at_ptr (bl_bytes b) 0 (bl_head b);
    lr_len : bl_len b = sl_len m
  }.
  Lemma slist_find_eq (m : skip_list T) k : slist_find m k = lfind_loop max_height (sl_heap m) 0 k.
  Proof. reflexivity. Qed.
  Lemma blist_find_eq b k : blist_find ly b k = c_find_loop ly max_height (bl_bytes b) (bl_head b) k.
  Proof. reflexivity. Qed.
  Lemma slist_get_eq (m : skip_list T) k : slist_get m k = let* p := slist_find m k in match p with None => Ok None | Some y => let* v := get_data (sl_heap m) y in Ok (Some v) end.
  Proof. reflexivity. Qed.
  Lemma blist_get_eq b k : blist_get ly dec b k = let* y := blist_find ly b k in if y =? 0 then Ok None else let* v := c_entry ly dec (bl_bytes b) y in Ok (Some v).
  Proof. reflexivity. Qed.
  Lemma slist_get_mut_eq (m : skip_list T) k v : slist_get_mut m k v = let* p := slist_find m k in
    match p with None => Ok (m, None) | Some y => let* old := get_data (sl_heap m) y in let* h := set_data (sl_heap m) y v in Ok (SkipList h (sl_len m), Some old) end.
  Proof. reflexivity. Qed.
  Lemma blist_get_mut_eq b k v : blist_get_mut ly enc dec b k v = let* y := blist_find ly b k in
    if y =? 0 then Ok (b, None) else let* old := c_entry ly dec (bl_bytes b) y in let* s := c_set_entry ly enc (bl_bytes b) y v in Ok (ByteList s (bl_head b) (bl_len b), Some old).
  Proof. reflexivity. Qed.
  Lemma q_find m b k l : lrel m b -> slist_find m k = Ok l -> exists q, blist_find ly b k = Ok q /\ lk (bl_bytes b) l q.
  Proof. intros [R0 Hd Ln] E. rewrite slist_find_eq in E. rewrite blist_find_eq. exact (q_find_loop max_height (sl_heap m) (bl_bytes b) 0 (bl_head b) k l R0 Hd E). Qed.
  Lemma q_get m b k v : lrel m b -> slist_get m k = Ok v -> blist_get ly dec b k = Ok v.
  Proof.
    intros M E. rewrite slist_get_eq in E. rewrite blist_get_eq. open E l El. destruct (q_find m b k l M El) as (q & -> & Q). cbn [bind]. destruct l as [y|]; cbn [lk] in Q.
    - rewrite (null2_no _ _ _ _ (lr_rel _ _ M) Q). open E e Ee. rewrite (q_entry _ _ _ _ _ (lr_rel _ _ M) Q Ee). exact E.
    - subst q. exact E.
  Qed.
  Lemma q_get_mut m b k v m' r : lrel m b -> slist_get_mut m k v = Ok (m', r) -> exists b', blist_get_mut ly enc dec b k v = Ok (b', r) /\ lrel m' b'.
  Proof.
    intros M E. rewrite slist_get_mut_eq in E. rewrite blist_get_mut_eq. open E l El. destruct (q_find m b k l M El) as (q & -> & Q). cbn [bind]. pose proof (lr_rel _ _ M) as R0. destruct l as [y|]; cbn [lk] in Q.
    - rewrite (null2_no _ _ _ _ R0 Q). open E e Ee. rewrite (q_entry _ _ _ _ _ R0 Q Ee). cbn [bind]. open E h1 E1. destruct (q_set_entry _ _ _ _ _ _ R0 Q E1) as (s1 & -> & P1 & R1). cbn [bind].
      injection E as <- <-. eexists. split; [reflexivity|]. constructor; cbn; [exact R1|exact (at_same _ _ _ _ P1 (lr_head _ _ M))|apply M].
    - subst q. injection E as <- <-. cbn [Nat.eqb]. eauto.
  Qed.
  Lemma q_insert c m b i v d m' r : sl_heap m <> [] -> lrel m b -> bnd (sl_heap m) (fun _ => c) -> sl_len m <= c -> fit (c + 1) -> slist_insert m i v d = Ok (m', r) ->
    blist_insert ly new enc b i v d = Ok None \/ exists b', blist_insert ly new enc b i v d = Ok (Some (b', r)) /\ lrel m' b'.
  Proof.
    intros Ne M B Hl Ft E. unfold slist_insert, blist_insert in *. rewrite (lr_len _ _ M). destruct (Nat.leb_spec i (sl_len m)) as [Hi|Hi]; [|injection E as <- <-; right; eauto].
    rewrite (usize_fit _ _ Ft) by lia. cbn [bind].
    destruct (rel_new ly new enc list_link null_link other m0 Lo Fair Elen Zero2 Law (sl_heap m) (bl_bytes b) (Some v) (S (height_of d)) (lr_rel _ _ M)) as [X|(s1 & p & X & P1 & R1)]; [tauto|..]; fold (c_new ly new enc) in X; rewrite X; cbn [bind]; [now left|right].
    pose proof (bnd_alloc (sl_heap m) (Some v) (S (height_of d)) _ B) as B1.
    cbn [alloc fst] in *. open E hr Eh. destruct hr as [h2 last].
    assert (A0 : at_ptr s1 0 (bl_head b)). { pose proof (lr_head _ _ M) as Q. unfold at_ptr in *. rewrite P1, nth_error_app1; auto. apply nth_error_Some. congruence. }
    assert (A1 : at_ptr s1 (length (sl_heap m)) p). { unfold at_ptr. rewrite P1, <- (rel_length ly enc list_link other m0 _ _ (lr_rel _ _ M)), nth_error_app2, Nat.sub_diag by lia. reflexivity. }
    assert (B2 : bnd (sl_heap m ++ [Some (SN (Some v) (repeat null_link (S (height_of d))))]) (grown c (c + 1) (height_of d) 1)).
    { eapply bnd_more; [|exact B1]. intros j. unfold grown. cbn beta. destruct (_ || _); lia. }
    assert (Ls : lasts s1 (repeat (0, 0) (S max_height)) (repeat (bl_head b, 0) (S max_height))).
    { generalize (S max_height). induction n as [|n IHn]; cbn [repeat]; constructor; auto. }
    assert (G1 : forall j, grown c (c + 1) (height_of d) 1 j <= c + 1) by (intros j; unfold grown; destruct (_ || _); lia).
    assert (G2 : forall j, j <= height_of d -> 1 <= grown c (c + 1) (height_of d) 1 j) by (intros j Hj; unfold grown; rewrite (proj2 (Nat.leb_le _ _)), orb_true_r by auto; lia).
    assert (Z0 : forall j, j <= max_height -> exists k, nth_error (repeat (0, 0) (S max_height)) j = Some (k, 0)).
    { intros j Hj. exists 0. destruct (nth_error (repeat (0, 0) (S max_height)) j) as [x|] eqn:Ex; [apply nth_error_In, repeat_spec in Ex; now subst|].
      apply nth_error_None in Ex. rewrite repeat_length in Ex. lia. }
    destruct (q_insert_loop (c + 1) (height_of d) (grown c (c + 1) (height_of d) 1) Ft ltac:(lia) G1 G2 max_height _ s1 0 (bl_head b) (length (sl_heap m)) p i _ _ h2 last R1 A0 A1 Ls B2 Z0 Eh)
      as (s2 & last2 & -> & P2 & R2 & Ls2 & B3 & Tt). cbn [bind].
    destruct last as [|[a0 d0] last]; [discriminate|]. cbn [nth_error expect bind] in E. inversion Ls2 as [|? [p0 e0] ? last2' [Q0 Q1] Q2]; subst. cbn [fst snd] in Q0, Q1. subst e0. cbn [nth_error expect bind].
    open E h3 E3. injection E as <- <-.
    assert (T0 : d0 + total last <= i) by (unfold total in *; cbn [fold_right snd repeat max_height] in Tt; lia).
    destruct (q_dist_loop c (c + 1) i (height_of d) Ft ltac:(lia) ltac:(lia) max_height 1 d0 _ s2 (length (sl_heap m)) p _ _ h3 R2 (at_same _ _ _ _ P2 A1) Ls2 B3 T0 E3) as (s3 & -> & P3 & R3). cbn [bind].
    eexists. split; [reflexivity|]. constructor; cbn [bl_bytes bl_head bl_len sl_heap sl_len]; [exact R3|exact (at_same _ _ _ _ P3 (at_same _ _ _ _ P2 A0))|lia].
  Qed.
  Lemma q_remove c m b i m' r : lrel m b -> bnd (sl_heap m) (fun _ => c) -> fit (c + c) -> slist_remove m i = Ok (m', r) -> exists b', blist_remove ly dec b i = Ok (b', r) /\ lrel m' b'.
  Proof.
    intros M B Ft E. unfold slist_remove, blist_remove in *. rewrite (lr_len _ _ M). destruct (i <? sl_len m); [|injection E as <- <-; eauto]. open E hr Eh. destruct hr as [h2 v].
    assert (B' : bnd (sl_heap m) (shrunk c (c + c) max_height)) by (eapply bnd_more; [|exact B]; intros j; unfold shrunk; cbn beta; destruct (j <=? max_height); lia).
    destruct (q_remove_loop c (c + c) Ft (le_n _) max_height (sl_heap m) (bl_bytes b) 0 (bl_head b) i h2 v (lr_rel _ _ M) (lr_head _ _ M) B' Eh) as (s2 & -> & P2 & R2). cbn [bind]. open E n En. injection E as <- <-. cbn [bind].
    eexists. split; [reflexivity|]. constructor; cbn; [exact R2|exact (at_same _ _ _ _ P2 (lr_head _ _ M))|reflexivity].
  Qed.
  Lemma q_clear m b m' ds : lrel m b -> slist_clear m = Ok (m', ds) -> exists b', blist_clear ly dec b = Ok b' /\ lrel m' b'.
  Proof.
    intros M E. unfold slist_clear, blist_clear in *. pose proof (lr_rel _ _ M) as R0. pose proof (lr_head _ _ M) as Hd. open E l El. destruct (q_link _ _ _ _ _ _ R0 Hd El) as (q & -> & Q & _). cbn [bind].
    open E t Et. destruct t as [h1 es]. rewrite (rel_length ly enc list_link other m0 _ _ R0). destruct (q_free_from _ _ _ _ _ _ _ R0 Q Et) as (s1 & -> & P1 & R1). cbn [bind].
    open E h2 E2. destruct (q_zero _ _ _ _ R1 (at_same _ _ _ _ P1 Hd) E2) as (s2 & -> & P2 & R2). cbn [bind]. injection E as <- <-.
    eexists. split; [reflexivity|]. constructor; cbn; [exact R2|exact (at_same _ _ _ _ P2 (at_same _ _ _ _ P1 Hd))|reflexivity].
  Qed.
  Lemma q_drop m b h' ds : lrel m b -> slist_drop m = Ok (h', ds) -> exists s', blist_drop ly dec b = Ok s' /\ by_ptrs s' = by_ptrs (bl_bytes b) /\ rel h' s'.
  Proof.
    intros M E. unfold slist_drop, ldrop, blist_drop in *. pose proof (lr_rel _ _ M) as R0. pose proof (lr_head _ _ M) as Hd. open E l El. destruct (q_link _ _ _ _ _ _ R0 Hd El) as (q & -> & Q & _). cbn [bind].
    open E h1 E1. destruct (q_free _ _ _ _ _ R0 Hd E1) as (s1 & -> & P1 & R1). cbn [bind]. rewrite (rel_length ly enc list_link other m0 _ _ R1).
    destruct (q_free_from _ _ _ _ _ _ _ R1 (lk_same _ _ _ _ P1 Q) E) as (s2 & -> & P2 & R2). exists s2. split; [reflexivity|]. split; [congruence|auto].
  Qed.
  Lemma q_iter m b es : lrel m b -> slist_iter m = Ok es -> blist_iter ly dec b = Ok es.
  Proof.
    intros M E. unfold slist_iter, blist_iter in *. pose proof (lr_rel _ _ M) as R0. pose proof (lr_head _ _ M) as Hd. open E l El. destruct (q_link _ _ _ _ _ _ R0 Hd El) as (q & -> & Q & _). cbn [bind].
    rewrite (rel_length ly enc list_link other m0 _ _ R0). exact (q_iter_from _ _ _ _ _ _ R0 Q E).
  Qed.
  Lemma q_iter_mut m b vs m' es : lrel m b -> slist_iter_mut m vs = Ok (m', es) -> exists b', blist_iter_mut ly enc dec b vs = Ok (b', es) /\ lrel m' b'.
  Proof.
    intros M E. unfold slist_iter_mut, blist_iter_mut in *. pose proof (lr_rel _ _ M) as R0. pose proof (lr_head _ _ M) as Hd. open E l El. destruct (q_link _ _ _ _ _ _ R0 Hd El) as (q & -> & Q & _). cbn [bind].
    open E t Et. destruct t as [h1 es1]. injection E as <- <-. destruct (q_itermut_from _ _ _ _ _ _ _ R0 Q Et) as (s1 & -> & P1 & R1). cbn [bind].
    eexists. split; [reflexivity|]. constructor; cbn; [exact R1|exact (at_same _ _ _ _ P1 Hd)|apply M].
  Qed.
  Lemma q_into_iter m b n h' es ds : lrel m b -> slist_into_iter m n = Ok (h', es, ds) -> exists s', blist_into_iter ly dec b n = Ok (s', es) /\ rel h' s'.
  Proof.
    intros M E. unfold slist_into_iter, blist_into_iter in *. pose proof (lr_rel _ _ M) as R0. pose proof (lr_head _ _ M) as Hd. open E t Et. destruct t as [h1 l1].
    unfold linto_iter_new, c_into_iter_new in *. open Et l El. destruct (q_link _ _ _ _ _ _ R0 Hd El) as (q & -> & Q & _). cbn [bind].
    open Et h2 E2. destruct (q_zero _ _ _ _ R0 Hd E2) as (s2 & -> & P2 & R2). cbn [bind]. open Et t3 E3. destruct t3 as [h3 ds3]. injection Et as <- <-.
    destruct (q_drop (SkipList h2 (sl_len m)) (ByteList s2 (bl_head b) (bl_len b)) h3 ds3) as (s3 & -> & P3 & R3); [|exact E3|].
    { constructor; cbn; [exact R2|exact (at_same _ _ _ _ P2 Hd)|apply M]. }
    cbn [bl_bytes bind] in *. open E t4 E4. destruct t4 as [[h4 l4] es4]. destruct (q_into_iter_take _ _ _ _ _ _ _ _ R3 (lk_same _ _ _ _ P3 (lk_same _ _ _ _ P2 Q)) E4) as (s4 & q4 & -> & P4 & R4 & Q4). cbn [bind].
    open E t5 E5. destruct t5 as [h5 ds5]. injection E as <- <- <-. rewrite (rel_length ly enc list_link other m0 _ _ R4). destruct (q_into_iter_drop _ _ _ _ _ _ _ R4 Q4 E5) as (s5 & -> & P5 & R5). cbn [bind]. eauto.
  Qed.
  Lemma q_new s : rel [] s -> blist_new ly new enc s = Ok None \/ exists b, blist_new ly new enc s = Ok (Some b) /\ lrel slist_new b.
  Proof.
    intros R0. unfold blist_new. destruct (rel_new ly new enc list_link null_link other m0 Lo Fair Elen Zero2 Law [] s None (S max_height) R0) as [X|(s1 & p & X & P1 & R1)]; [auto|..];
      fold (c_new ly new enc) in X; rewrite X; cbn [bind]; [now left|right]. eexists. split; [reflexivity|]. constructor; cbn [bl_bytes bl_head bl_len sl_len slist_new]; [exact R1| |reflexivity].
    unfold at_ptr. rewrite P1. pose proof (rel_length ly enc list_link other m0 _ _ R0) as Ln. destruct (by_ptrs s); [reflexivity|discriminate].
  Qed.

  Lemma slist_step_get (m : skip_list T) i d : slist_step m (QGet i, d) = let* x := slist_get m i in Ok (m, QOpt x).
  Proof. reflexivity. Qed.
  Lemma slist_step_index (m : skip_list T) i d : slist_step m (QIndex i, d) = let* x := slist_get m i in Ok (m, QVal (expect x)).
  Proof. reflexivity. Qed.
  Lemma slist_step_get_mut (m : skip_list T) i v d : slist_step m (QGetMut i v, d) = let* (m, x) := slist_get_mut m i v in Ok (m, QOpt x).
  Proof. reflexivity. Qed.
  Lemma slist_step_index_mut (m : skip_list T) i v d : slist_step m (QIndexMut i v, d) = let* (m, x) := slist_get_mut m i v in Ok (m, QVal (expect x)).
  Proof. reflexivity. Qed.
  Lemma blist_op_get b i d : blist_op ly new enc dec b (QGet i, d) = let* x := blist_get ly dec b i in Ok (Some b, Some (QOpt x)).
  Proof. reflexivity. Qed.
  Lemma blist_op_index b i d : blist_op ly new enc dec b (QIndex i, d) = let* x := blist_get ly dec b i in Ok (Some b, Some (QVal (expect x))).
  Proof. reflexivity. Qed.
  Lemma blist_op_get_mut b i v d : blist_op ly new enc dec b (QGetMut i v, d) = let* (b, x) := blist_get_mut ly enc dec b i v in Ok (Some b, Some (QOpt x)).
  Proof. reflexivity. Qed.
  Lemma blist_op_index_mut b i v d : blist_op ly new enc dec b (QIndexMut i v, d) = let* (b, x) := blist_get_mut ly enc dec b i v in Ok (Some b, Some (QVal (expect x))).
  Proof. reflexivity. Qed.
  Definition one_if (o : seq_op T) : nat := if inserts o then 1 else 0.
  Lemma q_step c m b l o : dist_ok c m l -> fit (2 * (c + one_if (fst o))) -> lrel m b ->
    exists m', slist_step m o = Ok (m', snd (seq_spec_step l (fst o))) /\ dist_ok (c + one_if (fst o)) m' (fst (seq_spec_step l (fst o))) /\
      (blist_op ly new enc dec b o = Ok (None, None) \/ exists b', blist_op ly new enc dec b o = Ok (Some b', Some (snd (seq_spec_step l (fst o)))) /\ lrel m' b').
  Proof.
    intros S0 Ft M. destruct o as [o d]. cbn [fst] in *. destruct (dist_step c m l o d S0) as (m' & E & S1). exists m'. split; [exact E|]. split; [exact S1|].
    pose proof (dist_rel _ _ _ S0) as SR. pose proof (sl_rel_len _ _ _ SR) as Ln.
    assert (B : bnd (sl_heap m) (fun _ => c)) by (intros a i k G; exact (dist_stored _ _ _ _ _ _ S0 G)).
    assert (Hc : sl_len m <= c) by (destruct S0 as (X & e & _ & <- & Be); rewrite Ln, map_length; specialize (Be 0); lia).
    assert (L0 : sl_heap m <> []). { intros X. pose proof (sl_rel_heap _ _ _ SR) as Q. rewrite X in Q. cbn in Q. lia. }
    assert (Ins : inserts o = true -> forall i v m1 r, slist_insert m i v d = Ok (m1, r) -> blist_insert ly new enc b i v d = Ok None \/ exists b', blist_insert ly new enc b i v d = Ok (Some (b', r)) /\ lrel m1 b').
    { intros I0 i v m1 r Ei. apply (q_insert c m b i v d m1 r); auto. unfold one_if in Ft. rewrite I0 in Ft. apply (fits_less _ _ (2 * (c + 1))); [lia|exact Ft]. }
    assert (Rem : forall i m1 r, slist_remove m i = Ok (m1, r) -> exists b', blist_remove ly dec b i = Ok (b', r) /\ lrel m1 b').
    { intros i m1 r Er. apply (q_remove c m b i m1 r); auto. apply (fits_less _ _ (2 * (c + one_if o))); [lia|exact Ft]. }
    generalize dependent (snd (seq_spec_step l o)). clear S1 Ft. intros out E. pose proof (lr_rel _ _ M) as R0. pose proof (lr_head _ _ M) as Hd.
    destruct o; rewrite ?slist_step_get, ?slist_step_index, ?slist_step_get_mut, ?slist_step_index_mut in E; rewrite ?blist_op_get, ?blist_op_index, ?blist_op_get_mut, ?blist_op_index_mut;
      cbn [slist_step blist_op] in E |- *; rewrite ?(lr_len _ _ M).
    - destruct (Ins eq_refl _ _ _ _ E) as [->|(b' & -> & M')]; [now left|right; cbn [bind]; eauto].
    - right. destruct (Rem _ _ _ E) as (b' & -> & M'). cbn [bind]. eauto.
    - destruct (Ins eq_refl _ _ _ _ E) as [->|(b' & -> & M')]; [now left|right; cbn [bind]; eauto].
    - destruct (Ins eq_refl _ _ _ _ E) as [->|(b' & -> & M')]; [now left|right; cbn [bind]; eauto].
    - right. destruct (Rem _ _ _ E) as (b' & -> & M'). cbn [bind]. eauto.
    - right. destruct (checked_sub (sl_len m) 1) as [i| |]; [|injection E as <- <-; eauto..]. destruct (Rem _ _ _ E) as (b' & -> & M'). cbn [bind]. eauto.
    - right. open E v Ev. injection E as <- <-. rewrite (q_get m b i v M Ev). cbn [bind]. eauto.
    - right. open E t Et. destruct t as [m1 r]. injection E as <- <-. destruct (q_get_mut m b i v m1 r M Et) as (b' & -> & M'). cbn [bind]. eauto.
    - right. open E v Ev. injection E as <- <-. rewrite (q_get m b i v M Ev). cbn [bind]. eauto.
    - right. open E t Et. destruct t as [m1 r]. injection E as <- <-. destruct (q_get_mut m b i v m1 r M Et) as (b' & -> & M'). cbn [bind]. eauto.
    - right. injection E as <- <-. eauto.
    - right. injection E as <- <-. eauto.
    - right. open E t Et. destruct t as [m1 r]. injection E as <- <-. destruct (q_clear m b m1 r M Et) as (b' & -> & M'). cbn [bind]. eauto.
    - right. open E x Ex. injection E as <- <-. rewrite (q_iter m b x M Ex). cbn [bind]. eauto.
    - right. open E t Et. destruct t as [m1 r]. injection E as <- <-. destruct (q_iter_mut m b vs m1 r M Et) as (b' & -> & M'). cbn [bind]. eauto.
    - open E t Et. destruct t as [[h1 es] ds]. injection E as <- <-. rewrite (rel_length ly enc list_link other m0 _ _ R0).
      destruct (q_into_iter m b _ h1 es ds M Et) as (s1 & -> & R1). cbn [bind].
      destruct (slist_into_iter_ok _ m l (length (sl_heap m)) SR) as (h2 & E2 & L2). rewrite Et in E2. injection E2 as -> _ _.
      destruct (q_new (Bytes (by_mem s1) (by_live s1) [])) as [->|(b' & -> & M')]; cbn [bind]; eauto. exact (rel_reset ly enc list_link other m0 _ _ R1 L2).
  Qed.
  Lemma list_aborted (ops : list (seq_op T * N)) : run (blist_step ly new enc dec) None ops = Ok (None, repeat None (length ops)).
  Proof. induction ops as [|o ops IH]; [reflexivity|]. cbn [run blist_step bind]. rewrite IH. reflexivity. Qed.
  Lemma spec_outs_length : forall (ops : list (seq_op T * N)) l, length (snd (spec_run seq_spec_step l (map fst ops))) = length ops.
  Proof.
    induction ops as [|x ops IH]; intros l; [reflexivity|]. cbn [map spec_run]. destruct (seq_spec_step l (fst x)) as [a y]. specialize (IH a).
    destruct (spec_run seq_spec_step a (map fst ops)) as [e ys]. cbn in *. now rewrite IH.
  Qed.

  Lemma q_run : forall ops c m b l, dist_ok c m l -> fit (2 * (c + insertions (map fst ops))) -> lrel m b ->
    let full := snd (spec_run seq_spec_step l (map fst ops)) in
    exists st outs, run (blist_step ly new enc dec) (Some b) ops = Ok (st, outs) /\
      match st with
      | Some b' => all_of full outs /\ exists m' c', dist_ok c' m' (fst (spec_run seq_spec_step l (map fst ops))) /\ lrel m' b'
      | None => some_of full outs
      end.
  Proof.
    induction ops as [|o ops IH]; intros c m b l S0 Ft M full.
    - exists (Some b), []. split; [reflexivity|]. split; [reflexivity|]. exists m, c. auto.
    - assert (En : insertions (map fst (o :: ops)) = one_if (fst o) + insertions (map fst ops)) by (unfold insertions, one_if; cbn [map filter]; destruct (inserts (fst o)); reflexivity).
      rewrite En in Ft.
      destruct (q_step c m b l o S0) as (m1 & _ & S1 & X); [apply (fits_less _ _ (2 * (c + (one_if (fst o) + insertions (map fst ops))))); [lia|exact Ft]|exact M|].
      pose proof (spec_outs_length ops (fst (seq_spec_step l (fst o)))) as Ln.
      destruct X as [Ea|(b1 & Eb & M1)]; unfold full; cbn [map spec_run run blist_step];
        destruct (seq_spec_step l (fst o)) as [l1 r1]; cbn [fst snd] in *; destruct (spec_run seq_spec_step l1 (map fst ops)) as [l2 rs] eqn:Es; cbn [snd].
      + rewrite Ea. cbn [bind]. rewrite list_aborted. exists None, (None :: repeat None (length ops)). split; [reflexivity|]. exists 0. cbn [firstn map app]. rewrite Nat.sub_0_r.
        cbn [length snd] in *. now rewrite Ln.
      + rewrite Eb. cbn [bind]. destruct (IH (c + one_if (fst o)) m1 b1 l1 S1) as (st & outs & -> & A); [now rewrite <- Nat.add_assoc|exact M1|].
        rewrite Es in A. cbn [fst snd bind] in *. exists st, (Some r1 :: outs). split; [reflexivity|]. destruct st as [b'|].
        * destruct A as (A1 & A2). split; [unfold all_of in *; cbn; now rewrite A1|exact A2].
        * destruct A as (k & ->). exists (S k). reflexivity.
  Qed.
  Lemma list_blocks_count (h : hp) : forall ptrs, length ptrs = length h -> length (blocks ly h ptrs) = live_nodes h.
  Proof.
    unfold live_nodes. induction h as [|[n|] h IH]; intros [|q ptrs] E; try discriminate; [reflexivity|..]; unfold blocks in *; cbn in *; [f_equal|]; apply IH; lia.
  Qed.
  Lemma list_bytes_ok ops : fit (2 * insertions (map fst ops)) -> let spec := spec_run seq_spec_step [] (map fst ops) in
    exists st outs, blist_run ly new enc dec (Bytes m0 other []) ops = Ok (st, outs) /\
      match st with
      | Some b => all_of (snd spec) outs /\
          (exists own, by_live (bl_bytes b) = other ++ own /\ length own = S (length (fst spec)) /\ untouched other m0 (by_mem (bl_bytes b))) /\
          exists s, blist_drop ly dec b = Ok s /\ by_live s = other /\ untouched other m0 (by_mem s)
      | None => some_of (snd spec) outs
      end.
  Proof.
    intros Ft spec. unfold blist_run. destruct (q_new _ (rel_start ly enc list_link other m0)) as [->|(b & -> & M)]; cbn [bind].
    - exists None, (repeat None (length ops)). split; [apply list_aborted|]. exists 0. cbn [firstn map app]. rewrite Nat.sub_0_r. unfold spec. now rewrite spec_outs_length.
    - destruct (q_run ops 0 slist_new b [] (fresh_dist _ _ sl_rel_new) Ft M) as (st & outs & -> & A). exists st, outs. split; [reflexivity|]. destruct st as [b'|]; [|exact A].
      destruct A as (A1 & m' & c' & S' & M'). split; [exact A1|]. apply dist_rel in S'. split.
      + destruct (lr_rel _ _ M') as [I' _]. exists (blocks ly (sl_heap m') (by_ptrs (bl_bytes b'))). split; [apply I'|]. split.
        * rewrite list_blocks_count by apply I'. exact (sl_rel_live _ _ _ S').
        * intros e x. exact (inv_frame _ _ _ _ _ _ _ I' e x).
      + destruct (slist_drop_ok _ _ _ S') as (h' & Eh & Lh). destruct (q_drop _ _ _ _ M' Eh) as (s & Es & _ & Rs). exists s. split; [exact Es|]. split; [exact (rel_empty ly enc list_link other m0 _ _ Rs Lh)|].
        destruct Rs as [Is _]. intros e x. exact (inv_frame _ _ _ _ _ _ _ Is e x).
  Qed.
End ListBytes.

(** Words of one byte *)
Lemma push_pop_calls n : Forall (fun o => inserts (fst o) = true \/ fst o = QPopBack) (push_pop n).
Proof. unfold push_pop. induction n as [|n IH]; cbn; [constructor|]. constructor; [now left|]. constructor; [now right|exact IH]. Qed.
Lemma one_byte_fine : match blist_run (Layout 1 1 1 1 2) (bump 1 1) flag_bytes flag_back (Bytes (fun _ => 0) [] []) (push_pop 255) with Ok _ => true | _ => false end = true.
Proof. vm_compute. reflexivity. Qed.
Lemma one_byte_words : exists ly : layout, layout_ok ly /\ link_words ly = 2 /\ entry_align ly <= u64_align ly /\ lawful (u64_align ly) (word ly) (bump 1 1) /\
  Forall (fun o => inserts (fst o) = true \/ fst o = QPopBack) (push_pop 256) /\
  (exists st outs, blist_run ly (bump 1 1) flag_bytes flag_back (Bytes (fun _ => 0) [] []) (push_pop 255) = Ok (st, outs)) /\
  blist_run ly (bump 1 1) flag_bytes flag_back (Bytes (fun _ => 0) [] []) (push_pop 256) = Panic.
Proof.
  exists (Layout 1 1 1 1 2). split; [repeat split; cbn; try lia; now exists 0|]. split; [reflexivity|]. split; [cbn; lia|]. split; [apply bump_lawful; cbn; lia|]. split; [apply push_pop_calls|]. split.
  - pose proof one_byte_fine as E. destruct blist_run as [[st outs]| |]; [eauto|discriminate E..].
  - vm_compute. reflexivity.
Qed.
