(** SkipMap on bytes does what SkipMap on a heap of nodes does. *)
From Verif Require Import SkipMapModel SkipMapProofs NodeBytesProofs NodePtrProofs ListLemmas SkipBytesModel SkipBytesSpec.

Ltac open E x Ex := match type of E with bind ?e _ = _ => destruct e as [x| |] eqn:Ex; cbn [bind] in E; [|discriminate..] end.

Section SkipBytes.
  Context {K V : Type} `{CmpLaws K}.
  Variables (ly : layout) (new : allocator) (enc : K * V -> list nat) (dec : list nat -> option (K * V)) (other : list (nat * nat)) (m0 : memory).
  Hypothesis Lo : layout_ok ly.
  Hypothesis One : link_words ly = 1.
  Hypothesis Fair : entry_align ly <= u64_align ly.
  Hypothesis Elen : forall d, length (enc d) = entry_size ly.
  Hypothesis Dec : forall d, dec (enc d) = Some d.
  Hypothesis Law : lawful (u64_align ly) (word ly) new.
  Hypothesis Oth : Forall (fun b => 0 < snd b) other.
  Notation rel := (rel ly enc map_link other m0).
  Notation hp := (heap (K * V) (option nat)).

  Lemma Zero : map_link None = (None, repeat 0 (link_words ly - 1)).
  Proof. now rewrite One. Qed.

  (** A link and the address that stands for it *)
  Definition lk (s : bytes) (l : option nat) (q : nat) : Prop := match l with None => q = 0 | Some j => at_ptr s j q end.
  Lemma lk_words (s : bytes) l q : lk s l q -> words_at map_link s l [q].
  Proof.
    unfold words_at, link_words_of, map_link. cbn [fst snd]. destruct l as [j|]; cbn [lk address].
    - intros E. split; [f_equal; symmetry; now apply nth_error_nth|]. apply nth_error_Some. unfold at_ptr in E. congruence.
    - intros ->. auto.
  Qed.
  Lemma words_lk (s : bytes) l ws : words_at map_link s l ws -> lk s l (hd 0 ws).
  Proof.
    unfold words_at, link_words_of, map_link. cbn [fst snd]. intros [-> T]. cbn [hd]. destruct l as [j|]; cbn [lk address]; [|reflexivity]. unfold at_ptr. now apply nth_error_nth'.
  Qed.
  Lemma lk_same s s' l q : by_ptrs s' = by_ptrs s -> lk s l q -> lk s' l q.
  Proof. unfold lk, at_ptr. now intros ->. Qed.
  Lemma at_same s s' a p : by_ptrs s' = by_ptrs s -> at_ptr s a p -> at_ptr s' a p.
  Proof. unfold at_ptr. now intros ->. Qed.

  Lemma r_link (h : hp) s a p i l : rel h s -> at_ptr s a p -> get_link h a i = Ok l -> exists q, b_link ly s p i = Ok q /\ lk s l q.
  Proof.
    intros R0 Ep E. destruct (rel_link ly new enc map_link other m0 Lo Fair h s a p i l R0 Ep E) as (ws & Ew & W). unfold b_link. rewrite Ew. cbn [bind].
    eexists. split; [reflexivity|]. now apply words_lk.
  Qed.
  Lemma r_entry (h : hp) s a p d : rel h s -> at_ptr s a p -> get_data h a = Ok d -> b_entry ly dec s p = Ok d.
  Proof. exact (rel_entry ly new enc dec map_link other m0 Lo Fair Dec h s a p d). Qed.
  Lemma r_set_link (h : hp) s a p i l q h' : rel h s -> at_ptr s a p -> lk s l q -> set_link h a i l = Ok h' ->
    exists s', b_set_link ly s p i q = Ok s' /\ by_ptrs s' = by_ptrs s /\ rel h' s'.
  Proof.
    intros R0 Ep Q E. apply (rel_set_link ly new enc map_link other m0 Lo Fair h s a p i l [q] h' R0 Ep (lk_words s l q Q)); [|exact E].
    split; [now rewrite One|constructor].
  Qed.
  Lemma r_set_entry (h : hp) s a p d h' : rel h s -> at_ptr s a p -> set_data h a d = Ok h' ->
    exists s', b_set_entry ly enc s p d = Ok s' /\ by_ptrs s' = by_ptrs s /\ rel h' s'.
  Proof. exact (rel_set_entry ly new enc map_link other m0 Lo Fair Elen h s a p d h'). Qed.
  Lemma r_free (h : hp) s a p h' : rel h s -> at_ptr s a p -> dealloc h a = Ok h' ->
    exists s', b_free ly s p = Ok s' /\ by_ptrs s' = by_ptrs s /\ rel h' s'.
  Proof. exact (rel_free ly new enc map_link other m0 Lo Fair Oth h s a p h'). Qed.
  Lemma r_zero (h : hp) s p h' : rel h s -> at_ptr s 0 p -> zero_links h 0 None = Ok h' ->
    exists s', b_zero ly s p = Ok s' /\ by_ptrs s' = by_ptrs s /\ rel h' s'.
  Proof. exact (rel_zero ly new enc map_link None other m0 Lo Fair Zero h s p h'). Qed.
  Lemma null_no h s (j q : nat) : rel h s -> at_ptr s j q -> (q =? 0) = false.
  Proof. intros R0 E. apply Nat.eqb_neq. pose proof (at_pos ly enc map_link other m0 h s j q R0 E). lia. Qed.

  Lemma r_walk (h : hp) s i go : rel h s -> forall fuel a p b l, at_ptr s a p -> walk fuel h a i go = Ok (b, l) ->
    exists p' q, b_walk ly dec fuel s p i go = Ok (p', q) /\ at_ptr s b p' /\ lk s l q.
  Proof.
    intros R0. induction fuel as [|f IH]; intros a p b l Ep E; [discriminate|]. cbn [walk b_walk] in *. open E nx Ex.
    destruct (r_link _ _ _ _ _ _ R0 Ep Ex) as (q & -> & Q). cbn [bind]. destruct nx as [y|]; cbn [lk] in Q.
    - rewrite (null_no _ _ _ _ R0 Q). open E e Ee. rewrite (r_entry _ _ _ _ _ R0 Q Ee). cbn [bind]. destruct (go (fst e)); [exact (IH _ _ _ _ Q E)|].
      injection E as <- <-. eauto 6.
    - subst q. cbn [Nat.eqb]. injection E as <- <-. exists p, 0. repeat split; auto.
  Qed.
  Lemma r_walk_all (h : hp) s i go a p b l : rel h s -> at_ptr s a p -> walk_all h a i go = Ok (b, l) ->
    exists p' q, b_walk_all ly dec s p i go = Ok (p', q) /\ at_ptr s b p' /\ lk s l q.
  Proof. intros R0. unfold walk_all, b_walk_all. rewrite (rel_length ly enc map_link other m0 h s R0). now apply r_walk. Qed.

  Lemma r_unlink (h : hp) s a p i l q k h' ret : rel h s -> at_ptr s a p -> lk s l q -> unlink h a i l k = Ok (h', ret) ->
    exists s', b_unlink ly dec s p i q k = Ok (s', ret) /\ by_ptrs s' = by_ptrs s /\ rel h' s'.
  Proof.
    intros R0 Ep Q E. unfold unlink, b_unlink in *. destruct l as [y|]; cbn [lk] in Q.
    - rewrite (null_no _ _ _ _ R0 Q). open E e Ee. rewrite (r_entry _ _ _ _ _ R0 Q Ee). cbn [bind]. destruct (is_eq (cmp (fst e) k)); [|injection E as <- <-; eauto].
      open E nn En. destruct (r_link _ _ _ _ _ _ R0 Q En) as (r & -> & Qn). cbn [bind]. open E h1 E1. destruct (r_set_link _ _ _ _ _ _ _ _ R0 Ep Qn E1) as (s1 & -> & P1 & R1). cbn [bind].
      destruct i; [|injection E as <- <-; eauto]. open E h2 E2. destruct (r_free _ _ _ _ _ R1 (at_same _ _ _ _ P1 Q) E2) as (s2 & -> & P2 & R2). cbn [bind].
      injection E as <- <-. exists s2. split; [reflexivity|]. split; [congruence|auto].
    - subst q. cbn [Nat.eqb]. injection E as <- <-. eauto.
  Qed.
  Lemma r_insert_loop nh k : forall i (h : hp) s a p x y h' ret, rel h s -> at_ptr s a p -> at_ptr s x y -> insert_loop i h a x nh k = Ok (h', ret) ->
    exists s', b_insert_loop ly dec i s p y nh k = Ok (s', ret) /\ by_ptrs s' = by_ptrs s /\ rel h' s'.
  Proof.
    induction i as [|i IH]; intros h s a p x y h' ret R0 Ep Ex E; cbn [insert_loop b_insert_loop] in *;
    (open E bl Eb; destruct bl as [b l]; destruct (r_walk_all _ _ _ _ _ _ _ _ R0 Ep Eb) as (p' & q & -> & Ep' & Q); cbn [bind];
     open E hr Eh; destruct hr as [h1 r1]; destruct (r_unlink _ _ _ _ _ _ _ _ _ _ R0 Ep' Q Eh) as (s1 & -> & P1 & R1); cbn [bind]; open E h2 E2).
    1: assert (X : exists s2, (if 0 <=? nh then let* p0 := b_link ly s1 p' 0 in let* s := b_set_link ly s1 p' 0 y in b_set_link ly s y 0 p0 else Ok s1) = Ok s2 /\ by_ptrs s2 = by_ptrs s1 /\ rel h2 s2).
    3: assert (X : exists s2, (if S i <=? nh then let* p0 := b_link ly s1 p' (S i) in let* s := b_set_link ly s1 p' (S i) y in b_set_link ly s y (S i) p0 else Ok s1) = Ok s2 /\ by_ptrs s2 = by_ptrs s1 /\ rel h2 s2).
    1,3: match type of E2 with (if ?c then _ else _) = _ => destruct c; [|injection E2 as <-; eauto] end; pose proof (at_same _ _ _ _ P1 Ep') as Ep1; pose proof (at_same _ _ _ _ P1 Ex) as Ex1;
      open E2 l2 L2; destruct (r_link _ _ _ _ _ _ R1 Ep1 L2) as (q2 & -> & Q2); cbn [bind]; open E2 h3 H3;
      destruct (r_set_link _ _ _ _ _ (Some x) y _ R1 Ep1 Ex1 H3) as (s3 & -> & P3 & R3); cbn [bind];
      destruct (r_set_link _ _ _ _ _ _ _ _ R3 (at_same _ _ _ _ P3 Ex1) (lk_same _ _ _ _ P3 Q2) E2) as (s4 & -> & P4 & R4); exists s4; split; [reflexivity|split; [congruence|auto]].
    all: destruct X as (s2 & -> & P2 & R2); cbn [bind].
    - injection E as <- <-. exists s2. split; [reflexivity|]. split; [congruence|auto].
    - assert (P3 : by_ptrs s2 = by_ptrs s) by congruence. destruct (IH _ _ _ _ _ _ _ _ R2 (at_same _ _ _ _ P3 Ep') (at_same _ _ _ _ P3 Ex) E) as (s3 & -> & P4 & R4).
      exists s3. split; [reflexivity|]. split; [congruence|auto].
  Qed.
  Lemma r_remove_loop k : forall i (h : hp) s a p h' ret, rel h s -> at_ptr s a p -> remove_loop i h a k = Ok (h', ret) ->
    exists s', b_remove_loop ly dec i s p k = Ok (s', ret) /\ by_ptrs s' = by_ptrs s /\ rel h' s'.
  Proof.
    induction i as [|i IH]; intros h s a p h' ret R0 Ep E; cbn [remove_loop b_remove_loop] in *;
    (open E bl Eb; destruct bl as [b l]; destruct (r_walk_all _ _ _ _ _ _ _ _ R0 Ep Eb) as (p' & q & -> & Ep' & Q); cbn [bind];
     open E hr Eh; destruct hr as [h1 r1]; destruct (r_unlink _ _ _ _ _ _ _ _ _ _ R0 Ep' Q Eh) as (s1 & -> & P1 & R1); cbn [bind]).
    - injection E as <- <-. eauto.
    - destruct (IH _ _ _ _ _ _ R1 (at_same _ _ _ _ P1 Ep') E) as (s2 & -> & P2 & R2). exists s2. split; [reflexivity|]. split; [congruence|auto].
  Qed.
  Lemma r_find_loop k : forall i (h : hp) s a p l, rel h s -> at_ptr s a p -> find_loop i h a k = Ok l -> exists q, b_find_loop ly dec i s p k = Ok q /\ lk s l q.
  Proof.
    induction i as [|i IH]; intros h s a p r R0 Ep E; cbn [find_loop b_find_loop] in *;
    (open E bl Eb; destruct bl as [b l]; destruct (r_walk_all _ _ _ _ _ _ _ _ R0 Ep Eb) as (p' & q & -> & Ep' & Q); cbn [bind]; open E f Ef; destruct l as [y|]; cbn [lk] in Q;
     [rewrite (null_no _ _ _ _ R0 Q); open Ef e Ee; rewrite (r_entry _ _ _ _ _ R0 Q Ee); cbn [bind]; injection Ef as <-; destruct (is_eq (cmp (fst e) k))
     |subst q; injection Ef as <-; cbn [Nat.eqb bind]]).
    - injection E as <-. eauto.
    - injection E as <-. exists 0. split; reflexivity.
    - injection E as <-. exists 0. split; reflexivity.
    - injection E as <-. eauto.
    - exact (IH _ _ _ _ _ R0 Ep' E).
    - exact (IH _ _ _ _ _ R0 Ep' E).
  Qed.
  Lemma r_descend go : forall i (h : hp) s a p b l, rel h s -> at_ptr s a p -> descend i h a go = Ok (b, l) -> exists p' q, b_descend ly dec i s p go = Ok (p', q) /\ at_ptr s b p' /\ lk s l q.
  Proof.
    induction i as [|i IH]; intros h s a p b0 l0 R0 Ep E; cbn [descend b_descend] in *;
    (open E bl Eb; destruct bl as [b l]; destruct (r_walk_all _ _ _ _ _ _ _ _ R0 Ep Eb) as (p' & q & -> & Ep' & Q); cbn [bind]).
    - injection E as <- <-. eauto 6.
    - exact (IH _ _ _ _ _ _ R0 Ep' E).
  Qed.
  Lemma r_key_at (h : hp) s l q x : rel h s -> lk s l q -> key_at h l = Ok x -> b_key_at ly dec s q = Ok x.
  Proof.
    intros R0 Q E. unfold key_at, b_key_at in *. destruct l as [y|]; cbn [lk] in Q.
    - rewrite (null_no _ _ _ _ R0 Q). open E e Ee. now rewrite (r_entry _ _ _ _ _ R0 Q Ee).
    - subst q. exact E.
  Qed.
  Lemma r_free_from : forall fuel (h : hp) s l q h' ds, rel h s -> lk s l q -> free_from fuel h l = Ok (h', ds) ->
    exists s', b_free_from ly dec fuel s q = Ok s' /\ by_ptrs s' = by_ptrs s /\ rel h' s'.
  Proof.
    induction fuel as [|f IH]; intros h s [y|] q h' ds R0 Q E; cbn [free_from b_free_from lk] in *; try discriminate; try (subst q; injection E as <- <-; exists s; cbn [Nat.eqb]; auto; fail).
    rewrite (null_no _ _ _ _ R0 Q). open E nn En. destruct (r_link _ _ _ _ _ _ R0 Q En) as (r & -> & Qn). cbn [bind]. open E e Ee. rewrite (r_entry _ _ _ _ _ R0 Q Ee). cbn [bind].
    open E h1 E1. destruct (r_free _ _ _ _ _ R0 Q E1) as (s1 & -> & P1 & R1). cbn [bind]. open E t Et. destruct t as [h2 es]. injection E as <- <-.
    destruct (IH _ _ _ _ _ _ R1 (lk_same _ _ _ _ P1 Qn) Et) as (s2 & -> & P2 & R2). exists s2. split; [reflexivity|]. split; [congruence|auto].
  Qed.
  Lemma r_iter_from : forall fuel (h : hp) s l q es, rel h s -> lk s l q -> iter_from fuel h l = Ok es -> b_iter_from ly dec fuel s q = Ok es.
  Proof.
    induction fuel as [|f IH]; intros h s [y|] q es R0 Q E; cbn [iter_from b_iter_from lk] in *; try discriminate; try (subst q; exact E).
    rewrite (null_no _ _ _ _ R0 Q). open E e Ee. rewrite (r_entry _ _ _ _ _ R0 Q Ee). cbn [bind]. open E nn En. destruct (r_link _ _ _ _ _ _ R0 Q En) as (r & -> & Qn). cbn [bind].
    open E t Et. now rewrite (IH _ _ _ _ _ R0 Qn Et).
  Qed.
  Lemma r_itermut_from : forall vs (h : hp) s l q h' es, rel h s -> lk s l q -> itermut_from h l vs = Ok (h', es) ->
    exists s', b_itermut_from ly enc dec s q vs = Ok (s', es) /\ by_ptrs s' = by_ptrs s /\ rel h' s'.
  Proof.
    induction vs as [|v vs IH]; intros h s [y|] q h' es R0 Q E; cbn [itermut_from b_itermut_from lk] in *; try (subst q); try (injection E as <- <-; exists s; cbn [Nat.eqb]; auto; fail).
    rewrite (null_no _ _ _ _ R0 Q). open E e Ee. rewrite (r_entry _ _ _ _ _ R0 Q Ee). cbn [bind]. open E nn En. destruct (r_link _ _ _ _ _ _ R0 Q En) as (r & -> & Qn). cbn [bind].
    open E h1 E1. destruct (r_set_entry _ _ _ _ _ _ R0 Q E1) as (s1 & -> & P1 & R1). cbn [bind]. open E t Et. destruct t as [h2 es2]. injection E as <- <-.
    destruct (IH _ _ _ _ _ _ R1 (lk_same _ _ _ _ P1 Qn) Et) as (s2 & -> & P2 & R2). exists s2. split; [reflexivity|]. split; [congruence|auto].
  Qed.
  Lemma r_into_iter_take : forall n (h : hp) s l q h' l' es, rel h s -> lk s l q -> into_iter_take n h l = Ok (h', l', es) ->
    exists s' q', b_into_iter_take ly dec n s q = Ok (s', q', es) /\ by_ptrs s' = by_ptrs s /\ rel h' s' /\ lk s' l' q'.
  Proof.
    induction n as [|n IH]; intros h s [y|] q h' l' es R0 Q E; cbn [into_iter_take b_into_iter_take lk] in *; try (injection E as <- <- <-; exists s, q; auto; fail).
    - rewrite (null_no _ _ _ _ R0 Q). open E e Ee. rewrite (r_entry _ _ _ _ _ R0 Q Ee). cbn [bind]. open E nn En. destruct (r_link _ _ _ _ _ _ R0 Q En) as (r & -> & Qn). cbn [bind].
      open E h1 E1. destruct (r_free _ _ _ _ _ R0 Q E1) as (s1 & -> & P1 & R1). cbn [bind]. open E t Et. destruct t as [[h2 l2] es2]. injection E as <- <- <-.
      destruct (IH _ _ _ _ _ _ _ R1 (lk_same _ _ _ _ P1 Qn) Et) as (s2 & q2 & -> & P2 & R2 & Q2). cbn [bind]. exists s2, q2. split; [reflexivity|]. split; [congruence|auto].
    - subst q. injection E as <- <- <-. exists s, 0. cbn [Nat.eqb]. split; [reflexivity|]. split; [reflexivity|]. split; [exact R0|reflexivity].
  Qed.
  Lemma r_into_iter_drop : forall fuel (h : hp) s l q h' ds, rel h s -> lk s l q -> into_iter_drop fuel h l = Ok (h', ds) ->
    exists s', b_into_iter_drop ly dec fuel s q = Ok s' /\ by_ptrs s' = by_ptrs s /\ rel h' s'.
  Proof.
    induction fuel as [|f IH]; intros h s [y|] q h' ds R0 Q E; cbn [into_iter_drop b_into_iter_drop lk] in *; try discriminate; try (subst q; injection E as <- <-; exists s; cbn [Nat.eqb]; auto; fail).
    rewrite (null_no _ _ _ _ R0 Q). open E e Ee. rewrite (r_entry _ _ _ _ _ R0 Q Ee). cbn [bind]. open E nn En. destruct (r_link _ _ _ _ _ _ R0 Q En) as (r & -> & Qn). cbn [bind].
    open E h1 E1. destruct (r_free _ _ _ _ _ R0 Q E1) as (s1 & -> & P1 & R1). cbn [bind]. open E t Et. destruct t as [h2 es]. injection E as <- <-.
    destruct (IH _ _ _ _ _ _ R1 (lk_same _ _ _ _ P1 Qn) Et) as (s2 & -> & P2 & R2). exists s2. split; [reflexivity|]. split; [congruence|auto].
  Qed.

  (** ** The map *)
  Record mrel (m : skip_map K V) (b : byte_map) : Prop := {
    mr_rel : rel (sk_heap m) (bm_bytes b);
    mr_head : at_ptr (bm_bytes b) 0 (bm_head b);
    mr_len : bm_len b = sk_len m
  }.
  Lemma r_find m b k l : mrel m b -> skip_find m k = Ok l -> exists q, bmap_find ly dec b k = Ok q /\ lk (bm_bytes b) l q.
  Proof. intros [R0 Hd Ln] E. unfold skip_find, bmap_find in *. rewrite Ln. exact (r_find_loop _ _ _ _ _ _ _ R0 Hd E). Qed.
  Lemma r_get m b k v : mrel m b -> skip_get m k = Ok v -> bmap_get ly dec b k = Ok v.
  Proof.
    intros M E. unfold skip_get, bmap_get in *. open E l El. destruct (r_find m b k l M El) as (q & -> & Q). cbn [bind]. destruct l as [y|]; cbn [lk] in Q.
    - rewrite (null_no _ _ _ _ (mr_rel _ _ M) Q). open E e Ee. rewrite (r_entry _ _ _ _ _ (mr_rel _ _ M) Q Ee). exact E.
    - subst q. exact E.
  Qed.
  Lemma r_get_mut m b k v m' r : mrel m b -> skip_get_mut m k v = Ok (m', r) -> exists b', bmap_get_mut ly enc dec b k v = Ok (b', r) /\ mrel m' b'.
  Proof.
    intros M E. unfold skip_get_mut, bmap_get_mut in *. open E l El. destruct (r_find m b k l M El) as (q & -> & Q). cbn [bind]. pose proof (mr_rel _ _ M) as R0. destruct l as [y|]; cbn [lk] in Q.
    - rewrite (null_no _ _ _ _ R0 Q). open E e Ee. rewrite (r_entry _ _ _ _ _ R0 Q Ee). cbn [bind]. open E h1 E1. destruct (r_set_entry _ _ _ _ _ _ R0 Q E1) as (s1 & -> & P1 & R1). cbn [bind].
      injection E as <- <-. eexists. split; [reflexivity|]. constructor; cbn; [exact R1|exact (at_same _ _ _ _ P1 (mr_head _ _ M))|apply M].
    - subst q. injection E as <- <-. cbn [Nat.eqb]. eauto.
  Qed.
  Lemma r_key_of m b a p l x : mrel m b -> at_ptr (bm_bytes b) a p -> get_link (sk_heap m) 0 0 = Ok l -> key_at (sk_heap m) (not_head a) = Ok x -> b_key_of ly dec b p = Ok x.
  Proof.
    intros M Ep E0 E. unfold b_key_of. pose proof (mr_rel _ _ M) as R0. pose proof (mr_head _ _ M) as Hd. destruct a as [|a].
    - unfold at_ptr in Ep, Hd. assert (p = bm_head b) as -> by congruence. rewrite Nat.eqb_refl. exact E.
    - cbn [not_head key_at] in E. open E e Ee. destruct (Nat.eqb_spec p (bm_head b)) as [->|_]; [exfalso|now rewrite (r_entry _ _ _ _ _ R0 Ep Ee)].
      unfold get_link in E0. unfold get_data in Ee. open E0 n0 En0. open Ee n1 En1. apply read_some in En0, En1.
      pose proof (at_distinct ly enc map_link other m0 Lo Fair _ _ _ _ _ _ _ R0 Ep Hd En1 En0). discriminate.
  Qed.
  Lemma r_insert m b k v d m' r : sk_heap m <> [] -> mrel m b -> skip_insert m k v d = Ok (m', r) ->
    bmap_insert ly new enc dec b k v d = Ok None \/ exists b', bmap_insert ly new enc dec b k v d = Ok (Some (b', r)) /\ mrel m' b'.
  Proof.
    intros Ne M E. unfold skip_insert, bmap_insert in *.
    destruct (rel_new ly new enc map_link None other m0 Lo Fair Elen Zero Law (sk_heap m) (bm_bytes b) (Some (k, v)) (S (height_of d)) (mr_rel _ _ M)) as [X|(s1 & p & X & P1 & R1)]; [tauto|..]; fold (b_new ly new enc) in X; rewrite X; cbn [bind]; [now left|right].
    cbn [alloc fst] in *. open E hr Eh. destruct hr as [h2 r2].
    assert (A0 : at_ptr s1 0 (bm_head b)). { pose proof (mr_head _ _ M) as Q. unfold at_ptr in *. rewrite P1, nth_error_app1; auto. apply nth_error_Some. congruence. }
    assert (A1 : at_ptr s1 (length (sk_heap m)) p). { unfold at_ptr. rewrite P1, <- (rel_length ly enc map_link other m0 _ _ (mr_rel _ _ M)), nth_error_app2, Nat.sub_diag by lia. reflexivity. }
    destruct (r_insert_loop _ _ _ _ _ _ _ _ _ _ _ R1 A0 A1 Eh) as (s2 & -> & P2 & R2). cbn [bind]. rewrite (mr_len _ _ M). open E n En. injection E as <- <-. rewrite ?En. cbn [bind].
    eexists. split; [reflexivity|]. constructor; cbn; [exact R2|exact (at_same _ _ _ _ P2 A0)|reflexivity].
  Qed.
  Lemma r_remove m b k m' r : mrel m b -> skip_remove m k = Ok (m', r) -> exists b', bmap_remove ly dec b k = Ok (b', r) /\ mrel m' b'.
  Proof.
    intros M E. unfold skip_remove, bmap_remove in *. open E hr Eh. destruct hr as [h2 r2].
    destruct (r_remove_loop _ _ _ _ _ _ _ _ (mr_rel _ _ M) (mr_head _ _ M) Eh) as (s2 & -> & P2 & R2). cbn [bind]. rewrite (mr_len _ _ M). open E n En. injection E as <- <-. rewrite ?En. cbn [bind].
    eexists. split; [reflexivity|]. constructor; cbn; [exact R2|exact (at_same _ _ _ _ P2 (mr_head _ _ M))|reflexivity].
  Qed.
  Lemma r_clear m b m' ds : mrel m b -> skip_clear m = Ok (m', ds) -> exists b', bmap_clear ly dec b = Ok b' /\ mrel m' b'.
  Proof.
    intros M E. unfold skip_clear, bmap_clear in *. pose proof (mr_rel _ _ M) as R0. pose proof (mr_head _ _ M) as Hd. open E l El. destruct (r_link _ _ _ _ _ _ R0 Hd El) as (q & -> & Q). cbn [bind].
    open E t Et. destruct t as [h1 es]. rewrite (rel_length ly enc map_link other m0 _ _ R0). destruct (r_free_from _ _ _ _ _ _ _ R0 Q Et) as (s1 & -> & P1 & R1). cbn [bind].
    open E h2 E2. destruct (r_zero _ _ _ _ R1 (at_same _ _ _ _ P1 Hd) E2) as (s2 & -> & P2 & R2). cbn [bind]. injection E as <- <-.
    eexists. split; [reflexivity|]. constructor; cbn; [exact R2|exact (at_same _ _ _ _ P2 (at_same _ _ _ _ P1 Hd))|reflexivity].
  Qed.
  Lemma r_drop m b h' ds : mrel m b -> skip_drop m = Ok (h', ds) -> exists s', bmap_drop ly dec b = Ok s' /\ by_ptrs s' = by_ptrs (bm_bytes b) /\ rel h' s'.
  Proof.
    intros M E. unfold skip_drop, bmap_drop in *. pose proof (mr_rel _ _ M) as R0. pose proof (mr_head _ _ M) as Hd. open E l El. destruct (r_link _ _ _ _ _ _ R0 Hd El) as (q & -> & Q). cbn [bind].
    open E h1 E1. destruct (r_free _ _ _ _ _ R0 Hd E1) as (s1 & -> & P1 & R1). cbn [bind]. rewrite (rel_length ly enc map_link other m0 _ _ R1).
    destruct (r_free_from _ _ _ _ _ _ _ R1 (lk_same _ _ _ _ P1 Q) E) as (s2 & -> & P2 & R2). exists s2. split; [reflexivity|]. split; [congruence|auto].
  Qed.
  Lemma r_iter m b es : mrel m b -> skip_iter m = Ok es -> bmap_iter ly dec b = Ok es.
  Proof.
    intros M E. unfold skip_iter, bmap_iter in *. pose proof (mr_rel _ _ M) as R0. pose proof (mr_head _ _ M) as Hd. open E l El. destruct (r_link _ _ _ _ _ _ R0 Hd El) as (q & -> & Q). cbn [bind].
    rewrite (rel_length ly enc map_link other m0 _ _ R0). exact (r_iter_from _ _ _ _ _ _ R0 Q E).
  Qed.
  Lemma r_iter_mut m b vs m' es : mrel m b -> skip_iter_mut m vs = Ok (m', es) -> exists b', bmap_iter_mut ly enc dec b vs = Ok (b', es) /\ mrel m' b'.
  Proof.
    intros M E. unfold skip_iter_mut, bmap_iter_mut in *. pose proof (mr_rel _ _ M) as R0. pose proof (mr_head _ _ M) as Hd. open E l El. destruct (r_link _ _ _ _ _ _ R0 Hd El) as (q & -> & Q). cbn [bind].
    open E t Et. destruct t as [h1 es1]. injection E as <- <-. destruct (r_itermut_from _ _ _ _ _ _ _ R0 Q Et) as (s1 & -> & P1 & R1). cbn [bind].
    eexists. split; [reflexivity|]. constructor; cbn; [exact R1|exact (at_same _ _ _ _ P1 Hd)|apply M].
  Qed.
  Lemma r_into_iter m b n h' es ds : mrel m b -> skip_into_iter m n = Ok (h', es, ds) -> exists s', bmap_into_iter ly dec b n = Ok (s', es) /\ rel h' s'.
  Proof.
    intros M E. unfold skip_into_iter, bmap_into_iter in *. pose proof (mr_rel _ _ M) as R0. pose proof (mr_head _ _ M) as Hd. open E t Et. destruct t as [h1 l1].
    unfold into_iter_new, b_into_iter_new in *. open Et l El. destruct (r_link _ _ _ _ _ _ R0 Hd El) as (q & -> & Q). cbn [bind].
    open Et h2 E2. destruct (r_zero _ _ _ _ R0 Hd E2) as (s2 & -> & P2 & R2). cbn [bind]. open Et t3 E3. destruct t3 as [h3 ds3]. injection Et as <- <-.
    destruct (r_drop (SkipMap h2 (sk_len m)) (ByteMap s2 (bm_head b) (bm_len b)) h3 ds3) as (s3 & -> & P3 & R3); [|exact E3|].
    { constructor; cbn; [exact R2|exact (at_same _ _ _ _ P2 Hd)|apply M]. }
    cbn [bm_bytes bind] in *. open E t4 E4. destruct t4 as [[h4 l4] es4]. destruct (r_into_iter_take _ _ _ _ _ _ _ _ R3 (lk_same _ _ _ _ P3 (lk_same _ _ _ _ P2 Q)) E4) as (s4 & q4 & -> & P4 & R4 & Q4). cbn [bind].
    open E t5 E5. destruct t5 as [h5 ds5]. injection E as <- <- <-. rewrite (rel_length ly enc map_link other m0 _ _ R4). destruct (r_into_iter_drop _ _ _ _ _ _ _ R4 Q4 E5) as (s5 & -> & P5 & R5). cbn [bind]. eauto.
  Qed.
  Lemma r_new s : rel [] s -> bmap_new ly new enc s = Ok None \/ exists b, bmap_new ly new enc s = Ok (Some b) /\ mrel skip_new b.
  Proof.
    intros R0. unfold bmap_new. destruct (rel_new ly new enc map_link None other m0 Lo Fair Elen Zero Law [] s None (S max_height) R0) as [X|(s1 & p & X & P1 & R1)]; [auto|..];
      fold (b_new ly new enc) in X; rewrite X; cbn [bind]; [now left|right]. eexists. split; [reflexivity|]. constructor; cbn [bm_bytes bm_head bm_len sk_len skip_new]; [exact R1| |reflexivity].
    unfold at_ptr. rewrite P1. pose proof (rel_length ly enc map_link other m0 _ _ R0) as Ln. destruct (by_ptrs s); [reflexivity|discriminate].
  Qed.

  Lemma r_step m b l o : sk_rel m l -> mrel m b ->
    exists m', skip_step m o = Ok (m', snd (map_spec_step l (fst o))) /\ sk_rel m' (fst (map_spec_step l (fst o))) /\
      (bmap_op ly new enc dec b o = Ok (None, None) \/ exists b', bmap_op ly new enc dec b o = Ok (Some b', Some (snd (map_spec_step l (fst o)))) /\ mrel m' b').
  Proof.
    intros S0 M. destruct (skip_step_ok m l o S0) as (m' & E & S1). exists m'. split; [exact E|]. split; [exact S1|].
    generalize dependent (snd (map_spec_step l (fst o))). clear S1. intros out E. pose proof (mr_rel _ _ M) as R0. pose proof (mr_head _ _ M) as Hd.
    assert (L0 : exists l0, get_link (sk_heap m) 0 0 = Ok l0). { pose proof (skip_min_ok m l S0) as X. unfold skip_min in X. open X l0 El. eauto. }
    destruct L0 as (l0 & L0). destruct o as [o d]. destruct o; cbn [skip_step bmap_op] in *.
    - open E t Et. destruct t as [m1 r]. injection E as <- <-. destruct (r_insert m b k v d m1 r) as [->|(b' & -> & M')]; auto; [|right; cbn [bind]; eauto].
      intros X. rewrite X in L0. discriminate.
    - right. open E t Et. destruct t as [m1 r]. injection E as <- <-. destruct (r_remove m b k m1 r M Et) as (b' & -> & M'). cbn [bind]. eauto.
    - right. open E v Ev. injection E as <- <-. rewrite (r_get m b k v M Ev). cbn [bind]. eauto.
    - right. open E t Et. destruct t as [m1 r]. injection E as <- <-. destruct (r_get_mut m b k v m1 r M Et) as (b' & -> & M'). cbn [bind]. eauto.
    - right. open E v Ev. injection E as <- <-. rewrite (r_get m b k v M Ev). cbn [bind]. eauto.
    - right. open E v Ev. injection E as <- <-. rewrite (r_get m b k v M Ev). cbn [bind]. eauto.
    - right. open E x Ex. injection E as <- <-. unfold skip_floor, bmap_floor in *. open Ex t Et. destruct t as [a l1]. rewrite (mr_len _ _ M).
      destruct (r_descend _ _ _ _ _ _ _ _ R0 Hd Et) as (p & q & -> & A & Q). cbn [bind]. rewrite (r_key_of m b a p l0 x M A L0 Ex). cbn [bind]. eauto.
    - right. open E x Ex. injection E as <- <-. unfold skip_ceil, bmap_ceil in *. open Ex t Et. destruct t as [a l1]. rewrite (mr_len _ _ M).
      destruct (r_descend _ _ _ _ _ _ _ _ R0 Hd Et) as (p & q & -> & A & Q). cbn [bind]. rewrite (r_key_at _ _ _ _ _ R0 Q Ex). cbn [bind]. eauto.
    - right. open E x Ex. injection E as <- <-. unfold skip_min, bmap_min in *. open Ex l1 L1. destruct (r_link _ _ _ _ _ _ R0 Hd L1) as (q & -> & Q). cbn [bind].
      rewrite (r_key_at _ _ _ _ _ R0 Q Ex). cbn [bind]. eauto.
    - right. open E x Ex. injection E as <- <-. unfold skip_max, bmap_max in *. open Ex t Et. destruct t as [a l1]. rewrite (mr_len _ _ M).
      destruct (r_descend _ _ _ _ _ _ _ _ R0 Hd Et) as (p & q & -> & A & Q). cbn [bind]. rewrite (r_key_of m b a p l0 x M A L0 Ex). cbn [bind]. eauto.
    - right. injection E as <- <-. rewrite (mr_len _ _ M). eauto.
    - right. injection E as <- <-. rewrite (mr_len _ _ M). eauto.
    - right. open E t Et. destruct t as [m1 r]. injection E as <- <-. destruct (r_clear m b m1 r M Et) as (b' & -> & M'). cbn [bind]. eauto.
    - right. open E x Ex. injection E as <- <-. rewrite (r_iter m b x M Ex). cbn [bind]. eauto.
    - right. open E t Et. destruct t as [m1 r]. injection E as <- <-. destruct (r_iter_mut m b vs m1 r M Et) as (b' & -> & M'). cbn [bind]. eauto.
    - open E t Et. destruct t as [[h1 es] ds]. injection E as <- <-. rewrite (rel_length ly enc map_link other m0 _ _ R0).
      destruct (r_into_iter m b _ h1 es ds M Et) as (s1 & -> & R1). cbn [bind].
      destruct (skip_into_iter_ok m l (length (sk_heap m)) S0) as (h2 & E2 & L2). rewrite Et in E2. injection E2 as -> _ _.
      destruct (r_new (Bytes (by_mem s1) (by_live s1) [])) as [->|(b' & -> & M')]; cbn [bind]; eauto. exact (rel_reset ly enc map_link other m0 _ _ R1 L2).
  Qed.
  Lemma aborted (ops : list (map_op K V * N)) : run (bmap_step ly new enc dec) None ops = Ok (None, repeat None (length ops)).
  Proof. induction ops as [|o ops IH]; [reflexivity|]. cbn [run bmap_step bind]. rewrite IH. reflexivity. Qed.

  Lemma r_run : forall ops m b l, sk_rel m l -> mrel m b ->
    let full := snd (spec_run map_spec_step l (map fst ops)) in
    exists st outs, run (bmap_step ly new enc dec) (Some b) ops = Ok (st, outs) /\
      match st with
      | Some b' => all_of full outs /\ exists m', sk_rel m' (fst (spec_run map_spec_step l (map fst ops))) /\ mrel m' b'
      | None => some_of full outs
      end.
  Proof.
    induction ops as [|o ops IH]; intros m b l S0 M full.
    - exists (Some b), []. split; [reflexivity|]. split; [reflexivity|]. exists m. auto.
    - destruct (r_step m b l o S0 M) as (m1 & _ & S1 & [Ea|(b1 & Eb & M1)]); unfold full; cbn [map spec_run run bmap_step];
        destruct (map_spec_step l (fst o)) as [l1 r1]; cbn [fst snd] in *; destruct (spec_run map_spec_step l1 (map fst ops)) as [l2 rs] eqn:Es; cbn [snd].
      + rewrite Ea. cbn [bind]. rewrite aborted. exists None, (None :: repeat None (length ops)). split; [reflexivity|]. exists 0. cbn [firstn map app]. rewrite Nat.sub_0_r.
        assert (length rs = length ops) as Ln. { clear - Es. revert l1 l2 rs Es. induction ops as [|x ops IH]; intros l1 l2 rs Es; cbn in Es; [now injection Es as _ <-|].
          destruct (map_spec_step l1 (fst x)) as [a y]. destruct (spec_run map_spec_step a (map fst ops)) as [c ys] eqn:E2. injection Es as <- <-. cbn. f_equal. exact (IH _ _ _ E2). }
        cbn [length]. now rewrite Ln.
      + rewrite Eb. cbn [bind]. destruct (IH m1 b1 l1 S1 M1) as (st & outs & -> & A). rewrite Es in A. cbn [fst snd bind] in *. exists st, (Some r1 :: outs). split; [reflexivity|]. destruct st as [b'|].
        * destruct A as (A1 & A2). split; [unfold all_of in *; cbn; now rewrite A1|exact A2].
        * destruct A as (k & ->). exists (S k). reflexivity.
  Qed.
  Lemma blocks_count (h : hp) : forall ptrs, length ptrs = length h -> length (blocks ly h ptrs) = live_nodes h.
  Proof.
    unfold live_nodes. induction h as [|[n|] h IH]; intros [|q ptrs] E; try discriminate; [reflexivity|..]; unfold blocks in *; cbn in *; [f_equal|]; apply IH; lia.
  Qed.
  Lemma bytes_ok ops : let spec := spec_run map_spec_step [] (map fst ops) in
    exists st outs, bmap_run ly new enc dec (Bytes m0 other []) ops = Ok (st, outs) /\
      match st with
      | Some b => all_of (snd spec) outs /\
          (exists own, by_live (bm_bytes b) = other ++ own /\ length own = S (length (fst spec)) /\ untouched other m0 (by_mem (bm_bytes b))) /\
          exists s, bmap_drop ly dec b = Ok s /\ by_live s = other /\ untouched other m0 (by_mem s)
      | None => some_of (snd spec) outs
      end.
  Proof.
    intros spec. unfold bmap_run. destruct (r_new _ (rel_start ly enc map_link other m0)) as [->|(b & -> & M)]; cbn [bind].
    - exists None, (repeat None (length ops)). split; [apply aborted|]. exists 0. cbn [firstn map app]. rewrite Nat.sub_0_r. f_equal. unfold spec. clear.
      generalize (@nil (K * V)). induction ops as [|x ops IH]; intros l1; [reflexivity|]. cbn. destruct (map_spec_step l1 (fst x)) as [a y]. specialize (IH a).
      destruct (spec_run map_spec_step a (map fst ops)) as [c ys]. cbn in *. now rewrite IH.
    - destruct (r_run ops skip_new b [] skip_rel_new M) as (st & outs & -> & A). exists st, outs. split; [reflexivity|]. destruct st as [b'|]; [|exact A].
      destruct A as (A1 & m' & S' & M'). split; [exact A1|]. split.
      + destruct (mr_rel _ _ M') as [I' _]. exists (blocks ly (sk_heap m') (by_ptrs (bm_bytes b'))). split; [apply I'|]. split.
        * rewrite blocks_count by apply I'. fold spec in S'. destruct S' as (X & g & (Rp & _) & El & _). rewrite (srep_live _ _ _ Rp), <- El. now rewrite map_length.
        * intros c x. exact (inv_frame _ _ _ _ _ _ _ I' c x).
      + destruct (skip_drop_ok _ _ S') as (h' & Eh & Lh). destruct (r_drop _ _ _ _ M' Eh) as (s & Es & _ & Rs). exists s. split; [exact Es|]. split; [exact (rel_empty ly enc map_link other m0 _ _ Rs Lh)|].
        destruct Rs as [Is _]. intros c x. exact (inv_frame _ _ _ _ _ _ _ Is c x).
  Qed.
End SkipBytes.
