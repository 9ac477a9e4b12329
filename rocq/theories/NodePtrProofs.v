(** Code that holds addresses of nodes instead of their numbers. *)
From Verif Require Import NodePtrModel NodeBytesProofs ListLemmas.

Definition at_ptr (s : bytes) (a p : nat) : Prop := nth_error (by_ptrs s) a = Some p.

Section NodePtr.
  Context {D L : Type}.
  Variables (ly : layout) (new : allocator) (enc : D -> list nat) (dec : list nat -> option D) (lw : words_of L) (z : L) (other : list (nat * nat)) (m0 : memory).
  Hypothesis Lo : layout_ok ly.
  Hypothesis Fair : entry_align ly <= u64_align ly.
  Hypothesis Elen : forall d, length (enc d) = entry_size ly.
  Hypothesis Dec : forall d, dec (enc d) = Some d.
  Hypothesis Zero : lw z = (None, repeat 0 (link_words ly - 1)).
  Hypothesis Law : lawful (u64_align ly) (word ly) new.
  Hypothesis Oth : Forall (fun b => 0 < snd b) other.

  (** The node that the code keeps as head, if it is in memory, has all links. *)
  Definition head_full (h : heap D L) : Prop := forall n, nth_error h 0 = Some (Some n) -> length (sn_links n) = S max_height.
  Definition rel (h : heap D L) (s : bytes) : Prop := inv ly enc lw other m0 h s /\ head_full h.
  Definition words_at (s : bytes) (l : L) (ws : list nat) : Prop :=
    ws = link_words_of lw (by_ptrs s) l /\ match fst (lw l) with Some j => j < length (by_ptrs s) | None => True end.

  Lemma rel_length h s : rel h s -> length (by_ptrs s) = length h.
  Proof. intros [I0 _]. apply I0. Qed.
  Lemma head_set h a n n' : head_full h -> nth_error h a = Some (Some n) -> length (sn_links n') = length (sn_links n) -> head_full (list_set h a (Some n')).
  Proof.
    intros Hd En El k Ek. rewrite list_set_nth in Ek. destruct (Nat.eqb_spec a 0) as [->|_]; [|now apply Hd]. destruct (0 <? length h); [|discriminate].
    injection Ek as <-. rewrite El. now apply Hd.
  Qed.
  Lemma head_free h a : head_full h -> head_full (list_set h a None).
  Proof. intros Hd k Ek. rewrite list_set_nth in Ek. destruct (Nat.eqb_spec a 0) as [->|_]; [|now apply Hd]. destruct (0 <? length h); discriminate. Qed.

  Lemma rel_link h s a p i l : rel h s -> at_ptr s a p -> get_link h a i = Ok l -> exists ws, p_link ly s p i = Ok ws /\ words_at s l ws.
  Proof.
    intros [I0 _] Ep E. destruct Lo as (P1 & P2 & P3 & P4 & P5). destruct (step_link ly new enc lw other m0 P1 P2 P3 P4 P5 Fair h s a i l I0 E) as (Es & Kl). cbn [byte_op] in Es. unfold pointer in Es. rewrite Ep in Es. cbn [expect bind] in Es.
    unfold p_link, link_off. destruct (load _ _ _ _ _ _) as [bs| |]; cbn [bind] in *; [|discriminate..]. injection Es as Es. eexists. split; [reflexivity|].
    split; [exact Es|]. destruct Kl as (_ & _ & T). now rewrite (inv_length _ _ _ _ _ _ _ I0).
  Qed.
  Lemma rel_entry h s a p d : rel h s -> at_ptr s a p -> get_data h a = Ok d -> p_entry ly dec s p = Ok d.
  Proof.
    intros [I0 _] Ep E. destruct Lo as (P1 & P2 & P3 & P4 & P5). pose proof (step_entry ly new enc lw other m0 P1 P2 P3 P4 P5 Fair h s a d I0 E) as Es. cbn [byte_op] in Es. unfold pointer in Es. rewrite Ep in Es. cbn [expect bind] in Es.
    unfold p_entry. destruct (load _ _ _ _ _ _) as [bs| |]; cbn [bind] in *; [|discriminate..]. injection Es as ->. now rewrite Dec.
  Qed.
  Definition fine (l : L) : Prop := S (length (snd (lw l))) = link_words ly /\ Forall (fun v => fits (word ly) v = true) (snd (lw l)).
  Lemma rel_set_link h s a p i l ws h' : rel h s -> at_ptr s a p -> words_at s l ws -> fine l -> set_link h a i l = Ok h' ->
    exists s', p_set_link ly s p i ws = Ok s' /\ by_ptrs s' = by_ptrs s /\ rel h' s'.
  Proof.
    intros [I0 Hd] Ep [-> T] [F1 F2] E. destruct Lo as (P1 & P2 & P3 & P4 & P5).
    assert (Kl : link_ok ly lw (length h) l) by (split; [exact F1|]; split; [exact F2|]; now rewrite (inv_length _ _ _ _ _ _ _ I0) in T).
    destruct (step_set_link ly new enc lw other m0 P1 P2 P3 P4 P5 Fair h s a i l h' I0 Kl E) as (s' & Es & Eq' & I' & _). cbn [byte_op] in Es. unfold pointer in Es. rewrite Ep in Es. cbn [expect bind] in Es.
    unfold p_set_link, link_off. unfold link_bytes in Es. destruct (store _ _ _ _ _ _) as [s1| |]; cbn [bind] in *; [|discriminate..]. injection Es as ->.
    exists s'. split; [reflexivity|]. split; [exact Eq'|]. split; [exact I'|]. unfold set_link in E. destruct (read h a) as [n| |] eqn:Er; [|discriminate..]. apply read_some in Er. cbn [bind] in E.
    destruct (i <? _); [|discriminate]. injection E as <-. apply (head_set h a n); auto. cbn [sn_links]. apply list_set_length.
  Qed.
  Lemma rel_set_entry h s a p d h' : rel h s -> at_ptr s a p -> set_data h a d = Ok h' ->
    exists s', p_set_entry ly enc s p d = Ok s' /\ by_ptrs s' = by_ptrs s /\ rel h' s'.
  Proof.
    intros [I0 Hd] Ep E. destruct Lo as (P1 & P2 & P3 & P4 & P5).
    destruct (step_set_entry ly new enc lw other m0 P1 P2 P3 P4 Elen P5 Fair h s a d h' I0 E) as (s' & Es & Eq' & I' & _). cbn [byte_op] in Es. unfold pointer in Es. rewrite Ep in Es. cbn [expect bind] in Es.
    unfold p_set_entry. destruct (store _ _ _ _ _ _) as [s1| |]; cbn [bind] in *; [|discriminate..]. injection Es as ->.
    exists s'. split; [reflexivity|]. split; [exact Eq'|]. split; [exact I'|]. unfold set_data in E. destruct (read h a) as [n| |] eqn:Er; [|discriminate..]. apply read_some in Er. cbn [bind] in E.
    destruct (sn_data n); [|discriminate]. injection E as <-. now apply (head_set h a n).
  Qed.
  Lemma rel_free h s a p h' : rel h s -> at_ptr s a p -> dealloc h a = Ok h' ->
    exists s', p_free ly s p = Ok s' /\ by_ptrs s' = by_ptrs s /\ rel h' s'.
  Proof.
    intros [I0 Hd] Ep E. destruct Lo as (P1 & P2 & P3 & P4 & P5).
    destruct (step_free ly new enc lw other m0 P1 P2 P3 P4 P5 Fair Oth h s a h' I0 E) as (s' & Es & Eq' & I' & _). cbn [byte_op] in Es. unfold pointer in Es. rewrite Ep in Es. cbn [expect bind] in Es.
    unfold p_free. destruct (load_len _ _ _) as [n| |]; cbn [bind] in *; [|discriminate..]. destruct (existsb _ _); [|discriminate]. injection Es as Es.
    exists s'. split; [now rewrite Es|]. split; [exact Eq'|]. split; [exact I'|]. unfold dealloc in E. destruct (read h a) as [k| |] eqn:Er; [|discriminate..]. injection E as <-. now apply head_free.
  Qed.
  Lemma rel_zero h s p h' : rel h s -> at_ptr s 0 p -> zero_links h 0 z = Ok h' ->
    exists s', p_zero ly s p (S max_height) = Ok s' /\ by_ptrs s' = by_ptrs s /\ rel h' s'.
  Proof.
    intros [I0 Hd] Ep E. destruct Lo as (P1 & P2 & P3 & P4 & P5).
    destruct (step_zero ly new enc lw z other m0 P1 P2 P3 P4 Zero P5 Fair h s 0 h' I0 E) as (s' & Es & Eq' & I' & _). cbn [byte_op] in Es. unfold pointer in Es. rewrite Ep in Es. cbn [expect bind] in Es.
    unfold zero_links in E. destruct (read h 0) as [n| |] eqn:Er; [|discriminate..]. apply read_some in Er. cbn [bind] in E. injection E as <-.
    rewrite (load_len_ok ly enc lw other m0 P1 P2 P3 P4 P5 Fair h s 0 p n I0 Er Ep) in Es. cbn [bind] in Es. rewrite (Hd n Er) in Es. unfold p_zero.
    destruct (clear_links _ _ _ _) as [s1| |]; cbn [bind] in *; [|discriminate..]. injection Es as ->.
    exists s'. split; [reflexivity|]. split; [exact Eq'|]. split; [exact I'|]. apply (head_set h 0 n); auto. cbn [sn_links]. apply repeat_length.
  Qed.
  Lemma rel_new h s d n : rel h s -> (h = [] -> n = S max_height) ->
    p_new ly new enc s d n = Ok None \/
    exists s' p, p_new ly new enc s d n = Ok (Some (s', p)) /\ by_ptrs s' = by_ptrs s ++ [p] /\ rel (fst (alloc h d n z)) s'.
  Proof.
    intros [I0 Hd] Hn. destruct Lo as (P1 & P2 & P3 & P4 & P5). unfold p_new. destruct (new (by_live s) (block_size ly n)) as [p|] eqn:En; [|now left]. right.
    destruct (step_new ly new enc lw z other m0 P1 P2 P3 P4 Elen Zero P5 Fair Law h s d n p I0 En) as (s' & Es & Eq' & I'). cbn [byte_op] in Es. rewrite En in Es.
    destruct (store _ _ _ _ _ _) as [s1| |]; cbn [bind] in *; [|discriminate..]. destruct (clear_links _ _ _ _) as [s2| |]; cbn [bind] in *; [|discriminate..].
    exists s', p. split; [|split; [exact Eq'|split; [exact I'|]]].
    - destruct d as [d|]; [unfold p_set_entry; destruct (store _ _ _ _ _ _) as [s3| |]; cbn [bind] in *; [|discriminate..]|]; cbn [bind] in *; now injection Es as ->.
    - cbn [alloc fst]. destruct h as [|c h]; [|exact Hd]. intros k Ek. injection Ek as <-. cbn [sn_links]. rewrite repeat_length. auto.
  Qed.
  Lemma at_pos h s a p : rel h s -> at_ptr s a p -> 0 < p.
  Proof. intros [I0 _] E. exact (proj1 (inv_fit _ _ _ _ _ _ _ I0 a p E)). Qed.
  (** Two nodes in memory are at different addresses. *)
  Lemma at_distinct h s a b p n k : rel h s -> at_ptr s a p -> at_ptr s b p -> nth_error h a = Some (Some n) -> nth_error h b = Some (Some k) -> a = b.
  Proof.
    intros [I0 _] Ea Eb En Ek. destruct (Nat.eq_dec a b) as [|Ne]; [auto|]. destruct Lo as (P1 & P2 & P3 & P4 & P5). pose proof (inv_apart _ _ _ _ _ _ _ I0 a b p p n k En Ek Ea Eb Ne) as Ap.
    unfold apart, size_of in Ap. pose proof (block_holds ly P4 P5 (length (sn_links n))). pose proof (block_holds ly P4 P5 (length (sn_links k))). pose proof (node_size_pos ly P1 P3 P4 P5). lia.
  Qed.
  Lemma rel_start : rel [] (Bytes m0 other []).
  Proof. split; [apply inv_start|]. intros n. discriminate. Qed.
  (** When all nodes are released, only the other blocks are in use, as they were. *)
  Lemma rel_empty h s : rel h s -> live_nodes h = 0 -> by_live s = other.
  Proof.
    intros [I0 _] E. rewrite (inv_live _ _ _ _ _ _ _ I0). rewrite <- (app_nil_r other) at 2. f_equal. generalize (by_ptrs s). clear I0. unfold live_nodes in E.
    induction h as [|[n|] h IH]; intros [|q ptrs]; try reflexivity; [discriminate|]. unfold blocks in *. cbn. apply (IH E).
  Qed.
  Lemma rel_reset h s : rel h s -> live_nodes h = 0 -> rel [] (Bytes (by_mem s) (by_live s) []).
  Proof.
    intros R0 E. split; [|intros n; discriminate]. constructor; cbn; auto; try (intros [|?]; discriminate); [rewrite app_nil_r; exact (rel_empty h s R0 E)| |intros b [|a]; discriminate].
    destruct R0 as [I0 _]. exact (inv_frame _ _ _ _ _ _ _ I0).
  Qed.
End NodePtr.
