(** Proofs about ArenaModel.v and ArenaExactSpec.v. *)
From Coq Require Import Permutation.
From Verif Require Export ArenaExactSpec ArenaProofs.

Section ArenaExact.
  Context {T : Type}.
  Implicit Types (e : entry) (s : shelf T) (a : arena T).

  Definition lens_of a : list nat := map (@length _) (a_chunks a).

  Lemma made_get a e : made (lens_of a) e = match get_block (a_chunks a) e with Some _ => true | None => false end.
  Proof.
    unfold made, lens_of, get_block. destruct (nth_error (a_chunks a) (fst e)) as [c|] eqn:E.
    - rewrite (nth_error_nth (map (@length _) (a_chunks a)) (fst e) 0 (x := length c)).
      + destruct (Nat.ltb_spec (snd e) (length c)) as [L|L].
        * apply nth_error_Some in L. now destruct (nth_error c (snd e)).
        * apply nth_error_None in L. now rewrite L.
      + now rewrite nth_error_map, E.
    - rewrite nth_overflow; [now destruct (snd e)|]. rewrite map_length. now apply nth_error_None.
  Qed.

  Lemma set_block_lens (cs : list (list (block T))) e b : map (@length _) (set_block cs e b) = map (@length _) cs.
  Proof.
    unfold set_block. destruct (nth_error cs (fst e)) as [c|] eqn:E; [|reflexivity].
    revert E. generalize (fst e). induction cs as [|d cs IH]; intros [|i] E; simpl in *; try discriminate.
    - injection E as ->. now rewrite list_set_length.
    - f_equal. auto.
  Qed.

  Lemma list_set_last {A} (l : list A) x (d : A) : l <> [] -> list_set l (length l - 1) x = removelast l ++ [x].
  Proof.
    intros N. rewrite (app_removelast_last d N) at 1 2. rewrite app_length. simpl.
    rewrite Nat.add_sub. apply list_set_app_last.
  Qed.

  Lemma map_removelast {A B} (f : A -> B) l : map f (removelast l) = removelast (map f l).
  Proof. induction l as [|x [|y l] IH]; simpl in *; congruence. Qed.
  Lemma nth_last {A} (l : list A) d : nth (length l - 1) l d = last l d.
  Proof.
    induction l as [|x [|y l] IH]; auto. change (last (x :: y :: l) d) with (last (y :: l) d). rewrite <- IH.
    simpl. now rewrite Nat.sub_0_r.
  Qed.

  (** The arena and the shelf agree. *)
  Definition xinv (n : nat) a s : Prop :=
    ainv (sh_freed s) a (sh_live s) /\ lens_of a = sh_lens s /\ a_chunk_size a = n /\
    a_capacity a = n * length (sh_lens s).

  Lemma xinv_step n a s (o : arena_op T) : xinv n a s -> exists a',
    arena_step a o = Ok (a', snd (shelf_step n s o)) /\ xinv n a' (fst (shelf_step n s o)).
  Proof.
    intros (I & L & Cn & Cp). pose proof I as (Cr & ND & Sz & Ch & NF & Em).
    destruct o as [v|e|e|e v|e|e v]; cbn [arena_step shelf_step].
    - destruct (arena_allocate_ok _ a _ v I) as (a' & e & E & Ln & M).
      pose proof E as E0. unfold arena_allocate in E0.
      set (full := a_size a =? a_capacity a) in *.
      set (cs := if full then a_chunks a ++ [[]] else a_chunks a) in *.
      set (cap := if full then a_capacity a + a_chunk_size a else a_capacity a) in *.
      replace (if full then (a_chunks a ++ [[]], a_capacity a + a_chunk_size a) else (a_chunks a, a_capacity a))
        with (cs, cap) in E0 by (unfold cs, cap; now destruct full).
      assert (Lc : map (@length _) cs = with_room n s /\ cap = n * length (with_room n s)).
      { unfold cs, cap, full, with_room. rewrite Sz, Cp, <- L.
        destruct (Nat.eqb_spec (length (sh_live s)) (n * length (lens_of a))) as [Q|Q]; unfold lens_of.
        - rewrite map_app, app_length, map_length. simpl. rewrite Cn. split; [reflexivity|]. lia.
        - split; reflexivity. }
      destruct Lc as [Lc Cc]. assert (Ln2 : length cs = length (with_room n s)) by (rewrite <- Lc; now rewrite map_length).
      destruct (sh_freed s) as [|f fs] eqn:Ef; cbn [snd fst].
      + simpl in Ch. rewrite Ch in E0. unfold checked_sub in E0.
        destruct (1 <=? length cs) eqn:L1; [|discriminate]. cbn [bind] in E0. apply Nat.leb_le in L1.
        destruct (nth_error cs (length cs - 1)) as [c|] eqn:En; [|discriminate].
        assert (Lf : nth (length cs - 1) (with_room n s) 0 = length c).
        { rewrite <- Lc. apply nth_error_nth. now rewrite nth_error_map, En. }
        assert (Ne : (length cs - 1, length c) = fresh (with_room n s)).
        { unfold fresh. rewrite <- Ln2. now rewrite Lf. }
        injection E0 as Ea Ee. rewrite E. cbn [bind]. exists a'. split; [congruence|].
        rewrite <- Ne, Ee. split; [exact M|]. cbn [sh_lens].
        assert (Lw : length (with_fresh (with_room n s)) = length (with_room n s)).
        { unfold with_fresh. rewrite app_length. simpl.
          assert (W : with_room n s <> []) by (intros X; rewrite X in Ln2; simpl in Ln2; lia).
          rewrite (app_removelast_last 0 W) at 2. rewrite app_length. simpl. reflexivity. }
        rewrite <- Ea. split; [|split; [exact Cn | cbn [a_capacity]; now rewrite Lw]].
        unfold lens_of. cbn [a_chunks]. assert (W : cs <> []) by (intros X; rewrite X in L1; simpl in L1; lia).
        rewrite (list_set_last cs _ [] W), map_app, map_removelast, Lc. simpl. unfold with_fresh.
        rewrite app_length. simpl. rewrite Nat.add_1_r. do 3 f_equal. rewrite <- Lf, Ln2. now rewrite nth_last.
      + destruct Ch as (Hh & Ch). rewrite Hh in E0. destruct M as (-> & M). rewrite E. cbn [bind]. exists a'.
        split; [reflexivity|]. split; [exact M|]. cbn [sh_lens].
        destruct (get_block cs f) as [[|nx]|]; try discriminate. injection E0 as <-.
        unfold lens_of. cbn [a_chunks a_capacity a_chunk_size]. rewrite set_block_lens. auto.
    - destruct (arena_free_ok _ a _ e I) as (a' & E & M). rewrite E. cbn [bind]. exists a'.
      pose proof E as E0. unfold arena_free in E0. rewrite valid_get in E0.
      pose proof (made_get a e) as Mg. rewrite L in Mg. rewrite Mg. clear Mg.
      destruct (get_block (a_chunks a) e) as [[x|nx]|] eqn:G.
      + assert (Lv : lookup e (sh_live s) = Some x) by now apply Cr. rewrite Lv in *. cbn [fst snd expect] in *.
        split; [reflexivity|]. split; [exact M|].
        destruct (checked_pred (a_size a)) as [sz| |]; cbn [bind] in E0; try discriminate. injection E0 as <-.
        unfold lens_of. cbn [a_chunks a_capacity a_chunk_size sh_lens]. rewrite set_block_lens. auto.
      + assert (Lv : lookup e (sh_live s) = None) by (apply (corr_none _ _ _ Cr); intros w; now rewrite G).
        rewrite Lv in *. cbn [fst snd expect] in *. split; [reflexivity|]. injection E0 as <-. split.
        * cbn [sh_freed sh_live]. destruct M as (fl' & Cr' & ND' & Sz' & Ch' & NF' & Em').
          split; [exact Cr'|]. split; [exact ND'|]. split; [exact Sz'|]. split; [reflexivity|]. split; [constructor|].
          exact Em'.
        * unfold lens_of. cbn [a_chunks a_capacity a_chunk_size sh_lens]. rewrite set_block_lens.
          auto.
      + assert (Lv : lookup e (sh_live s) = None) by (apply (corr_none _ _ _ Cr); intros w; now rewrite G).
        rewrite Lv in *. cbn [fst snd expect] in *. split; [reflexivity|]. injection E0 as <-. now split.
    - rewrite (arena_get_ok _ a _ e I). cbn [bind]. eexists. split; [reflexivity|]. now split.
    - destruct (arena_get_mut_ok _ a _ e v I) as (a' & E & M). rewrite E. cbn [bind fst snd].
      exists a'. split; [reflexivity|]. split; [exact M|]. unfold arena_get_mut_set in E.
      destruct (is_valid_entry a e); [|injection E as <- _; auto].
      destruct (get_block (a_chunks a) e) as [[|]|]; [|injection E as <- _; auto|discriminate].
      injection E as <- _. unfold lens_of. cbn [a_chunks a_capacity a_chunk_size sh_lens]. rewrite set_block_lens. auto.
    - rewrite (arena_get_ok _ a _ e I). cbn [bind]. eexists. split; [reflexivity|]. now split.
    - destruct (arena_get_mut_ok _ a _ e v I) as (a' & E & M). rewrite E. cbn [bind fst snd].
      exists a'. split; [reflexivity|]. split; [exact M|]. unfold arena_get_mut_set in E.
      destruct (is_valid_entry a e); [|injection E as <- _; auto].
      destruct (get_block (a_chunks a) e) as [[|]|]; [|injection E as <- _; auto|discriminate].
      injection E as <- _. unfold lens_of. cbn [a_chunks a_capacity a_chunk_size sh_lens]. rewrite set_block_lens. auto.
  Qed.

  Lemma exact_gen n (ops : list (arena_op T)) : forall a s, xinv n a s -> exists a',
    run arena_step a ops = Ok (a', snd (shelf_run n s ops)) /\ xinv n a' (fst (shelf_run n s ops)).
  Proof.
    induction ops as [|o ops IH]; intros a s X; simpl; [eauto|].
    destruct (xinv_step n a s o X) as (a1 & E & X1). rewrite E. cbn [bind].
    destruct (shelf_step n s o) as [s1 out]. cbn [fst snd] in *.
    destruct (IH a1 s1 X1) as (a2 & E2 & X2). rewrite E2. cbn [bind].
    destruct (shelf_run n s1 ops) as [s2 outs]. cbn [fst snd] in *. eauto.
  Qed.

  Lemma xinv_new n : xinv n (arena_new n) shelf_new.
  Proof.
    split; [apply ainv_new|]. split; [reflexivity|]. split; [reflexivity|]. simpl. lia.
  Qed.

  Theorem arena_exact n (ops : list (arena_op T)) : exists a,
    run arena_step (arena_new n) ops = Ok (a, snd (shelf_run n shelf_new ops)) /\
    map (@length _) (a_chunks a) = sh_lens (fst (shelf_run n shelf_new ops)).
  Proof.
    destruct (exact_gen n ops _ _ (xinv_new n)) as (a & E & _ & L & _). eauto.
  Qed.

  (** Every slot that was made is in exactly one of the three lists. *)
  Definition held s : list entry := map fst (sh_live s) ++ sh_freed s ++ sh_lost s.
  Definition kept n s : Prop :=
    NoDup (held s) /\ (forall e, In e (held s) <-> made (sh_lens s) e = true) /\
    list_sum (sh_lens s) = length (held s) /\ (sh_lens s = [] -> length (sh_live s) = n * 0).

  Lemma made_spec lens e : made lens e = true <-> snd e < nth (fst e) lens 0.
  Proof. unfold made. apply Nat.ltb_lt. Qed.

  Lemma with_room_made n s e : made (with_room n s) e = made (sh_lens s) e.
  Proof.
    unfold with_room. destruct (_ =? _); [|reflexivity]. unfold made.
    destruct (Nat.lt_ge_cases (fst e) (length (sh_lens s))) as [L|L].
    - now rewrite app_nth1.
    - rewrite app_nth2 by lia. rewrite (nth_overflow (sh_lens s)) by lia.
      destruct (fst e - length (sh_lens s)) as [|[|k]]; reflexivity.
  Qed.
  Lemma with_room_sum n s : list_sum (with_room n s) = list_sum (sh_lens s).
  Proof. unfold with_room. destruct (_ =? _); [|reflexivity]. rewrite list_sum_app. simpl. lia. Qed.

  Lemma with_fresh_made lens e : lens <> [] ->
    made (with_fresh lens) e = true <-> e = fresh lens \/ made lens e = true.
  Proof.
    intros N. rewrite !made_spec. unfold with_fresh, fresh. pose proof (app_removelast_last 0 N) as A.
    rewrite (nth_last lens 0).
    assert (Lr : length lens - 1 = length (removelast lens)).
    { rewrite A at 1. rewrite app_length. simpl. lia. }
    rewrite Lr. destruct e as [x y]; cbn [fst snd].
    assert (E2 : nth x lens 0 = if x <? length (removelast lens) then nth x (removelast lens) 0
                                else if x =? length (removelast lens) then last lens 0 else 0).
    { rewrite A at 1. destruct (Nat.ltb_spec x (length (removelast lens))) as [L|L].
      - now rewrite app_nth1.
      - rewrite app_nth2 by lia. destruct (Nat.eqb_spec x (length (removelast lens))) as [->|Nx].
        + now rewrite Nat.sub_diag.
        + apply nth_overflow. simpl. lia. }
    rewrite E2. destruct (Nat.ltb_spec x (length (removelast lens))) as [L|L].
    - rewrite app_nth1 by exact L. split; [auto|]. intros [Q|Q]; [|exact Q]. injection Q as Q _. lia.
    - rewrite app_nth2 by lia. destruct (Nat.eqb_spec x (length (removelast lens))) as [->|Nx].
      + rewrite Nat.sub_diag. simpl. split.
        * intros Q. destruct (Nat.eq_dec y (last lens 0)); [left; congruence | right; lia].
        * intros [Q|Q]; [injection Q as ->; lia | lia].
      + rewrite nth_overflow by (simpl; lia). split; [lia|]. intros [Q|Q]; [|lia]. injection Q as Q _. lia.
  Qed.
  Lemma with_fresh_sum lens : lens <> [] -> list_sum (with_fresh lens) = S (list_sum lens).
  Proof.
    intros N. unfold with_fresh. rewrite (app_removelast_last 0 N) at 3. rewrite !list_sum_app. simpl. lia.
  Qed.
  Lemma fresh_not_made lens : made lens (fresh lens) = false.
  Proof. unfold made, fresh. cbn [fst snd]. apply Nat.ltb_irrefl. Qed.

  Lemma with_room_nil n s : (sh_lens s = [] -> length (sh_live s) = n * 0) -> with_room n s <> [].
  Proof.
    intros Z. unfold with_room. destruct (Nat.eqb_spec (length (sh_live s)) (n * length (sh_lens s))) as [E|E].
    - now destruct (sh_lens s).
    - intros X. rewrite X in E. now apply E, Z.
  Qed.

  Lemma NoDup_left {A} (l r : list A) : NoDup (l ++ r) -> NoDup l.
  Proof.
    induction l as [|x l IH]; simpl; intros N; [constructor|]. inversion_clear N as [|? ? NI N'].
    constructor; [|auto]. intros X. apply NI, in_or_app. auto.
  Qed.

  Lemma forget_perm e (live : list (entry * T)) x : NoDup (map fst live) -> lookup e live = Some x ->
    Permutation (map fst live) (e :: map fst (forget e live)).
  Proof.
    induction live as [|[y w] l IH]; simpl; [discriminate|]. intros ND. inversion_clear ND as [|? ? NI ND'].
    destruct (entry_eqb_spec e y) as [->|Hn]; simpl.
    - fold (forget y l). rewrite forget_none; [reflexivity|]. now apply lookup_in.
    - intros Lk. fold (forget e l). rewrite perm_swap. constructor. auto.
  Qed.

  Lemma kept_step n s (o : arena_op T) : kept n s -> kept n (fst (shelf_step n s o)).
  Proof.
    intros (ND & Md & Sm & Em). destruct o as [v|e|e|e v|e|e v]; cbn [shelf_step];
      try (split; [|split; [|split]]; assumption).
    - destruct (sh_freed s) as [|f fs] eqn:Ef; cbn [fst].
      + pose proof (with_room_nil n s Em) as W. unfold kept, held in *. cbn [sh_live sh_freed sh_lost sh_lens map fst app].
        rewrite Ef in *. cbn [app] in *. split; [|split; [|split]].
        * constructor; [|exact ND]. rewrite Md, <- (with_room_made n s), fresh_not_made. discriminate.
        * intros e. rewrite with_fresh_made by exact W. rewrite with_room_made. simpl. rewrite Md. intuition.
        * rewrite with_fresh_sum by exact W. rewrite with_room_sum, Sm. reflexivity.
        * intros X. unfold with_fresh in X. now destruct (removelast (with_room n s)).
      + unfold kept, held in *. rewrite Ef in *. cbn [sh_live sh_freed sh_lost sh_lens map fst app].
        assert (P : Permutation (map fst (sh_live s) ++ (f :: fs) ++ sh_lost s)
                                (f :: map fst (sh_live s) ++ fs ++ sh_lost s)) by (simpl; symmetry; apply Permutation_middle).
        split; [|split; [|split]].
        * now rewrite <- P.
        * intros e. rewrite with_room_made, <- Md. split; apply Permutation_in; [symmetry|]; exact P.
        * rewrite with_room_sum, Sm. now rewrite P.
        * intros X. exfalso. revert X. now apply with_room_nil.
    - destruct (lookup e (sh_live s)) as [x|] eqn:El; cbn [fst].
      + unfold kept, held in *. cbn [sh_live sh_freed sh_lost sh_lens].
        assert (NDl : NoDup (map fst (sh_live s))) by now apply NoDup_left in ND.
        assert (P : Permutation (map fst (sh_live s) ++ sh_freed s ++ sh_lost s)
                                (map fst (forget e (sh_live s)) ++ (e :: sh_freed s) ++ sh_lost s)).
        { rewrite (forget_perm e _ x NDl El). simpl. apply Permutation_middle. }
        split; [|split; [|split]].
        * now rewrite <- P.
        * intros e'. rewrite <- Md. split; apply Permutation_in; [symmetry|]; exact P.
        * rewrite Sm. now rewrite P.
        * intros X. exfalso. specialize (Md e). rewrite X in Md. unfold made in Md.
          assert (Q : In e (map fst (sh_live s))).
          { destruct (in_dec (fun p q => match entry_eqb_spec p q with ReflectT _ h => left h | ReflectF _ h => right h end)
                       e (map fst (sh_live s))) as [Q|Q]; [exact Q|]. apply lookup_in in Q. congruence. }
          assert (Q2 : snd e <? nth (fst e) [] 0 = true) by (apply Md, in_or_app; auto).
          destruct (fst e); discriminate.
      + destruct (made (sh_lens s) e); cbn [fst]; [|repeat split; try assumption; apply Md].
        unfold kept, held in *. cbn [sh_live sh_freed sh_lost sh_lens app]. auto.
    - cbn [fst]. unfold kept, held in *. cbn [sh_live sh_freed sh_lost sh_lens app]. rewrite write_fst.
      repeat split; try assumption; try apply Md. unfold write. rewrite map_length. exact Em.
    - cbn [fst]. unfold kept, held in *. cbn [sh_live sh_freed sh_lost sh_lens app]. rewrite write_fst.
      repeat split; try assumption; try apply Md. unfold write. rewrite map_length. exact Em.
  Qed.

  Lemma kept_run n (ops : list (arena_op T)) : forall s, kept n s -> kept n (fst (shelf_run n s ops)).
  Proof.
    induction ops as [|o ops IH]; intros s X; simpl; [exact X|]. pose proof (kept_step n s o X) as X1.
    destruct (shelf_step n s o) as [s1 out]. cbn [fst] in *. specialize (IH s1 X1).
    now destruct (shelf_run n s1 ops).
  Qed.

  Lemma kept_new n : kept n (shelf_new : shelf T).
  Proof.
    split; [constructor|]. split; [|split; [reflexivity|]].
    - intros e. unfold made. simpl. destruct (fst e); split; try contradiction; discriminate.
    - simpl. lia.
  Qed.

  Theorem shelf_parts n (ops : list (arena_op T)) : let s := fst (shelf_run n shelf_new ops) in
    NoDup (map fst (sh_live s) ++ sh_freed s ++ sh_lost s) /\
    (forall e, In e (map fst (sh_live s) ++ sh_freed s ++ sh_lost s) <-> made (sh_lens s) e = true).
  Proof. destruct (kept_run n ops _ (kept_new n)) as (A & B & _). split; assumption. Qed.

  (** A lost slot stays lost. *)
  Lemma lost_step n s (o : arena_op T) e : In e (sh_lost s) -> In e (sh_lost (fst (shelf_step n s o))).
  Proof.
    intros X. destruct o as [v|e'|e'|e' v|e'|e' v]; cbn [shelf_step]; try exact X.
    - destruct (sh_freed s); exact X.
    - destruct (lookup e' (sh_live s)); [exact X|]. destruct (made _ _); cbn; auto using in_or_app.
  Qed.
  Theorem shelf_lost n (ops ops' : list (arena_op T)) e :
    In e (sh_lost (fst (shelf_run n shelf_new ops))) -> In e (sh_lost (fst (shelf_run n shelf_new (ops ++ ops')))).
  Proof.
    generalize (@shelf_new T) as s. induction ops as [|o ops IH]; intros s.
    - simpl. revert s. induction ops' as [|o ops' IH]; intros s X; simpl; [exact X|].
      apply (lost_step n s o) in X. destruct (shelf_step n s o) as [s1 out]. cbn [fst] in *. apply IH in X.
      now destruct (shelf_run n s1 ops').
    - simpl. destruct (shelf_step n s o) as [s1 out]. specialize (IH s1).
      destruct (shelf_run n s1 ops), (shelf_run n s1 (ops ++ ops')). exact IH.
  Qed.

  (** The number of slots. *)
  Lemma peak_step n s (o : arena_op T) peak : kept n s ->
    list_sum (sh_lens s) = Nat.max peak (length (sh_live s) + length (sh_lost s)) ->
    list_sum (sh_lens (fst (shelf_step n s o))) =
      Nat.max (Nat.max peak (length (sh_live s) + length (sh_lost s)))
              (length (sh_live (fst (shelf_step n s o))) + length (sh_lost (fst (shelf_step n s o)))).
  Proof.
    intros K Hp. pose proof (kept_step n s o K) as (_ & _ & Sm' & _). destruct K as (_ & _ & Sm & Em).
    assert (Le : length (sh_live (fst (shelf_step n s o))) + length (sh_lost (fst (shelf_step n s o)))
                 <= list_sum (sh_lens (fst (shelf_step n s o)))).
    { rewrite Sm'. unfold held. rewrite !app_length, map_length. lia. }
    rewrite <- Hp. clear Hp peak.
    destruct o as [v|e|e|e v|e|e v]; cbn [shelf_step] in *; try (simpl in *; lia).
    - destruct (sh_freed s) as [|f fs] eqn:Ef; cbn [fst] in *.
      + rewrite Sm'. unfold held. cbn [sh_live sh_freed sh_lost sh_lens app] in *.
        rewrite !app_length, map_length. rewrite Sm. unfold held. rewrite Ef, !app_length, map_length. simpl. lia.
      + cbn [sh_live sh_freed sh_lost sh_lens] in *. rewrite with_room_sum in *. lia.
    - destruct (lookup e (sh_live s)); [|destruct (made (sh_lens s) e)];
        cbn [fst sh_live sh_freed sh_lost sh_lens] in *; lia.
  Qed.
  Lemma peak_gen n (ops : list (arena_op T)) : forall s peak, kept n s ->
    list_sum (sh_lens s) = Nat.max peak (length (sh_live s) + length (sh_lost s)) ->
    list_sum (sh_lens (fst (shelf_run n s ops))) = peak_held n peak s ops.
  Proof.
    induction ops as [|o ops IH]; intros s peak K Hp; simpl; [exact Hp|].
    pose proof (peak_step n s o peak K Hp) as H1. pose proof (kept_step n s o K) as K1.
    destruct (shelf_step n s o) as [s1 out]. cbn [fst] in *. rewrite <- (IH s1 _ K1 H1).
    now destruct (shelf_run n s1 ops).
  Qed.

  Theorem arena_slots n (ops : list (arena_op T)) a outs : run arena_step (arena_new n) ops = Ok (a, outs) ->
    length (concat (a_chunks a)) = peak_held n 0 shelf_new ops.
  Proof.
    intros R. destruct (arena_exact n ops) as (a' & R' & L). rewrite R in R'. injection R' as <- _.
    rewrite <- (peak_gen n ops shelf_new 0 (kept_new n) eq_refl), <- L. clear.
    induction (a_chunks a) as [|c cs IH]; simpl; [reflexivity|]. rewrite app_length. lia.
  Qed.
End ArenaExact.

(** Rounds of allocate, free, free. *)
Definition after_doubles (m : nat) : shelf unit :=
  match m with
  | 0 => shelf_new
  | S _ => Shelf [] [] (map (fun i => (0, i)) (rev (seq 0 m))) [m]
  end.
Definition round (i : nat) : list (arena_op unit) := [AAlloc tt; AFree (0, i); AFree (0, i)].
Lemma double_round m : shelf_run 1 (after_doubles m) (round m)
  = (after_doubles (S m), [AEntry (0, m); AVal (Ok tt); AVal Panic]).
Proof.
  destruct m as [|m]; [reflexivity|]. unfold after_doubles at 1, round.
  cbn [shelf_run shelf_step sh_live sh_freed sh_lost sh_lens].
  unfold with_room, fresh, with_fresh. cbn [sh_live sh_lens length Nat.eqb Nat.mul Nat.add app removelast last Nat.sub nth].
  cbn [lookup]. unfold entry_eqb. cbn [fst snd]. rewrite !Nat.eqb_refl. cbn [andb forget filter fst snd negb lookup].
  unfold entry_eqb. cbn [fst snd]. rewrite !Nat.eqb_refl. cbn [andb negb lookup sh_live sh_lens sh_freed sh_lost made].
  unfold made. cbn [fst snd nth]. rewrite (proj2 (Nat.ltb_lt (S m) (S (S m)))) by lia. cbn [fst app].
  unfold after_doubles. rewrite (seq_S (S m) 0), rev_app_distr. reflexivity.
Qed.
Lemma doubles_gen m : forall k p,
  fst (shelf_run 1 (after_doubles k) (concat (map round (seq k m)))) = after_doubles (k + m) /\
  peak_live 0 p (combine (concat (map round (seq k m))) (snd (shelf_run 1 (after_doubles k) (concat (map round (seq k m))))))
    <= Nat.max p 1.
Proof.
  induction m as [|m IH]; intros k p; cbn [seq map concat].
  - simpl. rewrite Nat.add_0_r. split; [reflexivity | lia].
  - assert (E : forall ops, shelf_run 1 (after_doubles k) (round k ++ ops) =
        (fst (shelf_run 1 (after_doubles (S k)) ops),
         [AEntry (0, k); AVal (Ok tt); AVal Panic] ++ snd (shelf_run 1 (after_doubles (S k)) ops))).
    { intros ops. pose proof (double_round k) as D. unfold round in *. remember (after_doubles (S k)) as s4. cbn [app shelf_run] in *.
      destruct (shelf_step 1 (after_doubles k) (AAlloc tt)) as [s1 o1].
      destruct (shelf_step 1 s1 (AFree (0, k))) as [s2 o2].
      destruct (shelf_step 1 s2 (AFree (0, k))) as [s3 o3]. injection D as -> -> -> ->.
      now destruct (shelf_run 1 s4 ops). }
    rewrite E. cbn [fst snd app]. destruct (IH (S k) (Nat.max p 1)) as [I1 I2]. split.
    + rewrite I1. f_equal. lia.
    + unfold round at 1. cbn [app combine peak_live]. simpl Nat.sub. lia.
Qed.

Theorem arena_leak m : exists a outs, run arena_step (arena_new 1) (double_frees m) = Ok (a, outs) /\
  peak_live 0 0 (combine (double_frees m) outs) <= 1 /\ map (@length _) (a_chunks a) = (if m =? 0 then [] else [m]).
Proof.
  destruct (arena_exact 1 (double_frees m)) as (a & R & L). destruct (doubles_gen m 0 0) as [I1 I2].
  change (after_doubles 0) with (@shelf_new unit) in *. change (concat (map round (seq 0 m))) with (double_frees m) in *.
  do 2 eexists. split; [exact R|]. split; [exact I2|]. rewrite L, I1. now destruct m.
Qed.
