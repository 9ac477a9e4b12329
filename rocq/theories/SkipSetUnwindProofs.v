(** Set operations of SkipMap when a comparison panics. *)
From Coq Require Import Permutation.
From Verif Require Import SkipSetProofs SkipSetUnwindModel.

Section SetUnwind.
  Context {K V : Type} `{CmpLaws K}.
  Notation hp := (heap (K * V) (option nat)).
  Notation item := (sitem (K * V)).
  Notation amap := (list (K * V)).
  Notation result := (res (@ending K V * amap)).
  Implicit Types (h hl hr : hp) (pl pr : option nat) (X Y XL XR : list item) (x y : item) (b : builder K V) (l r ds : amap).

  (** *** Without the panic *)
  Definition erases (u : result) (p : res (hp * hp * builder K V)) : Prop :=
    match u with
    | Ok (Ended hl hr b, _) => p = Ok (hl, hr, b)
    | Ok (Struck _ _ _ _ _, _) => True
    | Panic => p = Panic
    | Timeout => p = Timeout
    end.
  Ltac er := repeat match goal with
    | |- erases (if ?s then _ else _) _ => destruct s
    | |- context [discard_u ?h ?p ?d] => unfold discard_u at 1, discard at 1
    | |- context [take ?h ?p] => destruct (take h p) as [[[[? ?] ?] ?]| |]; cbn [bind]; try reflexivity
    | |- context [append ?b ?e ?n ?k] => destruct (append b e n k) as [?| |]; cbn [bind]; try reflexivity
    end.
  Lemma union_erases fuel : forall n hl pl hr pr b ds, erases (union_loop_u fuel n hl pl hr pr b ds) (union_loop fuel hl pl hr pr b).
  Proof.
    induction fuel as [|fuel IH]; intros n hl pl hr pr b ds; [reflexivity|]. cbn [union_loop_u union_loop].
    destruct pl as [x|], pr as [y|]; try (er; apply IH; fail); [|reflexivity].
    destruct (get_data hl x) as [ex| |]; cbn [bind]; try reflexivity. destruct (get_data hr y) as [ey| |]; cbn [bind]; try reflexivity.
    destruct n as [|n]; [exact I|]. destruct (cmp (fst ex) (fst ey)); er; apply IH.
  Qed.
  Lemma inter_erases fuel : forall n hl pl hr pr b ds, erases (inter_loop_u fuel n hl pl hr pr b ds) (inter_loop fuel hl pl hr pr b).
  Proof.
    induction fuel as [|fuel IH]; intros n hl pl hr pr b ds; [reflexivity|]. cbn [inter_loop_u inter_loop].
    destruct pl as [x|], pr as [y|]; try (er; apply IH; fail); [|reflexivity].
    destruct (get_data hl x) as [ex| |]; cbn [bind]; try reflexivity. destruct (get_data hr y) as [ey| |]; cbn [bind]; try reflexivity.
    destruct n as [|n]; [exact I|]. destruct (cmp (fst ex) (fst ey)); er; apply IH.
  Qed.
  Lemma diff_erases sym fuel : forall n hl pl hr pr b ds, erases (diff_loop_u fuel n hl pl hr pr sym b ds) (diff_loop fuel hl pl hr pr sym b).
  Proof.
    induction fuel as [|fuel IH]; intros n hl pl hr pr b ds; [reflexivity|]. cbn [diff_loop_u diff_loop].
    destruct pl as [x|], pr as [y|]; try (destruct sym; er; apply IH; fail); [|reflexivity].
    destruct (get_data hl x) as [ex| |]; cbn [bind]; try reflexivity. destruct (get_data hr y) as [ey| |]; cbn [bind]; try reflexivity.
    destruct n as [|n]; [exact I|]. destruct (cmp (fst ex) (fst ey)), sym; er; apply IH.
  Qed.

  (** *** What is where *)
  Definition stage l r (XL XR : list item) hl pl hr pr b ds : Prop :=
    exists gl gr X g A B, srcok hl pl XL gl /\ srcok hr pr XR gr /\ bok b X g /\
      Permutation (ds ++ map dt X ++ map dt XL ++ map dt XR) (l ++ r) /\ A ++ map dt XL = l /\ B ++ map dt XR = r.
  Definition fine l r (n : nat) (XL XR : list item) (u : result) : Prop :=
    match u with
    | Ok (Ended hl hr b, ds) => (exists gl, srcok hl None [] gl) /\ (exists gr, srcok hr None [] gr) /\ exists X g, bok b X g /\ Permutation (ds ++ map dt X) (l ++ r)
    | Ok (Struck hl pl hr pr b, ds) => n < length XL + length XR /\ exists x XL y XR, stage l r (x :: XL) (y :: XR) hl pl hr pr b ds
    | Panic => True
    | Timeout => False
    end.
  Lemma fine_more l r n n' XL XR XL' XR' u : fine l r n XL XR u -> (n < length XL + length XR -> n' < length XL' + length XR') ->
    fine l r n' XL' XR' u.
  Proof. intros F G. destruct u as [[[? ? ?|? ? ? ? ?] ?]| |]; cbn in *; auto. destruct F. auto. Qed.

  Ltac perms P := eapply Permutation_trans; [|exact P]; cbn [map app]; rewrite ?map_app, <- ?app_assoc; cbn [map app].
  Lemma keep_l l r n n' x XL XR hl pl hr pr b ds loop : stage l r (x :: XL) XR hl pl hr pr b ds ->
    n' <= S n ->
    (forall h' p' b', stage l r XL XR h' p' hr pr b' ds -> fine l r n XL XR (loop h' p' b')) ->
    fine l r n' (x :: XL) XR (let* (hl, pl, e, m) := take hl pl in let* b := append b e m 0 in loop hl pl b).
  Proof.
    intros (gl & gr & X & g & A & B & SL & SR & Bo & P & EA & EB) Ln Lp.
    destruct (take_ok _ _ _ _ _ SL) as (_ & -> & h' & p' & -> & _ & S'). cbn [bind].
    destruct (append_ok b X g (dt x) (ht x) Bo (src_ht _ _ _ _ _ SL)) as (b' & g' & z & -> & B' & Ez). cbn [bind].
    apply (fine_more _ _ n n' XL XR); [|cbn [length]; lia].
    apply Lp. exists gl, gr, (X ++ [z]), g', (A ++ [dt x]), B. repeat (split; [now auto|]). split; [|now rewrite <- app_assoc].
    perms P. rewrite Ez. apply Permutation_app_head, Permutation_app_head. reflexivity.
  Qed.
  Lemma keep_r l r n n' y XL XR hl pl hr pr b ds loop : stage l r XL (y :: XR) hl pl hr pr b ds ->
    n' <= S n ->
    (forall h' p' b', stage l r XL XR hl pl h' p' b' ds -> fine l r n XL XR (loop h' p' b')) ->
    fine l r n' XL (y :: XR) (let* (hr, pr, e, m) := take hr pr in let* b := append b e m 0 in loop hr pr b).
  Proof.
    intros (gl & gr & X & g & A & B & SL & SR & Bo & P & EA & EB) Ln Lp.
    destruct (take_ok _ _ _ _ _ SR) as (_ & -> & h' & p' & -> & _ & S'). cbn [bind].
    destruct (append_ok b X g (dt y) (ht y) Bo (src_ht _ _ _ _ _ SR)) as (b' & g' & z & -> & B' & Ez). cbn [bind].
    apply (fine_more _ _ n n' XL XR); [|cbn [length]; lia].
    apply Lp. exists gl, gr, (X ++ [z]), g', A, (B ++ [dt y]). repeat (split; [now auto|]). split; [|now rewrite <- app_assoc].
    perms P. rewrite Ez. apply Permutation_app_head, Permutation_app_head. apply Permutation_middle.
  Qed.
  Lemma discard_l l r n n' x XL XR hl pl hr pr b ds loop : stage l r (x :: XL) XR hl pl hr pr b ds ->
    n' <= S n ->
    (forall h' p' ds', stage l r XL XR h' p' hr pr b ds' -> fine l r n XL XR (loop h' p' ds')) ->
    fine l r n' (x :: XL) XR (let* (hl, pl, ds) := discard_u hl pl ds in loop hl pl ds).
  Proof.
    intros (gl & gr & X & g & A & B & SL & SR & Bo & P & EA & EB) Ln Lp. unfold discard_u.
    destruct (take_ok _ _ _ _ _ SL) as (_ & -> & h' & p' & -> & _ & S'). cbn [bind].
    apply (fine_more _ _ n n' XL XR); [|cbn [length]; lia].
    apply Lp. exists gl, gr, X, g, (A ++ [dt x]), B. repeat (split; [now auto|]). split; [|now rewrite <- app_assoc].
    perms P. apply Permutation_app_head. apply (Permutation_middle (map dt X)).
  Qed.
  Lemma discard_r l r n n' y XL XR hl pl hr pr b ds loop : stage l r XL (y :: XR) hl pl hr pr b ds ->
    n' <= S n ->
    (forall h' p' ds', stage l r XL XR hl pl h' p' b ds' -> fine l r n XL XR (loop h' p' ds')) ->
    fine l r n' XL (y :: XR) (let* (hr, pr, ds) := discard_u hr pr ds in loop hr pr ds).
  Proof.
    intros (gl & gr & X & g & A & B & SL & SR & Bo & P & EA & EB) Ln Lp. unfold discard_u.
    destruct (take_ok _ _ _ _ _ SR) as (_ & -> & h' & p' & -> & _ & S'). cbn [bind].
    apply (fine_more _ _ n n' XL XR); [|cbn [length]; lia].
    apply Lp. exists gl, gr, X, g, A, (B ++ [dt y]). repeat (split; [now auto|]). split; [|now rewrite <- app_assoc].
    perms P. apply Permutation_app_head. rewrite (app_assoc (map dt X)), (app_assoc (map dt X)). apply Permutation_middle.
  Qed.

  Lemma stage_end l r hl pl hr pr b ds n : stage l r [] [] hl pl hr pr b ds -> pl = None /\ pr = None /\ fine l r n [] [] (Ok (Ended hl hr b, ds)).
  Proof.
    intros (gl & gr & X & g & A & B & SL & SR & Bo & P & _). split; [exact (src_nil _ _ _ SL)|]. split; [exact (src_nil _ _ _ SR)|].
    split; [|split]; [pose proof (src_nil _ _ _ SL); subst pl; eauto | pose proof (src_nil _ _ _ SR); subst pr; eauto |].
    exists X, g. split; [exact Bo|]. now rewrite app_nil_r in P.
  Qed.
  Lemma stage_l l r x XL XR hl pl hr pr b ds : stage l r (x :: XL) XR hl pl hr pr b ds -> get_data hl (ad x) = Ok (dt x) /\ pl = Some (ad x).
  Proof. intros (gl & gr & X & g & A & B & SL & _). exact (src_data _ _ _ _ _ SL). Qed.
  Lemma stage_r l r XL y XR hl pl hr pr b ds : stage l r XL (y :: XR) hl pl hr pr b ds -> get_data hr (ad y) = Ok (dt y) /\ pr = Some (ad y).
  Proof. intros (gl & gr & X & g & A & B & _ & SR & _). exact (src_data _ _ _ _ _ SR). Qed.
  Lemma stage_nl l r XR hl pl hr pr b ds : stage l r [] XR hl pl hr pr b ds -> pl = None.
  Proof. intros (gl & gr & X & g & A & B & SL & _). exact (src_nil _ _ _ SL). Qed.
  Lemma stage_nr l r XL hl pl hr pr b ds : stage l r XL [] hl pl hr pr b ds -> pr = None.
  Proof. intros (gl & gr & X & g & A & B & _ & SR & _). exact (src_nil _ _ _ SR). Qed.

  Lemma union_fine l r fuel : forall n hl pl XL hr pr XR b ds, stage l r XL XR hl pl hr pr b ds -> length XL + length XR < fuel ->
    fine l r n XL XR (union_loop_u fuel n hl pl hr pr b ds).
  Proof.
    induction fuel as [|fuel IH]; intros n hl pl XL hr pr XR b ds St Hf; [lia|]. destruct XL as [|x XL], XR as [|y XR].
    - destruct (stage_end _ _ _ _ _ _ _ _ n St) as (-> & -> & F). exact F.
    - pose proof (stage_nl _ _ _ _ _ _ _ _ _ St) as ->. destruct (stage_r _ _ _ _ _ _ _ _ _ _ _ St) as [_ Ey]. cbn [union_loop_u]. rewrite Ey at 1.
      apply (keep_r l r n n y [] XR hl None hr pr b ds (fun h p b => union_loop_u fuel n hl None h p b ds)); auto. intros. apply IH; cbn in *; [auto|lia].
    - pose proof (stage_nr _ _ _ _ _ _ _ _ _ St) as ->. destruct (stage_l _ _ _ _ _ _ _ _ _ _ _ St) as [_ Ex]. cbn [union_loop_u]. rewrite Ex at 1.
      apply (keep_l l r n n x XL [] hl pl hr None b ds (fun h p b => union_loop_u fuel n h p hr None b ds)); auto. intros. apply IH; cbn in *; [auto|lia].
    - destruct (stage_l _ _ _ _ _ _ _ _ _ _ _ St) as [Dx Ex]. destruct (stage_r _ _ _ _ _ _ _ _ _ _ _ St) as [Dy Ey].
      cbn [union_loop_u]. rewrite Ex, Ey. cbn iota. rewrite Dx, Dy. cbn [bind]. rewrite <- Ex, <- Ey.
      destruct n as [|n]; [split; [cbn; lia|]; eauto 6|]. destruct (cmp (fst (dt x)) (fst (dt y))).
      + apply (discard_r l r n (S n) y (x :: XL) XR hl pl hr pr b ds (fun h p ds => union_loop_u fuel n hl pl h p b ds)); auto.
        intros. apply IH; cbn in *; [auto|lia].
      + apply (keep_l l r n (S n) x XL (y :: XR) hl pl hr pr b ds (fun h p b => union_loop_u fuel n h p hr pr b ds)); auto. intros. apply IH; cbn in *; [auto|lia].
      + apply (keep_r l r n (S n) y (x :: XL) XR hl pl hr pr b ds (fun h p b => union_loop_u fuel n hl pl h p b ds)); auto. intros. apply IH; cbn in *; [auto|lia].
  Qed.
  Lemma inter_fine l r fuel : (forall p q, In p l -> In q r -> cmp (fst p) (fst q) <> Eq) ->
    forall n hl pl XL hr pr XR b ds, stage l r XL XR hl pl hr pr b ds -> length XL + length XR < fuel ->
    fine l r n XL XR (inter_loop_u fuel n hl pl hr pr b ds).
  Proof.
    intros NE. induction fuel as [|fuel IH]; intros n hl pl XL hr pr XR b ds St Hf; [lia|]. destruct XL as [|x XL], XR as [|y XR].
    - destruct (stage_end _ _ _ _ _ _ _ _ n St) as (-> & -> & F). exact F.
    - pose proof (stage_nl _ _ _ _ _ _ _ _ _ St) as ->. destruct (stage_r _ _ _ _ _ _ _ _ _ _ _ St) as [_ Ey]. cbn [inter_loop_u]. rewrite Ey at 1.
      apply (discard_r l r n n y [] XR hl None hr pr b ds (fun h p ds => inter_loop_u fuel n hl None h p b ds)); auto. intros. apply IH; cbn in *; [auto|lia].
    - pose proof (stage_nr _ _ _ _ _ _ _ _ _ St) as ->. destruct (stage_l _ _ _ _ _ _ _ _ _ _ _ St) as [_ Ex]. cbn [inter_loop_u]. rewrite Ex at 1.
      apply (discard_l l r n n x XL [] hl pl hr None b ds (fun h p ds => inter_loop_u fuel n h p hr None b ds)); auto. intros. apply IH; cbn in *; [auto|lia].
    - destruct (stage_l _ _ _ _ _ _ _ _ _ _ _ St) as [Dx Ex]. destruct (stage_r _ _ _ _ _ _ _ _ _ _ _ St) as [Dy Ey].
      cbn [inter_loop_u]. rewrite Ex, Ey. cbn iota. rewrite Dx, Dy. cbn [bind]. rewrite <- Ex, <- Ey.
      destruct n as [|n]; [split; [cbn; lia|]; eauto 6|]. destruct (cmp (fst (dt x)) (fst (dt y))) eqn:Cm.
      + exfalso. destruct St as (gl & gr & X & g & A & B & _ & _ & _ & _ & EA & EB). apply (NE (dt x) (dt y)); auto.
        * rewrite <- EA. apply in_or_app. right. now left.
        * rewrite <- EB. apply in_or_app. right. now left.
      + apply (discard_l l r n (S n) x XL (y :: XR) hl pl hr pr b ds (fun h p ds => inter_loop_u fuel n h p hr pr b ds)); auto. intros. apply IH; cbn in *; [auto|lia].
      + apply (discard_r l r n (S n) y (x :: XL) XR hl pl hr pr b ds (fun h p ds => inter_loop_u fuel n hl pl h p b ds)); auto. intros. apply IH; cbn in *; [auto|lia].
  Qed.
  Lemma diff_fine sym l r fuel : forall n hl pl XL hr pr XR b ds, stage l r XL XR hl pl hr pr b ds -> length XL + length XR < fuel ->
    fine l r n XL XR (diff_loop_u fuel n hl pl hr pr sym b ds).
  Proof.
    induction fuel as [|fuel IH]; intros n hl pl XL hr pr XR b ds St Hf; [lia|]. destruct XL as [|x XL], XR as [|y XR].
    - destruct (stage_end _ _ _ _ _ _ _ _ n St) as (-> & -> & F). exact F.
    - pose proof (stage_nl _ _ _ _ _ _ _ _ _ St) as ->. destruct (stage_r _ _ _ _ _ _ _ _ _ _ _ St) as [_ Ey]. cbn [diff_loop_u]. rewrite Ey at 1.
      destruct sym.
      + apply (keep_r l r n n y [] XR hl None hr pr b ds (fun h p b => diff_loop_u fuel n hl None h p true b ds)); auto. intros. apply IH; cbn in *; [auto|lia].
      + apply (discard_r l r n n y [] XR hl None hr pr b ds (fun h p ds => diff_loop_u fuel n hl None h p false b ds)); auto. intros. apply IH; cbn in *; [auto|lia].
    - pose proof (stage_nr _ _ _ _ _ _ _ _ _ St) as ->. destruct (stage_l _ _ _ _ _ _ _ _ _ _ _ St) as [_ ->]. exact I.
    - destruct (stage_l _ _ _ _ _ _ _ _ _ _ _ St) as [Dx Ex]. destruct (stage_r _ _ _ _ _ _ _ _ _ _ _ St) as [Dy Ey].
      cbn [diff_loop_u]. rewrite Ex, Ey. cbn iota. rewrite Dx, Dy. cbn [bind]. rewrite <- Ex, <- Ey.
      destruct n as [|n]; [split; [cbn; lia|]; eauto 6|]. destruct (cmp (fst (dt x)) (fst (dt y))).
      + apply (discard_l l r n (S n) x XL (y :: XR) hl pl hr pr b ds
          (fun h p ds => let* (hr, pr, ds) := discard_u hr pr ds in diff_loop_u fuel n h p hr pr sym b ds)); auto. intros h' p' ds' St'.
        apply (discard_r l r n n y XL XR h' p' hr pr b ds' (fun h p ds => diff_loop_u fuel n h' p' h p sym b ds)); auto.
        intros. apply IH; cbn in *; [auto|lia].
      + apply (keep_l l r n (S n) x XL (y :: XR) hl pl hr pr b ds (fun h p b => diff_loop_u fuel n h p hr pr sym b ds)); auto. intros. apply IH; cbn in *; [auto|lia].
      + destruct sym.
        * apply (keep_r l r n (S n) y (x :: XL) XR hl pl hr pr b ds (fun h p b => diff_loop_u fuel n hl pl h p true b ds)); auto. intros. apply IH; cbn in *; [auto|lia].
        * apply (discard_r l r n (S n) y (x :: XL) XR hl pl hr pr b ds (fun h p ds => diff_loop_u fuel n hl pl h p false b ds)); auto.
          intros. apply IH; cbn in *; [auto|lia].
  Qed.

  (** *** Unwinding *)
  Lemma drop_at_ok h p x X g : srcok h p (x :: X) g -> exists h', drop_at h p = Ok (h', map dt X) /\ live_nodes h' = 1.
  Proof.
    intros (Rp & [C1 C2] & -> & Z). cbn [hd_error option_map drop_at].
    destruct (nodes_head _ _ _ _ (srep_nodes _ _ _ Rp)) as (_ & E2 & _). destruct (dealloc_ok _ _ _ _ Rp) as (h1 & E5 & R5 & L5).
    rewrite E2. cbn [bind]. rewrite E5. cbn [bind]. rewrite C1. pose proof (srep_length _ _ _ R5) as Hl.
    destruct (free_from_ok X h1 g (length h1) (srep_nodes _ _ _ R5) C2 ltac:(lia)) as (h2 & -> & Lh & F). exists h2. split; [reflexivity|].
    apply (live_nodes_by [0]); [constructor; [intros []|constructor]|]. intros a. rewrite F.
    assert (N0 : ~ In 0 (map ad X)) by (pose proof (sr_nodup _ _ _ R5) as Nd; now inversion Nd).
    destruct (in_dec Nat.eq_dec a (map ad X)) as [J|J].
    - split; [intros [<-|[]]; contradiction|intros (n & E); discriminate].
    - split.
      + intros [<-|[]]. rewrite (sr_head _ _ _ R5). eauto.
      + intros (n & E). apply (sr_dead _ _ _ R5) in E as [E|E]; [now left|contradiction].
  Qed.
  Lemma drop_built b X g : bok b X g -> exists h', skip_drop (SkipMap (b_heap b) (b_len b)) = Ok (h', map dt X) /\ live_nodes h' = 0.
  Proof.
    intros (HO & _). unfold skip_drop. cbn [sk_heap]. rewrite (first_link _ _ _ HO). cbn [bind].
    destruct HO as [Rp Sg]. pose proof (srep_length _ _ _ Rp) as Hl.
    destruct (dealloc_head _ _ _ Rp) as (E1 & N1 & A1). rewrite E1. cbn [bind]. rewrite list_set_length.
    destruct (free_from_ok X _ g (length (b_heap b)) N1 (seg_chain _ _ _ (Sg 0 ltac:(lia))) ltac:(lia)) as (h1 & E2 & F).
    rewrite E2. eexists. split; [reflexivity|]. eapply freed_all; eauto.
  Qed.
  Lemma iter_built b X g : bok b X g -> skip_iter (SkipMap (b_heap b) (b_len b)) = Ok (map dt X).
  Proof.
    intros (HO & _). unfold skip_iter. cbn [sk_heap]. rewrite (first_link _ _ _ HO). cbn [bind]. destruct HO as [Rp Sg].
    pose proof (srep_length _ _ _ Rp) as Hl. apply (iter_from_ok _ X g X Rp 0); [apply incl_refl|lia|apply Sg; lia].
  Qed.

  Lemma set_unwind s n (m m' : skip_map K V) l r : sk_rel m l -> sk_rel m' r -> (s = SInter -> spec_inter l r = []) ->
    (exists hl hr m2 ds es, skip_set_op_u s n m m' = Ok (hl, hr, Returned m2, ds) /\ skip_set_op s m m' = Ok (hl, hr, m2) /\
       skip_iter m2 = Ok es /\ Permutation (ds ++ es) (l ++ r)) \/
    (exists hl hr h ds e1 e2, skip_set_op_u s n m m' = Ok (hl, hr, Thrown h, ds) /\ n < length l + length r /\
       In e1 l /\ In e2 r /\ Permutation (ds ++ [e1; e2]) (l ++ r) /\
       live_nodes hl = 1 /\ live_nodes hr = 1 /\ live_nodes h = 0) \/
    (skip_set_op_u s n m m' = Panic /\ skip_set_op s m m' = Panic).
  Proof.
    intros R1 R2 Al. destruct (src_new _ _ R1) as (X & g & h & E1 & E2 & S1 & EX & Sl & L1).
    destruct (src_new _ _ R2) as (X' & g' & h' & E1' & E2' & S1' & EX' & Sl' & L1').
    unfold skip_set_op, skip_set_op_u. rewrite E1. cbn [bind]. rewrite E1'. cbn [bind]. rewrite E2. cbn [bind]. rewrite E2'. cbn [bind].
    assert (St : stage l r X X' h (option_map ad (hd_error X)) h' (option_map ad (hd_error X')) builder_new []).
    { exists g, g', [], (fun _ _ => None), [], []. repeat (split; [first [assumption | apply bok_new]|]). subst l r. split; [reflexivity|]. auto. }
    assert (Hf : length X + length X' < S (length h + length h')) by lia.
    set (fuel := S (length h + length h')) in *. set (pl := option_map ad (hd_error X)) in *. set (pr := option_map ad (hd_error X')) in *.
    set (u := match s with
              | SUnion => union_loop_u fuel n h pl h' pr builder_new []
              | SInter => inter_loop_u fuel n h pl h' pr builder_new []
              | SDiff => diff_loop_u fuel n h pl h' pr false builder_new []
              | SSymDiff => diff_loop_u fuel n h pl h' pr true builder_new []
              end).
    set (v := match s with
              | SUnion => union_loop fuel h pl h' pr builder_new
              | SInter => inter_loop fuel h pl h' pr builder_new
              | SDiff => diff_loop fuel h pl h' pr false builder_new
              | SSymDiff => diff_loop fuel h pl h' pr true builder_new
              end).
    assert (F : fine l r n X X' u).
    { subst u. destruct s; [apply union_fine | apply inter_fine | apply diff_fine | apply diff_fine]; auto.
      intros p q. apply no_common. now apply Al. }
    assert (E : erases u v).
    { subst u v. destruct s; [apply union_erases | apply inter_erases | apply diff_erases | apply diff_erases]. }
    clearbody u v. destruct u as [[[hl hr b|hl ql hr qr b] ds]| |]; cbn [fine erases] in F, E; cbn [bind].
    - rewrite E. cbn [bind]. destruct F as ((gl & Rl & _ & _ & Zl) & (gr & Rr & _ & _ & Zr) & Y & gY & Bo & P).
      destruct (drop_empty _ _ (sk_len m) Rl Zl) as (hl' & -> & _). cbn [bind].
      destruct (drop_empty _ _ (sk_len m') Rr Zr) as (hr' & -> & _). cbn [bind].
      left. eexists _, _, _, _, _. split; [reflexivity|]. split; [reflexivity|]. split; [exact (iter_built _ _ _ Bo)|exact P].
    - right. left. destruct F as (Ln & x & XL & y & XR & gl & gr & Y & gY & A & B & SL & SR & Bo & P & EA & EB).
      destruct (drop_built _ _ _ Bo) as (h0 & -> & L0). cbn [bind]. destruct (drop_at_ok _ _ _ _ _ SR) as (hr1 & -> & Lr). cbn [bind].
      destruct (drop_at_ok _ _ _ _ _ SL) as (hl1 & -> & Ll). cbn [bind]. eexists _, _, _, _, (dt x), (dt y). split; [reflexivity|].
      split; [rewrite <- EX, <- EX', !map_length; exact Ln|].
      split; [rewrite <- EA; apply in_or_app; right; now left|]. split; [rewrite <- EB; apply in_or_app; right; now left|].
      split; [|auto]. eapply Permutation_trans; [|exact P]. rewrite <- !app_assoc. apply Permutation_app_head, Permutation_app_head. cbn [map].
      generalize (map dt XR) (map dt XL). clear. intros P Q. cbn [app]. transitivity (P ++ dt x :: Q ++ [dt y]).
      { apply Permutation_app_head, Permutation_sym. transitivity (dt x :: (Q ++ [dt y])); [reflexivity|]. apply Permutation_middle. }
      transitivity (dt x :: P ++ Q ++ [dt y]); [apply Permutation_sym, Permutation_middle|]. constructor.
      rewrite app_assoc. transitivity (dt y :: P ++ Q); [apply Permutation_app_comm|].
      transitivity (dt y :: Q ++ P); [constructor; apply Permutation_app_comm|]. apply Permutation_middle.
    - right. right. now rewrite E.
    - contradiction.
  Qed.

  Theorem skip_set_unwind_ok (ops1 ops2 : list (map_op K V * N)) m1 m2 o1 o2 l1 l2 s n :
    run skip_step skip_new ops1 = Ok (m1, o1) -> run skip_step skip_new ops2 = Ok (m2, o2) -> skip_iter m1 = Ok l1 -> skip_iter m2 = Ok l2 ->
    (s = SInter -> spec_inter l1 l2 = []) ->
    (exists hl hr m ds es, skip_set_op_u s n m1 m2 = Ok (hl, hr, Returned m, ds) /\ skip_set_op s m1 m2 = Ok (hl, hr, m) /\
       skip_iter m = Ok es /\ Permutation (ds ++ es) (l1 ++ l2)) \/
    (exists hl hr h ds e1 e2, skip_set_op_u s n m1 m2 = Ok (hl, hr, Thrown h, ds) /\ n < length l1 + length l2 /\
       In e1 l1 /\ In e2 l2 /\ Permutation (ds ++ [e1; e2]) (l1 ++ l2) /\
       live_nodes hl = 1 /\ live_nodes hr = 1 /\ live_nodes h = 0) \/
    (skip_set_op_u s n m1 m2 = Panic /\ skip_set_op s m1 m2 = Panic).
  Proof.
    intros E1 E2 I1 I2 Al. destruct (run_rel _ _ _ E1) as (l & I1' & R1). destruct (run_rel _ _ _ E2) as (l' & I2' & R2).
    rewrite I1 in I1'. injection I1' as <-. rewrite I2 in I2'. injection I2' as <-. now apply set_unwind.
  Qed.
  Theorem skip_set_unwind_enough (ops1 ops2 : list (map_op K V * N)) m1 m2 o1 o2 l1 l2 s n :
    run skip_step skip_new ops1 = Ok (m1, o1) -> run skip_step skip_new ops2 = Ok (m2, o2) -> skip_iter m1 = Ok l1 -> skip_iter m2 = Ok l2 ->
    set_allowed s l1 l2 -> length l1 + length l2 <= n ->
    exists hl hr m ds, skip_set_op_u s n m1 m2 = Ok (hl, hr, Returned m, ds) /\ skip_set_op s m1 m2 = Ok (hl, hr, m) /\
      skip_iter m = Ok (spec_set s l1 l2) /\ Permutation (ds ++ spec_set s l1 l2) (l1 ++ l2).
  Proof.
    intros E1 E2 I1 I2 Al Hn. destruct (run_rel _ _ _ E1) as (l & I1' & R1). destruct (run_rel _ _ _ E2) as (l' & I2' & R2).
    rewrite I1 in I1'. injection I1' as <-. rewrite I2 in I2'. injection I2' as <-.
    destruct (skip_set_ok s _ _ _ _ R1 R2 Al) as (hl & hr & m & Es & R & _).
    destruct (set_unwind s n m1 m2 l1 l2 R1 R2) as [U|[U|U]].
    - intros ->. exact Al.
    - destruct U as (hl' & hr' & m' & ds & es & EU & Es' & Ie & P). rewrite Es in Es'. injection Es' as <- <- <-.
      rewrite (skip_iter_ok _ _ R) in Ie. injection Ie as <-. exists hl, hr, m, ds. repeat split; auto. exact (skip_iter_ok _ _ R).
    - destruct U as (? & ? & ? & ? & ? & ? & _ & L & _). lia.
    - destruct U as [_ U]. rewrite Es in U. discriminate.
  Qed.
End SetUnwind.
