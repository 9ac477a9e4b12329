(** Proofs about TreapCostModel.v, programs over several maps: C68. *)
From Verif Require Export TreapSetCostProofs.
From Coq Require Import Permutation.

Lemma NoDup_app_disjoint {A} (a b : list A) : NoDup a -> NoDup b -> (forall x, In x a -> ~ In x b) -> NoDup (a ++ b).
Proof.
  intros Na Nb D. induction a as [|x a IH]; [exact Nb|]. inversion Na; subst. simpl. constructor.
  - rewrite in_app_iff. intros [i|i]; [easy | now apply (D x); [left|]].
  - apply IH; auto. intros y i. apply D. now right.
Qed.

Section ProgCost.
  Context {K V : Type} `{CmpLaws K}.
  Notation treap := (tree (N * nat) K V).
  Notation blks := (list (K * list nat)).
  Implicit Types (t lt rt : treap) (e : K * V) (k : K) (p q : N) (n : nat) (l a b : blks).
  Notation ip := (inorder_prio tprio).
  Notation kp l := (map (on2 snd) l).

  (** ** The draws that make up the priorities, in every register *)
  Definition pblocks_step n (r : nat -> blks) (o : prog_op K V) : nat -> blks :=
    match o with
    | POp i o => update r i (blocks_step n (r i) o)
    | PSet s d i j =>
        let a := r i in let r1 := update r i [] in
        let b := r1 j in let r2 := update r1 j [] in
        update r2 d (set_with (@app nat) s a b)
    | PSplit d i k inc =>
        let (stay, give) := spec_split k inc (r i) in update (update r i stay) d give
    end.
  Fixpoint pblocks n (r : nat -> blks) (ops : list (prog_op K V)) : nat -> blks :=
    match ops with [] => r | o :: ops' => pblocks (S n) (pblocks_step n r o) ops' end.

  Lemma update_same {X} (f : nat -> X) i x : update f i x i = x.
  Proof. unfold update. now rewrite Nat.eqb_refl. Qed.
  Lemma update_cases {X} (f : nat -> X) i x j : (j = i /\ update f i x j = x) \/ (j <> i /\ update f i x j = f j).
  Proof. unfold update. destruct (Nat.eqb_spec j i); auto. Qed.

  Lemma set_with_in {W} (c : W -> W -> W) s (a b : list (K * W)) x : sorted a -> sorted b -> In x (set_with c s a b) ->
    In x a \/ In x b \/ exists y z, In y a /\ In z b /\ cmp (fst z) (fst y) = Eq /\ x = (fst y, c (snd y) (snd z)).
  Proof.
    intros SA SB i. destruct (set_with_pw c s a b SA SB) as [_ E]. apply in_at_self in i. rewrite E in i.
    assert (Ia : forall y, In y (at_key (fst x) a) -> In y a) by (intros y j; now apply in_at in j).
    assert (Ib : forall y, In y (at_key (fst x) b) -> In y b) by (intros y j; now apply in_at in j).
    assert (Ea : forall y, In y (at_key (fst x) a) -> cmp (fst y) (fst x) = Eq) by (intros y j; now apply in_at in j).
    assert (Eb : forall y, In y (at_key (fst x) b) -> cmp (fst y) (fst x) = Eq) by (intros y j; now apply in_at in j).
    destruct (at_key (fst x) a) as [|y ys], (at_key (fst x) b) as [|z zs]; destruct s; cbn [f_with] in i; auto; try (now destruct i);
      (destruct i as [<-|[]]; right; right; exists y, z; repeat split; [apply Ia; now left | apply Ib; now left |
        specialize (Ea y (or_introl eq_refl)); specialize (Eb z (or_introl eq_refl)); korder]).
  Qed.

  (** ** No draw is used twice *)
  Definition binv n (r : nat -> blks) : Prop :=
    (forall i, sorted (r i)) /\
    (forall i x, In x (r i) -> snd x <> [] /\ NoDup (snd x) /\ forall w, In w (snd x) -> w < n) /\
    (forall i j x y w, In x (r i) -> In y (r j) -> In w (snd x) -> In w (snd y) -> i = j /\ cmp (fst x) (fst y) = Eq).

  Lemma draws_in_entry l w : In w (draws_of l) -> exists x, In x l /\ In w (snd x).
  Proof. unfold draws_of. intros i. apply in_concat in i as (d & i & j). apply in_map_iff in i as (x & <- & i). eauto. Qed.
  Lemma entry_draws l w x : In x l -> In w (snd x) -> In w (draws_of l).
  Proof. intros i j. unfold draws_of. apply in_concat. exists (snd x). split; [now apply in_map | exact j]. Qed.

  Lemma owned_ok n l : sorted l -> (forall x, In x l -> snd x <> [] /\ NoDup (snd x) /\ forall w, In w (snd x) -> w < n) ->
    (forall x y w, In x l -> In y l -> In w (snd x) -> In w (snd y) -> cmp (fst x) (fst y) = Eq) -> blocks_ok n l.
  Proof.
    intros S0 E O. split; [|split].
    - apply Forall_map, Forall_forall. intros x i. now apply E.
    - induction l as [|x l IH]; [constructor|]. apply sorted_cons in S0 as [F S0]. unfold draws_of. cbn [map concat]. fold (draws_of l).
      apply NoDup_app_disjoint.
      + apply E. now left.
      + apply IH; auto.
        * intros y i. apply E. now right.
        * intros y z w i j. apply O; now right.
      + intros w i j. apply draws_in_entry in j as (y & j & iw). assert (X : cmp (fst x) (fst y) = Eq) by (eapply O; eauto; [now left | now right]).
        unfold all_gt in F. rewrite Forall_forall in F. specialize (F y j). korder.
    - intros w i. apply draws_in_entry in i as (x & i & j). now apply (E x i).
  Qed.
  Lemma binv_ok n r i : binv n r -> blocks_ok n (r i).
  Proof. intros (S0 & E & O). apply owned_ok; [apply S0 | apply E |]. intros x y w ix iy jx jy. now destruct (O i i x y w ix iy jx jy). Qed.

  (** Draws move with their key, and [n] is new *)
  Lemma binv_move n r r' (g : nat -> K -> nat) (new : option (nat * K)) : binv n r ->
    (forall y k k', cmp k k' = Eq -> g y k = g y k') ->
    (forall i, sorted (r' i)) ->
    (forall i x, In x (r' i) -> snd x <> [] /\ NoDup (snd x)) ->
    (forall i x w, In x (r' i) -> In w (snd x) ->
       (exists y z, In z (r y) /\ In w (snd z) /\ cmp (fst z) (fst x) = Eq /\ i = g y (fst z)) \/
       (exists k, new = Some (i, k) /\ w = n /\ cmp (fst x) k = Eq)) ->
    binv (S n) r'.
  Proof.
    intros (S0 & E & O) G S' E' M. split; [exact S'|]. split.
    - intros i x ix. destruct (E' i x ix) as [E1 E2]. split; [exact E1|]. split; [exact E2|]. intros w iw.
      destruct (M i x w ix iw) as [(y & z & iz & iw' & _)|(k & _ & -> & _)]; [|lia]. destruct (E y z iz) as (_ & _ & L). specialize (L w iw'). lia.
    - intros i j x y w ix iy jx jy. destruct (M i x w ix jx) as [(u & z & iz & iw & Cz & ->)|(k & Ek & -> & Cx)].
      + destruct (M j y w iy jy) as [(u' & z' & iz' & iw' & Cz' & ->)|(k & Ek & -> & Cy)].
        * destruct (O u u' z z' w iz iz' iw iw') as [-> Czz]. split; [now apply G | korder].
        * destruct (E u z iz) as (_ & _ & L). specialize (L n iw). lia.
      + destruct (M j y n iy jy) as [(u' & z' & iz' & iw' & Cz' & ->)|(k' & Ek' & _ & Cy)].
        * destruct (E u' z' iz') as (_ & _ & L). specialize (L n iw'). lia.
        * rewrite Ek in Ek'. injection Ek' as <- <-. split; [easy | korder].
  Qed.

  Lemma blocks_step_sorted n l (o : map_op K V) : sorted l -> sorted (blocks_step n l o).
  Proof.
    intros S0. destruct o; cbn [blocks_step]; auto using sorted_nil, sorted_insert, sorted_delete.
  Qed.
  Lemma blocks_step_in n l (o : map_op K V) x : sorted l -> In x (blocks_step n l o) ->
    In x l \/ exists k v, o = MInsert k v /\ (x = (k, [n]) \/ exists y, In y l /\ cmp (fst y) k = Eq /\ x = (k, n :: snd y)).
  Proof.
    intros S0. destruct o as [k v|k|k|k v|k|k|k|k| | | | | | |vs|]; cbn [blocks_step]; auto.
    - rewrite in_app_iff. intros [i|[<-|i]].
      + left. now apply in_below in i.
      + right. exists k, v. split; [easy|]. destruct (at_key k l) as [|[k' d] l'] eqn:Ea; [now left|]. right. exists (k', d).
        assert (i : In (k', d) (at_key k l)) by (rewrite Ea; now left). apply in_at in i as [i Ck]. auto.
      + left. now apply in_above in i.
    - rewrite in_app_iff. intros [i|i]; left; [now apply in_below in i | now apply in_above in i].
    - intros [].
    - intros [].
  Qed.

  Lemma split_in {W} k inc (l : list (K * W)) x : let '(stay, give) := spec_split k inc l in
    (In x stay -> In x l /\ (match cmp (fst x) k with Lt => true | Eq => inc | Gt => false end) = true) /\
    (In x give -> In x l /\ (match cmp (fst x) k with Lt => true | Eq => inc | Gt => false end) = false).
  Proof.
    unfold spec_split. destruct inc; rewrite in_app_iff, in_below, in_above, in_at.
    - split; [intros [[i ->]|[i ->]] | intros [i ->]]; auto.
    - split; [intros [i ->] | intros [[i ->]|[i ->]]]; auto.
  Qed.
  Lemma split_sorted {W} k inc (l : list (K * W)) : sorted l -> let '(stay, give) := spec_split k inc l in sorted stay /\ sorted give.
  Proof.
    intros S0. pose proof (sorted_split l k S0) as Es. rewrite Es in S0. unfold spec_split. destruct inc.
    - rewrite app_assoc in S0. apply sorted_app in S0 as (S1 & S2 & _). auto.
    - apply sorted_app in S0 as (S1 & S2 & _). auto.
  Qed.

  Lemma pblocks_step_inv n r o : binv n r -> binv (S n) (pblocks_step n r o).
  Proof.
    intros B. pose proof B as (S0 & E & O). destruct o as [i o|s d i j|d i k inc]; cbn [pblocks_step].
    - assert (C0 : forall x, In x (blocks_step n (r i) o) -> In x (r i) \/ exists k v, o = MInsert k v /\ (x = (k, [n]) \/ exists y, In y (r i) /\ cmp (fst y) k = Eq /\ x = (k, n :: snd y)))
        by (intros x ix; now apply blocks_step_in).
      assert (Sx : forall i0, sorted (update r i (blocks_step n (r i) o) i0)).
      { intros i0. destruct (update_cases r i (blocks_step n (r i) o) i0) as [[-> ->]|[_ ->]]; [now apply blocks_step_sorted | apply S0]. }
      assert (Ex : forall i0 x, In x (update r i (blocks_step n (r i) o) i0) -> snd x <> [] /\ NoDup (snd x)).
      { intros i0 x. destruct (update_cases r i (blocks_step n (r i) o) i0) as [[-> ->]|[_ ->]]; intros ix; [|now destruct (E _ _ ix) as (? & ? & _)].
        destruct (C0 x ix) as [iy|(k & v & -> & [->|(y & iy & Cy & ->)])].
        - now destruct (E _ _ iy) as (? & ? & _).
        - split; [easy|]. repeat constructor. easy.
        - split; [easy|]. destruct (E _ _ iy) as (_ & D & L). constructor; [|exact D]. intros iw. specialize (L n iw). lia. }
      assert (Old : forall i0 x w, i0 <> i -> In x (r i0) -> In w (snd x) -> exists y z, In z (r y) /\ In w (snd z) /\ cmp (fst z) (fst x) = Eq /\ i0 = y).
      { intros i0 x w _ ix iw. exists i0, x. repeat split; auto. apply cmp_refl. }
      apply (binv_move n r _ (fun y _ => y) (match o with MInsert k _ => Some (i, k) | _ => None end) B); [auto | exact Sx | exact Ex |].
      intros i0 x w. destruct (update_cases r i (blocks_step n (r i) o) i0) as [[-> ->]|[Ni ->]]; intros ix iw; [|left; eauto using Old].
      destruct (C0 x ix) as [iy|(k1 & v1 & -> & [->|(y & iy & Cy & ->)])].
      + left. exists i, x. repeat split; auto. apply cmp_refl.
      + right. destruct iw as [<-|[]]. exists k1. repeat split. apply cmp_refl.
      + destruct iw as [<-|iw]; [right; exists k1; repeat split; apply cmp_refl | left; exists i, y; auto].
    - set (r1 := update r i []). set (r2 := update r1 j []).
      assert (S1 : sorted (r1 j)) by (unfold r1; destruct (update_cases r i [] j) as [[_ ->]|[_ ->]]; [constructor | apply S0]).
      assert (I1 : forall x, In x (r1 j) -> In x (r j) /\ j <> i) by (intros x; unfold r1; destruct (update_cases r i [] j) as [[_ ->]|[? ->]]; [intros [] | auto]).
      assert (I2 : forall u x, In x (r2 u) -> In x (r u) /\ u <> i /\ u <> j).
      { intros u x. unfold r2. destruct (update_cases r1 j [] u) as [[_ ->]|[? ->]]; [intros []|]. unfold r1.
        destruct (update_cases r i [] u) as [[_ ->]|[? ->]]; [intros [] | auto]. }
      assert (S2 : forall u, sorted (r2 u)).
      { intros u. unfold r2. destruct (update_cases r1 j [] u) as [[_ ->]|[? ->]]; [constructor|]. unfold r1.
        destruct (update_cases r i [] u) as [[_ ->]|[? ->]]; [constructor | apply S0]. }
      pose proof (fun x => set_with_in (@app nat) s (r i) (r1 j) x (S0 i) S1) as C0.
      apply (binv_move n r _ (fun y _ => if (y =? i) || (y =? j) then d else y) None B); [auto | | |].
      + intros u. destruct (update_cases r2 d (set_with (@app nat) s (r i) (r1 j)) u) as [[_ ->]|[_ ->]]; [|apply S2]. now apply set_with_pw.
      + intros u x. destruct (update_cases r2 d (set_with (@app nat) s (r i) (r1 j)) u) as [[_ ->]|[_ ->]]; intros ix.
        * destruct (C0 x ix) as [iy|[iy|(y & z & iy & iz & Cz & ->)]].
          -- now destruct (E _ _ iy) as (? & ? & _).
          -- apply I1 in iy as [iy _]. now destruct (E _ _ iy) as (? & ? & _).
          -- apply I1 in iz as [iz Nj]. destruct (E _ _ iy) as (Y1 & Y2 & _), (E _ _ iz) as (Z1 & Z2 & _). cbn [snd]. split.
             ++ destruct (snd y); [congruence | discriminate].
             ++ apply NoDup_app_disjoint; auto. intros w w1 w2. destruct (O i j y z w iy iz w1 w2). congruence.
        * apply I2 in ix as [ix _]. now destruct (E _ _ ix) as (? & ? & _).
      + intros u x w. destruct (update_cases r2 d (set_with (@app nat) s (r i) (r1 j)) u) as [[-> ->]|[_ ->]]; intros ix iw; left.
        * assert (Ei : d = (if (i =? i) || (i =? j) then d else i)) by now rewrite Nat.eqb_refl.
          assert (Ej : d = (if (j =? i) || (j =? j) then d else j)) by now rewrite Nat.eqb_refl, Bool.orb_true_r.
          destruct (C0 x ix) as [iy|[iy|(y & z & iy & iz & Cz & ->)]].
          -- exists i, x. repeat split; auto. apply cmp_refl.
          -- apply I1 in iy as [iy _]. exists j, x. repeat split; auto. apply cmp_refl.
          -- apply I1 in iz as [iz Nj]. cbn [fst snd] in *. apply in_app_iff in iw as [iw|iw].
             ++ exists i, y. repeat split; auto. apply cmp_refl.
             ++ exists j, z. repeat split; auto.
        * apply I2 in ix as (ix & Ni & Nj). exists u, x. repeat split; auto; [apply cmp_refl|]. apply Nat.eqb_neq in Ni, Nj. now rewrite Ni, Nj.
    - pose proof (split_sorted k inc (r i) (S0 i)) as Ss. pose proof (fun x => split_in k inc (r i) x) as Si.
      destruct (spec_split k inc (r i)) as [stay give]. destruct Ss as [Ss1 Ss2].
      set (c := fun y : K => match cmp y k with Lt => true | Eq => inc | Gt => false end).
      assert (X : forall u x, In x (update (update r i stay) d give u) -> exists y, In x (r y) /\ u = (if y =? i then if c (fst x) then i else d else y)).
      { intros u x. destruct (update_cases (update r i stay) d give u) as [[-> ->]|[Nd ->]]; [|destruct (update_cases r i stay u) as [[-> ->]|[Ni ->]]]; intros ix.
        - destruct (Si x) as [_ X]. destruct (X ix) as [Y1 Y2]. exists i. split; [easy|]. rewrite Nat.eqb_refl. unfold c. now rewrite Y2.
        - destruct (Si x) as [X _]. destruct (X ix) as [Y1 Y2]. exists i. split; [easy|]. rewrite Nat.eqb_refl. unfold c. now rewrite Y2.
        - exists u. split; [easy|]. apply Nat.eqb_neq in Ni. now rewrite Ni. }
      apply (binv_move n r _ (fun y k' => if y =? i then if c k' then i else d else y) None B).
      + intros y k1 k2 Ck. destruct (y =? i); [|easy]. unfold c.
        destruct (cmp k1 k) eqn:E1; destruct (cmp k2 k) eqn:E2; try reflexivity; exfalso; korder.
      + intros u. destruct (update_cases (update r i stay) d give u) as [[_ ->]|[_ ->]]; [exact Ss2|].
        destruct (update_cases r i stay u) as [[_ ->]|[_ ->]]; [exact Ss1 | apply S0].
      + intros u x ix. destruct (X u x ix) as (y & iy & _). now destruct (E _ _ iy) as (? & ? & _).
      + intros u x w ix iw. left. destruct (X u x ix) as (y & iy & ->). exists y, x. repeat split; auto. apply cmp_refl.
  Qed.

  (** ** How many draws there are *)
  Notation len := (@length nat).
  Lemma split_map {A B} (f : A -> B) k inc (l : list (K * A)) : let '(stay, give) := spec_split k inc l in
    spec_split k inc (map (on2 f) l) = (map (on2 f) stay, map (on2 f) give).
  Proof. unfold spec_split. destruct inc; now rewrite map_app, (on2_below f), (on2_above f), (on2_at f). Qed.
  Lemma update_map {X Y} (f : X -> Y) (r : nat -> X) (c : nat -> Y) i x y : (forall u, f (r u) = c u) -> f x = y ->
    forall u, f (update r i x u) = update c i y u.
  Proof. intros E E1 u. unfold update. now destruct (u =? i). Qed.

  Lemma update_map2 {X Y Z} (f : X -> Z) (g : Y -> Z) (r : nat -> X) (c : nat -> Y) i x y : (forall u, f (r u) = g (c u)) -> f x = g y ->
    forall u, f (update r i x u) = g (update c i y u).
  Proof. intros E E1 u. unfold update. now destruct (u =? i). Qed.

  Lemma pblocks_step_counts n r (c : nat -> list (K * nat)) o : binv n r -> (forall u, map (on2 len) (r u) = c u) ->
    forall u, map (on2 len) (pblocks_step n r o u) = counts_step c o u.
  Proof.
    intros (S0 & _) E. destruct o as [i o|s d i j|d i k inc]; cbn [pblocks_step counts_step].
    - apply update_map; [exact E|]. exact (blocks_count [o] n (r i) (c i) (E i)).
    - assert (E1 : forall u, map (on2 len) (update r i [] u) = update c i [] u) by (now apply update_map).
      assert (S1 : sorted (update r i [] j)) by (destruct (update_cases r i [] j) as [[_ ->]|[_ ->]]; [constructor | apply S0]).
      apply update_map; [now apply update_map|]. rewrite <- E, <- E1. apply set_with_map; auto. intros x y. apply app_length.
    - pose proof (split_map len k inc (r i)) as X. rewrite <- E. destruct (spec_split k inc (r i)) as [stay give]. rewrite X.
      apply update_map; [now apply update_map | reflexivity].
  Qed.
  Lemma pblocks_all ops : forall n r (c : nat -> list (K * nat)), binv n r -> (forall u, map (on2 len) (r u) = c u) ->
    binv (n + length ops) (pblocks n r ops) /\ forall u, map (on2 len) (pblocks n r ops u) = fold_left counts_step ops c u.
  Proof.
    induction ops as [|o ops IH]; intros n r c B E; cbn [pblocks fold_left length]; [now rewrite Nat.add_0_r|].
    rewrite <- Nat.add_succ_comm. apply IH; [now apply pblocks_step_inv | now apply pblocks_step_counts].
  Qed.
  Lemma binv_0 : binv 0 (fun _ => []).
  Proof. split; [intros i; constructor|]. split; [intros i x [] | intros i j x y w []]. Qed.

  (** ** One call *)
  Definition mp ps l : list (K * N) := map (on2 (most ps)) l.
  Definition call_bound ps (r : nat -> blks) (o : prog_op K V) : nat :=
    match o with
    | POp i o => 3 + 2 * (recs [] (map (most ps) (map snd (snd (cut o (r i))))) + recs [] (map (most ps) (map snd (rev (fst (cut o (r i)))))))
    | PSet s d i j => set_bound (mp ps (r i)) (mp ps (update r i [] j)) (mp ps (set_with (@app nat) s (r i) (update r i [] j)))
    | PSplit d i k inc => 3 + 3 * around k (mp ps (r i))
    end.
  Definition bounded (o : prog_op K V) : bool := match o with POp _ o => looks_up o | _ => true end.

  Lemma most_app ps x y : most ps (x ++ y) = N.max (most ps x) (most ps y).
  Proof. unfold most. induction x as [|w x IH]; simpl; [now destruct (fold_right _ _ y)|]. rewrite IH. now rewrite N.max_assoc. Qed.

  Lemma prog_step_c ps n r (rs : nat -> treap) sp o : regs_rel rs sp -> binv n r -> (forall u, kp (ip (rs u)) = mp ps (r u)) ->
    exists rs' c, treap_prog_step_c rs (o, nth n ps 0%N) = Ok (rs', (snd (prog_spec_step sp o), c)) /\ regs_rel rs' (fst (prog_spec_step sp o)) /\
      (forall u, kp (ip (rs' u)) = mp ps (pblocks_step n r o u)) /\ (bounded o = true -> c <= call_bound ps r o).
  Proof.
    intros HR (S0 & _) E. destruct o as [i o|s d i j|d i k inc]; cbn [treap_prog_step_c prog_spec_step pblocks_step bounded call_bound].
    - destruct (HR i) as [Ei Ti]. destruct (treap_step_ok (rs i) (sp i) o (nth n ps 0%N) (HR i)) as (t' & E1 & Ht).
      rewrite treap_step_c_eq, E1. cbn [bind]. destruct (map_spec_step (sp i) o) as [l out] eqn:Em. cbn [fst snd] in *.
      eexists _, _. split; [reflexivity|]. split; [now apply regs_rel_update|]. split.
      + apply (update_map2 (fun t => kp (ip t)) (mp ps)).
        * exact E.
        * rewrite (treap_step_prio _ _ _ _ _ Ti E1). apply blocks_prio_step; [apply ip_sorted, Ti | apply E].
      + intros Lo. eapply Nat.le_trans; [now apply steps_bound|]. apply Nat.add_le_mono_l, Nat.mul_le_mono_l.
        assert (X : forall (y : list (K * (V * N))) z, kp y = mp ps z -> map (fun x => snd (snd x)) y = map (most ps) (map snd z)).
        { intros y z Ey. apply (f_equal (map snd)) in Ey. unfold mp in Ey. rewrite !map_map in Ey. rewrite map_map. exact Ey. }
        destruct (cut_on2 snd o (ip (rs i))) as [C1 C2]. destruct (cut_on2 (most ps) o (r i)) as [C3 C4].
        unfold mp in E. rewrite E in C1, C2. rewrite C3 in C1. rewrite C4 in C2.
        rewrite (X _ _ (eq_sym C2)), (X _ _ (eq_sym C1)). rewrite (map_rev snd), (map_rev (most ps)). lia.
    - cbv zeta.
      assert (L0 : treap_rel (Leaf : treap) []) by (split; [reflexivity | apply tinv_leaf]).
      pose proof (regs_rel_update rs sp i Leaf [] HR L0) as R1. pose proof (regs_rel_update _ _ j Leaf [] R1 L0) as R2.
      destruct (HR i) as [Ei Ti]. destruct (R1 j) as [Ej Tj].
      assert (E1 : forall u, kp (ip (update rs i Leaf u)) = mp ps (update r i [] u)) by (now apply (update_map2 (fun t : treap => kp (ip t)) (mp ps))).
      assert (E2 : forall u, kp (ip (update (update rs i Leaf) j Leaf u)) = mp ps (update (update r i []) j [] u)) by (now apply (update_map2 (fun t : treap => kp (ip t)) (mp ps))).
      assert (S1 : sorted (update r i [] j)) by (destruct (update_cases r i [] j) as [[_ ->]|[_ ->]]; [constructor | apply S0]).
      destruct (t_set_op_priced s _ _ Ti Tj) as (t & c & _ & Ec & Tt & It & Kt & Bt). rewrite Ec. cbn [bind fst snd].
      rewrite E, E1 in Kt. unfold mp in Kt. rewrite <- (set_with_map (most ps) (@app nat) N.max s _ _ (most_app ps) (S0 i) S1) in Kt. fold (mp ps (set_with (@app nat) s (r i) (update r i [] j))) in Kt.
      eexists _, _. split; [reflexivity|]. split; [|split].
      + apply regs_rel_update; [exact R2|]. split; [|exact Tt]. rewrite It, Ei, Ej. reflexivity.
      + now apply (update_map2 (fun t : treap => kp (ip t)) (mp ps)).
      + intros _. rewrite E, E1, Kt in Bt. exact Bt.
    - destruct (HR i) as [Ei Ti]. pose proof (t_split_off_priced (rs i) k inc Ti) as X.
      destruct (t_split_off (rs i) k inc) as [stay give]. destruct X as (c & Ec & T1 & T2 & Ex & Kx & Bc). rewrite Ec. rewrite Ei in Ex.
      destruct (spec_split k inc (sp i)) as [ls lg]. injection Ex as E1 E2. rewrite E in Kx, Bc.
      pose proof (split_map (most ps) k inc (r i)) as Sm. fold (mp ps (r i)) in Sm. rewrite Sm in Kx || (destruct (spec_split k inc (r i)) as [bs bg] eqn:Eb; rewrite Sm in Kx).
      injection Kx as K1 K2. cbn [fst snd].
      eexists _, _. split; [reflexivity|]. split; [apply regs_rel_update; [apply regs_rel_update|]; auto; split; auto|]. split; [|auto].
      apply (update_map2 (fun t : treap => kp (ip t)) (mp ps)); [|exact K2]. now apply (update_map2 (fun t : treap => kp (ip t)) (mp ps)).
  Qed.

  (** ** Runs *)
  Lemma prog_run_c ps : forall ops qs n r (rs : nat -> treap) sp, length qs = length ops -> (forall j, j < length ops -> nth j qs 0%N = nth (n + j) ps 0%N) ->
    regs_rel rs sp -> binv n r -> (forall u, kp (ip (rs u)) = mp ps (r u)) ->
    exists rs' outs, run treap_prog_step_c rs (combine ops qs) = Ok (rs', outs) /\ map fst outs = snd (spec_run prog_spec_step sp ops) /\
      forall i o, nth_error ops i = Some o -> bounded o = true -> nth i (map snd outs) 0 <= call_bound ps (pblocks n r (firstn i ops)) o.
  Proof.
    induction ops as [|o ops IH]; intros [|q qs] n r rs sp El En HR B E; try discriminate.
    - exists rs, []. repeat split. intros [|i] ? X; discriminate X.
    - pose proof (En 0 ltac:(simpl; lia)) as E0. rewrite Nat.add_0_r in E0. cbn [nth] in E0. subst q.
      destruct (prog_step_c ps n r rs sp o HR B E) as (rs1 & c & E1 & R1 & K1 & B1).
      destruct (IH qs (S n) (pblocks_step n r o) rs1 (fst (prog_spec_step sp o))) as (rs2 & outs & E2 & E3 & E4); auto.
      + intros j Lj. rewrite Nat.add_succ_comm. apply (En (S j)). simpl. lia.
      + now apply pblocks_step_inv.
      + eexists _, _. split; [cbn [combine run]; rewrite E1; cbn [bind]; rewrite E2; reflexivity|]. split.
        * cbn [map fst spec_run]. rewrite E3. destruct (prog_spec_step sp o) as [l1 r1]. cbn [fst snd]. now destruct (spec_run prog_spec_step l1 ops).
        * intros [|i] o' Eo Bo.
          -- injection Eo as <-. cbn [map nth firstn pblocks]. auto.
          -- cbn [map nth firstn pblocks]. now apply E4.
  Qed.

  (** ** Averages *)
  Lemma around_average M (t : nat) k l n : 0 < M -> blocks_ok n l -> n <= t ->
    total (fun ps => around k (mp ps l)) (draws M t) <= M ^ t * (2 * Nat.log2 (length (draws_of l)) + 2) + length (draws_of l) * M ^ (t - 1).
  Proof.
    intros PM B Lt. pose proof (cut_average M t (MGet k : map_op K V) l n PM B Lt) as A. cbn [cut fst snd] in A.
    rewrite total_plus, total_mul, total_const, draws_length in A.
    rewrite (total_ext (fun ps => around k (mp ps l)) (fun ps => recs [] (map (most ps) (map snd (above k l))) + recs [] (map (most ps) (map snd (rev (below k l)))))).
    - nia.
    - intros ps _. unfold around, mp. rewrite <- (on2_above (most ps)), <- (on2_below (most ps)). f_equal; f_equal.
      + now rewrite !map_map.
      + rewrite !map_map, map_rev. reflexivity.
  Qed.

  Lemma set_draws n r s i j : binv n r -> let b := update r i [] j in
    length (draws_of (set_with (@app nat) s (r i) b)) <= length (draws_of (r i)) + length (draws_of b).
  Proof.
    intros B b. pose proof (pblocks_step_inv n r (PSet s i i j) B) as B'. apply (binv_ok _ _ i) in B'. cbn [pblocks_step] in B'. rewrite update_same in B'.
    destruct B' as (_ & D & _). rewrite <- app_length. apply NoDup_incl_length; [exact D|]. intros w iw. apply draws_in_entry in iw as (x & ix & iw).
    destruct B as (S0 & _).
    assert (S1 : sorted b) by (unfold b; destruct (update_cases r i [] j) as [[_ ->]|[_ ->]]; [constructor | apply S0]).
    apply in_app_iff. destruct (set_with_in _ _ _ _ _ (S0 i) S1 ix) as [iy|[iy|(y & z & iy & iz & _ & ->)]].
    - left. eapply entry_draws; eauto.
    - right. eapply entry_draws; eauto.
    - cbn [snd] in iw. apply in_app_iff in iw as [iw|iw]; [left | right]; eapply entry_draws; eauto.
  Qed.

  Lemma set_average M (t : nat) n r s i j : 0 < M -> binv n r -> n <= t -> S n <= t -> let a := r i in let b := update r i [] j in let m := length (draws_of a) + length (draws_of b) in
    total (fun ps => set_bound (mp ps a) (mp ps b) (mp ps (set_with (@app nat) s a b))) (draws M t) <=
    (length a + length b) * (M ^ t * (10 * Nat.log2 m + 14) + 3 * m * M ^ (t - 1)).
  Proof.
    intros PM B Lt Lt' a b m.
    assert (Ba : blocks_ok n a) by (now apply binv_ok).
    assert (Bb : blocks_ok n b).
    { unfold b. destruct (update_cases r i [] j) as [[_ ->]|[_ ->]]; [|now apply binv_ok]. split; [constructor|]. split; [constructor | intros ? []]. }
    assert (Br : blocks_ok (S n) (set_with (@app nat) s a b)).
    { pose proof (pblocks_step_inv n r (PSet s i i j) B) as B'. apply (binv_ok _ _ i) in B'. cbn [pblocks_step] in B'. now rewrite update_same in B'. }
    pose proof (set_draws n r s i j B) as Ld. fold a b in Ld. cbv zeta in Ld. fold m in Ld.
    set (x := set_with (@app nat) s a b) in *.
    rewrite (total_ext _ (fun ps => total (fun e : K * list nat => 4 + 2 * (around (fst e) (mp ps a) + around (fst e) (mp ps b)) + around (fst e) (mp ps x)) (a ++ b))).
    2: { intros ps _. unfold set_bound.
         assert (Ex : mp ps a ++ mp ps b = map (on2 (most ps)) (a ++ b)) by (unfold mp; now rewrite map_app). rewrite Ex, total_map. reflexivity. }
    rewrite total_swap. rewrite <- app_length.
    rewrite <- (total_const (M ^ t * (10 * Nat.log2 m + 14) + 3 * m * M ^ (t - 1)) (a ++ b)). apply total_le. intros e _.
    rewrite total_plus, total_plus, total_mul, total_plus, total_const, draws_length.
    pose proof (around_average M t (fst e) a n PM Ba Lt) as A1. pose proof (around_average M t (fst e) b n PM Bb Lt) as A2.
    pose proof (around_average M t (fst e) x (S n) PM Br Lt') as A3.
    pose proof (Nat.log2_le_mono (length (draws_of a)) m ltac:(unfold m; lia)) as G1.
    pose proof (Nat.log2_le_mono (length (draws_of b)) m ltac:(unfold m; lia)) as G2.
    pose proof (Nat.log2_le_mono (length (draws_of x)) m Ld) as G3.
    assert (Em : length (draws_of a) + length (draws_of b) = m) by reflexivity.
    set (la := length (draws_of a)) in *. set (lb := length (draws_of b)) in *. set (lx := length (draws_of x)) in *.
    set (A := M ^ t) in *. set (A' := M ^ (t - 1)) in *. clearbody m la lb lx A A'.
    assert (A * (2 * Nat.log2 la + 2) <= A * (2 * Nat.log2 m + 2)) by nia. assert (A * (2 * Nat.log2 lb + 2) <= A * (2 * Nat.log2 m + 2)) by nia.
    assert (A * (2 * Nat.log2 lx + 2) <= A * (2 * Nat.log2 m + 2)) by nia.
    assert (la * A' + lb * A' = m * A') by nia. assert (lx * A' <= m * A') by nia.
    assert (A * (10 * Nat.log2 m + 14) = 4 * A + 5 * (A * (2 * Nat.log2 m + 2))) by nia. lia.
  Qed.

  Lemma to_average (M t a b x : nat) : 0 < t -> x <= M ^ t * a + b * M ^ (t - 1) -> M * x <= M ^ t * (M * a + b).
  Proof.
    intros Pt L. apply (Nat.mul_le_mono_l _ _ M) in L. eapply Nat.le_trans; [exact L|].
    replace (M ^ t) with (M * M ^ (t - 1)); [nia|]. rewrite <- Nat.pow_succ_r'. f_equal. lia.
  Qed.

  Lemma prog_steps_average (M : nat) (ops : list (prog_op K V)) : 0 < M -> exists steps : list N -> list nat,
    (forall ps, length ps = length ops ->
       outputs treap_prog_step_c (fun _ => Leaf) (combine ops ps) = Ok (combine (prog_spec_outputs ops) (steps ps)) /\ length (steps ps) = length ops) /\
    forall (q : nat) o, nth_error ops q = Some o -> let c := counts (firstn q ops) in
      match o with
      | POp i o' => looks_up o' = true ->
          average_within M (length ops) (4 * Nat.log2 (inserted (c i)) + 7) (2 * inserted (c i)) (fun ps => nth q (steps ps) 0)
      | PSplit _ i _ _ => average_within M (length ops) (6 * Nat.log2 (inserted (c i)) + 9) (3 * inserted (c i)) (fun ps => nth q (steps ps) 0)
      | PSet _ _ i j => let a := c i in let b := update c i [] j in let keys := length a + length b in let m := inserted a + inserted b in
          average_within M (length ops) (keys * (10 * Nat.log2 m + 14)) (3 * keys * m) (fun ps => nth q (steps ps) 0)
      end.
  Proof.
    intros PM. pose proof (sorted_nil : sorted ([] : list (K * V))) as Sn.
    set (steps := fun ps => match run treap_prog_step_c (fun _ => Leaf : treap) (combine ops ps) with Ok (_, outs) => map snd outs | _ => [] end).
    exists steps.
    assert (A : forall ps, length ps = length ops ->
      outputs treap_prog_step_c (fun _ => Leaf) (combine ops ps) = Ok (combine (prog_spec_outputs ops) (steps ps)) /\ length (steps ps) = length ops /\
      forall (q : nat) o, nth_error ops q = Some o -> bounded o = true -> nth q (steps ps) 0 <= call_bound ps (pblocks 0 (fun _ => []) (firstn q ops)) o).
    { intros ps El. destruct (prog_run_c ps ops ps 0 (fun _ => []) (fun _ => Leaf) (fun _ => []) El) as (rs' & outs & E1 & E2 & E3); auto using binv_0.
      { intros i. split; [reflexivity | apply tinv_leaf]. }
      unfold outputs, steps. rewrite E1. cbn [rmap]. split; [|split; [|exact E3]].
      - unfold prog_spec_outputs, spec_outputs. rewrite <- E2. cbn [rmap bind snd]. f_equal. clear. induction outs as [|[a c] outs IH]; [reflexivity|]. simpl. now rewrite <- IH.
      - rewrite map_length, <- (map_length fst outs), E2. apply spec_run_length. }
    split; [intros ps El; destruct (A ps El) as (A1 & A2 & _); auto|].
    intros q o Eq c. assert (Lq : q < length ops) by (apply nth_error_Some; congruence).
    destruct (pblocks_all (firstn q ops) 0 (fun _ => []) (fun _ => []) binv_0 (fun _ => eq_refl)) as [B Ec]. simpl in B. rewrite firstn_length_le in B by lia.
    fold (counts (firstn q ops)) in Ec. fold c in Ec. set (r := pblocks 0 (fun _ => []) (firstn q ops)) in *.
    assert (Ei : forall u, length (draws_of (r u)) = inserted (c u)) by (intros u; rewrite draws_count; unfold inserted; now rewrite Ec).
    assert (En : forall u, length (r u) = length (c u)) by (intros u; rewrite <- Ec; now rewrite map_length).
    assert (T : bounded o = true -> total (fun ps => nth q (steps ps) 0) (draws M (length ops)) <= total (fun ps => call_bound ps r o) (draws M (length ops))).
    { intros Bo. apply total_le. intros ps ip'. apply draws_in in ip' as [El _]. now apply A. }
    unfold average_within. destruct o as [i o|s d i j|d i k inc]; cbn [bounded call_bound] in T; [intros Lo; specialize (T Lo) | specialize (T eq_refl) .. ]; apply to_average; try lia.
    - eapply Nat.le_trans; [exact T|]. rewrite <- Ei. apply (cut_average M (length ops) o (r i) q PM); [now apply binv_ok | lia].
    - assert (Eb : length (draws_of (update r i [] j)) = inserted (update c i [] j)) by (unfold update; destruct (j =? i); [reflexivity | apply Ei]).
      assert (Lb : length (update r i [] j) = length (update c i [] j)) by (unfold update; destruct (j =? i); [reflexivity | apply En]).
      pose proof (set_average M (length ops) q r s i j PM B ltac:(lia) ltac:(lia)) as X. cbv zeta in X. rewrite Eb, Lb, Ei, En in X. nia.
    - eapply Nat.le_trans; [exact T|]. rewrite total_plus, total_mul, total_const, draws_length.
      pose proof (around_average M (length ops) k (r i) q PM (binv_ok q r i B) ltac:(lia)) as X. rewrite Ei in X. nia.
  Qed.
End ProgCost.
