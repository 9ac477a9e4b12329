(** The tree behind the pages of a B+ tree file: bounds, balance and the pages it occupies. *)
From Verif Require Import BpMapModel BpLeafProofs BpInternalProofs BpStoreProofs OrdLemmas ListLemmas MapSpec.

(** [korder] with hypotheses and goals of the form [cmp x y <> Gt]. *)
Ltac border :=
  repeat match goal with
  | E : cmp ?x ?y <> Gt |- _ =>
      let Q := fresh in destruct (cmp x y) eqn:Q; [clear E | clear E | exfalso; now apply E]
  | |- cmp _ _ <> _ => let Q := fresh in intros Q
  end; korder.

Section Tree.
  Context {K V : Type} `{CmpLaws K} {Tg : tightness}.
  Variables m d : nat.
  Notation entry := (K * V)%type.
  Notation node := (node K V).
  Notation store := (store K V).
  Notation frame := (@frame K).

  Unset Elimination Schemes.
  (** Each child of an inner node carries its lower bound. *)
  Inductive bt : Type :=
  | BLeaf (p : nat) (es : list entry)
  | BNode (p : nat) (kids : list (option K * bt)).
  Set Elimination Schemes.
  Notation kid := (option K * bt)%type.

  Implicit Types (t c : bt) (kids L R M : list kid) (l lo hi : option K) (nxt : option nat) (es : list entry).

  Definition root_of t : nat := match t with BLeaf p _ => p | BNode p _ => p end.
  Fixpoint first_leaf t : nat :=
    match t with
    | BLeaf p _ => p
    | BNode p kids => match kids with [] => p | (_, c) :: _ => first_leaf c end
    end.
  Fixpoint contents t : list entry :=
    match t with
    | BLeaf _ es => es
    | BNode _ kids => flat_map (fun lc : kid => match lc with (_, c) => contents c end) kids
    end.
  Definition kcontents kids : list entry := flat_map (fun lc : kid => match lc with (_, c) => contents c end) kids.

  Definition kroot (lc : kid) : nat := root_of (snd lc).
  Definition keys_of kids : list K := flat_map (fun lc : kid => match fst lc with Some k => [k] | None => [] end) kids.
  Definition kp_of kids : list (K * nat) :=
    flat_map (fun lc : kid => match fst lc with Some k => [(k, kroot lc)] | None => [] end) kids.
  Definition inode kids : internal K := node_of d (keys_of (tl kids)) (map kroot kids).
  Definition nxt_of kids nxt : option nat := match kids with [] => nxt | (_, c) :: _ => Some (first_leaf c) end.
  Definition low_of kids hi : option K := match kids with [] => hi | (l, _) :: _ => l end.

  Definition flat_kids_with (f : bt -> option nat -> list (nat * node)) : list kid -> option nat -> list (nat * node) :=
    fix go kids nxt :=
      match kids with [] => [] | (_, c) :: r => f c (nxt_of r nxt) ++ go r nxt end.
  Fixpoint flat t nxt : list (nat * node) :=
    match t with
    | BLeaf p es => [(p, Leaf (mk_leaf m es nxt))]
    | BNode p kids => (p, Internal (inode kids)) :: flat_kids_with flat kids nxt
    end.
  Definition flat_kids : list kid -> option nat -> list (nat * node) := flat_kids_with flat.

  Definition le_b lo (k : K) : Prop := match lo with None => True | Some x => cmp x k <> Gt end.
  Definition lt_b (k : K) hi : Prop := match hi with None => True | Some x => cmp k x = Lt end.
  Definition in_b lo hi (k : K) : Prop := le_b lo k /\ lt_b k hi.
  Definition seg lo hi es : Prop := sorted es /\ Forall (fun e => in_b lo hi (fst e)) es.

  Definition keyed kids : Prop := Forall (fun lc : kid => fst lc <> None) kids.
  Definition first_low kids lo : Prop := match kids with [] => False | (l, _) :: _ => l = lo end.
  Fixpoint chain (P : option K -> option K -> bt -> Prop) kids hi : Prop :=
    match kids with [] => True | (l, c) :: r => P l (low_of r hi) c /\ chain P r hi end.

  Fixpoint ok (n : nat) (root : bool) lo hi t : Prop :=
    match n, t with
    | 0, BLeaf _ es => seg lo hi es /\ length es <= m /\ (root = false -> (m + 1) / 2 <= length es)
    | S n, BNode _ kids =>
        (first_low kids lo /\ keyed (tl kids) /\ chain (ok n false) kids hi) /\
        2 <= length kids <= d + 1 /\ (root = false -> (d + 1) / 2 <= length kids)
    | _, _ => False
    end.
  Definition kids_ok n lo kids hi : Prop :=
    first_low kids lo /\ keyed (tl kids) /\ chain (ok n false) kids hi.

  (** *** Lists of children *)
  Lemma kcontents_app L R : kcontents (L ++ R) = kcontents L ++ kcontents R.
  Proof. apply flat_map_app. Qed.
  Lemma kcontents_cons l c R : kcontents ((l, c) :: R) = contents c ++ kcontents R.
  Proof. reflexivity. Qed.
  Lemma keys_app L R : keys_of (L ++ R) = keys_of L ++ keys_of R.
  Proof. apply flat_map_app. Qed.
  Lemma kp_app L R : kp_of (L ++ R) = kp_of L ++ kp_of R.
  Proof. apply flat_map_app. Qed.
  Lemma nxt_app L R nxt : nxt_of (L ++ R) nxt = nxt_of L (nxt_of R nxt).
  Proof. now destruct L as [|[l c] L]. Qed.
  Lemma low_app L R hi : low_of (L ++ R) hi = low_of L (low_of R hi).
  Proof. now destruct L as [|[l c] L]. Qed.
  Lemma flat_kids_app L R nxt : flat_kids (L ++ R) nxt = flat_kids L (nxt_of R nxt) ++ flat_kids R nxt.
  Proof.
    unfold flat_kids. induction L as [|[l c] L IH]; [reflexivity|].
    cbn [app flat_kids_with]. rewrite IH, nxt_app, <- app_assoc. reflexivity.
  Qed.
  Lemma flat_kids_cons l c R nxt : flat_kids ((l, c) :: R) nxt = flat c (nxt_of R nxt) ++ flat_kids R nxt.
  Proof. reflexivity. Qed.
  Lemma flat_node p kids nxt : flat (BNode p kids) nxt = (p, Internal (inode kids)) :: flat_kids kids nxt.
  Proof. reflexivity. Qed.
  Lemma flat_kids_nxt L l c c' R nxt : first_leaf c = first_leaf c' ->
    flat_kids L (nxt_of ((l, c) :: R) nxt) = flat_kids L (nxt_of ((l, c') :: R) nxt).
  Proof. cbn. now intros ->. Qed.
  Lemma chain_app P L R hi : chain P (L ++ R) hi <-> chain P L (low_of R hi) /\ chain P R hi.
  Proof.
    induction L as [|[l c] L IH]; cbn [app chain]; [tauto|]. rewrite IH, low_app. tauto.
  Qed.
  Lemma chain_impl (P Q : option K -> option K -> bt -> Prop) kids hi :
    (forall l h c, P l h c -> Q l h c) -> chain P kids hi -> chain Q kids hi.
  Proof. intros I. revert hi. induction kids as [|[l c] r IH]; cbn; [auto|]. intros hi [A B]. auto. Qed.

  Lemma keys_length L : keyed L -> length (keys_of L) = length L.
  Proof.
    induction L as [|[[k|] c] L IH]; intros F; inversion F as [|? ? F1 F2]; subst; cbn; auto. now cbn in F1.
  Qed.
  Lemma kp_keys L : map fst (kp_of L) = keys_of L.
  Proof. induction L as [|[[k|] c] L IH]; cbn; auto. unfold kp_of, keys_of in IH. now rewrite IH. Qed.
  Lemma kp_roots L : keyed L -> map snd (kp_of L) = map kroot L.
  Proof.
    induction L as [|[[k|] c] L IH]; intros F; inversion F as [|? ? F1 F2]; subst; cbn; auto.
    - unfold kp_of in IH. now rewrite IH.
    - now cbn in F1.
  Qed.
  Lemma kp_length L : keyed L -> length (kp_of L) = length L.
  Proof. intros F. now rewrite <- (map_length fst (kp_of L)), kp_keys, keys_length. Qed.
  Lemma kp_split : forall r (M1 : list (K * nat)) x (M2 : list (K * nat)), keyed r -> kp_of r = M1 ++ x :: M2 ->
    exists r1 y r2, r = r1 ++ y :: r2 /\ kp_of r1 = M1 /\ kp_of [y] = [x] /\ kp_of r2 = M2.
  Proof.
    induction r as [|[[k|] c] r IH]; intros M1 x M2 F E.
    - destruct M1; discriminate.
    - inversion F as [|? ? F1 F2]; subst. change (kp_of ((Some k, c) :: r)) with ((k, root_of c) :: kp_of r) in E.
      destruct M1 as [|a M1]; cbn in E; injection E as E1 E2.
      + exists [], (Some k, c), r. cbn. now subst.
      + destruct (IH M1 x M2 F2 E2) as (r1 & y & r2 & -> & A & B & C2).
        exists ((Some k, c) :: r1), y, r2. cbn [app]. split; [reflexivity|]. split; [|auto].
        change (kp_of ((Some k, c) :: r1)) with ((k, root_of c) :: kp_of r1). now rewrite E1, A.
    - inversion F as [|? ? F1 F2]; subst. now cbn in F1.
  Qed.

  Definition dummy : bt := BLeaf 0 [].
  (** The keys of a node up to and including the one of the child at hand. *)
  Definition kl L l : list K := keys_of (tl (L ++ [(l, dummy)])).
  Lemma tl_mid {A} (L : list A) (x : A) (R : list A) : tl (L ++ x :: R) = tl (L ++ [x]) ++ R.
  Proof. destruct L as [|y L]; [reflexivity|]. cbn. now rewrite <- app_assoc. Qed.
  Lemma kl_eq L l c : keys_of (tl (L ++ [(l, c)])) = kl L l.
  Proof.
    unfold kl. destruct L as [|x L]; [reflexivity|]. cbn [tl app]. now rewrite !keys_app.
  Qed.
  Lemma keys_at L l c R : keys_of (tl (L ++ (l, c) :: R)) = kl L l ++ keys_of R.
  Proof. rewrite tl_mid, keys_app. now rewrite kl_eq. Qed.
  Lemma keyed_at L l c R : keyed (tl (L ++ (l, c) :: R)) -> length (kl L l) = length L /\ keyed R.
  Proof.
    rewrite tl_mid. unfold keyed. rewrite Forall_app. intros [F1 F2]. split; [|exact F2].
    rewrite <- (kl_eq L l c). rewrite keys_length by exact F1. destruct L as [|x L]; [reflexivity|].
    cbn. rewrite app_length. cbn. lia.
  Qed.
  Lemma keyed_tl L : keyed L -> keyed (tl L).
  Proof. destruct L; [auto|]. intros F. now inversion F. Qed.
  Lemma inode_at L l c R :
    inode (L ++ (l, c) :: R) = node_of d (kl L l ++ keys_of R) ((map kroot L ++ [root_of c]) ++ map kroot R).
  Proof. unfold inode. rewrite keys_at. rewrite map_app. cbn. now rewrite <- app_assoc. Qed.
  Lemma inode_replace L l c c' R : root_of c = root_of c' -> inode (L ++ (l, c) :: R) = inode (L ++ (l, c') :: R).
  Proof. intros E. rewrite !inode_at. now rewrite E. Qed.
  Lemma inode_mk l c r : keyed r -> inode ((l, c) :: r) = mk_int d (root_of c) (kp_of r).
  Proof. intros F. unfold inode, mk_int. cbn [tl map]. now rewrite kp_keys, kp_roots. Qed.

  Lemma first_low_app M R l : first_low M l -> first_low (M ++ R) l.
  Proof. now destruct M as [|[x c] M]. Qed.
  Lemma first_low_of M l hi : first_low M l -> low_of M hi = l.
  Proof. now destruct M as [|[x c] M]. Qed.
  Lemma first_low_ne M l : first_low M l -> M <> [].
  Proof. destruct M; [contradiction | discriminate]. Qed.

  (** Replace a stretch of children. *)
  Lemma kids_splice n lo hi L M M' R l : kids_ok n lo (L ++ M ++ R) hi ->
    first_low M l -> first_low M' l -> keyed (tl M') -> chain (ok n false) M' (low_of R hi) ->
    kids_ok n lo (L ++ M' ++ R) hi.
  Proof.
    intros (F & D & Ch) E1 E2 D' Ch'. rewrite !chain_app in Ch. destruct Ch as (C1 & C2 & C3).
    split; [|split].
    - destruct L as [|[x c] L]; [|exact F]. cbn [app] in *.
      destruct M as [|[y c] M]; [contradiction|]. cbn in F, E1. subst.
      now apply first_low_app.
    - unfold keyed in *.
      destruct L as [|[x c] L]; cbn [app tl] in *.
      + destruct M as [|[y c] M]; [contradiction|]. cbn [app tl] in D. apply Forall_app in D as [D1 D2].
        destruct M' as [|[y' c'] M']; [contradiction|]. cbn [app tl]. apply Forall_app. now split.
      + rewrite !Forall_app in *. destruct D as (D1 & D2 & D3). split; [exact D1|]. split; [|exact D3].
        destruct M as [|[y c'] M]; [contradiction|]. destruct M' as [|[y' c''] M']; [contradiction|].
        cbn in E1, E2. subst. inversion D2; subst. now constructor.
    - rewrite !chain_app. repeat split; auto.
      rewrite low_app in C1 |- *. rewrite (first_low_of M l) in C1 by exact E1. now rewrite (first_low_of M' l).
  Qed.
  Lemma kids_mid n lo hi L M R : kids_ok n lo (L ++ M ++ R) hi ->
    chain (ok n false) L (low_of (M ++ R) hi) /\ chain (ok n false) M (low_of R hi) /\
    chain (ok n false) R hi /\ (M <> [] -> keyed (tl M) /\ keyed R) /\ keyed (tl L).
  Proof.
    intros (F & D & Ch). rewrite !chain_app in Ch. destruct Ch as (C1 & C2 & C3). unfold keyed in *.
    split; [exact C1|]. split; [exact C2|]. split; [exact C3|].
    destruct L as [|x L]; cbn [app tl] in *.
    - split; [|constructor]. destruct M as [|y M]; [congruence|]. cbn [app tl] in *. intros _. now apply Forall_app in D.
    - rewrite !Forall_app in D. destruct D as (D1 & D2 & D3). split; [|exact D1]. intros _. split; [|exact D3].
      destruct M; [exact D2|]. now inversion D2.
  Qed.

  (** *** Bounds *)
  Lemma le_lt_b lo a b : le_b lo a -> cmp a b = Lt -> le_b lo b.
  Proof. destruct lo as [x|]; cbn; [|auto]. intros A B E. border. Qed.
  Lemma seg_app lo k hi a b : seg lo (Some k) a -> seg (Some k) hi b -> a <> [] -> b <> [] -> seg lo hi (a ++ b).
  Proof.
    intros [S1 F1] [S2 F2] N1 N2. rewrite Forall_forall in F1, F2.
    assert (X : forall x y, In x a -> In y b -> cmp (fst x) (fst y) = Lt).
    { intros x y I J. destruct (F1 x I) as [_ P]. destruct (F2 y J) as [Q _]. cbn in P, Q.
      border. }
    split.
    - apply sorted_app. split; [exact S1|]. split; [exact S2|]. intros x y I J. now apply X.
    - apply Forall_app. split; apply Forall_forall.
      + intros x I. split; [apply (F1 x I)|]. destruct hi as [h|]; [|exact Logic.I]. cbn.
        destruct b as [|y b]; [congruence|]. pose proof (X x y I (or_introl eq_refl)).
        destruct (F2 y (or_introl eq_refl)) as [_ Q]. cbn in Q. border.
      + intros y J. split; [|apply (F2 y J)].
        destruct a as [|x a]; [congruence|]. apply le_lt_b with (a := fst x); [|now apply X; [left|]].
        apply (F1 x (or_introl eq_refl)).
  Qed.
  Lemma seg_key lo hi a : seg lo hi a -> a <> [] ->
    match lo, hi with Some x, Some y => cmp x y = Lt | _, _ => True end.
  Proof.
    intros [_ F] Ne. destruct lo as [x|], hi as [y|]; auto. destruct a as [|e a]; [congruence|].
    inversion F as [|? ? [P Q] _]; subst. cbn in *.
    border.
  Qed.

  Section Chain.
    Variable P : option K -> option K -> bt -> Prop.
    Hypothesis P_seg : forall l h c, P l h c -> seg l h (contents c) /\ contents c <> [].

    Lemma chain_seg : forall r l c hi, keyed r -> chain P ((l, c) :: r) hi ->
      seg l hi (kcontents ((l, c) :: r)) /\ kcontents ((l, c) :: r) <> [].
    Proof.
      induction r as [|[l2 c2] r IH]; intros l c hi F Ch.
      - destruct Ch as [Q _]. cbn [low_of] in Q. rewrite kcontents_cons. cbn [kcontents flat_map].
        rewrite app_nil_r. now apply P_seg.
      - destruct Ch as [Q Ch]. cbn [low_of] in Q. inversion F as [|? ? F1 F2]; subst. cbn in F1.
        destruct l2 as [k|]; [|congruence].
        destruct (IH (Some k) c2 hi F2 Ch) as [A B]. destruct (P_seg _ _ _ Q) as [A1 B1].
        rewrite kcontents_cons. split; [now apply seg_app with k|].
        intros E. apply app_eq_nil in E. tauto.
    Qed.
    Lemma chain_keys : forall r l c hi, keyed r -> chain P ((l, c) :: r) hi ->
      StronglySorted (fun x y => cmp x y = Lt) (keys_of r) /\
      Forall (fun k => match l with Some x => cmp x k = Lt | None => True end) (keys_of r) /\
      Forall (fun k => lt_b k hi) (keys_of r).
    Proof.
      induction r as [|[l2 c2] r IH]; intros l c hi F Ch; [repeat constructor|].
      destruct Ch as [Q Ch]. cbn [low_of] in Q. inversion F as [|? ? F1 F2]; subst. cbn in F1.
      destruct l2 as [k|]; [|congruence]. destruct (IH (Some k) c2 hi F2 Ch) as (A & B & C2).
      change (keys_of ((Some k, c2) :: r)) with (k :: keys_of r).
      destruct (P_seg _ _ _ Q) as [S1 N1]. pose proof (seg_key _ _ _ S1 N1) as KL.
      destruct (chain_seg _ _ _ _ F2 Ch) as [S2 N2]. pose proof (seg_key _ _ _ S2 N2) as KH.
      split; [|split].
      - now constructor.
      - constructor; [destruct l; exact KL|]. destruct l as [x|]; [|apply Forall_forall; auto].
        eapply Forall_impl; [|exact B]. cbn. intros y E. border.
      - constructor; [destruct hi; [exact KH | exact Logic.I]|exact C2].
    Qed.
    Lemma chain_contents : forall kids hi, chain P kids hi -> Forall (fun lc : kid => contents (snd lc) <> []) kids.
    Proof.
      induction kids as [|[l c] r IH]; intros hi Ch; constructor; destruct Ch as [Q Ch].
      - now apply (P_seg _ _ _ Q).
      - now apply (IH hi).
    Qed.
  End Chain.

  Lemma ok_seg : 1 <= m -> forall n lo hi t, ok n false lo hi t -> seg lo hi (contents t) /\ contents t <> [].
  Proof.
    intros M1. induction n as [|n IH]; intros lo hi [p es|p kids] O; try contradiction.
    - destruct O as (S & _ & L). split; [exact S|]. cbn. pose proof (half_up m). pose proof (half_le m).
      specialize (L eq_refl). destruct es; [cbn [length] in L; lia | discriminate].
    - destruct O as ((F & D & Ch) & _). destruct kids as [|[l c] r]; [contradiction|]. cbn in F. subst l.
      apply (chain_seg (ok n false) IH); assumption.
  Qed.
  Lemma kids_seg n lo kids hi : 1 <= m -> kids_ok n lo kids hi -> seg lo hi (kcontents kids) /\ kcontents kids <> [].
  Proof.
    intros M1 (F & D & Ch). destruct kids as [|[l c] r]; [contradiction|]. cbn in F. subst l.
    apply (chain_seg (ok n false) (ok_seg M1 n)); assumption.
  Qed.
  Lemma ok_root_seg n root lo hi t : 1 <= m -> ok n root lo hi t -> seg lo hi (contents t).
  Proof.
    intros M1. destruct n as [|n], t as [p es|p kids]; try contradiction; intros O.
    - apply O.
    - destruct O as (Q & _). now apply (kids_seg n lo kids hi M1) in Q.
  Qed.
  Lemma ok_weaken n lo hi t : ok n false lo hi t -> ok n true lo hi t.
  Proof. destruct n, t; cbn; try tauto; intros; intuition discriminate. Qed.

  (** *** Descending *)
  Lemma choose : forall r l0 c0 hi k, keyed r -> le_b l0 k -> lt_b k hi ->
    exists L l c R, (l0, c0) :: r = L ++ (l, c) :: R /\ in_b l (low_of R hi) k /\
      Forall (fun x => cmp x k <> Gt) (kl L l).
  Proof.
    induction r as [|[l1 c1] r IH]; intros l0 c0 hi k F A B.
    - exists [], l0, c0, []. repeat split; auto. constructor.
    - inversion F as [|? ? F1 F2]; subst. cbn in F1. destruct l1 as [k1|]; [|congruence].
      destruct (cmp k k1) eqn:E.
      2: { exists [], l0, c0, ((Some k1, c1) :: r). repeat split; auto. constructor. }
      all: destruct (IH (Some k1) c1 hi k F2) as (L & l & c & R & Q1 & Q2 & Q3);
        [cbn; intros E2; border | exact B |];
        exists ((l0, c0) :: L), l, c, R; rewrite Q1; repeat split; try apply Q2;
        destruct L as [|[y cy] L]; cbn in Q1; injection Q1 as <- <- _;
        unfold kl in *; cbn in *; constructor; try exact Q3; intros E2; border.
  Qed.

  Inductive descend (k : K) : option K -> bt -> option nat -> nat -> list entry -> option nat -> list frame -> Prop :=
  | D_leaf hi p es nxt : descend k hi (BLeaf p es) nxt p es nxt []
  | D_node hi p L l c R nxt q es nx fr :
      in_b l (low_of R hi) k -> Forall (fun x => cmp x k <> Gt) (kl L l) ->
      descend k (low_of R hi) c (nxt_of R nxt) q es nx fr ->
      descend k hi (BNode p (L ++ (l, c) :: R)) nxt q es nx
        (fr ++ [(p, inode (L ++ (l, c) :: R), length L)]).

  Lemma descend_ex k : forall n root lo hi t nxt, ok n root lo hi t -> in_b lo hi k ->
    exists q es nx fr, descend k hi t nxt q es nx fr.
  Proof.
    induction n as [|n IH]; intros root lo hi [p es|p kids] nxt O B; try contradiction.
    - exists p, es, nxt, []. constructor.
    - destruct O as ((F & D & Ch) & _). destruct kids as [|[l0 c0] r]; [contradiction|]. cbn in F. subst l0.
      destruct (choose r lo c0 hi k D (proj1 B) (proj2 B)) as (L & l & c & R & E & Q1 & Q2).
      rewrite E in *. apply chain_app in Ch as [_ [Ch _]].
      destruct (IH false l (low_of R hi) c (nxt_of R nxt) Ch Q1) as (q & es & nx & fr & X).
      do 4 eexists. econstructor; eauto.
  Qed.

  Lemma above_keys n lo hi L l c R k : 1 <= m -> kids_ok n lo (L ++ (l, c) :: R) hi ->
    lt_b k (low_of R hi) -> Forall (fun x => cmp x k = Gt) (keys_of R) /\
      StronglySorted (fun x y => cmp x y = Lt) (keys_of R).
  Proof.
    intros M1 (_ & D & Ch) B. apply keyed_at in D as [_ D].
    apply chain_app in Ch as [_ [_ Ch]]. destruct R as [|[l1 c1] R]; [repeat constructor|].
    inversion D as [|? ? D1 D2]; subst. cbn in D1. destruct l1 as [k1|]; [|congruence]. cbn in B.
    destruct (chain_keys (ok n false) (ok_seg M1 n) R (Some k1) c1 hi D2 Ch) as (A1 & A2 & _).
    change (keys_of ((Some k1, c1) :: R)) with (k1 :: keys_of R). split.
    - constructor; [border|]. eapply Forall_impl; [|exact A2]. cbn. intros y E. border.
    - now constructor.
  Qed.
  (** Entries to the left and to the right of the chosen child. *)
  Lemma split_contents n lo hi L l c R k : 1 <= m -> kids_ok n lo (L ++ (l, c) :: R) hi ->
    in_b l (low_of R hi) k -> all_lt (kcontents L) k /\ all_gt (kcontents R) k.
  Proof.
    intros M1 (F & D & Ch) [B1 B2]. pose proof Ch as Ch0. apply chain_app in Ch as [C1 [_ C3]]. split.
    - destruct L as [|[l1 c1] L]; [constructor|]. cbn [app tl] in D. unfold keyed in D.
      apply Forall_app in D as [D1 D2]. inversion D2 as [|? ? D3 _]; subst. cbn in D3.
      destruct l as [k0|]; [|congruence]. cbn in B1.
      destruct (chain_seg (ok n false) (ok_seg M1 n) L l1 c1 _ D1 C1) as [[_ S] _].
      eapply Forall_impl; [|exact S]. cbn. intros e [_ E]. cbn in E. border.
    - pose proof (above_keys n lo hi L l c R k M1 (conj F (conj D Ch0)) B2) as [_ _].
      apply keyed_at in D as [_ D]. destruct R as [|[l1 c1] R]; [constructor|].
      inversion D as [|? ? D1 D2]; subst. cbn in D1. destruct l1 as [k1|]; [|congruence]. cbn in B2.
      destruct (chain_seg (ok n false) (ok_seg M1 n) R (Some k1) c1 _ D2 C3) as [[_ S] _].
      eapply Forall_impl; [|exact S]. cbn. intros e [E _]. cbn in E.
      border.
  Qed.

  Lemma put_mid (e : entry) (a b c0 : list entry) : all_lt a (fst e) -> all_gt c0 (fst e) -> put e (a ++ b ++ c0) = a ++ put e b ++ c0.
  Proof.
    intros A C0. unfold put. rewrite !below_app, !above_app.
    rewrite (below_all_lt a), (above_all_lt a) by exact A. rewrite (below_all_gt c0), (above_all_gt c0) by exact C0.
    rewrite app_nil_r. cbn [app]. rewrite <- !app_assoc. reflexivity.
  Qed.
  Definition drop (k : K) es : list entry := below k es ++ above k es.
  Lemma drop_mid k (a b c0 : list entry) : all_lt a k -> all_gt c0 k -> drop k (a ++ b ++ c0) = a ++ drop k b ++ c0.
  Proof.
    intros A C0. unfold drop. rewrite !below_app, !above_app.
    rewrite (below_all_lt a), (above_all_lt a) by exact A. rewrite (below_all_gt c0), (above_all_gt c0) by exact C0.
    rewrite app_nil_r. cbn [app]. rewrite <- !app_assoc. reflexivity.
  Qed.
  Lemma at_mid k (a b c0 : list entry) : all_lt a k -> all_gt c0 k -> at_key k (a ++ b ++ c0) = at_key k b.
  Proof.
    intros A C0. rewrite !at_app. rewrite (at_all_lt a) by exact A. rewrite (at_all_gt c0) by exact C0.
    now rewrite app_nil_r.
  Qed.

  Lemma flat_root t nxt : exists n r, flat t nxt = (root_of t, n) :: r /\
    match t with BLeaf _ es => n = Leaf (mk_leaf m es nxt) | BNode _ kids => n = Internal (inode kids) end.
  Proof. destruct t as [p es|p kids]; eexists _, _; split; reflexivity. Qed.
  Definition node_at t nxt : node :=
    match t with BLeaf _ es => Leaf (mk_leaf m es nxt) | BNode _ kids => Internal (inode kids) end.
  Lemma flat_head t nxt : In (root_of t, node_at t nxt) (flat t nxt).
  Proof. destruct t; left; reflexivity. Qed.

  Lemma search_node_ok k n lo hi L l c R : 1 <= m -> 1 <= d -> kids_ok n lo (L ++ (l, c) :: R) hi ->
    length (L ++ (l, c) :: R) <= d + 1 -> lt_b k (low_of R hi) -> Forall (fun x => cmp x k <> Gt) (kl L l) ->
    internal_search (inode (L ++ (l, c) :: R)) k = Ok (length L) /\
    cell (in_ptrs (inode (L ++ (l, c) :: R))) (length L) = Ok (root_of c).
  Proof.
    intros M1 D1 O LE B F. pose proof (above_keys n lo hi L l c R k M1 O B) as [A _].
    destruct O as (_ & D & _). apply keyed_at in D as [DL DR]. rewrite inode_at. split.
    - rewrite <- DL. apply internal_search_ok; auto. rewrite app_length, DL, keys_length by exact DR.
      rewrite app_length in LE. cbn in LE. lia.
    - unfold node_of. cbn [in_ptrs]. rewrite <- !app_assoc. cbn [app]. apply cell_app. now rewrite map_length.
  Qed.

  Lemma search_run k : 1 <= m -> 1 <= d -> forall hi t nxt q es nx fr, descend k hi t nxt q es nx fr ->
    forall n root lo s F fl rt ln stk fuel, ok n root lo hi t -> rep s (flat t nxt ++ F) fl rt ln -> n < fuel ->
    run_io s (search_loop fuel k (root_of t) (node_at t nxt) stk) = Ok (s, (q, Leaf (mk_leaf m es nx), fr ++ stk)).
  Proof.
    intros M1 D1. induction 1 as [hi p es nxt|hi p L l c R nxt q es nx fr B F0 X IH];
      intros n root lo s F fl rt ln stk fuel O Rp E.
    - destruct fuel; [lia|]. reflexivity.
    - destruct n as [|n]; [contradiction|]. destruct fuel as [|f]; [lia|]. destruct O as (O & Len & _).
      destruct (search_node_ok k n lo hi L l c R M1 D1 O) as [S1 S2]; try tauto; [apply B|].
      cbn [node_at root_of search_loop]. rewrite (run_pure _ _ _ _ S1). rewrite (run_pure _ _ _ _ S2).
      cbn [run_io].
      assert (Rp' : rep s (flat c (nxt_of R nxt) ++ (p, Internal (inode (L ++ (l, c) :: R)))
               :: flat_kids L (Some (first_leaf c)) ++ flat_kids R nxt ++ F) fl rt ln).
      { eapply rep_perm; [|exact Rp]. rewrite flat_node, flat_kids_app, flat_kids_cons. cbn [nxt_of]. perm. }
      erewrite rep_get; [|exact Rp'|apply in_or_app; left; apply flat_head]. cbn [bind].
      rewrite <- app_assoc. cbn [app]. eapply (IH n false l); [|exact Rp'|lia].
      destruct O as (_ & _ & Ch). apply chain_app in Ch as [_ [Ch _]]. exact Ch.
  Qed.

  Lemma depth_pages : forall n root lo hi t nxt, ok n root lo hi t -> n < length (flat t nxt).
  Proof.
    induction n as [|n IH]; intros root lo hi [p es|p kids] nxt O; try contradiction; [cbn; lia|].
    destruct O as ((F & _ & Ch) & _). destruct kids as [|[l c] r]; [contradiction|]. destruct Ch as [Q _].
    rewrite flat_node, flat_kids_cons. cbn [length]. rewrite app_length. specialize (IH _ _ _ _ (nxt_of r nxt) Q). lia.
  Qed.

  Lemma search_ok k n root lo hi t nxt s F fl ln : 1 <= m -> 1 <= d -> ok n root lo hi t -> in_b lo hi k ->
    rep s (flat t nxt ++ F) fl (root_of t) ln ->
    exists q es nx fr, descend k hi t nxt q es nx fr /\
      run_io s (search_node k) = Ok (s, (q, Leaf (mk_leaf m es nx), fr)).
  Proof.
    intros M1 D1 O B Rp. destruct (descend_ex k n root lo hi t nxt O B) as (q & es & nx & fr & X).
    exists q, es, nx, fr. split; [exact X|]. unfold search_node. cbn [run_io]. rewrite (rep_root _ _ _ _ _ Rp).
    erewrite rep_get; [|exact Rp|apply in_or_app; left; apply flat_head]. cbn [bind].
    erewrite search_run; eauto; [now rewrite app_nil_r|].
    pose proof (rep_count _ _ _ _ _ Rp) as L. rewrite app_length in L.
    pose proof (depth_pages n root lo hi t nxt O). lia.
  Qed.

  (** What the leaf at the end of the descent has to do with the whole tree. *)
  Lemma descend_leaf k : 1 <= m -> forall hi t nxt q es nx fr, descend k hi t nxt q es nx fr ->
    forall n root lo, ok n root lo hi t -> in_b lo hi k ->
    at_key k (contents t) = at_key k es /\ sorted es /\ length es <= m.
  Proof.
    intros M1. induction 1 as [hi p es nxt|hi p L l c R nxt q es nx fr B F0 X IH]; intros n root lo O Bk.
    - destruct n; [|contradiction]. destruct O as ((S & _) & L & _). auto.
    - destruct n as [|n]; [contradiction|]. destruct O as (O & _).
      destruct (split_contents n lo hi L l c R k M1 O B) as [A1 A2].
      assert (Q : at_key k (contents (BNode p (L ++ (l, c) :: R))) = at_key k (contents c)).
      { change (contents (BNode p (L ++ (l, c) :: R))) with (kcontents (L ++ (l, c) :: R)).
        rewrite kcontents_app, kcontents_cons. now apply at_mid. }
      rewrite Q. destruct O as (_ & _ & Ch). apply chain_app in Ch as [_ [Ch _]]. eapply IH; eauto.
  Qed.
End Tree.
