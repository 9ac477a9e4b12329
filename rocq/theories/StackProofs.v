(** Proofs about StackModel.v. *)
From Coq Require Import Permutation.
From Verif Require Export StackModel.

Section StackProofs.
  Context {T : Type}.
  Notation state := (sstate T).
  Implicit Types (s : state) (t a p : nat).

  (** Ghost: what each address is used for. *)
  Inductive use : Type := UFree | UPriv (t : nat) | UStk | UPop (t : nat) | URet (W : list nat).

  Inductive chain (h : nat -> option (snode T)) : option nat -> list nat -> list T -> Prop :=
  | chain_nil : chain h None [] []
  | chain_cons a v n l vs : h a = Some (SNode v n) -> chain h n l vs -> chain h (Some a) (a :: l) (v :: vs).

  Definition safe (own : nat -> use) t p : Prop :=
    own p = UStk \/ (exists t', own p = UPop t') \/ (exists W, own p = URet W /\ In t W).

  Definition loc_ok (h : nat -> option (snode T)) (own : nat -> use) t (l : loc T) (st : astatus T) : Prop :=
    match l with
    | Idle => st = AIdle
    | PushNew v => st = ACalled (CPush v)
    | PushLoad a => own a = UPriv t /\ exists v n, h a = Some (SNode v n) /\ st = ACalled (CPush v)
    | PushStore a _ => own a = UPriv t /\ exists v n, h a = Some (SNode v n) /\ st = ACalled (CPush v)
    | PushCas a x => own a = UPriv t /\ exists v, h a = Some (SNode v x) /\ st = ACalled (CPush v)
    | PushAdd => st = ADone OUnit
    | PopPin | PopLoad => st = ACalled CPop
    | PopNext p => safe own t p /\ st = ACalled CPop
    | PopCas p n => safe own t p /\ (exists v, h p = Some (SNode v n)) /\ st = ACalled CPop
    | PopSub p | PopDefer p => own p = UPop t /\ exists v n, h p = Some (SNode v n) /\ st = ADone (OPop (Some v))
    | PopRead p => (exists W, own p = URet W /\ In t W) /\ exists v n, h p = Some (SNode v n) /\ st = ADone (OPop (Some v))
    | LenLoad => st = ACalled CLen
    | Done o => st = ADone o
    end.

  Definition is_add (l : loc T) : bool := match l with PushAdd => true | _ => false end.
  Definition is_sub (l : loc T) : bool := match l with PopSub _ => true | _ => false end.
  Definition cnt (f : loc T -> bool) (th : nat -> loc T) (pins : list nat) : nat := length (filter (fun t => f (th t)) pins).
  Definition count (f : loc T -> bool) s : nat := cnt f (st_threads s) (st_pinned s).

  Record inv s (own : nat -> use) (addrs : list nat) (vs : list T) (th : nat -> astatus T) : Prop := {
    i_heap : forall a, st_heap s a = None <-> own a = UFree;
    i_chain : chain (st_heap s) (st_head s) addrs vs;
    i_stk : forall a, In a addrs <-> own a = UStk;
    i_nodup : NoDup addrs;
    i_ret : forall a W, In (a, W) (st_retired s) <-> own a = URet W;
    i_retn : NoDup (map fst (st_retired s));
    i_loc : forall t, loc_ok (st_heap s) own t (st_threads s t) (th t);
    i_pin : forall t, In t (st_pinned s) <-> loc_pinned (st_threads s t) = true;
    i_pinn : NoDup (st_pinned s);
    i_wait : forall a W t, In (a, W) (st_retired s) -> In t W -> In t (st_pinned s);
    i_len : ((st_len s + N.of_nat (count is_add s)) mod two64 = N.of_nat (length addrs + count is_sub s) mod two64)%N;
    i_lenb : (st_len s < two64)%N
  }.

  Lemma update_same {A} (f : nat -> A) i x : update f i x i = x.
  Proof. unfold update. now rewrite Nat.eqb_refl. Qed.
  Lemma update_other {A} (f : nat -> A) i j x : j <> i -> update f i x j = f j.
  Proof. intros N. unfold update. now rewrite (proj2 (Nat.eqb_neq j i) N). Qed.

  Lemma inv_init : inv stack_new (fun _ => UFree) [] [] (fun _ => AIdle).
  Proof.
    constructor; simpl.
    - intros a. tauto.
    - constructor.
    - intros a. split; [intros [] | discriminate].
    - constructor.
    - intros a W. split; [intros [] | discriminate].
    - constructor.
    - reflexivity.
    - intros t. split; [intros [] | discriminate].
    - constructor.
    - intros a W t [].
    - reflexivity.
    - reflexivity.
  Qed.

  (** Changing the heap and the uses outside the chain. *)
  Lemma chain_ext h h' x l vs : chain h x l vs -> (forall a, In a l -> h' a = h a) -> chain h' x l vs.
  Proof.
    induction 1 as [|a v n l vs E C IH]; intros X; [apply chain_nil|apply chain_cons with n].
    - rewrite X; auto. now left.
    - apply IH. intros b I. apply X. now right.
  Qed.

  Definition b2n (b : bool) : nat := if b then 1 else 0.
  Lemma cnt_cons f th t pins : cnt f th (t :: pins) = b2n (f (th t)) + cnt f th pins.
  Proof. unfold cnt. simpl. now destruct (f (th t)). Qed.
  Lemma cnt_out f th t l pins : ~ In t pins -> cnt f (update th t l) pins = cnt f th pins.
  Proof.
    induction pins as [|x pins IH]; intros N; [reflexivity|]. rewrite !cnt_cons, IH by (intros X; apply N; now right).
    rewrite update_other; auto. intros ->. apply N. now left.
  Qed.
  Lemma cnt_in f th t l pins : NoDup pins -> In t pins ->
    cnt f (update th t l) pins + b2n (f (th t)) = cnt f th pins + b2n (f l).
  Proof.
    induction 1 as [|x pins N D IH]; [intros []|]. intros [->|I]; rewrite !cnt_cons.
    - rewrite update_same, cnt_out by exact N. lia.
    - specialize (IH I). rewrite update_other by (intros ->; contradiction). lia.
  Qed.
  Lemma without_in t x pins : In x (without t pins) <-> In x pins /\ x <> t.
  Proof.
    unfold without. rewrite filter_In. destruct (Nat.eqb_spec x t); simpl; intuition congruence.
  Qed.
  Lemma without_nodup t pins : NoDup pins -> NoDup (without t pins).
  Proof. apply NoDup_filter. Qed.
  Lemma without_notin t pins : ~ In t pins -> without t pins = pins.
  Proof.
    induction pins as [|x pins IH]; intros N; [reflexivity|]. simpl.
    destruct (Nat.eqb_spec x t) as [->|]; simpl; [exfalso; apply N; now left|]. f_equal. apply IH. intros X; apply N; now right.
  Qed.
  Lemma cnt_without f th t pins : NoDup pins -> In t pins -> cnt f th pins = b2n (f (th t)) + cnt f th (without t pins).
  Proof.
    induction 1 as [|x pins N D IH]; [intros []|]. simpl. intros [->|I].
    - rewrite Nat.eqb_refl. simpl. rewrite (without_notin t pins N), cnt_cons. reflexivity.
    - destruct (Nat.eqb_spec x t) as [->|]; [contradiction|]. simpl. rewrite !cnt_cons, (IH I). lia.
  Qed.

  (** Another thread is not disturbed. *)
  Lemma loc_frame h own h' own' t l st :
    loc_ok h own t l st ->
    (forall p, own p = UPriv t -> own' p = UPriv t /\ h' p = h p) ->
    (forall p, own p = UPop t -> own' p = UPop t /\ h' p = h p) ->
    (loc_pinned l = true -> forall p, safe own t p -> safe own' t p /\ h' p = h p) ->
    (forall p W, own p = URet W -> In t W -> (exists W', own' p = URet W' /\ In t W') /\ h' p = h p) ->
    loc_ok h' own' t l st.
  Proof.
    intros L P1 P2 P3 P4. destruct l; cbn [loc_ok loc_pinned] in *; auto.
    - destruct L as (O & v & n & E & S). destruct (P1 _ O) as [O' E']. rewrite E'. eauto.
    - destruct L as (O & v & n & E & S). destruct (P1 _ O) as [O' E']. rewrite E'. eauto.
    - destruct L as (O & v & E & S). destruct (P1 _ O) as [O' E']. rewrite E'. eauto.
    - destruct L as (O & S). destruct (P3 eq_refl _ O) as [O' E']. auto.
    - destruct L as (O & (v & E) & S). destruct (P3 eq_refl _ O) as [O' E']. rewrite E'. eauto.
    - destruct L as (O & v & n & E & S). destruct (P2 _ O) as [O' E']. rewrite E'. eauto.
    - destruct L as (O & v & n & E & S). destruct (P2 _ O) as [O' E']. rewrite E'. eauto.
    - destruct L as ((W & O & I) & v & n & E & S). destruct (P4 _ _ O I) as [O' E']. rewrite E'. eauto.
  Qed.

  Lemma inv_local s own addrs vs th t l' th' : inv s own addrs vs th ->
    loc_pinned l' = loc_pinned (st_threads s t) ->
    is_add l' = is_add (st_threads s t) -> is_sub l' = is_sub (st_threads s t) ->
    (forall t', t' <> t -> th' t' = th t') ->
    loc_ok (st_heap s) own t l' (th' t) -> inv (set_loc s t l') own addrs vs th'.
  Proof.
    intros [A1 A2 A3 A4 A5 A6 A7 A8 A9 A10 A11 A12] P1 P2 P3 Th L. constructor; cbn [st_heap st_head st_retired st_pinned st_threads set_loc st_len]; auto.
    - intros t'. destruct (Nat.eq_dec t' t) as [->|N]; [rewrite !update_same; auto | rewrite !update_other, Th by auto; apply A7].
    - intros t'. destruct (Nat.eq_dec t' t) as [->|N]; [rewrite update_same, P1; apply A8 | rewrite !update_other by auto; apply A8].
    - unfold count in *. cbn [set_loc st_threads st_pinned].
      assert (E : forall f : loc T -> bool, f l' = f (st_threads s t) -> cnt f (update (st_threads s) t l') (st_pinned s) = cnt f (st_threads s) (st_pinned s)).
      { intros f E. destruct (in_dec Nat.eq_dec t (st_pinned s)) as [I|N].
        - pose proof (cnt_in f (st_threads s) t l' (st_pinned s) A9 I). rewrite E in H. lia.
        - now apply cnt_out. }
      rewrite !E by auto. exact A11.
  Qed.

  Lemma chain_head h a l vs : chain h (Some a) l vs -> exists v n l' vs', h a = Some (SNode v n) /\ l = a :: l' /\ vs = v :: vs' /\ chain h n l' vs'.
  Proof. intros C. inversion C; subst. eauto 8. Qed.
  Lemma chain_len h x l vs : chain h x l vs -> length l = length vs.
  Proof. induction 1; simpl; auto. Qed.

  Lemma opt_eqb_eq (a b : option nat) : opt_eqb a b = true -> a = b.
  Proof. destruct a, b; simpl; try discriminate; auto. intros E. apply Nat.eqb_eq in E. congruence. Qed.
  Lemma opt_eqb_refl (a : option nat) : opt_eqb a a = true.
  Proof. destruct a; simpl; auto. apply Nat.eqb_refl. Qed.

  Definition ok_step (r : res (state * list (stack_event T))) vs th : Prop :=
    exists s' evs own' addrs' vs' th', r = Ok (s', evs) /\ inv s' own' addrs' vs' th' /\
      atomic_run_with near_len vs th (history evs) vs' th'.

  Lemma idle_not_pinned s own addrs vs th t : inv s own addrs vs th -> loc_pinned (st_threads s t) = false -> ~ In t (st_pinned s).
  Proof. intros I P X. apply (i_pin _ _ _ _ _ I) in X. congruence. Qed.

  Lemma step_ok s own addrs vs th lb : inv s own addrs vs th -> ok_step (stack_step s lb) vs th.
  Proof.
    intros I. pose proof I as [A1 A2 A3 A4 A5 A6 A7 A8 A9 A10 A11 A12]. destruct lb as [t c|t a|a]; cbn [stack_step].
    - (* call *)
      pose proof (A7 t) as L. destruct (st_threads s t) eqn:E;
        try (exists s, [], own, addrs, vs, th; split; [reflexivity|]; split; [exact I | constructor]).
      exists (set_loc s t (match c with CPush v => PushNew v | CPop => PopPin | CLen => LenLoad end)), [EInv t c], own, addrs, vs, (update th t (ACalled c)).
      split; [reflexivity|]. split.
      + apply inv_local with th; [exact I|rewrite E; destruct c; reflexivity..| |].
        * intros t' N. now apply update_other.
        * rewrite update_same. destruct c; reflexivity.
      + simpl. constructor; [exact L|]. constructor.
    - (* a step of thread t *)
      pose proof (A7 t) as L. destruct (st_threads s t) as [ |v|b|b h|b h| | | |p|p n|p|p|p| |o] eqn:E; cbn [loc_ok] in L.
      + exists s, [], own, addrs, vs, th; split; [reflexivity|]; split; [exact I | constructor].
      + (* PushNew *)
        destruct (st_heap s a) as [nd|] eqn:Ea.
        { exists s, [], own, addrs, vs, th; split; [reflexivity|]; split; [exact I | constructor]. }
        assert (Oa : own a = UFree) by (now apply A1).
        assert (Np : ~ In t (st_pinned s)) by (eapply idle_not_pinned; [exact I | now rewrite E]).
        exists (set_loc (pin (set_heap s a (Some (SNode v None))) t) t (PushLoad a)), [], (update own a (UPriv t)), addrs, vs, th.
        split; [reflexivity|]. split; [|constructor].
        constructor; cbn [st_heap st_head st_retired st_pinned st_threads set_loc st_len pin set_heap]; auto.
        * intros x. destruct (Nat.eq_dec x a) as [->|Nx]; [rewrite !update_same; split; discriminate | rewrite !update_other by auto; apply A1].
        * apply chain_ext with (st_heap s); auto. intros x Ix. rewrite update_other; auto. intros ->. apply A3 in Ix. congruence.
        * intros x. destruct (Nat.eq_dec x a) as [->|Nx]; [rewrite update_same, A3, Oa; split; discriminate | rewrite update_other by auto; apply A3].
        * intros x W. destruct (Nat.eq_dec x a) as [->|Nx]; [rewrite update_same, A5, Oa; split; discriminate | rewrite update_other by auto; apply A5].
        * intros t'. destruct (Nat.eq_dec t' t) as [->|Nt].
          -- rewrite update_same. cbn [loc_ok]. rewrite !update_same. eauto.
          -- rewrite update_other by auto. eapply loc_frame; [apply A7| | | |].
             ++ intros x Ox. rewrite !update_other by congruence. auto.
             ++ intros x Ox. rewrite !update_other by congruence. auto.
             ++ intros _ x Sx. assert (Nx : x <> a) by (intros ->; unfold safe in Sx; rewrite Oa in Sx; destruct Sx as [X|[[? X]|(? & X & _)]]; discriminate).
                unfold safe. rewrite !update_other by exact Nx. auto.
             ++ intros x W Ox Iw. rewrite !update_other by congruence. eauto.
        * intros t'. simpl. destruct (Nat.eq_dec t' t) as [->|Nt]; [rewrite update_same; simpl; tauto|].
          rewrite update_other by auto. rewrite <- A8. intuition congruence.
        * constructor; auto.
        * intros x W t' Ix It. right. eauto.
        * unfold count in *. cbn [st_threads st_pinned set_loc pin set_heap]. rewrite !cnt_cons, !update_same, !cnt_out by exact Np. exact A11.
      + (* PushLoad *)
        exists (set_loc s t (PushStore b (st_head s))), [], own, addrs, vs, th. split; [reflexivity|]. split; [|constructor].
        apply inv_local with th; [exact I|rewrite E; reflexivity..|auto|]. exact L.
      + (* PushStore *)
        destruct L as (Ob & v & n & Eb & St). rewrite Eb. cbn [n_value].
        exists (set_loc (set_heap s b (Some (SNode v h))) t (PushCas b h)), [], own, addrs, vs, th. split; [reflexivity|]. split; [|constructor].
        assert (I1 : inv (set_heap s b (Some (SNode v h))) own addrs vs th).
        { constructor; cbn [st_heap st_head st_retired st_pinned st_threads set_loc st_len pin set_heap]; auto.
          - intros x. destruct (Nat.eq_dec x b) as [->|Nx]; [rewrite update_same; split; congruence | rewrite update_other by auto; apply A1].
          - apply chain_ext with (st_heap s); auto. intros x Ix. rewrite update_other; auto. intros ->. apply A3 in Ix. congruence.
          - intros t'. destruct (Nat.eq_dec t' t) as [->|Nt].
            + rewrite E. cbn [loc_ok]. rewrite update_same. eauto.
            + eapply loc_frame; [apply A7| | | |].
              * intros x Ox. rewrite update_other by congruence. auto.
              * intros x Ox. rewrite update_other by congruence. auto.
              * intros _ x Sx. rewrite update_other; auto. intros ->. unfold safe in Sx. rewrite Ob in Sx. destruct Sx as [X|[[? X]|(? & X & _)]]; discriminate.
              * intros x W Ox Iw. rewrite update_other by congruence. eauto. }
        apply inv_local with th; [exact I1|cbn [st_threads set_heap]; rewrite E; reflexivity..|auto|].
        cbn [loc_ok st_heap set_heap]. rewrite update_same. eauto.
      + (* PushCas *)
        destruct L as (Ob & v & Eb & St). destruct (opt_eqb (st_head s) h) eqn:Eh.
        * apply opt_eqb_eq in Eh. subst h.
          exists (set_loc (set_head s (Some b)) t PushAdd), [], (update own b UStk), (b :: addrs), (v :: vs), (update th t (ADone OUnit)).
          split; [reflexivity|]. split.
          -- assert (It : In t (st_pinned s)) by (apply A8; now rewrite E).
             constructor; cbn [st_heap st_head st_retired st_pinned st_threads set_loc st_len pin set_head]; auto.
             ++ intros x. destruct (Nat.eq_dec x b) as [->|Nx]; [rewrite update_same; split; congruence | rewrite update_other by auto; apply A1].
             ++ econstructor; [exact Eb | exact A2].
             ++ intros x. simpl. destruct (Nat.eq_dec x b) as [->|Nx]; [rewrite update_same; tauto | rewrite update_other by auto; rewrite <- A3; intuition congruence].
             ++ constructor; auto. rewrite A3. congruence.
             ++ intros x W. destruct (Nat.eq_dec x b) as [->|Nx]; [rewrite update_same, A5, Ob; split; discriminate | rewrite update_other by auto; apply A5].
             ++ intros t'. destruct (Nat.eq_dec t' t) as [->|Nt]; [rewrite !update_same; reflexivity|]. rewrite !update_other by auto.
                eapply loc_frame; [apply A7| | | |].
                ** intros x Ox. rewrite update_other by congruence. auto.
                ** intros x Ox. rewrite update_other by congruence. auto.
                ** intros _ x Sx. split; auto. assert (Nx : x <> b) by (intros ->; unfold safe in Sx; rewrite Ob in Sx; destruct Sx as [X|[[? X]|(? & X & _)]]; discriminate).
                   unfold safe. now rewrite update_other by exact Nx.
                ** intros x W Ox Iw. rewrite update_other by congruence. eauto.
             ++ intros t'. destruct (Nat.eq_dec t' t) as [->|Nt]; [rewrite update_same; simpl; tauto|]. rewrite update_other by auto. apply A8.
             ++ unfold count in *. cbn [st_threads st_pinned set_loc set_head].
                pose proof (cnt_in is_add (st_threads s) t PushAdd (st_pinned s) A9 It) as C1. pose proof (cnt_in is_sub (st_threads s) t PushAdd (st_pinned s) A9 It) as C2.
                rewrite E in C1, C2. simpl in C1, C2. replace (cnt is_add (update (st_threads s) t PushAdd) (st_pinned s)) with (S (cnt is_add (st_threads s) (st_pinned s))) by lia.
                replace (cnt is_sub (update (st_threads s) t PushAdd) (st_pinned s)) with (cnt is_sub (st_threads s) (st_pinned s)) by lia.
                cbn [length]. rewrite Nat2N.inj_succ. replace (S (length addrs) + cnt is_sub (st_threads s) (st_pinned s)) with (S (length addrs + cnt is_sub (st_threads s) (st_pinned s))) by lia.
                rewrite Nat2N.inj_succ, !N.add_succ_r, <- !N.add_1_r.
                rewrite <- (N.add_mod_idemp_l (_ + _)), A11, N.add_mod_idemp_l by discriminate. reflexivity.
          -- eapply at_push; [exact St|]. constructor.
        * exists (set_loc s t (PushLoad b)), [], own, addrs, vs, th. split; [reflexivity|]. split; [|constructor].
          apply inv_local with th; [exact I|rewrite E; reflexivity..|auto|]. cbn [loc_ok]. eauto.
      + (* PushAdd *)
        exists (set_loc (set_len s ((st_len s + 1) mod two64)) t (Done OUnit)), [], own, addrs, vs, th. split; [reflexivity|]. split; [|constructor].
        assert (It : In t (st_pinned s)) by (apply A8; now rewrite E).
        constructor; cbn [st_heap st_head st_retired st_pinned st_threads set_loc st_len pin set_len]; auto.
        * intros t'. destruct (Nat.eq_dec t' t) as [->|Nt]; [rewrite update_same; exact L | rewrite update_other by auto; apply A7].
        * intros t'. destruct (Nat.eq_dec t' t) as [->|Nt]; [rewrite update_same; simpl; tauto|]. rewrite update_other by auto. apply A8.
        * unfold count in *. cbn [st_threads st_pinned set_loc set_len].
          pose proof (cnt_in is_add (st_threads s) t (Done OUnit) (st_pinned s) A9 It) as C1. pose proof (cnt_in is_sub (st_threads s) t (Done OUnit) (st_pinned s) A9 It) as C2.
          rewrite E in C1, C2. simpl in C1, C2.
          replace (cnt is_sub (update (st_threads s) t (Done OUnit)) (st_pinned s)) with (cnt is_sub (st_threads s) (st_pinned s)) by lia.
          rewrite <- A11. rewrite N.add_mod_idemp_l by discriminate. f_equal. lia.
        * apply N.mod_lt. discriminate.
      + (* PopPin *)
        assert (Np : ~ In t (st_pinned s)) by (eapply idle_not_pinned; [exact I | now rewrite E]).
        exists (set_loc (pin s t) t PopLoad), [], own, addrs, vs, th. split; [reflexivity|]. split; [|constructor].
        constructor; cbn [st_heap st_head st_retired st_pinned st_threads set_loc st_len pin]; auto.
        * intros t'. destruct (Nat.eq_dec t' t) as [->|Nt]; [rewrite update_same; exact L | rewrite update_other by auto; apply A7].
        * intros t'. simpl. destruct (Nat.eq_dec t' t) as [->|Nt]; [rewrite update_same; simpl; tauto|].
          rewrite update_other by auto. rewrite <- A8. intuition congruence.
        * constructor; auto.
        * intros x W t' Ix It. right. eauto.
        * unfold count in *. cbn [st_threads st_pinned set_loc pin]. rewrite !cnt_cons, !update_same, !cnt_out by exact Np. exact A11.
      + (* PopLoad *)
        destruct (st_head s) as [p|] eqn:Eh.
        * destruct (chain_head _ _ _ _ A2) as (v & n & l' & vs' & Ep & -> & -> & _).
          exists (set_loc s t (PopNext p)), [], own, (p :: l'), (v :: vs'), th. split; [reflexivity|]. split; [|constructor].
          apply inv_local with th; [exact I|rewrite E; reflexivity..|auto|]. cbn [loc_ok]. split; auto. left. apply A3. now left.
        * inversion A2; subst.
          exists (set_loc s t (Done (OPop None))), [], own, [], [], (update th t (ADone (OPop None))). split; [reflexivity|]. split.
          -- apply inv_local with th; [exact I|rewrite E; reflexivity..| |].
             ++ intros t' N. now apply update_other.
             ++ now rewrite update_same.
          -- eapply at_pop_empty; [exact L|]. constructor.
      + (* PopNext *)
        destruct L as [Sp St].
        assert (Hp : exists v n, st_heap s p = Some (SNode v n)).
        { destruct (st_heap s p) as [[v n]|] eqn:Ep; [eauto|]. apply A1 in Ep. unfold safe in Sp. rewrite Ep in Sp.
          destruct Sp as [X|[[? X]|(? & X & _)]]; discriminate. }
        destruct Hp as (v & n & Ep). rewrite Ep. cbn [n_next].
        exists (set_loc s t (PopCas p n)), [], own, addrs, vs, th. split; [reflexivity|]. split; [|constructor].
        apply inv_local with th; [exact I|rewrite E; reflexivity..|auto|]. cbn [loc_ok]. eauto.
      + (* PopCas *)
        destruct L as (Sp & (v & Ep) & St). destruct (opt_eqb (st_head s) (Some p)) eqn:Eh.
        * apply opt_eqb_eq in Eh. rewrite Eh in A2. destruct (chain_head _ _ _ _ A2) as (v0 & n0 & l' & vs' & Ep' & -> & -> & Cn).
          rewrite Ep in Ep'. injection Ep' as <- <-.
          assert (It : In t (st_pinned s)) by (apply A8; now rewrite E).
          assert (Op : own p = UStk) by (apply A3; now left).
          inversion A4 as [|? ? Np Nd]; subst.
          exists (set_loc (set_head s n) t (PopSub p)), [], (update own p (UPop t)), l', vs', (update th t (ADone (OPop (Some v)))).
          split; [reflexivity|]. split.
          -- constructor; cbn [st_heap st_head st_retired st_pinned st_threads set_loc st_len pin set_head]; auto.
             ++ intros x. destruct (Nat.eq_dec x p) as [->|Nx]; [rewrite update_same; split; congruence | rewrite update_other by auto; apply A1].
             ++ intros x. destruct (Nat.eq_dec x p) as [->|Nx]; [rewrite update_same; split; [contradiction | discriminate]|].
                rewrite update_other by auto. rewrite <- A3. simpl. intuition congruence.
             ++ intros x W. destruct (Nat.eq_dec x p) as [->|Nx]; [rewrite update_same, A5, Op; split; discriminate | rewrite update_other by auto; apply A5].
             ++ intros t'. destruct (Nat.eq_dec t' t) as [->|Nt]; [rewrite !update_same; cbn [loc_ok]; rewrite update_same; eauto|]. rewrite !update_other by auto.
                eapply loc_frame; [apply A7| | | |].
                ** intros x Ox. rewrite update_other by congruence. auto.
                ** intros x Ox. rewrite update_other by congruence. auto.
                ** intros _ x Sx. split; auto. unfold safe in *. destruct (Nat.eq_dec x p) as [->|Nx]; [rewrite update_same; eauto | now rewrite update_other by exact Nx].
                ** intros x W Ox Iw. rewrite update_other by congruence. eauto.
             ++ intros t'. destruct (Nat.eq_dec t' t) as [->|Nt]; [rewrite update_same; simpl; tauto|]. rewrite update_other by auto. apply A8.
             ++ unfold count in *. cbn [st_threads st_pinned set_loc set_head].
                pose proof (cnt_in is_add (st_threads s) t (PopSub p) (st_pinned s) A9 It) as C1. pose proof (cnt_in is_sub (st_threads s) t (PopSub p) (st_pinned s) A9 It) as C2.
                rewrite E in C1, C2. simpl in C1, C2.
                replace (cnt is_add (update (st_threads s) t (PopSub p)) (st_pinned s)) with (cnt is_add (st_threads s) (st_pinned s)) by lia.
                rewrite A11. f_equal. f_equal. cbn [length]. lia.
          -- eapply at_pop; [exact St|]. constructor.
        * exists (set_loc s t PopLoad), [], own, addrs, vs, th. split; [reflexivity|]. split; [|constructor].
          apply inv_local with th; [exact I|rewrite E; reflexivity..|auto|]. exact St.
      + (* PopSub *)
        exists (set_loc (set_len s ((st_len s + (two64 - 1)) mod two64)) t (PopDefer p)), [], own, addrs, vs, th. split; [reflexivity|]. split; [|constructor].
        assert (It : In t (st_pinned s)) by (apply A8; now rewrite E).
        constructor; cbn [st_heap st_head st_retired st_pinned st_threads set_loc st_len pin set_len]; auto.
        * intros t'. destruct (Nat.eq_dec t' t) as [->|Nt]; [rewrite update_same; exact L | rewrite update_other by auto; apply A7].
        * intros t'. destruct (Nat.eq_dec t' t) as [->|Nt]; [rewrite update_same; simpl; tauto|]. rewrite update_other by auto. apply A8.
        * unfold count in *. cbn [st_threads st_pinned set_loc set_len].
          pose proof (cnt_in is_add (st_threads s) t (PopDefer p) (st_pinned s) A9 It) as C1. pose proof (cnt_in is_sub (st_threads s) t (PopDefer p) (st_pinned s) A9 It) as C2.
          rewrite E in C1, C2. simpl in C1, C2.
          replace (cnt is_add (update (st_threads s) t (PopDefer p)) (st_pinned s)) with (cnt is_add (st_threads s) (st_pinned s)) by lia.
          assert (Pos : 0 < cnt is_sub (st_threads s) (st_pinned s)) by lia.
          replace (length addrs + cnt is_sub (st_threads s) (st_pinned s)) with (S (length addrs + cnt is_sub (update (st_threads s) t (PopDefer p)) (st_pinned s))) in A11 by lia.
          rewrite Nat2N.inj_succ in A11. set (X := N.of_nat (length addrs + _)) in *. set (Y := N.of_nat (cnt is_add _ _)) in *.
          rewrite N.add_mod_idemp_l by discriminate.
          replace (st_len s + (two64 - 1) + Y)%N with ((st_len s + Y) + (two64 - 1))%N by lia.
          rewrite <- (N.add_mod_idemp_l (st_len s + Y)), A11, N.add_mod_idemp_l by discriminate.
          replace (N.succ X + (two64 - 1))%N with (X + 1 * two64)%N by (unfold two64; lia). apply N.mod_add. discriminate.
        * apply N.mod_lt. discriminate.
      + (* PopDefer *)
        destruct L as (Op & v & n & Ep & St).
        assert (It : In t (st_pinned s)) by (apply A8; now rewrite E).
        exists (set_loc (set_retired s ((p, st_pinned s) :: st_retired s)) t (PopRead p)), [], (update own p (URet (st_pinned s))), addrs, vs, th.
        split; [reflexivity|]. split; [|constructor].
        assert (Nr : ~ In p (map fst (st_retired s))).
        { intros X. apply in_map_iff in X as ([q W] & Eq & X). simpl in Eq. subst q. apply A5 in X. congruence. }
        constructor; cbn [st_heap st_head st_retired st_pinned st_threads set_loc st_len pin set_retired]; auto.
        * intros x. destruct (Nat.eq_dec x p) as [->|Nx]; [rewrite update_same; split; congruence | rewrite update_other by auto; apply A1].
        * intros x. destruct (Nat.eq_dec x p) as [->|Nx]; [rewrite update_same, A3, Op; split; discriminate | rewrite update_other by auto; apply A3].
        * intros x W. simpl. destruct (Nat.eq_dec x p) as [->|Nx].
          -- rewrite update_same. split; [intros [X|X]; [congruence | apply A5 in X; congruence] | intros X; left; congruence].
          -- rewrite update_other by auto. rewrite <- A5. intuition congruence.
        * constructor; auto.
        * intros t'. destruct (Nat.eq_dec t' t) as [->|Nt].
          -- rewrite !update_same. cbn [loc_ok]. rewrite update_same. split; [eauto|]. eauto.
          -- rewrite !update_other by auto. eapply loc_frame; [apply A7| | | |].
             ++ intros x Ox. rewrite update_other by congruence. auto.
             ++ intros x Ox. rewrite update_other by congruence. auto.
             ++ intros Pn x Sx. split; auto. unfold safe in *. destruct (Nat.eq_dec x p) as [->|Nx]; [|now rewrite update_other by exact Nx].
                rewrite update_same. right. right. exists (st_pinned s). split; auto. now apply A8.
             ++ intros x W Ox Iw. rewrite update_other by congruence. eauto.
        * intros t'. destruct (Nat.eq_dec t' t) as [->|Nt]; [rewrite update_same; simpl; tauto|]. rewrite update_other by auto. apply A8.
        * intros x W t' [X|X] Iw; [congruence | eauto].
        * unfold count in *. cbn [st_threads st_pinned set_loc set_retired].
          pose proof (cnt_in is_add (st_threads s) t (PopRead p) (st_pinned s) A9 It) as C1. pose proof (cnt_in is_sub (st_threads s) t (PopRead p) (st_pinned s) A9 It) as C2.
          rewrite E in C1, C2. simpl in C1, C2. replace (cnt is_add (update (st_threads s) t (PopRead p)) (st_pinned s)) with (cnt is_add (st_threads s) (st_pinned s)) by lia.
          replace (cnt is_sub (update (st_threads s) t (PopRead p)) (st_pinned s)) with (cnt is_sub (st_threads s) (st_pinned s)) by lia. exact A11.
      + (* PopRead *)
        destruct L as (Wp & v & n & Ep & St). rewrite Ep. cbn [n_value].
        exists (set_loc s t (Done (OPop (Some v)))), [], own, addrs, vs, th. split; [reflexivity|]. split; [|constructor].
        apply inv_local with th; [exact I|rewrite E; reflexivity..|auto|]. exact St.
      + (* LenLoad *)
        exists (set_loc s t (Done (OLen (st_len s)))), [], own, addrs, vs, (update th t (ADone (OLen (st_len s)))). split; [reflexivity|]. split.
        * apply inv_local with th; [exact I|rewrite E; reflexivity..| |].
          -- intros t' N. now apply update_other.
          -- now rewrite update_same.
        * eapply at_len; [exact L| |constructor].
          exists (filter (fun u => is_add (st_threads s u)) (st_pinned s)), (filter (fun u => is_sub (st_threads s u)) (st_pinned s)).
          split; [now apply NoDup_filter|]. split; [now apply NoDup_filter|]. split; [|split; [|split; [exact A12|]]].
          -- intros u Iu. apply filter_In in Iu as [_ Iu]. pose proof (A7 u) as Lu. destruct (st_threads s u); try discriminate. exact Lu.
          -- intros u Iu. apply filter_In in Iu as [_ Iu]. pose proof (A7 u) as Lu. destruct (st_threads s u); try discriminate.
             destruct Lu as (_ & v & n & _ & Su). eauto.
          -- rewrite <- (chain_len _ _ _ _ A2). exact A11.
      + (* Done *)
        set (own' := fun x => match own x with URet W => URet (without t W) | u => u end).
        exists (set_loc (unpin s t) t Idle), [ERet t o], own', addrs, vs, (update th t AIdle). split; [reflexivity|]. split; [|simpl; constructor; [exact L | constructor]].
        constructor; cbn [st_heap st_head st_retired st_pinned st_threads set_loc st_len unpin]; auto.
        * intros x. rewrite A1. unfold own'. destruct (own x); split; congruence.
        * intros x. rewrite A3. unfold own'. destruct (own x); split; congruence.
        * intros x W. unfold own'. rewrite in_map_iff. split.
          -- intros ([q W0] & Eq & X). injection Eq as <- <-. apply A5 in X. now rewrite X.
          -- destruct (own x) eqn:Ox; try discriminate. intros X. injection X as <-. apply A5 in Ox. exists (x, W0). auto.
        * rewrite map_map. exact A6.
        * intros t'. destruct (Nat.eq_dec t' t) as [->|Nt]; [rewrite !update_same; reflexivity|]. rewrite !update_other by auto.
          eapply loc_frame; [apply A7| | | |]; unfold own'.
          -- intros x Ox. now rewrite Ox.
          -- intros x Ox. now rewrite Ox.
          -- intros _ x Sx. split; auto. unfold safe in *. destruct Sx as [X|[[? X]|(W & X & Y)]]; rewrite X; eauto. right. right.
             exists (without t W). split; auto. apply without_in. auto.
          -- intros x W Ox Iw. rewrite Ox. split; auto. exists (without t W). split; auto. apply without_in. auto.
        * intros t'. rewrite without_in. destruct (Nat.eq_dec t' t) as [->|Nt]; [rewrite update_same; simpl; intuition congruence|]. rewrite update_other by auto. rewrite A8. tauto.
        * now apply without_nodup.
        * intros x W t' X Iw. apply in_map_iff in X as ([q W0] & Eq & X). injection Eq as <- <-. apply without_in in Iw as [I1 I2]. apply without_in. split; eauto.
        * unfold count in *. cbn [st_threads st_pinned set_loc unpin].
          assert (Nw : ~ In t (without t (st_pinned s))) by (rewrite without_in; tauto).
          assert (C : forall f : loc T -> bool, f (Done o) = false -> cnt f (update (st_threads s) t Idle) (without t (st_pinned s)) = cnt f (st_threads s) (st_pinned s)).
          { intros f Ef. rewrite (cnt_out f _ _ _ _ Nw). destruct (in_dec Nat.eq_dec t (st_pinned s)) as [It|Nt].
            - rewrite (cnt_without f _ _ _ A9 It), E, Ef. reflexivity.
            - now rewrite without_notin. }
          rewrite !C by reflexivity. exact A11.
    - (* destruction *)
      destruct (find _ (st_retired s)) as [[q W]|] eqn:Ef.
      2:{ exists s, [], own, addrs, vs, th; split; [reflexivity|]; split; [exact I | constructor]. }
      apply find_some in Ef as [If Ef]. apply Bool.andb_true_iff in Ef as [E1 E2]. cbn [fst snd] in *. apply Nat.eqb_eq in E1. subst q.
      destruct W; [|discriminate]. pose proof If as Oa. apply A5 in Oa.
      destruct (st_heap s a) as [nd|] eqn:Ea; [|apply A1 in Ea; congruence].
      exists (set_retired (set_heap s a None) (filter (fun r => negb (Nat.eqb (fst r) a)) (st_retired s))), [EDrop (n_value nd)], (update own a UFree), addrs, vs, th.
      split; [reflexivity|]. split; [|constructor].
      constructor; cbn [st_heap st_head st_retired st_pinned st_threads set_loc st_len set_retired set_heap]; auto.
      + intros x. destruct (Nat.eq_dec x a) as [->|Nx]; [rewrite !update_same; tauto | rewrite !update_other by auto; apply A1].
      + apply chain_ext with (st_heap s); auto. intros x Ix. rewrite update_other; auto. intros ->. apply A3 in Ix. congruence.
      + intros x. destruct (Nat.eq_dec x a) as [->|Nx]; [rewrite update_same, A3, Oa; split; discriminate | rewrite update_other by auto; apply A3].
      + intros x W. rewrite filter_In. cbn [fst]. destruct (Nat.eq_dec x a) as [->|Nx].
        * rewrite update_same, Nat.eqb_refl. simpl. split; [intros [_ X]; discriminate | discriminate].
        * rewrite update_other by auto. rewrite (proj2 (Nat.eqb_neq x a) Nx). simpl. rewrite <- A5. tauto.
      + clear -A6. induction (st_retired s) as [|r l IH]; simpl; [constructor|]. simpl in A6. inversion A6; subst.
        destruct (Nat.eqb (fst r) a); simpl; auto. constructor; auto. intros X. apply H1. apply in_map_iff in X as (r' & Er & X).
        apply filter_In in X as [X _]. apply in_map_iff. eauto.
      + intros t'. eapply loc_frame; [apply A7| | | |].
        * intros x Ox. rewrite !update_other by congruence. auto.
        * intros x Ox. rewrite !update_other by congruence. auto.
        * intros _ x Sx. assert (Nx : x <> a) by (intros ->; unfold safe in Sx; rewrite Oa in Sx; destruct Sx as [X|[[? X]|(W & X & Y)]]; try discriminate; injection X as <-; destruct Y).
          unfold safe. rewrite !update_other by exact Nx. auto.
        * intros x W Ox Iw. assert (Nx : x <> a) by (intros ->; rewrite Oa in Ox; injection Ox as <-; destruct Iw). rewrite !update_other by exact Nx. eauto.
      + intros x W t' X Iw. apply filter_In in X as [X _]. eauto.
  Qed.
  (** ** Whole executions *)
  Lemma atomic_run_app ok vs th h vs1 th1 h2 vs2 th2 :
    atomic_run_with ok vs th h vs1 th1 -> atomic_run_with ok vs1 th1 h2 vs2 th2 -> @atomic_run_with T ok vs th (h ++ h2) vs2 th2.
  Proof.
    induction 1; intros R; simpl; auto.
    - eapply at_call; eauto.
    - eapply at_return; eauto.
    - eapply at_push; eauto.
    - eapply at_pop; eauto.
    - eapply at_pop_empty; eauto.
    - eapply at_len; eauto.
  Qed.
  Lemma atomic_run_any vs th h vs1 th1 : atomic_run_with near_len vs th h vs1 th1 -> @atomic_run_with T any_len vs th h vs1 th1.
  Proof.
    induction 1; [eapply at_end|eapply at_call|eapply at_return|eapply at_push|eapply at_pop|eapply at_pop_empty|eapply at_len]; eauto.
    exact I.
  Qed.

  Lemma history_app (a b : list (stack_event T)) : history (a ++ b) = history a ++ history b.
  Proof. apply filter_app. Qed.

  Lemma exec_ok ls : forall s own addrs vs th, inv s own addrs vs th ->
    exists s' tr own' addrs' vs' th', exec s ls = Ok (s', tr) /\ inv s' own' addrs' vs' th' /\ atomic_run_with near_len vs th (history tr) vs' th'.
  Proof.
    induction ls as [|lb ls IH]; intros s own addrs vs th I.
    - exists s, [], own, addrs, vs, th. split; [reflexivity|]. split; [exact I | constructor].
    - destruct (step_ok s own addrs vs th lb I) as (s1 & e1 & own1 & ad1 & vs1 & th1 & E1 & I1 & R1).
      destruct (IH _ _ _ _ _ I1) as (s2 & e2 & own2 & ad2 & vs2 & th2 & E2 & I2 & R2).
      exists s2, (e1 ++ e2), own2, ad2, vs2, th2. split; [cbn [exec]; rewrite E1; cbn [bind]; rewrite E2; reflexivity|].
      split; [exact I2|]. rewrite history_app. eapply atomic_run_app; eauto.
  Qed.

  Lemma exec_app ls1 ls2 : forall s s1 tr1 s2 tr2, exec (T:=T) s ls1 = Ok (s1, tr1) -> exec s1 ls2 = Ok (s2, tr2) ->
    exec (T:=T) s (ls1 ++ ls2) = Ok (s2, tr1 ++ tr2).
  Proof.
    induction ls1 as [|lb ls1 IH]; intros s s1 tr1 s2 tr2 E1 E2; cbn [exec app] in *.
    - injection E1 as <- <-. exact E2.
    - destruct (stack_step s lb) as [[sa ea]|  |]; cbn [bind] in *; try discriminate.
      destruct (exec sa ls1) as [[sb eb]|  |] eqn:Eb; cbn [bind] in *; try discriminate. injection E1 as <- <-.
      rewrite (IH _ _ _ _ _ Eb E2). cbn [bind]. now rewrite app_assoc.
  Qed.

  Theorem stack_safe ls : exists s tr, exec (T:=T) stack_new ls = Ok (s, tr).
  Proof. destruct (exec_ok ls _ _ _ _ _ inv_init) as (s & tr & _ & _ & _ & _ & E & _). eauto. Qed.

  Theorem stack_linearizable ls s tr : exec (T:=T) stack_new ls = Ok (s, tr) -> linearizable (history tr).
  Proof.
    intros E. destruct (exec_ok ls _ _ _ _ _ inv_init) as (s' & tr' & ? & ? & vs' & th' & E' & _ & R).
    rewrite E in E'. injection E' as <- <-. exists vs', th'. now apply atomic_run_any.
  Qed.
  Theorem stack_linearizable_near ls s tr : exec (T:=T) stack_new ls = Ok (s, tr) -> linearizable_near (history tr).
  Proof.
    intros E. destruct (exec_ok ls _ _ _ _ _ inv_init) as (s' & tr' & ? & ? & vs' & th' & E' & _ & R).
    rewrite E in E'. injection E' as <- <-. exists vs', th'. exact R.
  Qed.

  (** ** Values *)
  Definition pend (f : astatus T -> option T) (th : nat -> astatus T) (P : list (nat * T)) : Prop :=
    NoDup (map fst P) /\ forall t v, In (t, v) P <-> f (th t) = Some v.
  Definition opt_list (o : option T) : list T := match o with Some v => [v] | None => [] end.

  Lemma pend_remove (P : list (nat * T)) : forall t v, NoDup (map fst P) -> In (t, v) P ->
    Permutation P ((t, v) :: filter (fun x => negb (Nat.eqb (fst x) t)) P).
  Proof.
    induction P as [|[u w] P IH]; intros t v D I; [destruct I|]. simpl in D. inversion D as [|? ? Nu D']; subst. destruct I as [X|I].
    - injection X as -> ->. simpl. rewrite Nat.eqb_refl. simpl. constructor.
      enough (filter (fun x => negb (Nat.eqb (fst x) t)) P = P) as -> by reflexivity.
      clear -Nu. induction P as [|[u w] P IH]; [reflexivity|]. simpl in *. destruct (Nat.eqb_spec u t) as [->|]; simpl; [tauto|]. f_equal. tauto.
    - simpl. destruct (Nat.eqb_spec u t) as [->|N]; simpl.
      + exfalso. apply Nu. apply in_map_iff. exists (t, v). auto.
      + rewrite perm_swap. constructor. auto.
  Qed.

  Lemma nodup_filter_fst (g : nat * T -> bool) P : NoDup (map fst P) -> NoDup (map fst (filter g P)).
  Proof.
    induction P as [|x P IH]; simpl; intros D; [constructor|]. inversion D; subst. destruct (g x); simpl; auto. constructor; auto.
    intros X. apply H1. apply in_map_iff in X as (y & E & X). apply filter_In in X as [X _]. apply in_map_iff. eauto.
  Qed.

  Lemma pend_update f th P t st : pend f th P ->
    exists P', pend f (update th t st) P' /\ Permutation (opt_list (f (th t)) ++ map snd P') (opt_list (f st) ++ map snd P).
  Proof.
    intros [D E]. set (Q := filter (fun x => negb (Nat.eqb (fst x) t)) P).
    assert (Iq : forall u v, In (u, v) Q <-> In (u, v) P /\ u <> t).
    { intros u v. unfold Q. rewrite filter_In. cbn [fst]. destruct (Nat.eqb_spec u t); simpl; intuition congruence. }
    assert (Dq : NoDup (map fst Q)) by (now apply nodup_filter_fst).
    assert (Pq : Permutation (map snd P) (opt_list (f (th t)) ++ map snd Q)).
    { destruct (f (th t)) as [v|] eqn:F; simpl.
      - apply E in F. rewrite (pend_remove P t v D F) at 1. reflexivity.
      - enough (Q = P) as -> by reflexivity. unfold Q.
        assert (Z : forall u v, In (u, v) P -> u <> t) by (intros u v I ->; apply E in I; congruence). clear -Z.
        induction P as [|[u w] P IH]; [reflexivity|]. simpl. rewrite (proj2 (Nat.eqb_neq u t)) by (eapply Z; now left). simpl. f_equal.
        apply IH. intros x y I. eapply Z. right. exact I. }
    exists (match f st with Some v => (t, v) :: Q | None => Q end). split.
    - split.
      + destruct (f st); simpl; auto. constructor; auto. intros X. apply in_map_iff in X as ([u w] & X & I). simpl in X. subst u. apply Iq in I. tauto.
      + intros u w. destruct (Nat.eq_dec u t) as [->|N].
        * rewrite update_same. destruct (f st) as [v|]; simpl; rewrite ?Iq; split; intros X; try discriminate; intuition congruence.
        * rewrite update_other by auto. rewrite <- E. destruct (f st) as [v|]; simpl; rewrite Iq; intuition congruence.
    - rewrite Pq. destruct (f st); simpl; rewrite ?Permutation_middle; [|reflexivity].
      rewrite <- !Permutation_middle. reflexivity.
  Qed.

  Definition push_of (st : astatus T) : option T := match st with ACalled (CPush v) => Some v | _ => None end.
  Definition pop_of (st : astatus T) : option T := match st with ADone (OPop (Some v)) => Some v | _ => None end.

  Lemma atomic_values ok vs th h vs' th' : atomic_run_with ok vs th h vs' th' -> forall P R, pend push_of th P -> pend pop_of th R ->
    exists P' R', pend push_of th' P' /\ pend pop_of th' R' /\
      Permutation (pushed h ++ map snd P ++ vs ++ map snd R) (popped h ++ map snd P' ++ vs' ++ map snd R').
  Proof.
    induction 1 as [vs th|vs th t c h vs' th' E Ru IH|vs th t o h vs' th' E Ru IH|vs th t v h vs' th' E Ru IH|vs th t v h vs' th' E Ru IH|th t h vs' th' E Ru IH|vs th t n h vs' th' E Eo Ru IH]; intros P R HP HR.
    - exists P, R. auto.
    - destruct (pend_update _ _ _ t (ACalled c) HP) as (P1 & HP1 & QP). destruct (pend_update _ _ _ t (ACalled c) HR) as (R1 & HR1 & QR).
      rewrite E in QP, QR. simpl in QP, QR. destruct (IH _ _ HP1 HR1) as (P2 & R2 & H1 & H2 & Q). exists P2, R2. split; [exact H1|]. split; [exact H2|].
      change (popped (EInv t c :: h)) with (popped h). rewrite <- Q, QP, QR. destruct c; simpl; try reflexivity. apply Permutation_middle.
    - destruct (pend_update _ _ _ t AIdle HP) as (P1 & HP1 & QP). destruct (pend_update _ _ _ t AIdle HR) as (R1 & HR1 & QR).
      rewrite E in QP, QR. simpl in QP, QR. destruct (IH _ _ HP1 HR1) as (P2 & R2 & H1 & H2 & Q). exists P2, R2. split; [exact H1|]. split; [exact H2|].
      change (pushed (ERet t o :: h)) with (pushed h).
      replace (popped (ERet t o :: h)) with (opt_list (pop_of (ADone o)) ++ popped h) by (destruct o as [|[]|]; reflexivity).
      rewrite <- app_assoc, <- Q, <- QP, <- QR. destruct o as [|[v|]|]; simpl; try reflexivity.
      rewrite !app_assoc, <- Permutation_middle. reflexivity.
    - destruct (pend_update _ _ _ t (ADone OUnit) HP) as (P1 & HP1 & QP). destruct (pend_update _ _ _ t (ADone OUnit) HR) as (R1 & HR1 & QR).
      rewrite E in QP, QR. simpl in QP, QR. destruct (IH _ _ HP1 HR1) as (P2 & R2 & H1 & H2 & Q). exists P2, R2. split; [exact H1|]. split; [exact H2|].
      rewrite <- Q, <- QP, <- QR. simpl. apply Permutation_app_head. apply (Permutation_middle _ (vs ++ _)).
    - destruct (pend_update _ _ _ t (ADone (OPop (Some v))) HP) as (P1 & HP1 & QP). destruct (pend_update _ _ _ t (ADone (OPop (Some v))) HR) as (R1 & HR1 & QR).
      rewrite E in QP, QR. simpl in QP, QR. destruct (IH _ _ HP1 HR1) as (P2 & R2 & H1 & H2 & Q). exists P2, R2. split; [exact H1|]. split; [exact H2|].
      rewrite <- Q, <- QP, QR. simpl. do 2 apply Permutation_app_head. apply Permutation_middle.
    - destruct (pend_update _ _ _ t (ADone (OPop None)) HP) as (P1 & HP1 & QP). destruct (pend_update _ _ _ t (ADone (OPop None)) HR) as (R1 & HR1 & QR).
      rewrite E in QP, QR. simpl in QP, QR. destruct (IH _ _ HP1 HR1) as (P2 & R2 & H1 & H2 & Q). exists P2, R2. split; [exact H1|]. split; [exact H2|].
      rewrite <- Q, <- QP, <- QR. reflexivity.
    - destruct (pend_update _ _ _ t (ADone (OLen n)) HP) as (P1 & HP1 & QP). destruct (pend_update _ _ _ t (ADone (OLen n)) HR) as (R1 & HR1 & QR).
      rewrite E in QP, QR. simpl in QP, QR. destruct (IH _ _ HP1 HR1) as (P2 & R2 & H1 & H2 & Q). exists P2, R2. split; [exact H1|]. split; [exact H2|].
      rewrite <- Q, <- QP, <- QR. reflexivity.
  Qed.

  Lemma pend_none f : f AIdle = None -> pend f (fun _ => AIdle) [].
  Proof. intros E. split; [constructor|]. intros t v. rewrite E. split; [intros [] | discriminate]. Qed.
  Lemma pend_empty f th P : f AIdle = None -> pend f th P -> (forall t, th t = AIdle) -> P = [].
  Proof.
    intros E [_ I] A. destruct P as [|[t v] P]; [reflexivity|]. exfalso. assert (X : f (th t) = Some v) by (apply I; now left). rewrite A, E in X. discriminate.
  Qed.

  Lemma pushed_history (tr : list (stack_event T)) : pushed (history tr) = pushed tr.
  Proof. induction tr as [|[t [v| |]|t o|v] tr IH]; simpl; congruence. Qed.
  Lemma popped_history (tr : list (stack_event T)) : popped (history tr) = popped tr.
  Proof. induction tr as [|[t c|t [|[v|]|n]|v] tr IH]; simpl; congruence. Qed.
  Lemma in_call_history (tr : list (stack_event T)) t : forall b, in_call t b (history tr) = in_call t b tr.
  Proof. induction tr as [|[u c|u o|v] tr IH]; intros b; simpl; auto. Qed.

  Lemma atomic_in_call ok t vs th h vs' th' : atomic_run_with ok vs th h vs' th' -> forall b, (b = false <-> th t = AIdle) ->
    (@in_call T t b h = false <-> th' t = AIdle).
  Proof.
    induction 1 as [vs th|vs th u c h vs' th' E Ru IH|vs th u o h vs' th' E Ru IH|vs th u v h vs' th' E Ru IH|vs th u v h vs' th' E Ru IH|th u h vs' th' E Ru IH|vs th u n h vs' th' E Eo Ru IH];
      intros b B; cbn [in_call]; auto; apply IH; destruct (Nat.eqb_spec t u) as [->|N]; rewrite ?update_same, ?update_other by auto; auto;
      try (split; intros X; discriminate); try tauto;
      rewrite B, E; split; discriminate.
  Qed.

  (** The state reached by an execution. *)
  Lemma reach ls s tr : exec stack_new ls = Ok (s, tr) -> exists own addrs vs th,
    inv s own addrs vs th /\ atomic_run_with near_len [] (fun _ => AIdle) (history tr) vs th /\
    (exists rest, Permutation (pushed tr) (popped tr ++ rest)) /\
    (quiescent tr -> (forall t, st_threads s t = Idle) /\ (forall t, th t = AIdle) /\ Permutation (pushed tr) (popped tr ++ vs)).
  Proof.
    intros E. destruct (exec_ok ls _ _ _ _ _ inv_init) as (s' & tr' & own & addrs & vs & th & E' & I & R).
    rewrite E in E'. injection E' as <- <-. exists own, addrs, vs, th. split; [exact I|]. split; [exact R|].
    destruct (atomic_values _ _ _ _ _ _ R [] [] (pend_none push_of eq_refl) (pend_none pop_of eq_refl)) as (P & Q & HP & HQ & X).
    rewrite pushed_history, popped_history in X. simpl in X. rewrite app_nil_r in X. split; [eauto|]. intros Qu.
    assert (Z : forall t, th t = AIdle).
    { intros t. apply (atomic_in_call _ t _ _ _ _ _ R false); [tauto|]. rewrite in_call_history. apply Qu. }
    split; [|split; [exact Z|]].
    - intros t. pose proof (i_loc _ _ _ _ _ I t) as L. rewrite Z in L. destruct (st_threads s t); cbn [loc_ok] in L; try discriminate; auto; exfalso; intuition (try discriminate);
        repeat match goal with H : exists _, _ |- _ => destruct H end; intuition discriminate.
    - rewrite (pend_empty _ _ _ eq_refl HP Z), (pend_empty _ _ _ eq_refl HQ Z) in X. simpl in X. now rewrite app_nil_r in X.
  Qed.

  Theorem stack_no_invention ls s tr : exec (T:=T) stack_new ls = Ok (s, tr) -> exists rest, Permutation (pushed tr) (popped tr ++ rest).
  Proof. intros E. destruct (reach ls s tr E) as (? & ? & ? & ? & _ & _ & R & _). exact R. Qed.

  Lemma quiet_pinned s own addrs vs th : inv s own addrs vs th -> (forall t, st_threads s t = Idle) -> st_pinned s = [].
  Proof.
    intros I Z. destruct (st_pinned s) as [|t l] eqn:E; [reflexivity|]. exfalso.
    assert (X : In t (st_pinned s)) by (rewrite E; now left). apply (i_pin _ _ _ _ _ I) in X. rewrite Z in X. discriminate.
  Qed.


  Theorem stack_len_quiescent ls s tr t : exec (T:=T) stack_new ls = Ok (s, tr) -> quiescent tr ->
    exists s' n, exec s (solo_len t) = Ok (s', [EInv t CLen; ERet t (OLen n)]) /\
      ((N.of_nat (length (popped tr)) + n) mod two64 = N.of_nat (length (pushed tr)) mod two64)%N /\ (n < two64)%N.
  Proof.
    intros E Q. destruct (reach ls s tr E) as (own & addrs & vs & th & I & _ & _ & R). destruct (R Q) as (Z & _ & P).
    eexists _, (st_len s). split; [|split].
    - unfold solo_len. cbn [exec stack_step]. rewrite Z. cbn [bind set_loc st_threads]. rewrite update_same. cbn [bind set_loc st_threads]. rewrite update_same. reflexivity.
    - rewrite (Permutation_length P), app_length, Nat2N.inj_add. pose proof (i_len _ _ _ _ _ I) as L. unfold count in L.
      rewrite (quiet_pinned _ _ _ _ _ I Z) in L. simpl in L. rewrite N.add_0_r, Nat.add_0_r, (chain_len _ _ _ _ (i_chain _ _ _ _ _ I)) in L.
      rewrite <- N.add_mod_idemp_r by discriminate. rewrite L. apply N.add_mod_idemp_r. discriminate.
    - apply (i_lenb _ _ _ _ _ I).
  Qed.

  Ltac go := repeat (cbn [bind set_loc st_threads pin unpin set_head set_len set_retired set_heap st_head st_heap st_len st_pinned st_retired n_next n_value]; rewrite ?update_same).

  Lemma solo_pop_events s own addrs vs th t : inv s own addrs vs th -> st_threads s t = Idle ->
    (vs = [] -> exists s', exec s (solo_pop t) = Ok (s', [EInv t CPop; ERet t (OPop None)])) /\
    (forall v vs', vs = v :: vs' -> exists s', exec s (solo_pop t) = Ok (s', [EInv t CPop; ERet t (OPop (Some v))])).
  Proof.
    intros I Z. pose proof (i_chain _ _ _ _ _ I) as C. split.
    - intros ->. inversion C as [Hh|]; subst. eexists. unfold solo_pop. cbn [exec stack_step repeat]. rewrite Z. go.
      rewrite <- Hh. go. reflexivity.
    - intros v vs' ->. inversion C as [|a ? n l ? Ea C']; subst. eexists. unfold solo_pop. cbn [exec stack_step repeat]. rewrite Z. go.
      rewrite <- H. go. rewrite Ea. go. rewrite <- H. cbn [opt_eqb]. rewrite Nat.eqb_refl. go. rewrite Ea. go. reflexivity.
  Qed.

  Lemma inv_idle_th s own addrs vs th : inv s own addrs vs th -> (forall t, th t = AIdle) -> forall t, st_threads s t = Idle.
  Proof.
    intros I Z t. pose proof (i_loc _ _ _ _ _ I t) as L. rewrite Z in L. destruct (st_threads s t); cbn [loc_ok] in L; try discriminate; auto; exfalso; intuition (try discriminate);
        repeat match goal with H : exists _, _ |- _ => destruct H end; intuition discriminate.
  Qed.

  (** An atomic run from an idle state that shows one call and return. *)
  Lemma solo_atomic ok (vs : list T) th t o vs' th' : (forall u, th u = AIdle) ->
    atomic_run_with ok vs th [EInv t CPop; ERet t o] vs' th' -> (forall u, th' u = AIdle) ->
    match vs with [] => o = OPop None /\ vs' = [] | v :: r => o = OPop (Some v) /\ vs' = r end.
  Proof.
    intros Z R Z'.
    assert (F : forall (x : list T) th1 vs2 th2, (forall u, th1 u = AIdle) -> atomic_run_with ok x th1 [] vs2 th2 -> vs2 = x).
    { intros x th1 vs2 th2 Zi Ri. inversion Ri; subst; auto; exfalso;
        match goal with X : th1 _ = _ |- _ => rewrite Zi in X; discriminate end. }
    assert (G : forall (f : nat -> astatus T) o' x, (forall u, u <> t -> f u = AIdle) -> f t = ADone o' -> atomic_run_with ok x f [ERet t o] vs' th' -> o = o' /\ vs' = x).
    { intros f o' x Fi Ft Rx. inversion Rx; subst;
        match goal with Y : ?g t = ADone o', X : ?g ?u = _ |- _ => destruct (Nat.eq_dec u t) as [Q|Nu]; [rewrite ?Q, Y in X | rewrite Fi in X by exact Nu]; try discriminate end.
      split; [congruence|]. eapply F; [|eassumption].
      intros u. destruct (Nat.eq_dec u t) as [->|Nu]; [apply update_same | rewrite !update_other by auto; apply Fi; auto]. }
    inversion R; subst; try (match goal with X : th _ = ACalled _ |- _ => rewrite Z in X; discriminate end).
    match goal with X : atomic_run_with _ _ _ [ERet t o] _ _ |- _ => inversion X; subst end;
      match goal with X : update th t _ ?u = _ |- _ => destruct (Nat.eq_dec u t) as [Q|Nu]; [rewrite ?Q, update_same in X | rewrite update_other, Z in X by auto] end; try discriminate.
    - subst. eapply G; [|apply update_same|eassumption]. intros u Nu. rewrite !update_other by auto. auto.
    - subst. eapply G; [|apply update_same|eassumption]. intros u Nu. rewrite !update_other by auto. auto.
  Qed.

  Lemma drain t vs : forall s own addrs th, inv s own addrs vs th -> (forall u, th u = AIdle) ->
    exists s', exec s (flat_map (fun _ => solo_pop t) vs ++ solo_pop t) =
      Ok (s', flat_map (fun v => [EInv t CPop; ERet t (OPop (Some v))]) vs ++ [EInv t CPop; ERet t (OPop None)]).
  Proof.
    induction vs as [|v vs IH]; intros s own addrs th I Z.
    - apply (proj1 (solo_pop_events _ _ _ _ _ t I (inv_idle_th _ _ _ _ _ I Z t)) eq_refl).
    - destruct (proj2 (solo_pop_events _ _ _ _ _ t I (inv_idle_th _ _ _ _ _ I Z t)) v vs eq_refl) as (s1 & E1).
      destruct (exec_ok (solo_pop t) _ _ _ _ _ I) as (s1' & tr1 & own1 & ad1 & vs1 & th1 & E1' & I1 & R1).
      rewrite E1 in E1'. injection E1' as <- <-. simpl in R1.
      assert (Z1 : forall u, th1 u = AIdle).
      { intros u. apply (atomic_in_call _ u _ _ _ _ _ R1 false); [split; auto|]. cbn [in_call]. now destruct (Nat.eqb u t). }
      destruct (solo_atomic _ _ _ _ _ _ _ Z R1 Z1) as [_ ->].
      destruct (IH _ _ _ _ I1 Z1) as (s2 & E2). exists s2. cbn [flat_map]. rewrite <- !app_assoc. eapply exec_app; eauto.
  Qed.

  Theorem stack_drain ls s tr t : exec (T:=T) stack_new ls = Ok (s, tr) -> quiescent tr ->
    exists rest s', Permutation (pushed tr) (popped tr ++ rest) /\
      exec s (flat_map (fun _ => solo_pop t) rest ++ solo_pop t) =
      Ok (s', flat_map (fun v => [EInv t CPop; ERet t (OPop (Some v))]) rest ++ [EInv t CPop; ERet t (OPop None)]).
  Proof.
    intros E Q. destruct (reach ls s tr E) as (own & addrs & vs & th & I & _ & _ & R). destruct (R Q) as (_ & Z & P).
    destruct (drain t vs s own addrs th I Z) as (s' & D). eauto.
  Qed.

  (** ** Progress *)
  Definition steps_of t (ls : list (label T)) : nat :=
    length (filter (fun lb => match lb with LStep u _ => Nat.eqb u t | _ => false end) ls).

  (** Steps left if nobody changes the head. *)
  Definition todo (hd : option nat) (l : loc T) : nat :=
    match l with
    | Idle | PushNew _ => 0
    | PushCas _ h => if opt_eqb hd h then 1 else 4
    | PushStore _ h => if opt_eqb hd h then 2 else 5
    | PushLoad _ => 3
    | PushAdd => 2
    | PopPin => 5 | PopLoad => 4 | PopNext p => if opt_eqb hd (Some p) then 2 else 6
    | PopCas p _ => if opt_eqb hd (Some p) then 1 else 5
    | PopSub _ => 4 | PopDefer _ => 3 | PopRead _ => 2
    | LenLoad => 2
    | Done _ => 1
    end.
  Definition started (l : loc T) : Prop := match l with Idle | PushNew _ => False | _ => True end.

  Lemma todo_6 hd l : todo hd l <= 6.
  Proof. destruct l; simpl; try lia; destruct (opt_eqb hd _); lia. Qed.

  Lemma step_progress s own addrs vs th lb s1 e1 t : inv s own addrs vs th -> stack_step s lb = Ok (s1, e1) -> started (st_threads s t) ->
    (exists o, In (ERet t o) e1) \/ st_head s1 <> st_head s \/
    (started (st_threads s1 t) /\ st_head s1 = st_head s /\
     todo (st_head s) (st_threads s1 t) + steps_of t [lb] <= todo (st_head s) (st_threads s t)).
  Proof.
    intros I E A. destruct lb as [u c|u a|a]; cbn [stack_step] in E.
    - right. right. destruct (Nat.eq_dec u t) as [->|N].
      + destruct (st_threads s t) eqn:Et; try contradiction; injection E as <- <-; rewrite Et; (split; [exact A|]); (split; [reflexivity|]); unfold steps_of; cbn [filter length]; rewrite Nat.add_0_r; reflexivity.
      + destruct (st_threads s u); injection E as <- <-; cbn [set_loc st_threads st_head]; rewrite ?update_other by auto; unfold steps_of; simpl; rewrite Nat.add_0_r; auto.
    - destruct (Nat.eq_dec u t) as [->|N].
      2:{ assert (S0 : steps_of t [LStep u a] = 0) by (unfold steps_of; simpl; now rewrite (proj2 (Nat.eqb_neq u t) N)). rewrite S0, Nat.add_0_r.
          assert (K : st_threads s1 t = st_threads s t).
          { destruct (st_threads s u) eqn:Eu; repeat match type of E with context [match ?x with _ => _ end] => destruct x eqn:? end; try discriminate;
              injection E as <- <-; cbn [set_loc pin unpin set_head set_len set_retired set_heap st_threads]; rewrite ?update_other by auto; auto. }
          rewrite K. right. destruct (st_head s1) as [x|] eqn:E1, (st_head s) as [y|] eqn:E2; try (left; discriminate); auto.
          destruct (Nat.eq_dec x y) as [->|]; [right; auto | left; congruence]. }
      assert (S1 : steps_of t [LStep t a] = 1) by (unfold steps_of; simpl; now rewrite Nat.eqb_refl). rewrite S1.
      pose proof (i_loc _ _ _ _ _ I t) as L. pose proof (i_chain _ _ _ _ _ I) as C.
      destruct (st_threads s t) as [ |v|b|b h|b h| | | |p|p n|p|p|p| |o] eqn:Et; cbn [started loc_ok] in A, L; try contradiction.
      + injection E as <- <-. right. right. cbn [set_loc st_threads st_head]. rewrite update_same. cbn [todo]. rewrite opt_eqb_refl. simpl. auto.
      + destruct L as (Ob & v & n & Eb & St). rewrite Eb in E. injection E as <- <-. right. right. cbn [set_loc set_heap st_threads st_head]. rewrite update_same. cbn [todo].
        destruct (opt_eqb (st_head s) h); simpl; auto.
      + destruct L as (Ob & v & Eb & St). destruct (opt_eqb (st_head s) h) eqn:Eh; injection E as <- <-.
        * right. left. cbn [set_loc set_head st_head]. intros X. rewrite <- X in C. apply chain_head in C as (? & ? & l' & ? & _ & -> & _).
          assert (Y : own b = UStk) by (apply (i_stk _ _ _ _ _ I); now left). congruence.
        * right. right. cbn [set_loc st_threads st_head]. rewrite update_same. cbn [todo started]. rewrite Eh. auto.
      + injection E as <- <-. right. right. cbn [set_loc set_len st_threads st_head]. rewrite update_same. simpl. auto.
      + injection E as <- <-. right. right. cbn [set_loc pin st_threads st_head]. rewrite update_same. simpl. auto.
      + destruct (st_head s) as [p|] eqn:Eh; injection E as <- <-; right; right; cbn [set_loc st_threads st_head]; rewrite update_same; cbn [todo started opt_eqb].
        * rewrite Nat.eqb_refl. auto with arith.
        * auto with arith.
      + destruct (st_heap s p) as [n|]; [|discriminate]. injection E as <- <-. right. right. cbn [set_loc st_threads st_head]. rewrite update_same. cbn [todo started].
        destruct (opt_eqb (st_head s) (Some p)); auto.
      + destruct L as (Sp & (v & Ep) & St). destruct (opt_eqb (st_head s) (Some p)) eqn:Eh; injection E as <- <-.
        * apply opt_eqb_eq in Eh. right. left. cbn [set_loc set_head st_head]. intros X. rewrite Eh in C. apply chain_head in C as (v' & n' & l' & vs' & Ep' & -> & -> & C').
          rewrite Ep in Ep'. injection Ep' as <- <-. rewrite X, Eh in C'. apply chain_head in C' as (? & ? & ? & ? & _ & -> & _).
          pose proof (i_nodup _ _ _ _ _ I) as D. inversion D as [|? ? Np]; subst. apply Np. now left.
        * right. right. cbn [set_loc st_threads st_head]. rewrite update_same. cbn [todo started]. rewrite Eh. auto.
      + injection E as <- <-. right. right. cbn [set_loc set_len st_threads st_head]. rewrite update_same. simpl. auto.
      + injection E as <- <-. right. right. cbn [set_loc set_retired st_threads st_head]. rewrite update_same. simpl. auto.
      + destruct (st_heap s p) as [n|]; [|discriminate]. injection E as <- <-. right. right. cbn [set_loc st_threads st_head]. rewrite update_same. simpl. auto.
      + injection E as <- <-. right. right. cbn [set_loc st_threads st_head]. rewrite update_same. simpl. auto.
      + injection E as <- <-. left. exists o. now left.
    - right. right. destruct (find _ _); [|injection E as <- <-; unfold steps_of; simpl; rewrite Nat.add_0_r; auto].
      destruct (st_heap s a); [|discriminate]. injection E as <- <-. unfold steps_of; simpl; rewrite Nat.add_0_r; auto.
  Qed.

  Lemma progress t ls : forall s own addrs vs th s' tr, inv s own addrs vs th -> started (st_threads s t) ->
    todo (st_head s) (st_threads s t) <= steps_of t ls -> exec s ls = Ok (s', tr) ->
    (exists o, In (ERet t o) tr) \/ exists ls1 ls2 s1 tr1, ls = ls1 ++ ls2 /\ exec s ls1 = Ok (s1, tr1) /\ st_head s1 <> st_head s.
  Proof.
    induction ls as [|lb ls IH]; intros s own addrs vs th s' tr I A M E.
    - exfalso. unfold steps_of in M. simpl in M. destruct (st_threads s t); simpl in A, M; try contradiction; try lia; destruct (opt_eqb _ _); lia.
    - cbn [exec] in E. destruct (step_ok s own addrs vs th lb I) as (s1 & e1 & own1 & ad1 & vs1 & th1 & E1 & I1 & R1). rewrite E1 in E. cbn [bind] in E.
      destruct (exec s1 ls) as [[s2 e2]| |] eqn:E2; try discriminate. injection E as <- <-.
      destruct (step_progress _ _ _ _ _ _ _ _ t I E1 A) as [(o & X)|[X|(A1 & X & M1)]].
      + left. exists o. apply in_or_app. now left.
      + right. exists [lb], ls, s1, e1. split; [reflexivity|]. split; [|exact X]. cbn [exec]. rewrite E1. cbn [bind]. now rewrite app_nil_r.
      + assert (Q : steps_of t (lb :: ls) = steps_of t [lb] + steps_of t ls) by (unfold steps_of; simpl; destruct lb as [?|u ?|?]; simpl; auto; now destruct (Nat.eqb u t)).
        destruct (IH _ _ _ _ _ _ _ I1 A1 ltac:(rewrite X; lia) E2) as [(o & Y)|(ls1 & ls2 & s3 & tr3 & Y1 & Y2 & Y3)].
        * left. exists o. apply in_or_app. now right.
        * right. exists (lb :: ls1), ls2, s3, (e1 ++ tr3). split; [now rewrite Y1|]. split; [cbn [exec]; rewrite E1; cbn [bind]; now rewrite Y2 | congruence].
  Qed.

  Theorem stack_lock_free ls0 s tr0 t ls s' tr : exec (T:=T) stack_new ls0 = Ok (s, tr0) ->
    (forall v, st_threads s t <> PushNew v) -> st_threads s t <> Idle -> 6 <= steps_of t ls -> exec s ls = Ok (s', tr) ->
    (exists o, In (ERet t o) tr) \/ exists ls1 ls2 s1 tr1, ls = ls1 ++ ls2 /\ exec s ls1 = Ok (s1, tr1) /\ st_head s1 <> st_head s.
  Proof.
    intros E0 N1 N2 M E. destruct (reach ls0 s tr0 E0) as (own & addrs & vs & th & I & _). eapply progress; eauto.
    - destruct (st_threads s t) eqn:Et; simpl; auto. eapply N1; eauto.
    - etransitivity; [apply todo_6 | exact M].
  Qed.
End StackProofs.

(** ** Violations *)
(** The counter is not updated together with the head: thread 1 pops thread 0's value before thread 0 has
    counted it. *)
Lemma stack_len_wraps_proof : exists (ls : list (label nat)) s tr, exec stack_new ls = Ok (s, tr) /\
  pushed tr = [7] /\ In (ERet 2 (OLen (two64 - 1))) tr.
Proof.
  exists ([LCall 0 (CPush 7); LStep 0 0; LStep 0 0; LStep 0 0; LStep 0 0] ++ solo_pop 1 ++ solo_len 2).
  eexists _, _. split; [vm_compute; reflexivity|]. split; [vm_compute; reflexivity|]. vm_compute. auto 10.
Qed.

(** try_pop hands out the value and also schedules the node, value included, for destruction. *)
Lemma stack_double_drop_proof : exists (ls : list (label nat)) s tr, exec stack_new ls = Ok (s, tr) /\
  pushed tr = [7] /\ popped tr = [7] /\ dropped tr = [7].
Proof.
  exists ([LCall 0 (CPush 7); LStep 0 0; LStep 0 0; LStep 0 0; LStep 0 0; LStep 0 0; LStep 0 0] ++ solo_pop 1 ++ [LFree 0]).
  eexists _, _. split; [vm_compute; reflexivity|]. repeat split; vm_compute; reflexivity.
Qed.
