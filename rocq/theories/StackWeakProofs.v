(** TreiberStack on memory with views: no thread touches a node it must not touch *)
From Verif Require Export StackWeakModel.
From Coq Require Import Lia.

Section Views.
  Definition vle (a b : view) : Prop :=
    v_head a <= v_head b /\ v_len a <= v_len b /\ forall i k, v_node a i = Some k -> exists k', v_node b i = Some k' /\ k <= k'.
  Lemma vle_refl a : vle a a.
  Proof. split; [lia|]. split; [lia|]. eauto. Qed.
  Lemma vle_trans a b c : vle a b -> vle b c -> vle a c.
  Proof.
    intros (A1 & A2 & A3) (B1 & B2 & B3). split; [lia|]. split; [lia|]. intros i k E. destruct (A3 _ _ E) as (k1 & E1 & L1). destruct (B3 _ _ E1) as (k2 & E2 & L2).
    exists k2. split; [exact E2|lia].
  Qed.
  Lemma later_l a b k : a = Some k -> exists k', later a b = Some k' /\ k <= k'.
  Proof. intros ->. destruct b; cbn; eexists; split; eauto; lia. Qed.
  Lemma later_r a b k : b = Some k -> exists k', later a b = Some k' /\ k <= k'.
  Proof. intros ->. destruct a; cbn; eexists; split; eauto; lia. Qed.
  Lemma join_l a b : vle a (vjoin a b).
  Proof. split; [cbn; lia|]. split; [cbn; lia|]. intros i k E. cbn. now apply later_l. Qed.
  Lemma join_r a b : vle b (vjoin a b).
  Proof. split; [cbn; lia|]. split; [cbn; lia|]. intros i k E. cbn. now apply later_r. Qed.
  Lemma see_head_le v i : vle v (see_head v i).
  Proof. split; [cbn; lia|]. split; [cbn; lia|]. cbn. eauto. Qed.
  Lemma see_len_le v i : vle v (see_len v i).
  Proof. split; [cbn; lia|]. split; [cbn; lia|]. cbn. eauto. Qed.
  Lemma see_node_le v n i : vle v (see_node v n i).
  Proof.
    split; [cbn; lia|]. split; [cbn; lia|]. intros j k E. cbn. unfold update. destruct (Nat.eqb_spec j n) as [->|N]; [now apply later_l|eauto].
  Qed.
  Lemma see_node_at v n i : exists k, v_node (see_node v n i) n = Some k /\ i <= k.
  Proof. cbn. unfold update. rewrite Nat.eqb_refl. now apply later_r. Qed.
  Lemma on_read_le o v m : vle v (on_read o v m).
  Proof. destruct o; cbn; auto using vle_refl, join_l. Qed.
  Lemma defers_le blind r v : vle v (seen_defers blind r v).
  Proof.
    induction r as [|[[i w] l] r IH]; cbn; [apply vle_refl|]. destruct (mem_nat i blind); [exact IH|]. eapply vle_trans; [exact IH|apply join_l].
  Qed.
  Lemma defers_in blind r v i w l : In (i, w, l) r -> mem_nat i blind = false -> vle w (seen_defers blind r v).
  Proof.
    intros J B. induction r as [|[[i' w'] l'] r IH]; [destruct J|]. cbn [seen_defers fold_right]. destruct J as [J|J].
    - injection J as -> -> ->. rewrite B. apply join_r.
    - destruct (mem_nat i' blind); [now apply IH|]. eapply vle_trans; [now apply IH|apply join_l].
  Qed.
End Views.

Section Safe.
  Context {T : Type}.
  Notation state := (wstate T).
  Notation loc := (loc T).
  (** Ghosts: the stack behind each message of head, as nodes and as values *)
  Record ghost : Type := mkGhost { g_stk : nat -> list nat; g_val : nat -> list T }.

  Definition len (s : state) : nat := length (w_head s).
  Definition published (s : state) (g : ghost) (id : nat) : Prop := exists i, i < len s /\ In id (g_stk g i).
  (** Popped for good from message [j] on *)
  Definition dead (s : state) (g : ghost) (j id : nat) : Prop := published s g id /\ j < len s /\ forall k, j <= k -> k < len s -> ~ In id (g_stk g k).
  Definition past (s : state) (g : ghost) (v : view) (id : nat) : Prop := exists j, j <= v_head v /\ dead s g j id.
  Definition live (s : state) (id : nat) : Prop := exists n, w_node s id = Some n /\ w_mem s (n_addr n) = Some id.
  Definition retired (s : state) (id : nat) : Prop := exists v w, In (id, v, w) (w_retired s).
  (** The last value of [next] of the node is visible. *)
  Definition sees (s : state) (v : view) (id : nat) : Prop := exists n k, w_node s id = Some n /\ v_node v id = Some k /\ length (n_next n) <= S k.
  Definition next_is (s : state) (id : nat) (h : option nat) : Prop := exists n x, w_node s id = Some n /\ n_next n = x ++ [h].
  Definition linked (s : state) : list nat -> Prop :=
    fix linked l := match l with [] => True | id :: r => next_is s id (hd_error r) /\ linked r end.
  Definition holds (s : state) (id : nat) (x : T) : Prop := exists n, w_node s id = Some n /\ n_value n = x.
  (** Thread [t] may use the pointer. *)
  Definition held (s : state) (g : ghost) (t : nat) (p : option nat) : Prop :=
    match p with
    | None => True
    | Some id => live s id /\ published s g id /\ forall v w, In (id, v, w) (w_retired s) -> In t w
    end.
  Definition owns (s : state) (g : ghost) (v : view) (b : nat) : Prop := live s b /\ ~ published s g b /\ sees s v b.
  Definition loc_ok (s : state) (g : ghost) (t : nat) (v : view) (l : loc) : Prop :=
    match l with
    | Idle | PushNew _ | PushAdd | PopPin | LenLoad | Done _ => True
    | PushPin b => owns s g v b
    | PushLoad b => owns s g v b /\ In t (w_pinned s)
    | PushStore b h => owns s g v b /\ In t (w_pinned s) /\ held s g t h
    | PushCas b h => owns s g v b /\ In t (w_pinned s) /\ held s g t h /\ next_is s b h
    | PopLoad => In t (w_pinned s)
    | PopNext p => In t (w_pinned s) /\ held s g t (Some p) /\ sees s v p
    | PopCas p n => In t (w_pinned s) /\ held s g t (Some p) /\ sees s v p /\ next_is s p n
    | PopSub p | PopDefer p => In t (w_pinned s) /\ live s p /\ ~ retired s p /\ past s g v p /\ v_node v p <> None
    | PopRead p => In t (w_pinned s) /\ held s g t (Some p) /\ v_node v p <> None
    end.
  (** The node that a push has made and not yet published; the node that a pop has taken and not yet deferred *)
  Definition made (l : loc) : option nat :=
    match l with PushPin b | PushLoad b | PushStore b _ | PushCas b _ => Some b | _ => None end.
  Definition taken (l : loc) : option nat := match l with PopSub p | PopDefer p => Some p | _ => None end.

  Record safe (s : state) (g : ghost) : Prop := mkSafe {
    sf_first : 0 < len s /\ g_stk g 0 = [] /\ g_val g 0 = [];
    sf_nodup : forall i, i < len s -> NoDup (g_stk g i);
    sf_head : forall i h m, nth_error (w_head s) i = Some (h, m) -> h = hd_error (g_stk g i) /\ forall j id, j <= i -> In id (g_stk g j) -> sees s m id;
    sf_link : forall i, i < len s -> linked s (g_stk g i) /\ Forall2 (holds s) (g_stk g i) (g_val g i);
    sf_live : forall id, In id (g_stk g (len s - 1)) -> live s id;
    sf_mem : forall a id, w_mem s a = Some id -> exists n, w_node s id = Some n /\ n_addr n = a;
    sf_fresh : forall id n, w_node s id = Some n -> id < w_fresh s;
    sf_ret : forall id v w, In (id, v, w) (w_retired s) -> live s id /\ past s g v id /\ forall t, In t (w_pinned s) -> In t w \/ past s g (w_view s t) id;
    sf_one : NoDup (map (fun x => fst (fst x)) (w_retired s));
    sf_gone : forall id, published s g id -> live s id \/ past s g (w_gone s) id /\ forall t, In t (w_pinned s) -> past s g (w_view s t) id;
    sf_loc : forall t, loc_ok s g t (w_view s t) (w_thread s t);
    sf_made : forall t u b, made (w_thread s t) = Some b -> made (w_thread s u) = Some b -> t = u;
    sf_taken : forall t u p, taken (w_thread s t) = Some p -> taken (w_thread s u) = Some p -> t = u }.

  Lemma F2_impl {A B} (P Q : A -> B -> Prop) l l' : (forall a b, P a b -> Q a b) -> Forall2 P l l' -> Forall2 Q l l'.
  Proof. intros X F. induction F; constructor; auto. Qed.
  Lemma update_eq {A} (f : nat -> A) i x : update f i x i = x.
  Proof. unfold update. now rewrite Nat.eqb_refl. Qed.
  Lemma update_ne {A} (f : nat -> A) i x j : j <> i -> update f i x j = f j.
  Proof. unfold update. intros N. now destruct (Nat.eqb_spec j i). Qed.

  Lemma past_le s g v v' id : vle v v' -> past s g v id -> past s g v' id.
  Proof. intros (L & _) (j & Lj & D). exists j. split; [lia|exact D]. Qed.
  Lemma sees_le s v v' id : vle v v' -> sees s v id -> sees s v' id.
  Proof. intros (_ & _ & L) (n & k & E & F & G). destruct (L _ _ F) as (k' & F' & Lk). exists n, k'. split; [exact E|]. split; [exact F'|lia]. Qed.
  Lemma node_le v v' id : vle v v' -> v_node v id <> None -> v_node v' id <> None.
  Proof. intros (_ & _ & L) N. destruct (v_node v id) as [k|] eqn:E; [|congruence]. destruct (L _ _ E) as (k' & -> & _). discriminate. Qed.
  Lemma owns_le s g v v' b : vle v v' -> owns s g v b -> owns s g v' b.
  Proof. intros L (A & B & D). repeat split; auto. eapply sees_le; eauto. Qed.
  Lemma loc_le s g t v v' l : vle v v' -> loc_ok s g t v l -> loc_ok s g t v' l.
  Proof.
    intros L. pose proof (fun b => owns_le s g v v' b L). pose proof (fun b => sees_le s v v' b L). pose proof (fun b => past_le s g v v' b L). pose proof (fun b => node_le v v' b L).
    destruct l; cbn; intuition eauto.
  Qed.
  Lemma live_inj s id id' n n' : live s id -> live s id' -> w_node s id = Some n -> w_node s id' = Some n' -> n_addr n = n_addr n' -> id = id'.
  Proof. intros (m & E & F) (m' & E' & F') G G' A. rewrite E in G. injection G as <-. rewrite E' in G'. injection G' as <-. rewrite A in F. congruence. Qed.
  Lemma node_live s id : live s id -> exists n, node s id = Some n /\ w_node s id = Some n.
  Proof. intros (n & E & F). exists n. unfold node. rewrite E, F, Nat.eqb_refl. auto. Qed.

  Lemma made_owns s g t b : safe s g -> made (w_thread s t) = Some b -> owns s g (w_view s t) b.
  Proof. intros S E. pose proof (sf_loc s g S t) as L. destruct (w_thread s t); cbn in E; try discriminate; injection E as ->; cbn in L; tauto. Qed.
  Lemma taken_facts s g t p : safe s g -> taken (w_thread s t) = Some p -> In t (w_pinned s) /\ live s p /\ ~ retired s p /\ past s g (w_view s t) p /\ v_node (w_view s t) p <> None.
  Proof. intros S E. pose proof (sf_loc s g S t) as L. destruct (w_thread s t); cbn in E; try discriminate; injection E as ->; exact L. Qed.

  (** *** A thread moves on and sees more; nothing else changes. *)
  Lemma safe_thread s g t l v : safe s g -> vle (w_view s t) v -> loc_ok s g t v l ->
    (made l = None \/ made l = made (w_thread s t)) -> (taken l = None \/ taken l = taken (w_thread s t)) -> safe (set_thread s t l v) g.
  Proof.
    intros S Le Lo Ma Ta. assert (View : forall u, vle (w_view s u) (update (w_view s) t v u)).
    { intros u. destruct (Nat.eq_dec u t) as [->|N]; [now rewrite update_eq|rewrite update_ne by exact N; apply vle_refl]. }
    constructor; cbn [set_thread w_head w_len w_node w_fresh w_mem w_thread w_view w_pinned w_retired w_gone]; try apply S.
    - intros id w ws J. destruct (sf_ret s g S _ _ _ J) as (A & B & D). split; [exact A|]. split; [exact B|]. intros u Ju. destruct (D u Ju) as [X|X]; [now left|right].
      exact (past_le s g _ _ _ (View u) X).
    - intros id P. destruct (sf_gone s g S id P) as [A|[A B]]; [now left|right]. split; [exact A|]. intros u Ju. exact (past_le s g _ _ _ (View u) (B u Ju)).
    - intros u. destruct (Nat.eq_dec u t) as [->|N].
      + rewrite !update_eq. exact Lo.
      + rewrite !update_ne by exact N. apply (sf_loc s g S u).
    - intros u u' b. assert (X : forall w, made (update (w_thread s) t l w) = Some b -> made (w_thread s w) = Some b).
      { intros w. destruct (Nat.eq_dec w t) as [->|N]; [rewrite update_eq|now rewrite update_ne]. destruct Ma; congruence. }
      intros A B. apply (sf_made s g S u u' b); auto.
    - intros u u' b. assert (X : forall w, taken (update (w_thread s) t l w) = Some b -> taken (w_thread s w) = Some b).
      { intros w. destruct (Nat.eq_dec w t) as [->|N]; [rewrite update_eq|now rewrite update_ne]. destruct Ta; congruence. }
      intros A B. apply (sf_taken s g S u u' b); auto.
  Qed.
  Lemma safe_len s g n v : safe s g -> safe (add_len s n v) g.
  Proof. intros S. constructor; apply S. Qed.

  (** *** A new node *)
  Lemma safe_alloc s g t a x : safe s g -> w_mem s a = None -> w_thread s t = PushNew x -> safe (set_thread (alloc s a x) t (PushPin (w_fresh s)) (see_node (w_view s t) (w_fresh s) 0)) g.
  Proof.
    intros S Ma Th. set (b := w_fresh s). set (s' := set_thread _ _ _ _).
    assert (New : w_node s b = None). { destruct (w_node s b) as [n|] eqn:E; [|reflexivity]. apply (sf_fresh s g S) in E. unfold b in E. lia. }
    assert (Nd : forall id n, w_node s id = Some n -> w_node s' id = Some n). { intros id n E. cbn. fold b. rewrite update_ne; [exact E|]. intros ->. congruence. }
    assert (Lv : forall id, live s id -> live s' id).
    { intros id (n & E & F). exists n. split; [now apply Nd|]. cbn. rewrite update_ne; [exact F|]. intros Q. rewrite Q in F. congruence. }
    assert (Se : forall v id, sees s v id -> sees s' v id). { intros v id (n & k & E & F). exists n, k. split; [now apply Nd|exact F]. }
    assert (Ni : forall id h, next_is s id h -> next_is s' id h). { intros id h (n & y & E & F). exists n, y. split; [now apply Nd|exact F]. }
    assert (Unp : ~ published s g b).
    { intros (i & Li & J). destruct (sf_link s g S i Li) as [_ F]. clear - J F New. induction F as [|id y l l' (n & E & _) F IH]; [destruct J|]. destruct J as [->|J]; [congruence|auto]. }
    assert (View : forall u, vle (w_view s u) (w_view s' u)).
    { intros u. cbn. destruct (Nat.eq_dec u t) as [->|N]; [rewrite update_eq; apply see_node_le|rewrite update_ne by exact N; apply vle_refl]. }
    assert (Pa : forall v v' id, vle v v' -> past s g v id -> past s' g v' id) by (intros v v' id L; apply (past_le s g v v' id L)).
    assert (Ow : forall v c, owns s g v c -> owns s' g v c) by (intros v c (A & B & D); repeat split; auto; apply Se; exact D).
    assert (He : forall u p, held s g u p -> held s' g u p) by (intros u [p|]; cbn; [intros (A & B & D); auto|auto]).
    constructor.
    - apply S.
    - apply S.
    - intros i h m E. destruct (sf_head s g S i h m E) as [A B]. split; [exact A|]. intros j id Lj J. apply Se. eauto.
    - intros i Li. destruct (sf_link s g S i Li) as [A B]. split.
      + clear - A Ni. induction (g_stk g i) as [|id l IH]; [exact I|]. destruct A as [A A']. split; [now apply Ni|now apply IH].
      + eapply F2_impl; [|exact B]. intros id y (n & E & F). exists n. split; [now apply Nd|exact F].
    - intros id J. apply Lv. now apply (sf_live s g S).
    - intros a' id E. cbn in E. unfold update in E. destruct (Nat.eqb_spec a' a) as [->|N].
      + injection E as <-. eexists. cbn. fold b. rewrite update_eq. split; [reflexivity|reflexivity].
      + destruct (sf_mem s g S _ _ E) as (n & F & G). exists n. split; [now apply Nd|exact G].
    - intros id n E. cbn in E. fold b in E. unfold update in E. destruct (Nat.eqb_spec id b) as [->|N]; [cbn; fold b; lia|]. apply (sf_fresh s g S) in E. cbn. lia.
    - intros id v w J. destruct (sf_ret s g S id v w J) as (A & B & D). split; [now apply Lv|]. split; [exact B|]. intros u Ju. destruct (D u Ju) as [X|X]; [now left|right].
      exact (Pa _ _ _ (View u) X).
    - apply S.
    - intros id P. destruct (sf_gone s g S id P) as [A|[A B]]; [left; now apply Lv|right]. split; [exact A|]. intros u Ju. exact (Pa _ _ _ (View u) (B u Ju)).
    - intros u. cbn [s' set_thread w_thread w_view]. destruct (Nat.eq_dec u t) as [->|N].
      + rewrite !update_eq. cbn [loc_ok]. split; [|split].
        * eexists. cbn. fold b. rewrite update_eq. split; [reflexivity|]. cbn. now rewrite update_eq.
        * exact Unp.
        * destruct (see_node_at (w_view s t) b 0) as (k & E & L). eexists _, k. cbn. fold b. rewrite update_eq. split; [reflexivity|]. split; [exact E|cbn; lia].
      + rewrite !update_ne by exact N. cbn [alloc w_thread w_view]. pose proof (sf_loc s g S u) as X.
        assert (Re : forall p, retired s' p -> retired s p) by (intros p Z; exact Z).
        destruct (w_thread s u); cbn [loc_ok] in *; intuition eauto.
    - assert (X : forall u c, made (w_thread s' u) = Some c -> (u = t /\ c = b) \/ (u <> t /\ made (w_thread s u) = Some c /\ c <> b)).
      { intros u c E. cbn in E. destruct (Nat.eq_dec u t) as [->|N]; [rewrite update_eq in E; cbn in E; injection E as <-; auto|]. rewrite update_ne in E by exact N.
        right. split; [exact N|]. split; [exact E|]. intros ->. destruct (made_owns s g u b S E) as ((n & Q & _) & _). congruence. }
      intros u u' c E E'. destruct (X _ _ E) as [[-> ->]|(N & E1 & Nb)], (X _ _ E') as [[-> Q]|(N' & E1' & Nb')]; try congruence. apply (sf_made s g S u u' c E1 E1').
    - assert (X : forall u c, taken (w_thread s' u) = Some c -> taken (w_thread s u) = Some c).
      { intros u c E. cbn in E. destruct (Nat.eq_dec u t) as [->|N]; [rewrite update_eq in E; discriminate|now rewrite update_ne in E by exact N]. }
      intros u u' c E E'. apply (sf_taken s g S u u' c); auto.
  Qed.

  (** *** What a thread relies on stays if what it uses stays. *)
  Lemma loc_move s g s' g' u v l :
    (In u (w_pinned s) -> In u (w_pinned s')) ->
    (forall p, In u (w_pinned s) -> held s g u p -> held s' g' u p) ->
    (forall b, made l = Some b -> owns s g v b -> owns s' g' v b) ->
    (forall p, published s g p -> sees s v p -> sees s' v p) ->
    (forall p h, published s g p \/ made l = Some p -> next_is s p h -> next_is s' p h) ->
    (forall p, taken l = Some p -> live s p -> ~ retired s p -> past s g v p -> live s' p /\ ~ retired s' p /\ past s' g' v p) ->
    loc_ok s g u v l -> loc_ok s' g' u v l.
  Proof.
    intros Pi He Ow Se Ni Ta. destruct l; cbn [loc_ok made taken] in *; try tauto.
    - auto.
    - intros (A & B); auto.
    - intros (A & B & D). auto.
    - intros (A & B & D & E). repeat split; auto. all: try apply He; auto. all: apply Ow; auto.
    - intros (A & B & D). split; [auto|]. split; [now apply He|]. apply Se; [apply B|exact D].
    - intros (A & B & D & E). split; [auto|]. split; [now apply He|]. destruct B as (_ & P & _). auto.
    - intros (A & B & D & E & F). destruct (Ta p eq_refl B D E) as (X & Y & Z). auto.
    - intros (A & B & D & E & F). destruct (Ta p eq_refl B D E) as (X & Y & Z). auto.
    - intros (A & B & D). auto.
  Qed.

  (** *** Pinning *)
  Lemma safe_pin s g t blind : safe s g -> safe (pin s t blind) g.
  Proof.
    intros S. set (s' := pin s t blind).
    assert (Vt : w_view s' t = seen_defers blind (w_retired s) (vjoin (w_view s t) (w_gone s))) by (cbn; now rewrite update_eq).
    assert (View : forall u, vle (w_view s u) (w_view s' u)).
    { intros u. destruct (Nat.eq_dec u t) as [->|N]; [|cbn; rewrite update_ne by exact N; apply vle_refl]. rewrite Vt. eapply vle_trans; [apply join_l|apply defers_le]. }
    assert (Gone : vle (w_gone s) (w_view s' t)). { rewrite Vt. eapply vle_trans; [apply join_r|apply defers_le]. }
    assert (In1 : forall id v w, In (id, v, w) (w_retired s') -> exists w0, In (id, v, w0) (w_retired s) /\ (forall u, In u w0 -> In u w) /\ (In t w \/ vle v (w_view s' t))).
    { intros id v w J. cbn in J. apply in_map_iff in J. destruct J as (((id0 & v0) & w0) & E & J). exists w0. destruct (mem_nat id0 blind) eqn:B; injection E as <- <- <-.
      - split; [exact J|]. split; [intros u X; now right|left; now left].
      - split; [exact J|]. split; [auto|]. right. rewrite Vt. eapply defers_in; eauto. }
    assert (Re : forall p, retired s' p -> retired s p). { intros p (v & w & J). destruct (In1 _ _ _ J) as (w0 & J0 & _). exists v, w0. exact J0. }
    constructor; try apply S.
    - intros id v w J. destruct (In1 _ _ _ J) as (w0 & J0 & Sub & Or). destruct (sf_ret s g S _ _ _ J0) as (A & B & D). split; [exact A|]. split; [exact B|].
      intros u [<-|Ju]; [destruct Or as [Or|Or]; [now left|right; exact (past_le s g _ _ _ Or B)]|]. destruct (D u Ju) as [X|X]; [left; auto|right; exact (past_le s g _ _ _ (View u) X)].
    - cbn. rewrite map_map. erewrite map_ext; [apply (sf_one s g S)|]. intros [[i v] w]. cbn. now destruct (mem_nat i blind).
    - intros id P. destruct (sf_gone s g S id P) as [A|[A B]]; [now left|right]. split; [exact A|]. intros u [<-|Ju]; [exact (past_le s g _ _ _ Gone A)|exact (past_le s g _ _ _ (View u) (B u Ju))].
    - intros u. apply (loc_le _ _ _ (w_view s u)); [apply View|]. eapply (loc_move s g); try apply (sf_loc s g S u).
      + intros X. now right.
      + intros [p|] Pi; [|exact (fun _ => I)]. intros (A & B & D). split; [exact A|]. split; [exact B|]. intros v w J. destruct (In1 _ _ _ J) as (w0 & J0 & Sub & _). apply Sub, (D _ _ J0).
      + intros b _ X. exact X.
      + intros p _ X. exact X.
      + intros p h _ X. exact X.
      + intros p _ A B D. split; [exact A|]. split; [intros X; apply B, Re, X|exact D].
  Qed.
  Lemma in_without t u l : In u (without t l) <-> In u l /\ u <> t.
  Proof. unfold without. rewrite filter_In, negb_true_iff, Nat.eqb_neq. reflexivity. Qed.
  Lemma safe_unpin s g t o v : safe s g -> w_thread s t = Done o -> vle (w_view s t) v -> safe (set_thread (unpin s t) t Idle v) g.
  Proof.
    intros S Th Le. set (s' := set_thread _ _ _ _).
    assert (View : forall u, vle (w_view s u) (w_view s' u)).
    { intros u. cbn. destruct (Nat.eq_dec u t) as [->|N]; [now rewrite update_eq|rewrite update_ne by exact N; apply vle_refl]. }
    assert (In1 : forall id v w, In (id, v, w) (w_retired s') -> exists w0, In (id, v, w0) (w_retired s) /\ w = without t w0).
    { intros id x w J. cbn in J. apply in_map_iff in J. destruct J as (((id0 & v0) & w0) & E & J). exists w0. injection E as <- <- <-. auto. }
    assert (Re : forall p, retired s' p -> retired s p). { intros p (x & w & J). destruct (In1 _ _ _ J) as (w0 & J0 & _). exists x, w0. exact J0. }
    constructor; try apply S.
    - intros id x w J. destruct (In1 _ _ _ J) as (w0 & J0 & ->). destruct (sf_ret s g S _ _ _ J0) as (A & B & D). split; [exact A|]. split; [exact B|].
      intros u Ju. cbn in Ju. apply in_without in Ju. destruct Ju as [Ju N]. destruct (D u Ju) as [X|X]; [left; now apply in_without|right; exact (past_le s g _ _ _ (View u) X)].
    - cbn. rewrite map_map. erewrite map_ext; [apply (sf_one s g S)|]. now intros [[i x] w].
    - intros id P. destruct (sf_gone s g S id P) as [A|[A B]]; [now left|right]. split; [exact A|]. intros u Ju. cbn in Ju. apply in_without in Ju. exact (past_le s g _ _ _ (View u) (B u (proj1 Ju))).
    - intros u. destruct (Nat.eq_dec u t) as [->|N]; [cbn; now rewrite !update_eq|]. cbn [s' set_thread w_thread w_view]. rewrite !update_ne by exact N.
      eapply (loc_move s g); try apply (sf_loc s g S u).
      + intros X. cbn. now apply in_without.
      + intros [p|] Pi; [|exact (fun _ => I)]. intros (A & B & D). split; [exact A|]. split; [exact B|]. intros x w J. destruct (In1 _ _ _ J) as (w0 & J0 & ->). apply in_without. split; [apply (D _ _ J0)|exact N].
      + intros b _ X. exact X.
      + intros p _ X. exact X.
      + intros p h _ X. exact X.
      + intros p _ A B D. split; [exact A|]. split; [intros X; apply B, Re, X|exact D].
    - assert (X : forall u c, made (w_thread s' u) = Some c -> made (w_thread s u) = Some c).
      { intros u c E. cbn in E. destruct (Nat.eq_dec u t) as [->|N]; [rewrite update_eq in E; discriminate|now rewrite update_ne in E by exact N]. }
      intros u u' c E E'. apply (sf_made s g S u u' c); auto.
    - assert (X : forall u c, taken (w_thread s' u) = Some c -> taken (w_thread s u) = Some c).
      { intros u c E. cbn in E. destruct (Nat.eq_dec u t) as [->|N]; [rewrite update_eq in E; discriminate|now rewrite update_ne in E by exact N]. }
      intros u u' c E E'. apply (sf_taken s g S u u' c); auto.
  Qed.

  (** *** Storing into the next field of the own node *)
  Lemma safe_store s g t b h n : safe s g -> w_thread s t = PushStore b h -> w_node s b = Some n ->
    safe (set_thread (set_node s b (WNode (n_addr n) (n_value n) (n_next n ++ [h]))) t (PushCas b h) (see_node (w_view s t) b (length (n_next n)))) g.
  Proof.
    intros S Th Nb. set (s' := set_thread _ _ _ _). pose proof (sf_loc s g S t) as L0. rewrite Th in L0. destruct L0 as ((Lb & Ub & Sb) & Pt & Hh).
    assert (Nd : forall id m, id <> b -> w_node s id = Some m -> w_node s' id = Some m) by (intros id m N E; cbn; now rewrite update_ne).
    assert (Nb' : w_node s' b = Some (WNode (n_addr n) (n_value n) (n_next n ++ [h]))) by (cbn; now rewrite update_eq).
    assert (Ne : forall id, published s g id -> id <> b) by (intros id P ->; now apply Ub).
    assert (Lv : forall id, live s id -> live s' id).
    { intros id (m & E & F). destruct (Nat.eq_dec id b) as [->|N]; [|exists m; split; [now apply Nd|exact F]]. eexists. split; [exact Nb'|]. cbn. congruence. }
    assert (Se : forall v id, id <> b -> sees s v id -> sees s' v id) by (intros v id N (m & k & E & F); exists m, k; split; [now apply Nd|exact F]).
    assert (Ni : forall id x, id <> b -> next_is s id x -> next_is s' id x) by (intros id x N (m & y & E & F); exists m, y; split; [now apply Nd|exact F]).
    assert (View : forall u, vle (w_view s u) (w_view s' u)).
    { intros u. cbn. destruct (Nat.eq_dec u t) as [->|N]; [rewrite update_eq; apply see_node_le|rewrite update_ne by exact N; apply vle_refl]. }
    assert (Hd : forall u p, held s g u p -> held s' g u p) by (intros u [p|]; [intros (A & B & D); split; [now apply Lv|split; [exact B|exact D]]|exact (fun X => X)]).
    assert (Mk : forall u, made (w_thread s' u) = made (w_thread s u)).
    { intros u. cbn. destruct (Nat.eq_dec u t) as [->|N]; [rewrite update_eq, Th; reflexivity|now rewrite update_ne by exact N]. }
    assert (Tk : forall u, taken (w_thread s' u) = taken (w_thread s u)).
    { intros u. cbn. destruct (Nat.eq_dec u t) as [->|N]; [rewrite update_eq, Th; reflexivity|now rewrite update_ne by exact N]. }
    constructor; try apply S.
    - intros i x m E. destruct (sf_head s g S i x m E) as [A B]. split; [exact A|]. intros j id Lj J. apply Se; [apply Ne|eauto]. exists j. split; [|exact J].
      assert (i < len s) by (apply nth_error_Some; change (nth_error (w_head s) i = Some (x, m)) in E; rewrite E; discriminate). lia.
    - intros i Li. destruct (sf_link s g S i Li) as [A B]. assert (N : forall id, In id (g_stk g i) -> id <> b) by (intros id J; apply Ne; exists i; auto). split.
      + clear - A Ni N. induction (g_stk g i) as [|id l IH]; [exact I|]. destruct A as [A A']. split; [apply Ni; [apply N; now left|exact A]|apply IH; [exact A'|intros x J; apply N; now right]].
      + clear - B N Nd. induction B as [|id y l l' (m & E & F) B IH]; constructor; [|apply IH; intros x J; apply N; now right]. exists m. split; [apply Nd; [apply N; now left|exact E]|exact F].
    - intros id J. now apply Lv, (sf_live s g S).
    - intros a id E. destruct (sf_mem s g S _ _ E) as (m & F & G). destruct (Nat.eq_dec id b) as [->|N]; [|exists m; split; [now apply Nd|exact G]]. eexists. split; [exact Nb'|]. cbn. congruence.
    - intros id m E. destruct (Nat.eq_dec id b) as [->|N]; [now apply (sf_fresh s g S b n)|]. cbn in E. rewrite update_ne in E by exact N. now apply (sf_fresh s g S id m).
    - intros id v w J. destruct (sf_ret s g S _ _ _ J) as (A & B & D). split; [now apply Lv|]. split; [exact B|]. intros u Ju. destruct (D u Ju) as [X|X]; [now left|right; exact (past_le s g _ _ _ (View u) X)].
    - intros id P. destruct (sf_gone s g S id P) as [A|[A B]]; [left; now apply Lv|right]. split; [exact A|]. intros u Ju. exact (past_le s g _ _ _ (View u) (B u Ju)).
    - intros u. cbn [s' set_thread w_thread w_view]. destruct (Nat.eq_dec u t) as [->|N].
      + rewrite !update_eq. split; [|split; [exact Pt|split; [now apply Hd|]]].
        * split; [now apply Lv|]. split; [exact Ub|]. destruct (see_node_at (w_view s t) b (length (n_next n))) as (k & E & Lk). eexists _, k. split; [exact Nb'|]. split; [exact E|].
          cbn. rewrite app_length. cbn. lia.
        * eexists _, (n_next n). split; [exact Nb'|reflexivity].
      + rewrite !update_ne by exact N. cbn [set_node w_thread w_view]. assert (Nm : forall c, made (w_thread s u) = Some c -> c <> b).
        { intros c E ->. apply N. apply (sf_made s g S u t b E). now rewrite Th. }
        eapply (loc_move s g); try apply (sf_loc s g S u).
        * exact (fun X => X).
        * intros p _ X. now apply Hd.
        * intros c E (A & B & D). split; [now apply Lv|]. split; [exact B|]. apply Se; auto.
        * intros p P X. apply Se; auto.
        * intros p x [P|P] X; apply Ni; auto.
        * intros p _ A B D. split; [now apply Lv|]. split; [exact B|exact D].
    - intros u u' c. rewrite !Mk. apply (sf_made s g S).
    - intros u u' c. rewrite !Tk. apply (sf_taken s g S).
  Qed.

  (** *** Changing the head *)
  Lemma next_fun s id h h' : next_is s id h -> next_is s id h' -> h = h'.
  Proof. intros (n & x & E & F) (n' & x' & E' & F'). rewrite E in E'. injection E' as <-. rewrite F in F'. apply app_inj_tail in F'. tauto. Qed.
  Lemma same_head s g t h : safe s g -> held s g t h -> same_pointer s (hd_error (g_stk g (len s - 1))) h = true -> h = hd_error (g_stk g (len s - 1)).
  Proof.
    intros S Hh. pose proof (sf_live s g S) as Lv. destruct (g_stk g (len s - 1)) as [|q r], h as [p|]; cbn; unfold same_pointer, address.
    - destruct Hh as ((n & E & _) & _). rewrite E. discriminate.
    - auto.
    - destruct Hh as (Lp & _). destruct Lp as (n & E & F). destruct (Lv q (or_introl eq_refl)) as (n' & E' & F'). rewrite E, E'. cbn. intros Q. apply Nat.eqb_eq in Q. rewrite Q in F'. congruence.
    - destruct (Lv q (or_introl eq_refl)) as (n' & E' & F'). rewrite E'. discriminate.
  Qed.
  Definition grow (s : state) (g : ghost) (l : list nat) (x : list T) : ghost := mkGhost (update (g_stk g) (len s) l) (update (g_val g) (len s) x).
  Lemma safe_grow s g t l x h w lo v : safe s g -> vle (w_view s t) v -> h = hd_error l -> NoDup l ->
    (forall id, In id l -> live s id /\ (In id (g_stk g (len s - 1)) \/ made (w_thread s t) = Some id /\ made lo = None)) ->
    (forall j id, j < len s -> In id (g_stk g j) -> sees s w id) -> (forall id, In id l -> sees s w id) -> linked s l -> Forall2 (holds s) l x ->
    let s' := set_thread (add_head s h w) t lo v in let g' := grow s g l x in
    (forall p, (forall id v', past s g v' id -> past s' g' v' id) -> (forall id, published s g id -> published s' g' id) -> taken lo = Some p ->
       published s g p /\ forall u, u <> t -> taken (w_thread s u) <> Some p) ->
    ((forall id v', past s g v' id -> past s' g' v' id) -> (forall id, published s g id -> published s' g' id) -> loc_ok s' g' t v lo) ->
    (made lo = None \/ made lo = made (w_thread s t)) -> safe s' g'.
  Proof.
    intros S Le Hh Nd Sub Sw Sl Li Ho s' g' Tk Lo Mk.
    assert (Len : len s' = len s + 1) by (unfold len, s'; cbn; rewrite app_length; cbn; lia).
    assert (First := sf_first s g S). destruct First as (L0 & G0 & G1).
    assert (Gn : g_stk g' (len s) = l) by (cbn; apply update_eq). assert (Vn : g_val g' (len s) = x) by (cbn; apply update_eq).
    assert (Go : forall i, i < len s -> g_stk g' i = g_stk g i) by (intros i Hi; cbn; apply update_ne; lia).
    assert (Vo : forall i, i < len s -> g_val g' i = g_val g i) by (intros i Hi; cbn; apply update_ne; lia).
    assert (Pu : forall id, published s g id -> published s' g' id). { intros id (i & Hi & J). exists i. split; [lia|]. now rewrite Go. }
    assert (Old : forall id, In id (g_stk g (len s - 1)) -> published s g id). { intros id J. exists (len s - 1). split; [lia|exact J]. }
    assert (Pu' : forall id, published s' g' id -> published s g id \/ In id l).
    { intros id (i & Hi & J). destruct (Nat.eq_dec i (len s)) as [->|N]; [right; now rewrite Gn in J|left]. exists i. assert (i < len s) by lia. split; [assumption|]. now rewrite Go in J. }
    assert (Fr : forall id, published s g id -> In id l -> In id (g_stk g (len s - 1))).
    { intros id P J. destruct (Sub id J) as [_ [X|[X _]]]; [exact X|]. destruct (made_owns s g t id S X) as (_ & U & _). contradiction. }
    assert (Pa : forall id v', past s g v' id -> past s' g' v' id).
    { intros id v' (j & Lj & P & Hj & D). exists j. split; [exact Lj|]. split; [now apply Pu|]. split; [lia|]. intros k Hk Hk'. destruct (Nat.eq_dec k (len s)) as [->|N].
      - rewrite Gn. intros J. apply (D (len s - 1)); [lia|lia|]. now apply Fr.
      - rewrite Go by lia. apply D; lia. }
    specialize (Lo Pa Pu). pose proof (fun p => Tk p Pa Pu) as Tk'. clear Tk. rename Tk' into Tk.
    assert (View : forall u, vle (w_view s u) (w_view s' u)).
    { intros u. cbn. destruct (Nat.eq_dec u t) as [->|N]; [now rewrite update_eq|rewrite update_ne by exact N; apply vle_refl]. }
    constructor.
    - split; [lia|]. rewrite Go, Vo by lia. auto.
    - intros i Hi. destruct (Nat.eq_dec i (len s)) as [->|N]; [now rewrite Gn|]. rewrite Go by lia. apply S. lia.
    - intros i q m E. cbn in E. destruct (Nat.lt_ge_cases i (len s)) as [Hi|Hi].
      + rewrite nth_error_app1 in E by exact Hi. destruct (sf_head s g S i q m E) as [A B]. rewrite Go by exact Hi. split; [exact A|]. intros j id Hj J. rewrite Go in J by lia. exact (B j id Hj J).
      + rewrite nth_error_app2 in E by exact Hi. assert (i = len s). { assert (X : i - length (w_head s) < 1) by (apply nth_error_Some with (l := [(h, w)]); rewrite E; discriminate). unfold len in *. lia. }
        subst i. unfold len in E at 1. rewrite Nat.sub_diag in E. cbn in E. injection E as <- <-. rewrite Gn. split; [exact Hh|]. intros j id Hj J.
        destruct (Nat.eq_dec j (len s)) as [->|N]; [rewrite Gn in J; exact (Sl id J)|]. rewrite Go in J by lia. apply (Sw j); [lia|exact J].
    - intros i Hi. destruct (Nat.eq_dec i (len s)) as [->|N]; [rewrite Gn, Vn; auto|]. rewrite Go, Vo by lia. apply (sf_link s g S). lia.
    - intros id. rewrite Len. replace (len s + 1 - 1) with (len s) by lia. rewrite Gn. intros J. apply Sub, J.
    - apply S.
    - apply S.
    - intros id v' ws J. destruct (sf_ret s g S _ _ _ J) as (A & B & D). split; [exact A|]. split; [now apply Pa|]. intros u Ju. destruct (D u Ju) as [X|X]; [now left|right]. apply Pa. exact (past_le s g _ _ _ (View u) X).
    - apply S.
    - intros id P. destruct (Pu' id P) as [P'|J]; [|left; apply Sub, J]. destruct (sf_gone s g S id P') as [A|[A B]]; [now left|right]. split; [now apply Pa|]. intros u Ju.
      apply Pa. exact (past_le s g _ _ _ (View u) (B u Ju)).
    - intros u. cbn [s' set_thread w_thread w_view]. destruct (Nat.eq_dec u t) as [->|N]; [rewrite !update_eq; exact Lo|]. rewrite !update_ne by exact N. cbn [add_head w_thread w_view].
      eapply (loc_move s g); try apply (sf_loc s g S u).
      + exact (fun X => X).
      + intros [p|] _; [|exact (fun X => X)]. intros (A & B & D). split; [exact A|]. split; [now apply Pu|exact D].
      + intros b E (A & B & D). split; [exact A|]. split; [|exact D]. intros P. destruct (Pu' b P) as [P'|J]; [contradiction|]. destruct (Sub b J) as [_ [X|[X _]]]; [apply B, Old, X|].
        apply N. exact (sf_made s g S u t b E X).
      + intros p _ X. exact X.
      + intros p q _ X. exact X.
      + intros p _ A B D. split; [exact A|]. split; [exact B|now apply Pa].
    - assert (X : forall u c, made (w_thread s' u) = Some c -> made (w_thread s u) = Some c).
      { intros u c E. cbn in E. destruct (Nat.eq_dec u t) as [->|N]; [rewrite update_eq in E; destruct Mk; congruence|now rewrite update_ne in E by exact N]. }
      intros u u' c E E'. apply (sf_made s g S u u' c); auto.
    - intros u u' c E E'. cbn in E, E'. destruct (Nat.eq_dec u t) as [->|N], (Nat.eq_dec u' t) as [->|N']; try reflexivity.
      + rewrite update_eq in E. rewrite update_ne in E' by exact N'. destruct (Tk c E) as [_ Z]. now apply Z in E'.
      + rewrite update_eq in E'. rewrite update_ne in E by exact N. destruct (Tk c E') as [_ Z]. now apply Z in E.
      + rewrite update_ne in E, E' by assumption. exact (sf_taken s g S u u' c E E').
  Qed.
  Lemma last_message s g : safe s g -> exists m, nth_error (w_head s) (len s - 1) = Some (hd_error (g_stk g (len s - 1)), m).
  Proof.
    intros S. destruct (sf_first s g S) as (L0 & _). destruct (nth_error (w_head s) (len s - 1)) as [[h m]|] eqn:E.
    - exists m. now rewrite <- (proj1 (sf_head s g S _ _ _ E)).
    - apply nth_error_None in E. unfold len in *. lia.
  Qed.
  Lemma safe_push s g t b h q m x : safe s g -> w_thread s t = PushCas b h -> nth_error (w_head s) (len s - 1) = Some (q, m) -> same_pointer s q h = true -> holds s b x ->
    let v := see_head (w_view s t) (len s) in
    safe (set_thread (add_head s (Some b) (vjoin v (see_head m (len s)))) t PushAdd v) (grow s g (b :: g_stk g (len s - 1)) (x :: g_val g (len s - 1))).
  Proof.
    intros S Th Em Sp Hx v. destruct (sf_first s g S) as (L0 & _). pose proof (sf_loc s g S t) as Lo. rewrite Th in Lo. destruct Lo as ((Lb & Ub & Sb) & Pt & Hh & Nx).
    destruct (sf_head s g S _ _ _ Em) as [-> Sm]. pose proof (same_head s g t h S Hh Sp) as Eh.
    assert (Nb : ~ In b (g_stk g (len s - 1))) by (intros J; apply Ub; exists (len s - 1); split; [lia|exact J]).
    assert (Se : forall j id, j < len s -> In id (g_stk g j) -> sees s (vjoin v (see_head m (len s))) id).
    { intros j id Hj J. eapply sees_le; [apply join_r|]. eapply sees_le; [apply see_head_le|]. apply (Sm j); [lia|exact J]. }
    apply safe_grow; auto.
    - apply see_head_le.
    - constructor; [exact Nb|apply (sf_nodup s g S); lia].
    - intros id [<-|J]; [split; [exact Lb|right; rewrite Th; auto]|]. split; [now apply (sf_live s g S)|now left].
    - intros id [<-|J]; [|apply (Se (len s - 1)); [lia|exact J]]. eapply sees_le; [apply join_l|]. eapply sees_le; [apply see_head_le|exact Sb].
    - split; [now rewrite <- Eh|]. apply (sf_link s g S). lia.
    - constructor; [exact Hx|]. apply (sf_link s g S). lia.
    - discriminate.
    - intros _ _. exact I.
  Qed.
  Lemma safe_pop s g t p n q m : safe s g -> w_thread s t = PopCas p n -> nth_error (w_head s) (len s - 1) = Some (q, m) -> same_pointer s q (Some p) = true ->
    let v := see_head (w_view s t) (len s) in
    (exists r x y, g_stk g (len s - 1) = p :: r /\ g_val g (len s - 1) = x :: y /\ holds s p x) /\
    safe (set_thread (add_head s n (vjoin v (see_head m (len s)))) t (PopSub p) v) (grow s g (tl (g_stk g (len s - 1))) (tl (g_val g (len s - 1)))).
  Proof.
    intros S Th Em Sp v. destruct (sf_first s g S) as (L0 & _). pose proof (sf_loc s g S t) as Lo. rewrite Th in Lo. destruct Lo as (Pt & Hh & Sb & Nx).
    destruct (sf_head s g S _ _ _ Em) as [-> Sm]. pose proof (same_head s g t _ S Hh Sp) as Eh.
    destruct (g_stk g (len s - 1)) as [|p' r] eqn:Es; [discriminate|]. injection Eh as <-.
    assert (Li := sf_link s g S (len s - 1) ltac:(lia)). rewrite Es in Li. destruct Li as [[Nx' Lr] Fo].
    inversion Fo as [|? x ? y Hx Fr Ep Ey]; subst. symmetry in Ey. rename Ey into Ev. split; [exists r, x, y; auto|].
    assert (Nd := sf_nodup s g S (len s - 1) ltac:(lia)). rewrite Es in Nd. inversion Nd as [|? ? Np Nr]; subst.
    assert (Se : forall j id, j < len s -> In id (g_stk g j) -> sees s (vjoin v (see_head m (len s))) id).
    { intros j id Hj J. eapply sees_le; [apply join_r|]. eapply sees_le; [apply see_head_le|]. apply (Sm j); [lia|exact J]. }
    assert (Sr : forall id, In id r -> In id (g_stk g (len s - 1))) by (intros id J; rewrite Es; now right).
    assert (Ip : In p (g_stk g (len s - 1))) by (rewrite Es; now left).
    assert (NotPast : forall w, ~ past s g w p). { intros w (j & _ & _ & Hj & D). apply (D (len s - 1)); [lia|lia|exact Ip]. }
    cbn [tl]. try rewrite <- Ev. cbn [tl]. apply safe_grow; auto.
    - apply see_head_le.
    - exact (next_fun s p _ _ Nx Nx').
    - intros id J. split; [apply (sf_live s g S); now apply Sr|left; now apply Sr].
    - intros id J. apply (Se (len s - 1)); [lia|now apply Sr].
    - intros c _ _ E. injection E as <-. split; [exists (len s - 1); split; [lia|exact Ip]|]. intros u _ E. destruct (taken_facts s g u p S E) as (_ & _ & _ & P & _). exact (NotPast _ P).
    - intros Pa Pu. cbn [loc_ok]. split; [exact Pt|]. split; [apply (sf_live s g S); exact Ip|]. split.
      + intros (w & ws & J). destruct (sf_ret s g S _ _ _ J) as (_ & P & _). exact (NotPast _ P).
      + split.
        * exists (len s). split; [unfold v; cbn; lia|]. split; [apply Pu; exists (len s - 1); split; [lia|exact Ip]|]. split; [unfold len; cbn; rewrite app_length; cbn; lia|].
          intros k Hk Hk'. assert (k = len s) by (unfold len in *; cbn in Hk'; rewrite app_length in Hk'; cbn in Hk'; lia). subst k. cbn. rewrite update_eq. exact Np.
        * destruct Sb as (n0 & k & _ & E & _). unfold v. cbn. rewrite E. discriminate.
  Qed.

  (** *** Reading the head *)
  Lemma read_held s g t i h m : safe s g -> In t (w_pinned s) -> nth_error (w_head s) i = Some (h, m) -> v_head (w_view s t) <= i -> held s g t h.
  Proof.
    intros S Pt E Le. destruct (sf_head s g S _ _ _ E) as [-> Sm]. assert (Hi : i < len s) by (apply nth_error_Some; rewrite E; discriminate).
    destruct (g_stk g i) as [|p r] eqn:Es; [exact I|]. cbn. assert (Ip : In p (g_stk g i)) by (rewrite Es; now left).
    assert (NotPast : ~ past s g (w_view s t) p). { intros (j & Hj & _ & Hj' & D). apply (D i); [lia|exact Hi|exact Ip]. }
    assert (P : published s g p) by (exists i; auto). split; [|split; [exact P|]].
    - destruct (sf_gone s g S p P) as [A|[_ A]]; [exact A|]. now apply A in Pt.
    - intros v w J. destruct (sf_ret s g S _ _ _ J) as (_ & _ & D). destruct (D t Pt) as [X|X]; [exact X|contradiction].
  Qed.

  (** *** Deferring and destroying *)
  Lemma safe_defer s g t p : safe s g -> w_thread s t = PopDefer p -> safe (set_thread (retire s t p) t (PopRead p) (w_view s t)) g.
  Proof.
    intros S Th. pose proof (sf_loc s g S t) as Lo. rewrite Th in Lo. destruct Lo as (Pt & Lp & Nr & Pp & Vp). set (s' := set_thread _ _ _ _).
    assert (View : forall u, w_view s' u = w_view s u).
    { intros u. cbn. destruct (Nat.eq_dec u t) as [->|N]; [now rewrite update_eq|now rewrite update_ne by exact N]. }
    assert (Pub : published s g p) by (destruct Pp as (j & _ & P & _); exact P).
    assert (Hd : forall u q, In u (w_pinned s) -> held s g u q -> held s' g u q).
    { intros u [q|] Pu; [|exact (fun X => X)]. intros (A & B & D). split; [exact A|]. split; [exact B|]. intros v w [J|J]; [injection J as <- <- <-; exact Pu|exact (D v w J)]. }
    constructor; try apply S.
    - intros id v w [J|J].
      + injection J as <- <- <-. split; [exact Lp|]. split; [exact Pp|]. intros u Ju. now left.
      + rewrite <- (View t) in *. destruct (sf_ret s g S _ _ _ J) as (A & B & D). split; [exact A|]. split; [exact B|]. intros u Ju. rewrite View. exact (D u Ju).
    - cbn. constructor; [|apply (sf_one s g S)]. intros J. apply in_map_iff in J. destruct J as (((id & v) & w) & E & J). cbn in E. subst id. apply Nr. exists v, w. exact J.
    - intros id P. destruct (sf_gone s g S id P) as [A|[A B]]; [now left|right]. split; [exact A|]. intros u Ju. rewrite View. exact (B u Ju).
    - intros u. rewrite View. cbn [s' set_thread w_thread]. destruct (Nat.eq_dec u t) as [->|N].
      + rewrite update_eq. split; [exact Pt|]. split; [|exact Vp]. split; [exact Lp|]. split; [exact Pub|]. intros v w [J|J]; [injection J as <- <-; exact Pt|]. exfalso. apply Nr. exists v, w. exact J.
      + rewrite update_ne by exact N. cbn [retire w_thread]. assert (Nt : forall c, taken (w_thread s u) = Some c -> c <> p).
        { intros c E ->. apply N. apply (sf_taken s g S u t p E). now rewrite Th. }
        eapply (loc_move s g); try apply (sf_loc s g S u).
        * exact (fun X => X).
        * intros q. apply Hd.
        * intros b _ X. exact X.
        * intros q _ X. exact X.
        * intros q x _ X. exact X.
        * intros c E A B D. split; [exact A|]. split; [|exact D]. intros (v & w & [J|J]); [injection J as E1 _ _; symmetry in E1; exact (Nt c E E1)|]. apply B. exists v, w. exact J.
    - assert (X : forall u c, made (w_thread s' u) = Some c -> made (w_thread s u) = Some c).
      { intros u c E. cbn in E. destruct (Nat.eq_dec u t) as [->|N]; [rewrite update_eq in E; discriminate|now rewrite update_ne in E by exact N]. }
      intros u u' c E E'. apply (sf_made s g S u u' c); auto.
    - assert (X : forall u c, taken (w_thread s' u) = Some c -> taken (w_thread s u) = Some c).
      { intros u c E. cbn in E. destruct (Nat.eq_dec u t) as [->|N]; [rewrite update_eq in E; discriminate|now rewrite update_ne in E by exact N]. }
      intros u u' c E E'. apply (sf_taken s g S u u' c); auto.
  Qed.
  Lemma safe_free s g i v n : safe s g -> In (i, v, []) (w_retired s) -> w_node s i = Some n -> safe (destroy s i (n_addr n) v) g.
  Proof.
    intros S Ji Ei. destruct (sf_ret s g S _ _ _ Ji) as (Li & Pi & Di). set (s' := destroy _ _ _ _).
    assert (Lv : forall id, id <> i -> live s id -> live s' id).
    { intros id N (m & E & F). exists m. split; [exact E|]. cbn. rewrite update_ne; [exact F|]. intros Q. destruct Li as (n' & E' & F'). rewrite Ei in E'. injection E' as <-. rewrite Q in F. congruence. }
    assert (Pub : published s g i) by (destruct Pi as (j & _ & P & _); exact P).
    assert (Sub : forall x, In x (w_retired s') -> In x (w_retired s) /\ fst (fst x) <> i).
    { intros x J. cbn in J. apply filter_In in J. destruct J as [J N]. apply negb_true_iff, Nat.eqb_neq in N. auto. }
    constructor; try apply S.
    - intros id J. apply Lv; [|now apply (sf_live s g S)]. intros ->. destruct (sf_first s g S) as (L0 & _). destruct Pi as (j & _ & _ & Hj & D). apply (D (len s - 1)); [lia|lia|exact J].
    - intros a id E. cbn in E. unfold update in E. destruct (Nat.eqb_spec a (n_addr n)); [discriminate|]. exact (sf_mem s g S a id E).
    - intros id w ws J. destruct (Sub _ J) as [J' N]. cbn in N. destruct (sf_ret s g S _ _ _ J') as (A & B & D). split; [now apply Lv|]. split; [exact B|exact D].
    - cbn. pose proof (sf_one s g S) as O. revert O. clear. induction (w_retired s) as [|x l IH]; [auto|]. cbn. intros O. inversion O as [|? ? A B]; subst. destruct (negb (fst (fst x) =? i)); [|now apply IH].
      cbn. constructor; [|now apply IH]. intros J. apply A. apply in_map_iff in J. destruct J as (y & E & J). apply filter_In in J. apply in_map_iff. exists y. tauto.
    - intros id P. destruct (Nat.eq_dec id i) as [->|N].
      + right. split; [exact (past_le s g _ _ _ (join_r _ _) Pi)|]. intros t Jt. destruct (Di t Jt) as [[]|X]. exact X.
      + destruct (sf_gone s g S id P) as [A|[A B]]; [left; now apply Lv|right]. split; [exact (past_le s g _ _ _ (join_l _ _) A)|exact B].
    - intros u. eapply (loc_move s g); try apply (sf_loc s g S u).
      + exact (fun X => X).
      + intros [p|] _; [|exact (fun X => X)]. intros (A & B & D). assert (N : p <> i) by (intros ->; exact (D _ _ Ji)). split; [now apply Lv|]. split; [exact B|]. intros w ws J. destruct (Sub _ J) as [J' _]. exact (D _ _ J').
      + intros b _ (A & B & D). split; [apply Lv; [|exact A]|]; [intros ->; contradiction|]. split; [exact B|exact D].
      + intros p _ X. exact X.
      + intros p x _ X. exact X.
      + intros p _ A B D. split; [apply Lv; [|exact A]|]; [intros ->; apply B; exists v, []; exact Ji|]. split; [|exact D]. intros (w & ws & J). destruct (Sub _ J) as [J' _]. apply B. exists w, ws. exact J'.
  Qed.
End Safe.
