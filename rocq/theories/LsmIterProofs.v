(** Proofs about merging iterators. *)
From Verif Require Import ListLemmas OrdLemmas.
From Verif Require Export LsmTableSpec.
From Coq Require Import Permutation.

Lemma list_set_id {A} (l : list A) : forall i x, nth_error l i = Some x -> list_set l i x = l.
Proof. induction l as [|y l IH]; intros [|i] x E; cbn in *; try congruence. f_equal. now apply IH. Qed.
Lemma flat_map_set {A B} (f : A -> list B) (l : list A) : forall i x y, nth_error l i = Some x ->
  exists p q, flat_map f l = p ++ f x ++ q /\ flat_map f (list_set l i y) = p ++ f y ++ q.
Proof.
  induction l as [|z l IH]; intros [|i] x y E; cbn in *; try congruence.
  - injection E as ->. now exists [], (flat_map f l).
  - destruct (IH i x y E) as (p & q & E1 & E2). exists (f z ++ p), q. rewrite E1, E2, <- !app_assoc. auto.
Qed.

Section Iter.
  Context {K V : Type} `{CmpLaws K}.
  Notation sval := (sval V).
  Notation entry := (K * sval)%type.
  Notation table := (table K V).
  Notation diter := (diter K V).
  Notation miter := (miter K V).
  Notation hentry := (hentry K V).

  Definition d_es (d : diter) : list entry := match d with Closed t => t_es t | Opened l => l end.
  Definition run_es (r : list diter) : list entry := flat_map d_es r.
  Definition pending (it : miter) : list entry := map fst (mi_heap it) ++ flat_map run_es (mi_runs it).

  Lemma run_left (r : list diter) : list_sum (map d_left r) = length (run_es r).
  Proof.
    unfold run_es. induction r as [|d r IH]; [reflexivity|]. cbn [map flat_map]. rewrite app_length, <- IH. now destruct d.
  Qed.
  Lemma left_pending (it : miter) : mi_left it = length (pending it).
  Proof.
    unfold mi_left, pending. rewrite app_length, map_length. f_equal.
    induction (mi_runs it) as [|r rs IH]; [reflexivity|]. cbn [map flat_map]. rewrite app_length, <- IH, <- run_left. reflexivity.
  Qed.

  (** *** Reading *)
  Section Has.
  Variable has : nat -> bool.
  Definition d_ok (d : diter) : Prop := match d with Closed t => has (t_id t) = true | Opened _ => True end.

  Lemma d_next_ok d : d_ok d -> d_next has d = Ok (match d_es d with [] => None | e :: r => Some (e, Opened r) end).
  Proof. destruct d as [t|l]; cbn; intros O; unfold d_next, read; rewrite ?O; reflexivity. Qed.
  Lemma r_next_ok r : Forall d_ok r ->
    match run_es r with
    | [] => r_next has r = Ok None
    | e :: rest => exists r', r_next has r = Ok (Some (e, r')) /\ run_es r' = rest /\ Forall d_ok r'
    end.
  Proof.
    induction 1 as [|d r O F IH]; cbn [run_es flat_map r_next]; [reflexivity|]. rewrite d_next_ok by exact O. cbn [bind].
    destruct (d_es d) as [|e l]; cbn [app]; [exact IH|]. exists (Opened l :: r). repeat split. constructor; [exact I|exact F].
  Qed.

  (** *** The heap *)
  Lemma sv_cmp_eq (a b : sval) : sv_cmp a b = Eq <-> sv_time a = sv_time b.
  Proof. unfold sv_cmp. rewrite N.compare_eq_iff. split; congruence. Qed.
  Definition h_le (a b : hentry) : Prop :=
    cmp (fst (fst a)) (fst (fst b)) = Lt \/
    cmp (fst (fst a)) (fst (fst b)) = Eq /\ (sv_time (snd (fst b)) <= sv_time (snd (fst a)))%N.
  Lemma h_not_gt_le a b : is_gt (h_cmp a b) = false -> h_le a b.
  Proof.
    unfold h_cmp, h_le. destruct (cmp (fst (fst a)) (fst (fst b))); [|now left|discriminate].
    unfold sv_cmp. destruct (N.compare_spec (sv_time (snd (fst b))) (sv_time (snd (fst a)))); intros; try discriminate; right; split; auto; lia.
  Qed.
  Lemma h_lt_le a b : is_lt (h_cmp a b) = true -> h_le a b.
  Proof. intros L. apply h_not_gt_le. now destruct (h_cmp a b). Qed.
  Lemma h_cmp_sym (a b : hentry) : h_cmp b a = CompOpp (h_cmp a b).
  Proof.
    unfold h_cmp. rewrite (cmp_sym (fst (fst a))). destruct (cmp (fst (fst a)) (fst (fst b))); cbn; auto.
    unfold sv_cmp. rewrite (N.compare_antisym (sv_time (snd (fst b)))).
    destruct (sv_time (snd (fst b)) ?= sv_time (snd (fst a)))%N; cbn; auto. apply Nat.compare_antisym.
  Qed.
  Lemma h_le_trans a b c : h_le a b -> h_le b c -> h_le a c.
  Proof.
    unfold h_le. intros [L1|[E1 T1]] [L2|[E2 T2]].
    - left. eapply cmp_lt_trans; eauto.
    - left. eapply cmp_lt_eq_trans; eauto.
    - left. eapply cmp_eq_lt_trans; eauto.
    - right. split; [eapply cmp_eq_trans; eauto|lia].
  Qed.
  Lemma h_pop_ok h : match h_pop h with
                     | None => h = []
                     | Some (m, r) => Permutation h (m :: r) /\ Forall (h_le m) r
                     end.
  Proof.
    induction h as [|x h IH]; cbn [h_pop]; [reflexivity|]. destruct (h_pop h) as [[m r]|].
    - destruct IH as [P F]. destruct (is_lt (h_cmp m x)) eqn:L.
      + split; [rewrite P; apply perm_swap|]. constructor; [now apply h_lt_le|exact F].
      + split; [reflexivity|]. assert (X : h_le x m).
        { apply h_not_gt_le. rewrite h_cmp_sym. now destruct (h_cmp m x). }
        eapply Permutation_Forall; [symmetry; exact P|]. constructor; [exact X|].
        eapply Forall_impl; [|exact F]. intros y. now apply h_le_trans.
    - subst h. split; [reflexivity|constructor].
  Qed.

  (** *** Invariant of a merging iterator *)
  Record minv (it : miter) : Prop := mkMinv {
    mv_ok : Forall (Forall d_ok) (mi_runs it);
    mv_nodup : NoDup (map snd (mi_heap it));
    mv_heap : forall e i, In (e, i) (mi_heap it) -> exists r, nth_error (mi_runs it) i = Some r /\ sorted (e :: run_es r);
    mv_runs : forall i r, nth_error (mi_runs it) i = Some r -> run_es r <> [] -> exists e, In (e, i) (mi_heap it);
    mv_last : forall l e, mi_last it = Some l -> In e (pending it) -> cmp l (fst e) <> Gt }.

  Lemma pop_min it e i h : minv it -> h_pop (mi_heap it) = Some ((e, i), h) ->
    forall e', In e' (pending it) -> cmp (fst e) (fst e') = Lt \/ cmp (fst e) (fst e') = Eq /\ (sv_time (snd e') <= sv_time (snd e))%N.
  Proof.
    intros M E e' I. pose proof (h_pop_ok (mi_heap it)) as P. rewrite E in P. destruct P as [P F].
    assert (Hp : forall x j, In (x, j) (mi_heap it) -> cmp (fst e) (fst x) = Lt \/ cmp (fst e) (fst x) = Eq /\ (sv_time (snd x) <= sv_time (snd e))%N).
    { intros x j J. eapply Permutation_in in J; [|exact P]. destruct J as [J|J].
      - injection J as -> ->. right. split; [apply cmp_refl|lia].
      - pose proof (proj1 (Forall_forall _ _) F _ J) as L. exact L. }
    unfold pending in I. apply in_app_iff in I. destruct I as [I|I].
    - apply in_map_iff in I. destruct I as ([x j] & <- & I). eauto.
    - apply in_flat_map in I. destruct I as (r & Ir & Ie). apply In_nth_error in Ir. destruct Ir as [j Ir].
      destruct (mv_runs _ M _ _ Ir) as [x Jx]; [now intros Q; rewrite Q in Ie|].
      destruct (mv_heap _ M _ _ Jx) as (r' & Er' & S). rewrite Ir in Er'. injection Er' as <-. apply sorted_cons in S. destruct S as [G _].
      pose proof (proj1 (Forall_forall _ _) G _ Ie) as L. left. destruct (Hp _ _ Jx) as [L'|[L' _]].
      + eapply cmp_lt_trans; eauto.
      + eapply cmp_eq_lt_trans; eauto.
  Qed.

  (** One round of the loop: the least pending entry goes. *)
  Definition popped (it : miter) : option (res (entry * miter)) :=
    match h_pop (mi_heap it) with
    | None => None
    | Some ((e, i), h) => Some
        (let* r := expect (nth_error (mi_runs it) i) in
         let* x := r_next has r in
         let (runs, h) := match x with
                          | Some (e', r') => (list_set (mi_runs it) i r', (e', i) :: h)
                          | None => (list_set (mi_runs it) i [], h)
                          end in
         Ok (e, mkIter runs h (Some (fst e))))
    end.
  Definition fresh_key (it : miter) (e : entry) : bool :=
    match mi_last it with Some l => negb (is_eq (cmp l (fst e))) | None => true end.
  Lemma mi_loop_unfold fuel it : mi_loop has (S fuel) it =
    match popped it with
    | None => Ok (None, it)
    | Some x => let* (e, it') := x in if fresh_key it e then Ok (Some e, it') else mi_loop has fuel it'
    end.
  Proof.
    cbn [mi_loop]. unfold popped. destruct (h_pop (mi_heap it)) as [[[e i] h]|]; [|reflexivity].
    destruct (expect (nth_error (mi_runs it) i)) as [r| |]; cbn [bind]; try reflexivity.
    destruct (r_next has r) as [x| |]; cbn [bind]; try reflexivity. destruct x as [[e' r']|]; reflexivity.
  Qed.

  Lemma popped_ok it : minv it ->
    match popped it with
    | None => pending it = []
    | Some x => exists e it', x = Ok (e, it') /\ Permutation (pending it) (e :: pending it') /\ minv it' /\
                  mi_last it' = Some (fst e) /\
                  forall e', In e' (pending it) -> cmp (fst e) (fst e') = Lt \/ cmp (fst e) (fst e') = Eq /\ (sv_time (snd e') <= sv_time (snd e))%N
    end.
  Proof.
    intros M. unfold popped. pose proof (pop_min it) as Mn. pose proof (h_pop_ok (mi_heap it)) as P.
    destruct (h_pop (mi_heap it)) as [[[e i] h]|].
    2:{ unfold pending. rewrite P. cbn. destruct (flat_map run_es (mi_runs it)) as [|e l] eqn:E; [reflexivity|].
        assert (J : In e (flat_map run_es (mi_runs it))) by (rewrite E; now left). apply in_flat_map in J. destruct J as (r & Ir & Ie).
        apply In_nth_error in Ir. destruct Ir as [i Ir]. destruct (mv_runs _ M _ _ Ir) as [x Jx]; [now intros Q; rewrite Q in Ie|].
        rewrite P in Jx. destruct Jx. }
    specialize (Mn e i h M eq_refl). destruct P as [P F].
    assert (Ie : In (e, i) (mi_heap it)) by (eapply Permutation_in; [symmetry; exact P|now left]).
    destruct (mv_heap _ M _ _ Ie) as (r & Er & S). rewrite Er. cbn [expect bind].
    assert (Or : Forall d_ok r) by (apply (proj1 (Forall_forall _ _) (mv_ok _ M)); eapply nth_error_In; eauto).
    assert (ND : NoDup (map snd ((e, i) :: h))) by (eapply Permutation_NoDup; [apply Permutation_map; exact P|apply (mv_nodup _ M)]).
    cbn [map snd] in ND. apply NoDup_cons_iff in ND. destruct ND as [Ni ND].
    assert (Oi : forall e' j, In (e', j) h -> j <> i).
    { intros e' j J ->. apply Ni. apply in_map_iff. now exists (e', i). }
    assert (Oh : forall e' j, In (e', j) (mi_heap it) -> (e', j) = (e, i) \/ In (e', j) h).
    { intros e' j J. eapply Permutation_in in J; [|exact P]. destruct J as [J|J]; [left; congruence|now right]. }
    assert (Ih : forall e' j, In (e', j) h -> In (e', j) (mi_heap it)).
    { intros e' j J. eapply Permutation_in; [symmetry; exact P|now right]. }
    pose proof (r_next_ok r Or) as X.
    assert (Li : i < length (mi_runs it)) by (apply nth_error_Some; congruence).
    apply sorted_cons in S. destruct S as [Ge Sr].
    (* the new runs and heap *)
    assert (G : exists r' hd, match r_next has r with
                Ok (Some (e', r'')) => r'' = r' /\ hd = [(e', i)] | Ok None => r' = [] /\ hd = [] | _ => False end /\
                Forall d_ok r' /\ run_es r = map fst hd ++ run_es r' /\
                (hd = [] -> run_es r' = []) /\ (hd = [] \/ exists e', hd = [(e', i)])).
    { destruct (run_es r) as [|e' rest] eqn:Ee.
      - exists [], []. rewrite X. repeat split; auto.
      - destruct X as (r' & -> & Er' & O'). exists r', [(e', i)]. rewrite Er'. repeat split; auto; try discriminate; eauto. }
    destruct G as (r' & hd & G1 & O' & Er' & G2 & G3).
    set (it' := mkIter (list_set (mi_runs it) i r') (hd ++ h) (Some (fst e))).
    exists e, it'. split.
    { destruct (r_next has r) as [[[e' r'']|]| |]; try easy; destruct G1 as [-> ->]; reflexivity. }
    assert (Pp : Permutation (pending it) (e :: pending it')).
    { unfold pending, it'. cbn [mi_heap mi_runs]. destruct (flat_map_set run_es (mi_runs it) i r r' Er) as (p & q & -> & ->).
      rewrite Er'. rewrite map_app. rewrite (Permutation_map fst P). cbn [map fst app]. constructor.
      rewrite <- !app_assoc. rewrite (app_assoc p), (Permutation_app_comm p (map fst hd)), <- !app_assoc.
      rewrite (app_assoc (map fst h)), (Permutation_app_comm (map fst h)), <- !app_assoc. reflexivity. }
    split; [exact Pp|]. split; [|split; [reflexivity|exact Mn]]. unfold it'. constructor; cbn [mi_runs mi_heap mi_last].
    - apply Forall_forall. intros x J. apply In_nth_error in J. destruct J as [j J]. rewrite list_set_nth in J.
      destruct (Nat.eqb_spec i j) as [Qj|Nj]; [subst j|apply (proj1 (Forall_forall _ _) (mv_ok _ M)); eapply nth_error_In; eauto].
      destruct (i <? length (mi_runs it)); [|discriminate]. injection J as <-. exact O'.
    - rewrite map_app. destruct G3 as [->|[e' ->]]; [exact ND|]. cbn [map app snd]. constructor; assumption.
    - intros e' j J. apply in_app_iff in J. rewrite list_set_nth. destruct J as [J|J].
      + destruct G3 as [->|[x ->]]; [destruct J|]. destruct J as [J|[]]. injection J as -> <-. rewrite Nat.eqb_refl.
        rewrite (proj2 (Nat.ltb_lt _ _)) by exact Li. exists r'. split; [reflexivity|]. rewrite Er' in Sr. exact Sr.
      + pose proof (not_eq_sym (Oi _ _ J)) as Nj. apply Nat.eqb_neq in Nj. rewrite Nj. apply (mv_heap _ M). now apply Ih.
    - intros j x J Nx. rewrite list_set_nth in J. destruct (Nat.eqb_spec i j) as [Qj|Nj].
      + subst j. destruct (i <? length (mi_runs it)); [|discriminate]. injection J as <-.
        destruct G3 as [->|[e' ->]]; [now rewrite G2 in Nx|]. exists e'. now left.
      + destruct (mv_runs _ M _ _ J Nx) as [y Jy]. exists y. apply in_app_iff. right. destruct (Oh _ _ Jy) as [Q|Q]; [congruence|exact Q].
    - intros l e' Q J. injection Q as <-. assert (J' : In e' (pending it)) by (eapply Permutation_in; [symmetry; exact Pp|now right]).
      destruct (Mn _ J') as [L|[L _]]; congruence.
  Qed.

  (** *** [next] *)
  (** Entries of the key returned last are skipped. *)
  Definition shadow (it : miter) (e : entry) : Prop := exists l, mi_last it = Some l /\ cmp l (fst e) = Eq.
  Definition next_spec (it : miter) (o : option entry) (it' : miter) : Prop :=
    minv it' /\ (forall e, In e (pending it') -> In e (pending it)) /\
    match o with
    | None => pending it' = [] /\ forall e, In e (pending it) -> shadow it e
    | Some e => In e (pending it) /\ ~ shadow it e /\ mi_last it' = Some (fst e) /\
                (forall e', In e' (pending it) -> shadow it e' \/ e' = e \/ In e' (pending it')) /\
                (forall e', In e' (pending it) -> shadow it e' \/
                   cmp (fst e) (fst e') = Lt \/ cmp (fst e) (fst e') = Eq /\ (sv_time (snd e') <= sv_time (snd e))%N) /\
                length (pending it') < length (pending it)
    end.
  Lemma fresh_shadow it e : fresh_key it e = false <-> shadow it e.
  Proof.
    unfold fresh_key, shadow. destruct (mi_last it) as [l|]; split.
    - intros F. exists l. split; [reflexivity|]. now destruct (cmp l (fst e)).
    - intros (l' & Q & E). injection Q as <-. now rewrite E.
    - discriminate.
    - intros (l & Q & _). discriminate.
  Qed.
  Lemma mi_loop_ok fuel : forall it, minv it -> length (pending it) < fuel ->
    exists o it', mi_loop has fuel it = Ok (o, it') /\ next_spec it o it'.
  Proof.
    induction fuel as [|fuel IH]; intros it M L; [lia|]. rewrite mi_loop_unfold. pose proof (popped_ok it M) as P.
    destruct (popped it) as [x|].
    2:{ exists None, it. split; [reflexivity|]. split; [exact M|]. split; [auto|]. split; [exact P|]. rewrite P. intros e []. }
    destruct P as (e & it1 & -> & P & M1 & L1 & Mn). cbn [bind].
    assert (Ie : In e (pending it)) by (eapply Permutation_in; [symmetry; exact P|now left]).
    assert (Sub : forall e', In e' (pending it1) -> In e' (pending it)) by (intros e' J; eapply Permutation_in; [symmetry; exact P|now right]).
    assert (Len : length (pending it) = S (length (pending it1))) by (now rewrite (Permutation_length P)).
    destruct (fresh_key it e) eqn:Fr.
    - exists (Some e), it1. split; [reflexivity|]. split; [exact M1|]. split; [exact Sub|]. split; [exact Ie|]. split.
      { intros S. apply fresh_shadow in S. congruence. }
      split; [exact L1|]. split; [|split; [|lia]].
      + intros e' J. eapply Permutation_in in J; [|exact P]. destruct J as [->|J]; auto.
      + intros e' J. right. now apply Mn.
    - apply fresh_shadow in Fr. destruct (IH it1 M1) as (o & it2 & E & N); [lia|]. exists o, it2. split; [exact E|].
      assert (Sh : forall e', shadow it1 e' -> shadow it e').
      { intros e' (l & Q & C'). rewrite L1 in Q. injection Q as <-. destruct Fr as (l & Q & Ce). exists l. split; [exact Q|]. eapply cmp_eq_trans; eauto. }
      assert (Sh' : forall e', shadow it e' -> shadow it1 e').
      { intros e' (l & Q & C'). destruct Fr as (l' & Q' & Ce). rewrite Q in Q'. injection Q' as <-. exists (fst e). split; [exact L1|].
        eapply cmp_eq_trans; [apply cmp_eq_sym; exact Ce|exact C']. }
      destruct N as (M2 & S2 & N). split; [exact M2|]. split; [auto|]. destruct o as [e2|].
      + destruct N as (I2 & Ns & L2 & C2 & B2 & D2). split; [auto|]. split; [auto|]. split; [exact L2|]. split; [|split; [|lia]].
        * intros e' J. eapply Permutation_in in J; [|exact P]. destruct J as [<-|J]; [now left|]. destruct (C2 _ J) as [?|[?|?]]; auto.
        * intros e' J. eapply Permutation_in in J; [|exact P]. destruct J as [<-|J]; [now left|]. destruct (B2 _ J) as [?|?]; auto.
      + destruct N as (P2 & N). split; [exact P2|]. intros e' J. eapply Permutation_in in J; [|exact P]. destruct J as [<-|J]; auto.
  Qed.
  Lemma mi_next_ok it : minv it -> exists o it', mi_next has it = Ok (o, it') /\ next_spec it o it'.
  Proof. intros M. unfold mi_next. apply mi_loop_ok; [exact M|]. rewrite left_pending. lia. Qed.

  (** *** Collecting *)
  Definition coll_spec (it : miter) (out : list entry) : Prop :=
    sorted out /\
    (forall e, In e out -> latest (pending it) e /\ ~ shadow it e) /\
    (forall e, In e (pending it) -> shadow it e \/ exists e', In e' out /\ cmp (fst e') (fst e) = Eq).
  Lemma not_shadow_gt it e : minv it -> In e (pending it) -> ~ shadow it e -> forall l, mi_last it = Some l -> cmp l (fst e) = Lt.
  Proof.
    intros M J N l Q. pose proof (mv_last _ M _ _ Q J). destruct (cmp l (fst e)) eqn:E; try congruence. exfalso. apply N. exists l. auto.
  Qed.
  Lemma mi_all_ok fuel : forall it, minv it -> length (pending it) < fuel -> exists out, mi_all has fuel it = Ok out /\ coll_spec it out.
  Proof.
    induction fuel as [|fuel IH]; intros it M L; [lia|]. cbn [mi_all].
    destruct (mi_next_ok it M) as (o & it1 & -> & M1 & S1 & N). cbn [bind]. destruct o as [e|].
    2:{ exists []. split; [reflexivity|]. split; [apply sorted_nil|]. split; [intros e []|]. intros e J. left. now apply N. }
    destruct N as (Ie & Ns & L1 & C1 & B1 & D1). destruct (IH it1 M1) as (out & -> & So & Q1 & Q2); [lia|]. cbn [bind].
    exists (e :: out). split; [reflexivity|].
    assert (Gt : forall e', In e' out -> cmp (fst e) (fst e') = Lt).
    { intros e' J. destruct (Q1 _ J) as [[J1 _] N1]. exact (not_shadow_gt _ _ M1 J1 N1 _ L1). }
    assert (Sh : forall e', shadow it e' -> cmp (fst e) (fst e') <> Eq).
    { intros e' (l & Ql & El) Ee. apply Ns. exists l. split; [exact Ql|]. eapply cmp_eq_trans; [exact El|]. now apply cmp_eq_sym. }
    split; [|split].
    - apply sorted_cons. split; [|exact So]. apply Forall_forall. auto.
    - intros e' [<-|J].
      + split; [|exact Ns]. split; [exact Ie|]. intros e' J E. destruct (B1 _ J) as [S|[Lt'|[Ee Le]]].
        * exfalso. apply (Sh _ S). now apply cmp_eq_sym.
        * rewrite (cmp_lt_gt _ _ Lt') in E. discriminate.
        * exact Le.
      + destruct (Q1 _ J) as [[J1 J2] N1]. pose proof (Gt _ J) as Ge. split.
        * split; [auto|]. intros e2 I2 E2. destruct (C1 _ I2) as [S|[->|I3]].
          -- destruct S as (l & Ql & El). assert (X : cmp l (fst e) = Lt) by (exact (not_shadow_gt _ _ M Ie Ns _ Ql)).
             pose proof (cmp_lt_trans _ _ _ X Ge) as Y. rewrite (cmp_eq_trans _ _ _ El E2) in Y. discriminate.
          -- rewrite E2 in Ge. discriminate.
          -- now apply J2.
        * intros (l & Ql & El). assert (X : cmp l (fst e) = Lt) by (exact (not_shadow_gt _ _ M Ie Ns _ Ql)).
          rewrite (cmp_lt_trans _ _ _ X Ge) in El. discriminate.
    - intros e' J. destruct (C1 _ J) as [S|[->|I3]]; [now left|right; exists e; split; [now left|apply cmp_refl]|].
      destruct (Q2 _ I3) as [(l & Ql & El)|(e2 & J2 & E2)].
      + rewrite L1 in Ql. injection Ql as <-. right. exists e. split; [now left|exact El].
      + right. exists e2. split; [now right|exact E2].
  Qed.

  (** *** New iterators *)
  Lemma mi_fill_ok runs : Forall (Forall d_ok) runs -> Forall (fun r => sorted (run_es r)) runs -> forall i,
    exists rs h, mi_fill has i runs = Ok (rs, h) /\ Forall (Forall d_ok) rs /\ NoDup (map snd h) /\
      (forall e j, In (e, j) h -> i <= j) /\
      (forall e j, In (e, i + j) h -> exists r, nth_error rs j = Some r /\ sorted (e :: run_es r)) /\
      (forall j r, nth_error rs j = Some r -> run_es r <> [] -> exists e, In (e, i + j) h) /\
      Permutation (flat_map run_es runs) (map fst h ++ flat_map run_es rs).
  Proof.
    induction runs as [|r rs IH]; intros O S i; cbn [mi_fill].
    { exists [], []. split; [reflexivity|]. split; [constructor|]. split; [constructor|]. split; [intros e j []|]. split; [intros e j []|].
      split; [intros j r; destruct j; discriminate|]. reflexivity. }
    apply Forall_cons_iff in O, S. destruct O as [O Os], S as [S0 Ss].
    destruct (IH Os Ss (S i)) as (rs' & h & E & O' & ND & Ge & Hp & Rn & P). pose proof (r_next_ok r O) as X.
    destruct (run_es r) as [|e rest] eqn:Er.
    - rewrite X. cbn [bind]. rewrite E. cbn [bind]. exists ([] :: rs'), h. split; [reflexivity|].
      split; [constructor; [constructor|assumption]|]. split; [assumption|]. split; [intros e j J; specialize (Ge _ _ J); lia|]. split; [|split].
      + intros e j J. destruct j as [|j]; [specialize (Ge _ _ J); lia|]. cbn [nth_error]. apply Hp. now replace (S i + j) with (i + S j) by lia.
      + intros j q Eq Nq. destruct j as [|j]; cbn [nth_error] in Eq; [injection Eq as <-; now cbn in Nq|]. destruct (Rn _ _ Eq Nq) as [e J].
        exists e. now replace (i + S j) with (S i + j) by lia.
      + cbn [flat_map]. rewrite Er. exact P.
    - destruct X as (r' & -> & Er' & Or'). cbn [bind]. rewrite E. cbn [bind]. exists (r' :: rs'), ((e, i) :: h). split; [reflexivity|].
      split; [now constructor|]. split.
      { cbn [map snd]. constructor; [|assumption]. intros J. apply in_map_iff in J. destruct J as ([x j] & Q & J). cbn in Q. subst j. specialize (Ge _ _ J). lia. }
      split; [intros x j [J|J]; [injection J as -> ->; lia|specialize (Ge _ _ J); lia]|]. split; [|split].
      + intros x j [J|J].
        * injection J as -> Q. destruct j as [|j]; [|lia]. cbn [nth_error]. exists r'. split; [reflexivity|]. now rewrite Er'.
        * destruct j as [|j]; [specialize (Ge _ _ J); lia|]. cbn [nth_error]. apply Hp. now replace (S i + j) with (i + S j) by lia.
      + intros j q Eq Nq. destruct j as [|j]; cbn [nth_error] in Eq.
        * injection Eq as <-. exists e. left. f_equal. lia.
        * destruct (Rn _ _ Eq Nq) as [x J]. exists x. right. now replace (i + S j) with (S i + j) by lia.
      + cbn [flat_map map fst app]. rewrite Er. cbn [app]. constructor. rewrite P, Er', !app_assoc. apply Permutation_app_tail. apply Permutation_app_comm.
  Qed.
  Lemma mi_new_ok runs : Forall (Forall d_ok) runs -> Forall (fun r => sorted (run_es r)) runs ->
    exists it, mi_new has runs = Ok it /\ minv it /\ mi_last it = None /\ Permutation (flat_map run_es runs) (pending it).
  Proof.
    intros O S. destruct (mi_fill_ok runs O S 0) as (rs & h & E & O' & ND & Ge & Hp & Rn & P). unfold mi_new. rewrite E. cbn [bind].
    exists (mkIter rs h None). split; [reflexivity|]. split; [|split; [reflexivity|exact P]].
    constructor; cbn; auto; discriminate.
  Qed.
  Lemma collect_ok it : minv it -> exists out, mi_collect has it = Ok out /\ coll_spec it out.
  Proof. intros M. unfold mi_collect. apply mi_all_ok; [exact M|]. rewrite left_pending. lia. Qed.

  Definition t_ok (t : table) : Prop := has (t_id t) = true.
  Lemma merge_tables_ok runs : Forall (Forall t_ok) runs -> Forall (fun r => sorted (run_entries r)) runs ->
    exists out, merge_tables has runs = Ok out /\ merge_of (flat_map run_entries runs) out.
  Proof.
    intros O S. unfold merge_tables.
    assert (Re : forall r : list table, run_es (map Closed r) = run_entries r).
    { intros r. unfold run_es, run_entries. induction r as [|t r IH]; cbn; [reflexivity|]. now rewrite IH. }
    destruct (mi_new_ok (map (map Closed) runs)) as (it & -> & M & L & P).
    { apply Forall_map. eapply Forall_impl; [|exact O]. intros r F. apply Forall_map. exact F. }
    { apply Forall_map. eapply Forall_impl; [|exact S]. intros r. cbn beta. now rewrite Re. }
    cbn [bind]. destruct (collect_ok it M) as (out & -> & So & Q1 & Q2). exists out. split; [reflexivity|].
    assert (Ef : flat_map run_es (map (map Closed) runs) = flat_map run_entries runs).
    { clear -Re. induction runs as [|r rs IH]; cbn; [reflexivity|]. now rewrite Re, IH. }
    rewrite Ef in P. split; [exact So|]. split.
    - intros e J. destruct (Q1 _ J) as [[J1 J2] _]. split; [eapply Permutation_in; [symmetry; exact P|exact J1]|].
      intros e' J' E. apply J2; [eapply Permutation_in; eauto|exact E].
    - intros e J. destruct (Q2 e) as [(l & Ql & _)|X]; [eapply Permutation_in; eauto|congruence|exact X].
  Qed.
  Lemma iter_tables_ok (runs : list (list table)) : Forall (Forall t_ok) runs -> Forall (fun r => sorted (run_entries r)) runs ->
    exists it out, mi_new has (map (map Closed) runs) = Ok it /\ mi_collect has it = Ok out /\ minv it /\ merge_of (flat_map run_entries runs) out.
  Proof.
    intros O S. destruct (merge_tables_ok runs O S) as (out & E & M). unfold merge_tables in E.
    destruct (mi_new has (map (map Closed) runs)) as [it| |] eqn:En; cbn [bind] in E; try discriminate. exists it, out. split; [reflexivity|].
    split; [exact E|]. split; [|exact M]. 
    assert (Re : forall r : list table, run_es (map Closed r) = run_entries r).
    { intros r. unfold run_es, run_entries. induction r as [|t r IH]; cbn; [reflexivity|]. now rewrite IH. }
    destruct (mi_new_ok (map (map Closed) runs)) as (it' & E' & M' & _).
    { apply Forall_map. eapply Forall_impl; [|exact O]. intros r F. apply Forall_map. exact F. }
    { apply Forall_map. eapply Forall_impl; [|exact S]. intros r. cbn beta. now rewrite Re. }
    congruence.
  Qed.

  (** *** Streams: what an iterator will yield *)
  Definition streams (it : miter) (out : list entry) : Prop := minv it /\ mi_collect has it = Ok out.
  Lemma mi_all_more n : forall (it : miter) m out, mi_all has n it = Ok out -> n <= m -> mi_all has m it = Ok out.
  Proof.
    induction n as [|n IH]; intros it m out E L; cbn [mi_all] in E; [discriminate|]. destruct m as [|m]; [lia|]. cbn [mi_all].
    destruct (mi_next has it) as [[[e|] it']| |]; cbn [bind] in *; try discriminate; [|exact E].
    destruct (mi_all has n it') as [l| |] eqn:El; cbn [bind] in *; try discriminate. now rewrite (IH _ m _ El) by lia.
  Qed.
  Lemma streams_exists it : minv it -> exists out, streams it out /\ coll_spec it out.
  Proof. intros M. destruct (collect_ok it M) as (out & E & S). exists out. split; [now split|exact S]. Qed.
  Lemma streams_next it out : streams it out ->
    exists it', mi_next has it = Ok (hd_error out, it') /\ streams it' (tl out) /\ (out <> [] -> mi_left it' < mi_left it) /\
      (forall e, In e (pending it') -> In e (pending it)).
  Proof.
    intros [M E]. unfold mi_collect in E. cbn [mi_all] in E. destruct (mi_next_ok it M) as (o & it1 & E1 & M1 & S1 & N). rewrite E1 in *. cbn [bind] in E.
    exists it1. destruct o as [e|].
    - destruct N as (_ & _ & _ & _ & _ & D1). destruct (mi_all has (mi_left it) it1) as [l| |] eqn:El; cbn [bind] in E; try discriminate.
      injection E as <-. split; [reflexivity|]. rewrite !left_pending. split; [|split; [auto|exact S1]]. split; [exact M1|]. cbn [tl].
      destruct (collect_ok it1 M1) as (l' & El' & _). rewrite El'. f_equal. rewrite left_pending in El. unfold mi_collect in El'. rewrite left_pending in El'.
      apply (mi_all_more _ _ (length (pending it))) in El'; [|lia]. congruence.
    - injection E as <-. split; [reflexivity|]. split; [|split; [easy|exact S1]]. split; [exact M1|]. unfold mi_collect. cbn [mi_all]. cbn [tl].
      destruct (mi_next_ok it1 M1) as (o & it2 & -> & N2). cbn [bind]. destruct o as [e|]; [|reflexivity].
      destruct N2 as (_ & _ & J & _). destruct N as [N _]. rewrite N in J. destruct J.
  Qed.
  Lemma streams_fun it o1 o2 : streams it o1 -> streams it o2 -> o1 = o2.
  Proof. intros [_ E1] [_ E2]. congruence. Qed.

  (** Tombstones are skipped. *)
  Lemma live_loop_ok fuel : forall (it : miter) out, streams it out -> mi_left it < fuel ->
    exists it' out', live_loop has fuel it = Ok (hd_error (live out), it') /\ streams it' out' /\ live out' = tl (live out) /\
      (live out <> [] -> mi_left it' < mi_left it) /\ (forall e, In e (pending it') -> In e (pending it)).
  Proof.
    induction fuel as [|fuel IH]; intros it out S L; [lia|]. cbn [live_loop]. destruct (streams_next it out S) as (it1 & -> & S1 & D1 & P1). cbn [bind].
    destruct out as [|[k v] out]; cbn [hd_error tl] in *.
    - exists it1, []. split; [reflexivity|]. split; [exact S1|]. split; [reflexivity|]. split; [easy|exact P1].
    - unfold live. cbn [flat_map snd fst]. fold (live out). destruct (sv_data v) as [d|].
      + exists it1, out. split; [reflexivity|]. split; [exact S1|]. split; [reflexivity|]. split; [intros _; now apply D1|exact P1].
      + cbn [app]. assert (D : mi_left it1 < mi_left it) by now apply D1. destruct (IH it1 out S1) as (it2 & o2 & E2 & S2 & L2 & D2 & P2); [lia|].
        exists it2, o2. split; [exact E2|]. split; [exact S2|]. split; [exact L2|]. split; [|auto]. intros Nn. specialize (D2 Nn). lia.
  Qed.
  Lemma live_next_ok it out : streams it out ->
    exists it' out', live_next has it = Ok (hd_error (live out), it') /\ streams it' out' /\ live out' = tl (live out) /\
      (live out <> [] -> mi_left it' < mi_left it) /\ (forall e, In e (pending it') -> In e (pending it)).
  Proof. intros S. apply live_loop_ok; [exact S|]. lia. Qed.
  Lemma live_all_ok fuel : forall (it : miter) out, streams it out -> mi_left it < fuel -> live_all has fuel it = Ok (live out).
  Proof.
    induction fuel as [|fuel IH]; intros it out S L; [lia|]. cbn [live_all]. destruct (live_next_ok it out S) as (it1 & o1 & -> & S1 & L1 & D1 & _). cbn [bind].
    destruct (live out) as [|e l] eqn:El; cbn [hd_error tl] in *; [reflexivity|].
    rewrite (IH it1 o1 S1); [cbn [bind]; now rewrite L1|]. assert (mi_left it1 < mi_left it) by (apply D1; discriminate). lia.
  Qed.
  Lemma live_collect_ok it out : streams it out -> live_collect has it = Ok (live out).
  Proof. intros S. unfold live_collect. apply live_all_ok; [exact S|lia]. Qed.
  Lemma user_iter_ok (runs : list (list table)) : Forall (Forall t_ok) runs -> Forall (fun r => sorted (run_entries r)) runs ->
    exists it out, mi_new has (map (map Closed) runs) = Ok it /\ live_collect has it = Ok (live out) /\ merge_of (flat_map run_entries runs) out.
  Proof.
    intros O S. destruct (iter_tables_ok runs O S) as (it & out & E & Ec & M & Mo). exists it, out. split; [exact E|]. split; [|exact Mo].
    apply live_collect_ok. now split.
  Qed.
  End Has.

  (** *** Removing directories that are not read does no harm. *)
  Definition closed_in (it : miter) (t : table) : Prop := exists r, In r (mi_runs it) /\ In (Closed t) r.
  Lemma r_next_closed has (r : list diter) : forall e r' t, r_next has r = Ok (Some (e, r')) -> In (Closed t) r' -> In (Closed t) r.
  Proof.
    induction r as [|d r IH]; intros e r' t E J; cbn [r_next] in E; [discriminate|]. unfold d_next in E.
    destruct (match d with Closed t0 => read has t0 | Opened rest => Ok rest end) as [l| |]; cbn [bind] in E; try discriminate.
    destruct l as [|x l]; [right; eapply IH; eauto|]. injection E as <- <-. destruct J as [J|J]; [discriminate|now right].
  Qed.
  Lemma popped_closed has it e it' t : popped has it = Some (Ok (e, it')) -> closed_in it' t -> closed_in it t.
  Proof.
    unfold popped. destruct (h_pop (mi_heap it)) as [[[x i] h]|]; [|discriminate]. intros E. injection E as E.
    destruct (nth_error (mi_runs it) i) as [r|] eqn:Er; cbn [expect bind] in E; [|discriminate].
    destruct (r_next has r) as [y| |] eqn:Ey; cbn [bind] in E; try discriminate. intros (q & Jq & Jt).
    assert (G : exists r', mi_runs it' = list_set (mi_runs it) i r' /\ forall t, In (Closed t) r' -> In (Closed t) r).
    { destruct y as [[e' r']|]; injection E as <- <-; cbn [mi_runs]; [exists r'|exists []]; (split; [reflexivity|]); [|now intros t' []].
      intros t' J. eapply r_next_closed; eauto. }
    destruct G as (r' & Er' & G). rewrite Er' in Jq. apply In_nth_error in Jq. destruct Jq as [j Jq]. rewrite list_set_nth in Jq.
    destruct (Nat.eqb_spec i j) as [Qj|Nj]; [subst j|].
    - destruct (i <? length (mi_runs it)); [|discriminate]. injection Jq as <-. exists r. split; [eapply nth_error_In; eauto|auto].
    - exists q. split; [eapply nth_error_In; eauto|exact Jt].
  Qed.
  Lemma mi_loop_closed has fuel : forall it o it' t, mi_loop has fuel it = Ok (o, it') -> closed_in it' t -> closed_in it t.
  Proof.
    induction fuel as [|fuel IH]; intros it o it' t E J; [discriminate|]. rewrite mi_loop_unfold in E.
    destruct (popped has it) as [[[e it1]| |]|] eqn:Ep; cbn [bind] in E; try discriminate; [|injection E as <- <-; exact J].
    eapply popped_closed; [exact Ep|]. destruct (fresh_key it e); [injection E as <- <-; exact J|]. eapply IH; eauto.
  Qed.
  Lemma live_loop_closed has fuel : forall (it : miter) o it' t, live_loop has fuel it = Ok (o, it') -> closed_in it' t -> closed_in it t.
  Proof.
    induction fuel as [|fuel IH]; intros it o it' t E J; [discriminate|]. cbn [live_loop] in E.
    destruct (mi_next has it) as [[o1 it1]| |] eqn:E1; cbn [bind] in E; try discriminate. eapply mi_loop_closed; [exact E1|].
    destruct o1 as [[k v]|]; [|injection E as <- <-; exact J]. destruct (sv_data v); [injection E as <- <-; exact J|]. eapply IH; eauto.
  Qed.
  Lemma mi_fill_closed has : forall (runs : list (list diter)) i rs h r t, mi_fill has i runs = Ok (rs, h) -> In r rs -> In (Closed t) r ->
    exists r', In r' runs /\ In (Closed t) r'.
  Proof.
    induction runs as [|q runs IH]; intros i rs h r t E J Jt; cbn [mi_fill] in E; [injection E as <- <-; destruct J|].
    destruct (r_next has q) as [x| |] eqn:Ex; cbn [bind] in E; try discriminate.
    destruct (mi_fill has (S i) runs) as [[rs' h']| |] eqn:Ef; cbn [bind] in E; try discriminate.
    destruct x as [[e r']|]; injection E as <- <-; destruct J as [<-|J].
    - exists q. split; [now left|]. eapply r_next_closed; eauto.
    - destruct (IH _ _ _ _ _ Ef J Jt) as (r2 & J2 & Jt2). exists r2. split; [now right|exact Jt2].
    - destruct Jt.
    - destruct (IH _ _ _ _ _ Ef J Jt) as (r2 & J2 & Jt2). exists r2. split; [now right|exact Jt2].
  Qed.
  Lemma mi_new_closed has (runs : list (list table)) it t : mi_new has (map (map Closed) runs) = Ok it -> closed_in it t -> exists r, In r runs /\ In t r.
  Proof.
    unfold mi_new. destruct (mi_fill has 0 (map (map Closed) runs)) as [[rs h]| |] eqn:E; cbn [bind]; try discriminate. intros Q. injection Q as <-.
    intros (r & J & Jt). cbn [mi_runs] in J. destruct (mi_fill_closed _ _ _ _ _ _ _ E J Jt) as (r' & J' & Jt'). apply in_map_iff in J'.
    destruct J' as (q & <- & Jq). exists q. split; [exact Jq|]. apply in_map_iff in Jt'. destruct Jt' as (t' & Q & Jt'). congruence.
  Qed.
  Section Frame.
  Variables has has' : nat -> bool.
  Lemma minv_frame it : minv has it -> (forall t, closed_in it t -> has' (t_id t) = true) -> minv has' it.
  Proof.
    intros M F. constructor; try apply M. apply Forall_forall. intros r J. apply Forall_forall. intros d Jd. destruct d as [t|l]; cbn; [|exact I].
    apply F. exists r. auto.
  Qed.
  Lemma r_next_frame r : Forall (d_ok has) r -> Forall (d_ok has') r -> r_next has r = r_next has' r.
  Proof.
    induction r as [|d r IH]; intros F F'; [reflexivity|]. apply Forall_cons_iff in F, F'. destruct F as [O F], F' as [O' F']. cbn [r_next].
    rewrite !d_next_ok by assumption. cbn [bind]. destruct (d_es d); [now apply IH|reflexivity].
  Qed.
  Lemma popped_frame it : minv has it -> minv has' it -> popped has it = popped has' it.
  Proof.
    intros M M'. unfold popped. destruct (h_pop (mi_heap it)) as [[[e i] h]|]; [|reflexivity].
    destruct (nth_error (mi_runs it) i) as [r|] eqn:Er; cbn [expect bind]; [|reflexivity]. apply nth_error_In in Er.
    rewrite (r_next_frame r); [reflexivity| |]; [apply (proj1 (Forall_forall _ _) (mv_ok _ _ M) _ Er)|apply (proj1 (Forall_forall _ _) (mv_ok _ _ M') _ Er)].
  Qed.
  Lemma mi_loop_frame fuel : forall it, minv has it -> minv has' it -> mi_loop has fuel it = mi_loop has' fuel it.
  Proof.
    induction fuel as [|fuel IH]; intros it M M'; [reflexivity|]. rewrite !mi_loop_unfold. rewrite <- (popped_frame it M M').
    pose proof (popped_ok has it M) as P. pose proof (popped_ok has' it M') as P'. rewrite <- (popped_frame it M M') in P'.
    destruct (popped has it) as [x|]; [|reflexivity]. destruct P as (e & it1 & -> & _ & M1 & _). destruct P' as (e' & it1' & Q & _ & M1' & _).
    injection Q as <- <-. cbn [bind]. destruct (fresh_key it e); [reflexivity|]. now apply IH.
  Qed.
  Lemma mi_all_frame fuel : forall it, minv has it -> minv has' it -> mi_all has fuel it = mi_all has' fuel it.
  Proof.
    induction fuel as [|fuel IH]; intros it M M'; [reflexivity|]. cbn [mi_all].
    destruct (mi_next_ok has it M) as (o & it1 & E1 & M1 & _). destruct (mi_next_ok has' it M') as (o' & it1' & E1' & M1' & _).
    rewrite E1, E1'. assert (Q : mi_next has it = mi_next has' it) by (apply mi_loop_frame; assumption). rewrite E1, E1' in Q. injection Q as <- <-.
    cbn [bind]. destruct o; [|reflexivity]. now rewrite (IH it1 M1 M1').
  Qed.
  Lemma streams_frame it out : streams has it out -> (forall t, closed_in it t -> has' (t_id t) = true) -> streams has' it out.
  Proof.
    intros [M E] F. pose proof (minv_frame it M F) as M'. split; [exact M'|]. rewrite <- E. symmetry. now apply mi_all_frame.
  Qed.
  End Frame.
End Iter.
