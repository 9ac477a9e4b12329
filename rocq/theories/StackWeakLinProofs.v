(** TreiberStack on memory with views: what the calls return is explained by one order of the calls *)
From Verif Require Export StackWeakProofs.
From Coq Require Import Lia Permutation.

Section Lin.
  Context {T : Type}.
  Notation state := (wstate T).
  Notation loc := (loc T).
  Notation segs := (nat -> list (nat * stack_out T)).

  Fixpoint runs_to (calls : list (wcall T)) (s : list T) (order : list (nat * stack_out T)) (s' : list T) : Prop :=
    match order with
    | [] => s' = s
    | (i, o) :: r =>
        match option_map c_call (nth_error calls i) with
        | Some (CPush v) => o = OUnit /\ runs_to calls (v :: s) r s'
        | Some CPop => o = OPop (hd_error s) /\ runs_to calls (tl s) r s'
        | _ => False
        end
    end.
  Definition before (g : ghost (T := T)) (i : nat) : list T := match i with 0 => [] | S j => g_val g j end.
  Definition upto (seg : segs) (n : nat) (x : nat * stack_out T) : Prop := exists k, k <= n /\ In x (seg k).
  Definition placed (seg : segs) (i : nat) : Prop := exists k, In i (map fst (seg k)).
  Definition fits (s : state) (ob : wobs T) (seg : segs) (t : nat) (v : view) (l : loc) : Prop :=
    match l with
    | Idle => o_cur ob t = None
    | _ => exists i c, o_cur ob t = Some i /\ nth_error (o_calls ob) i = Some c /\
        match l with
        | Idle => False
        | PushNew x => c_call c = CPush x /\ ~ placed seg i
        | PushPin b | PushLoad b | PushStore b _ | PushCas b _ => exists x, holds s b x /\ c_call c = CPush x /\ ~ placed seg i
        | PushAdd => is_len c = false /\ upto seg (v_head v) (i, OUnit)
        | PopPin | PopLoad | PopNext _ | PopCas _ _ => c_call c = CPop /\ ~ placed seg i
        | PopSub p | PopDefer p | PopRead p => is_len c = false /\ exists x, holds s p x /\ upto seg (v_head v) (i, OPop (Some x))
        | LenLoad => is_len c = true
        | Done o => is_len c = true \/ upto seg (v_head v) (i, o)
        end
    end.

  Definition known (ob : wobs T) (j : nat) : Prop := (exists t, In j (o_know ob t)) \/ exists i c, nth_error (o_calls ob) i = Some c /\ In j (c_after c).
  Record lin (s : state) (g : ghost) (ob : wobs T) (seg : segs) : Prop := mkLin {
    l_end : forall k, len s <= k -> seg k = [];
    l_runs : forall i, i < len s -> runs_to (o_calls ob) (before g i) (seg i) (g_val g i);
    l_nodup : forall k, NoDup (map fst (seg k));
    l_apart : forall k k' j, In j (map fst (seg k)) -> In j (map fst (seg k')) -> k = k';
    l_done : forall i c o, nth_error (o_calls ob) i = Some c -> is_len c = false -> c_out c = Some o -> exists k, In (i, o) (seg k);
    l_after : forall k l1 i o l2 c j d, seg k = l1 ++ (i, o) :: l2 -> nth_error (o_calls ob) i = Some c -> In j (c_after c) -> nth_error (o_calls ob) j = Some d -> is_len d = false ->
      In j (map fst l1) \/ exists k', k' < k /\ In j (map fst (seg k'));
    l_know : forall t j, In j (o_know ob t) -> exists d, nth_error (o_calls ob) j = Some d /\ (is_len d = false -> exists k, k <= v_head (w_view s t) /\ In j (map fst (seg k)));
    l_cur : forall t i, o_cur ob t = Some i -> exists c, nth_error (o_calls ob) i = Some c /\ c_out c = None /\ incl (c_after c) (o_know ob t);
    l_old : forall j, known ob j -> exists d x, nth_error (o_calls ob) j = Some d /\ c_out d = Some x;
    l_one : forall t u i, o_cur ob t = Some i -> o_cur ob u = Some i -> t = u;
    l_fits : forall t, fits s ob seg t (w_view s t) (w_thread s t) }.

  Lemma runs_same calls calls' order : (forall i c, option_map c_call (nth_error calls i) = Some c -> option_map c_call (nth_error calls' i) = Some c) ->
    forall s s', runs_to calls s order s' -> runs_to calls' s order s'.
  Proof.
    intros E. induction order as [|[i o] r IH]; intros s s'; [auto|]. cbn. destruct (option_map c_call (nth_error calls i)) as [c|] eqn:Ei; [|tauto]. rewrite (E _ _ Ei).
    destruct c; auto; intros [A B]; auto.
  Qed.
  Lemma runs_app calls a b s s1 s2 : runs_to calls s a s1 -> runs_to calls s1 b s2 -> runs_to calls s (a ++ b) s2.
  Proof.
    revert s. induction a as [|[i o] r IH]; intros s; cbn; [now intros ->|]. destruct (option_map c_call (nth_error calls i)) as [[]|]; auto; intros [A B] D; split; auto.
  Qed.
  Lemma runs_in calls order i o : forall s s', runs_to calls s order s' -> In (i, o) order -> exists c, nth_error calls i = Some c.
  Proof.
    induction order as [|[j o'] r IH]; intros s s' R J; [destruct J|]. cbn in R. destruct (nth_error calls j) as [c|] eqn:Ej; [|destruct R]. cbn in R. destruct J as [J|J]; [injection J as -> ->; eauto|].
    destruct (c_call c); [destruct R as [_ R]|destruct R as [_ R]|destruct R]; eauto.
  Qed.
  Lemma runs_stack calls a b s s1 : runs_to calls s a s1 -> stack_runs calls s1 b -> stack_runs calls s (a ++ b).
  Proof.
    revert s. induction a as [|[i o] r IH]; intros s; cbn; [now intros ->|]. destruct (option_map c_call (nth_error calls i)) as [[]|]; auto; intros [A B] D; split; auto.
  Qed.
  Lemma lin_in s g ob seg k i : lin s g ob seg -> In i (map fst (seg k)) -> exists c, nth_error (o_calls ob) i = Some c.
  Proof.
    intros L J. apply in_map_iff in J. destruct J as ((i' & o) & E & J). cbn in E. subst i'. destruct (Nat.lt_ge_cases k (len s)) as [Hk|Hk].
    - eapply runs_in; [apply (l_runs s g ob seg L k Hk)|exact J].
    - rewrite (l_end s g ob seg L k Hk) in J. destruct J.
  Qed.
  Lemma upto_le seg n n' x : n <= n' -> upto seg n x -> upto seg n' x.
  Proof. intros L (k & Hk & J). exists k. split; [lia|exact J]. Qed.
  Lemma fits_le s ob seg t v v' l : vle v v' -> fits s ob seg t v l -> fits s ob seg t v' l.
  Proof.
    intros (L & _). pose proof (fun x => upto_le seg _ _ x L) as U. destruct l; cbn; try exact (fun X => X).
    all: intros (i & c & A & B & X); exists i, c; split; [exact A|]; split; [exact B|]; firstorder.
  Qed.
  Lemma fits_move s s' ob ob' seg seg' t v l : (forall id x, holds s id x -> holds s' id x) -> o_cur ob' t = o_cur ob t ->
    (forall i c, nth_error (o_calls ob) i = Some c -> exists c', nth_error (o_calls ob') i = Some c' /\ c_call c' = c_call c) ->
    (forall k x, In x (seg k) -> In x (seg' k)) -> (forall i, o_cur ob t = Some i -> placed seg' i -> placed seg i) -> fits s ob seg t v l -> fits s' ob' seg' t v l.
  Proof.
    intros Ho Ec Ca Se Pl. assert (U : forall n x, upto seg n x -> upto seg' n x) by (intros n x (k & Hk & J); exists k; auto).
    assert (Il : forall c c' : wcall T, c_call c' = c_call c -> is_len c' = is_len c) by (intros c c' E; unfold is_len; now rewrite E).
    destruct l; cbn; try (now rewrite Ec).
    all: intros (i & c & A & B & X); destruct (Ca i c B) as (c' & B' & E); exists i, c'; rewrite Ec; split; [exact A|]; split; [exact B'|]; rewrite ?E, ?(Il _ _ E); specialize (Pl i A).
    all: try exact X. all: try (match type of X with _ \/ _ => destruct X as [X|X]; [now left|right; now apply U] end).
    all: match type of X with
      | exists _, _ => destruct X as (x & X & Y & Z); exists x; split; [now apply Ho|]; split; [exact Y|tauto]
      | _ /\ exists _, _ => destruct X as (X & x & Y & Z); split; [exact X|]; exists x; split; [now apply Ho|now apply U]
      | _ /\ ~ _ => destruct X as [X Y]; split; [exact X|tauto]
      | _ => destruct X as [X Y]; split; [exact X|now apply U]
      end.
  Qed.

  (** *** Nothing is decided *)
  Lemma lin_move s s' g ob seg t : lin s g ob seg -> len s' = len s -> (forall id x, holds s id x -> holds s' id x) -> (forall u, vle (w_view s u) (w_view s' u)) ->
    (forall u, u <> t -> w_thread s' u = w_thread s u) -> fits s' ob seg t (w_view s' t) (w_thread s' t) -> lin s' g ob seg.
  Proof.
    intros L El Ho Vw Th Ft. constructor; try rewrite El; try apply L.
    - intros u j J. destruct (l_know s g ob seg L u j J) as (d & E & X). exists d. split; [exact E|]. intros Y. destruct (X Y) as (k & Hk & Z). exists k. split; [|exact Z]. destruct (Vw u) as [W _]. lia.
    - intros u. destruct (Nat.eq_dec u t) as [->|N]; [exact Ft|]. rewrite (Th u N). apply (fits_le s' ob seg u (w_view s u)); [apply Vw|].
      eapply fits_move; [exact Ho| | | | |apply (l_fits s g ob seg L u)]; eauto.
  Qed.

  (** *** A call takes effect with a new message of head. *)
  Lemma lin_grow s s' g ob seg t i c o l x : lin s g ob seg -> len s' = len s + 1 -> (forall id y, holds s id y -> holds s' id y) -> (forall u, vle (w_view s u) (w_view s' u)) ->
    (forall u, u <> t -> w_thread s' u = w_thread s u) -> o_cur ob t = Some i -> nth_error (o_calls ob) i = Some c -> ~ placed seg i -> v_head (w_view s t) < len s ->
    runs_to (o_calls ob) (before g (len s)) [(i, o)] x ->
    fits s' ob (update seg (len s) [(i, o)]) t (w_view s' t) (w_thread s' t) -> lin s' (grow s g l x) ob (update seg (len s) [(i, o)]).
  Proof.
    intros L El Ho Vw Th Ec Ei Np Hv Ru Ft. set (seg' := update seg (len s) [(i, o)]) in *.
    assert (Sn : seg' (len s) = [(i, o)]) by apply update_eq. assert (So : forall k, k <> len s -> seg' k = seg k) by (intros k N; now apply update_ne).
    assert (Se : seg (len s) = []) by (apply (l_end s g ob seg L); lia).
    assert (Sub : forall k y, In y (seg k) -> In y (seg' k)). { intros k y J. destruct (Nat.eq_dec k (len s)) as [->|N]; [rewrite Se in J; destruct J|now rewrite So]. }
    assert (Sub' : forall k j, In j (map fst (seg k)) -> In j (map fst (seg' k))). { intros k j J. apply in_map_iff in J. destruct J as (y & E & J). apply in_map_iff. exists y. auto. }
    assert (Inv : forall k j, In j (map fst (seg' k)) -> In j (map fst (seg k)) \/ k = len s /\ j = i).
    { intros k j J. destruct (Nat.eq_dec k (len s)) as [->|N]; [right; rewrite Sn in J; destruct J as [<-|[]]; auto|left; now rewrite So in J]. }
    assert (Npk : forall k, ~ In i (map fst (seg k))) by (intros k J; apply Np; now exists k).
    constructor.
    - intros k Hk. rewrite So by lia. apply (l_end s g ob seg L). lia.
    - intros k Hk. destruct (Nat.eq_dec k (len s)) as [->|N].
      + rewrite Sn. cbn [grow g_val]. rewrite update_eq. assert (E : before (grow s g l x) (len s) = before g (len s)).
        { unfold before. destruct (len s) as [|n] eqn:E0; [reflexivity|]. cbn [grow g_val]. rewrite update_ne by lia. reflexivity. }
        rewrite E. exact Ru.
      + rewrite So by exact N. cbn [grow g_val]. rewrite update_ne by exact N. assert (E : before (grow s g l x) k = before g k).
        { unfold before. destruct k as [|n]; [reflexivity|]. cbn [grow g_val]. rewrite update_ne by lia. reflexivity. }
        rewrite E. apply (l_runs s g ob seg L). lia.
    - intros k. destruct (Nat.eq_dec k (len s)) as [->|N]; [rewrite Sn; repeat constructor; auto|rewrite So by exact N; apply (l_nodup s g ob seg L)].
    - intros k k' j J J'. destruct (Inv _ _ J) as [A|[-> ->]], (Inv _ _ J') as [A'|[-> E]].
      + exact (l_apart s g ob seg L _ _ _ A A').
      + subst j. now apply Npk in A.
      + now apply Npk in A'.
      + reflexivity.
    - intros j d y A B D. destruct (l_done s g ob seg L j d y A B D) as (k & J). exists k. auto.
    - intros k l1 j y l2 d j' d' E A B D F. destruct (Nat.eq_dec k (len s)) as [->|N].
      + rewrite Sn in E. destruct l1 as [|z l1]; [|destruct l1; discriminate]. injection E as <- <- <-. right. rewrite Ei in A. injection A as <-.
        destruct (l_cur s g ob seg L t i Ec) as (c' & E' & _ & Kn). rewrite Ei in E'. injection E' as <-. destruct (l_know s g ob seg L t j' (Kn _ B)) as (d'' & E' & X). rewrite D in E'. injection E' as <-.
        destruct (X F) as (k & Hk & J). exists k. split; [lia|auto].
      + rewrite So in E by exact N. destruct (l_after s g ob seg L k l1 j y l2 d j' d' E A B D F) as [X|(k' & Hk & X)]; [now left|right]. exists k'. auto.
    - intros u j J. destruct (l_know s g ob seg L u j J) as (d & E & X). exists d. split; [exact E|]. intros Y. destruct (X Y) as (k & Hk & Z). exists k. split; [|auto]. destruct (Vw u) as [W _]. lia.
    - apply L.
    - apply L.
    - apply L.
    - intros u. destruct (Nat.eq_dec u t) as [->|N]; [exact Ft|]. rewrite (Th u N). apply (fits_le s' ob seg' u (w_view s u)); [apply Vw|].
      eapply fits_move; [exact Ho| | | | |apply (l_fits s g ob seg L u)]; eauto. intros j Ej (k & J). destruct (Inv _ _ J) as [A|[_ ->]]; [now exists k|]. exfalso. apply N. exact (l_one s g ob seg L u t i Ej Ec).
  Qed.

  (** *** A call takes effect with an old message of head. *)
  Lemma lin_insert s s' g ob seg t i c o n : lin s g ob seg -> len s' = len s -> (forall id y, holds s id y -> holds s' id y) -> (forall u, vle (w_view s u) (w_view s' u)) ->
    (forall u, u <> t -> w_thread s' u = w_thread s u) -> o_cur ob t = Some i -> nth_error (o_calls ob) i = Some c -> ~ placed seg i -> n < len s -> v_head (w_view s t) <= n ->
    runs_to (o_calls ob) (g_val g n) [(i, o)] (g_val g n) ->
    fits s' ob (update seg n (seg n ++ [(i, o)])) t (w_view s' t) (w_thread s' t) -> lin s' g ob (update seg n (seg n ++ [(i, o)])).
  Proof.
    intros L El Ho Vw Th Ec Ei Np Hn Hv Ru Ft. set (seg' := update seg n (seg n ++ [(i, o)])) in *.
    assert (Sn : seg' n = seg n ++ [(i, o)]) by apply update_eq. assert (So : forall k, k <> n -> seg' k = seg k) by (intros k N; now apply update_ne).
    assert (Sub : forall k y, In y (seg k) -> In y (seg' k)). { intros k y J. destruct (Nat.eq_dec k n) as [->|N]; [rewrite Sn; apply in_or_app; now left|now rewrite So]. }
    assert (Sub' : forall k j, In j (map fst (seg k)) -> In j (map fst (seg' k))). { intros k j J. apply in_map_iff in J. destruct J as (y & E & J). apply in_map_iff. exists y. auto. }
    assert (Inv : forall k j, In j (map fst (seg' k)) -> In j (map fst (seg k)) \/ k = n /\ j = i).
    { intros k j J. destruct (Nat.eq_dec k n) as [->|N]; [|left; now rewrite So in J]. rewrite Sn, map_app in J. apply in_app_or in J. destruct J as [J|[<-|[]]]; auto. }
    assert (Npk : forall k, ~ In i (map fst (seg k))) by (intros k J; apply Np; now exists k).
    constructor; try rewrite El.
    - intros k Hk. rewrite So by lia. apply (l_end s g ob seg L). lia.
    - intros k Hk. destruct (Nat.eq_dec k n) as [->|N]; [rewrite Sn; eapply runs_app; [apply (l_runs s g ob seg L n Hk)|exact Ru]|rewrite So by exact N; now apply (l_runs s g ob seg L)].
    - intros k. destruct (Nat.eq_dec k n) as [->|N]; [|rewrite So by exact N; apply (l_nodup s g ob seg L)]. rewrite Sn, map_app. cbn. apply Permutation_NoDup with (l := i :: map fst (seg n)).
      + apply Permutation_cons_append.
      + constructor; [apply Npk|apply (l_nodup s g ob seg L)].
    - intros k k' j J J'. destruct (Inv _ _ J) as [A|[-> ->]], (Inv _ _ J') as [A'|[-> E]].
      + exact (l_apart s g ob seg L _ _ _ A A').
      + subst j. now apply Npk in A.
      + now apply Npk in A'.
      + reflexivity.
    - intros j d y A B D. destruct (l_done s g ob seg L j d y A B D) as (k & J). exists k. auto.
    - intros k l1 j y l2 d j' d' E A B D F. assert (Old : forall l2', seg k = l1 ++ (j, y) :: l2' -> In j' (map fst l1) \/ (exists k', k' < k /\ In j' (map fst (seg' k')))).
      { intros l2' E'. destruct (l_after s g ob seg L k l1 j y l2' d j' d' E' A B D F) as [X|(k' & Hk & X)]; [now left|right]. exists k'. auto. }
      destruct (Nat.eq_dec k n) as [->|N]; [|rewrite So in E by exact N; eauto].
      rewrite Sn in E. destruct l2 as [|z l2] using rev_ind.
      + apply app_inj_tail in E. destruct E as [E E2]. injection E2 as <- <-. rewrite Ei in A. injection A as <-.
        destruct (l_cur s g ob seg L t i Ec) as (c' & E' & _ & Kn). rewrite Ei in E'. injection E' as <-. destruct (l_know s g ob seg L t j' (Kn _ B)) as (d'' & E' & X). rewrite D in E'. injection E' as <-.
        destruct (X F) as (k & Hk & J). destruct (Nat.eq_dec k n) as [->|N]; [left; now rewrite <- E|right]. exists k. split; [lia|auto].
      + clear IHl2. change ((j, y) :: l2 ++ [z]) with (((j, y) :: l2) ++ [z]) in E. rewrite app_assoc in E. apply app_inj_tail in E. destruct E as [E _]. eauto.
    - intros u j J. destruct (l_know s g ob seg L u j J) as (d & E & X). exists d. split; [exact E|]. intros Y. destruct (X Y) as (k & Hk & Z). exists k. split; [|auto]. destruct (Vw u) as [W _]. lia.
    - apply L.
    - apply L.
    - apply L.
    - intros u. destruct (Nat.eq_dec u t) as [->|N]; [exact Ft|]. rewrite (Th u N). apply (fits_le s' ob seg' u (w_view s u)); [apply Vw|].
      eapply fits_move; [exact Ho| | | | |apply (l_fits s g ob seg L u)]; eauto. intros j Ej (k & J). destruct (Inv _ _ J) as [A|[_ ->]]; [now exists k|]. exfalso. apply N. exact (l_one s g ob seg L u t i Ej Ec).
  Qed.

  (** *** Events *)
  Lemma edit_nth {A} (f : A -> A) i l : forall j, nth_error (edit f i l) j = if Nat.eqb j i then option_map f (nth_error l j) else nth_error l j.
  Proof.
    revert i. induction l as [|x l IH]; intros [|i] [|j]; cbn; auto. now destruct (j =? i).
  Qed.
  Lemma lin_call s s' g ob seg t c : lin s g ob seg -> w_thread s t = Idle -> len s' = len s -> (forall id x, holds s id x -> holds s' id x) -> (forall u, vle (w_view s u) (w_view s' u)) ->
    w_thread s' = update (w_thread s) t (match c with CPush v => PushNew v | CPop => PopPin | CLen => LenLoad end) -> lin s' g (observe ob (WCall t c)) seg.
  Proof.
    intros L Th El Ho Vw Tt. set (n := length (o_calls ob)).
    assert (Old : forall j d, nth_error (o_calls ob) j = Some d -> nth_error (o_calls ob ++ [mkWcall c None (o_know ob t)]) j = Some d).
    { intros j d E. rewrite nth_error_app1; [exact E|]. apply nth_error_Some. rewrite E. discriminate. }
    assert (New : nth_error (o_calls ob ++ [mkWcall c None (o_know ob t)]) n = Some (mkWcall c None (o_know ob t))).
    { rewrite nth_error_app2 by (unfold n; lia). unfold n. now rewrite Nat.sub_diag. }
    assert (Inv : forall j d, nth_error (o_calls ob ++ [mkWcall c None (o_know ob t)]) j = Some d -> nth_error (o_calls ob) j = Some d \/ j = n /\ d = mkWcall c None (o_know ob t)).
    { intros j d E. destruct (Nat.lt_ge_cases j n) as [Hj|Hj]; [left; now rewrite nth_error_app1 in E|right]. rewrite nth_error_app2 in E by exact Hj. fold n in E.
      destruct (j - n) as [|m] eqn:Em; [|destruct m; discriminate]. injection E as <-. split; [lia|reflexivity]. }
    assert (Npl : ~ placed seg n). { intros (k & J). destruct (lin_in s g ob seg k n L J) as (d & E). assert (n < n) by (apply nth_error_Some; fold n in E; rewrite E; discriminate). lia. }
    assert (Ncur : forall u, o_cur ob u <> Some n).
    { intros u E. destruct (l_cur s g ob seg L u n E) as (d & E' & _). assert (n < n) by (apply nth_error_Some; rewrite E'; discriminate). lia. }
    constructor; cbn [observe o_calls o_cur o_know]; try rewrite El; try apply L.
    - intros i Hi. eapply runs_same; [|apply (l_runs s g ob seg L i Hi)]. intros j d. destruct (nth_error (o_calls ob) j) as [e|] eqn:E; [|discriminate]. now rewrite (Old _ _ E).
    - intros i d o E. destruct (Inv _ _ E) as [E'|[-> ->]]; [apply (l_done s g ob seg L i d o E')|discriminate].
    - intros k l1 i o l2 d j d' E A B D F. assert (J : In i (map fst (seg k))) by (rewrite E, map_app; apply in_or_app; right; now left).
      destruct (Inv _ _ A) as [A'|[-> _]]; [|exfalso; apply Npl; now exists k].
      assert (D' : nth_error (o_calls ob) j = Some d' \/ j = n) by (destruct (Inv _ _ D) as [X|[X _]]; [now left|now right]). destruct D' as [D'|D']; [exact (l_after s g ob seg L k l1 i o l2 d j d' E A' B D' F)|subst j].
      (* a call that did not yet exist is not before one that did *)
      exfalso. clear D. destruct (l_old s g ob seg L n) as (e & x & Ee & _); [right; eauto|]. assert (n < n) by (apply nth_error_Some; fold n in Ee; rewrite Ee; discriminate). lia.
    - intros u j J. destruct (l_know s g ob seg L u j J) as (d & E & X). exists d. split; [now apply Old|].
      intros Y. destruct (X Y) as (k & Hk & Z). exists k. split; [destruct (Vw u); lia|exact Z].
    - intros u i. unfold update. destruct (Nat.eqb_spec u t) as [->|N].
      + intros E. injection E as <-. fold n. rewrite New. eexists. split; [reflexivity|]. split; [reflexivity|]. cbn. apply incl_refl.
      + intros E. destruct (l_cur s g ob seg L u i E) as (d & E' & X). exists d. split; [now apply Old|exact X].
    - intros j [(u & J)|(i & d & E & J)].
      + destruct (l_old s g ob seg L j) as (e & x & Ee & Ex); [left; eauto|]. exists e, x. auto.
      + assert (K : known ob j) by (cbn in E; destruct (Inv _ _ E) as [E'|[-> ->]]; [right; eauto|left; exists t; exact J]). destruct (l_old s g ob seg L j K) as (e & x & Ee & Ex). exists e, x. auto.
    - intros u u' i. unfold update. destruct (Nat.eqb_spec u t) as [->|N], (Nat.eqb_spec u' t) as [->|N']; auto.
      + fold n. intros E E'. injection E as <-. now apply Ncur in E'.
      + fold n. intros E E'. injection E' as <-. now apply Ncur in E.
      + apply (l_one s g ob seg L).
    - intros u. destruct (Nat.eq_dec u t) as [->|N].
      + assert (E : w_thread s' t = match c with CPush v => PushNew v | CPop => PopPin | CLen => LenLoad end) by (rewrite Tt; apply update_eq). rewrite E. destruct c; cbn; exists n; eexists; rewrite update_eq; fold n; (split; [reflexivity|]); (split; [exact New|]); cbn; auto.
      + assert (E : w_thread s' u = w_thread s u) by (rewrite Tt; now apply update_ne). rewrite E.
        apply (fits_le _ _ _ _ (w_view s u)); [apply Vw|]. eapply (fits_move s s' ob); [exact Ho| | | | |apply (l_fits s g ob seg L u)]; eauto. cbn. now rewrite update_ne.
  Qed.
  Lemma lin_ret s s' g ob seg t o : lin s g ob seg -> w_thread s t = Done o -> len s' = len s -> (forall id x, holds s id x -> holds s' id x) -> (forall u, vle (w_view s u) (w_view s' u)) ->
    w_thread s' = update (w_thread s) t Idle -> lin s' g (observe ob (WRet t o)) seg.
  Proof.
    intros L Th El Ho Vw Tt. pose proof (l_fits s g ob seg L t) as F. rewrite Th in F. destruct F as (i & c & Ec & Ei & F). cbn [observe]. rewrite Ec.
    assert (Nth : forall j, nth_error (edit (with_out o) i (o_calls ob)) j = if j =? i then option_map (with_out o) (nth_error (o_calls ob) j) else nth_error (o_calls ob) j) by (intros j; apply edit_nth).
    assert (Inv : forall j d, nth_error (edit (with_out o) i (o_calls ob)) j = Some d -> exists d0, nth_error (o_calls ob) j = Some d0 /\ c_call d = c_call d0 /\ c_after d = c_after d0 /\
      (j <> i /\ d = d0 \/ j = i /\ d0 = c /\ c_out d = Some o)).
    { intros j d E. rewrite Nth in E. destruct (Nat.eqb_spec j i) as [->|N]; [rewrite Ei in E; injection E as <-; exists c; cbn; auto 7|exists d; auto 7]. }
    assert (Old : forall j d, nth_error (o_calls ob) j = Some d -> exists d', nth_error (edit (with_out o) i (o_calls ob)) j = Some d' /\ c_call d' = c_call d /\ c_after d' = c_after d /\ (j <> i -> d' = d)).
    { intros j d E. rewrite Nth, E. destruct (Nat.eqb_spec j i) as [->|N]; [exists (with_out o d); cbn; repeat split; auto; congruence|exists d; auto]. }
    assert (Il : forall c c' : wcall T, c_call c' = c_call c -> is_len c' = is_len c) by (intros x y E; unfold is_len; now rewrite E).
    assert (Len : length (edit (with_out o) i (o_calls ob)) = length (o_calls ob)).
    { clear. generalize i. induction (o_calls ob) as [|x l IH]; intros [|j]; cbn; auto. }
    constructor; cbn [o_calls o_cur o_know]; try rewrite El; try apply L.
    - intros k Hk. eapply runs_same; [|apply (l_runs s g ob seg L k Hk)]. intros j d. destruct (nth_error (o_calls ob) j) as [e|] eqn:E; [|discriminate]. destruct (Old _ _ E) as (d' & -> & Q & _). cbn. now rewrite Q.
    - intros j d x E Ln Eo. destruct (Inv _ _ E) as (d0 & E0 & Q & _ & [[N ->]|(-> & -> & X)]); [exact (l_done s g ob seg L j d0 x E0 Ln Eo)|].
      rewrite (Il _ _ Q) in Ln. destruct F as [F|(k & _ & J)]; [congruence|]. exists k. congruence.
    - intros k l1 j x l2 d j' d' E A B D Ln. destruct (Inv _ _ A) as (d0 & A0 & _ & Q & _). destruct (Inv _ _ D) as (d1 & D1 & Q1 & _). rewrite (Il _ _ Q1) in Ln. rewrite Q in B.
      exact (l_after s g ob seg L k l1 j x l2 d0 j' d1 E A0 B D1 Ln).
    - intros u j J. assert (X : In j (o_know ob u) \/ u = t /\ j = i). { unfold update in J. destruct (Nat.eqb_spec u t) as [->|N]; [destruct J as [<-|J]; auto|auto]. }
      assert (Vh : v_head (w_view s u) <= v_head (w_view s' u)) by (destruct (Vw u); assumption). destruct X as [X|[-> ->]].
      + destruct (l_know s g ob seg L u j X) as (d & E & Y). destruct (Old _ _ E) as (d' & E' & Q & _). exists d'. split; [exact E'|]. rewrite (Il _ _ Q). intros Z. destruct (Y Z) as (k & Hk & W). exists k. split; [lia|exact W].
      + destruct (Old _ _ Ei) as (d' & E' & Q & _). exists d'. split; [exact E'|]. rewrite (Il _ _ Q). intros Z. destruct F as [F|(k & Hk & W)]; [congruence|]. exists k. split; [lia|]. apply in_map_iff. exists (i, o). auto.
    - intros u j. unfold update. destruct (Nat.eqb_spec u t) as [->|N]; [discriminate|]. intros E. destruct (l_cur s g ob seg L u j E) as (d & E' & X & Y). destruct (Old _ _ E') as (d' & E1 & _ & Qa & Qd).
      exists d'. split; [exact E1|]. rewrite Qd; [auto|]. intros ->. apply N. exact (l_one s g ob seg L u t i E Ec).
    - intros j K. assert (K' : known ob j \/ j = i).
      { destruct K as [(u & J)|(k & d & E & J)].
        - cbn in J. destruct (Nat.eq_dec u t) as [Eu|N]; [rewrite Eu, update_eq in J; destruct J as [J|J]; [now right|]|rewrite update_ne in J by exact N]; left; left; eauto.
        - destruct (Inv _ _ E) as (d0 & E0 & _ & Q & _). rewrite Q in J. left. right. eauto. }
      assert (Out : forall d x, nth_error (o_calls ob) j = Some d -> c_out d = Some x -> exists d' x', nth_error (edit (with_out o) i (o_calls ob)) j = Some d' /\ c_out d' = Some x').
      { intros d x E1 E2. rewrite Nth, E1. destruct (j =? i); [exists (with_out o d), o|exists d, x]; auto. }
      destruct K' as [K'| ->]; [destruct (l_old s g ob seg L j K') as (d & x & E1 & E2); eauto|]. rewrite Nth, Ei, Nat.eqb_refl. exists (with_out o c), o. auto.
    - intros u u' j. unfold update. destruct (Nat.eqb_spec u t) as [->|N], (Nat.eqb_spec u' t) as [->|N']; try discriminate. apply (l_one s g ob seg L).
    - intros u. destruct (Nat.eq_dec u t) as [->|N].
      + assert (E : w_thread s' t = Idle) by (rewrite Tt; apply update_eq). rewrite E. cbn. apply update_eq.
      + assert (E : w_thread s' u = w_thread s u) by (rewrite Tt; now apply update_ne). rewrite E. apply (fits_le _ _ _ _ (w_view s u)); [apply Vw|].
        eapply (fits_move s s' ob); [exact Ho| | | | |apply (l_fits s g ob seg L u)]; eauto.
        * cbn. now rewrite update_ne.
        * intros j d E1. destruct (Old _ _ E1) as (d' & E2 & Q & _). cbn. eauto.
  Qed.
  Lemma lin_sync s s' g ob seg t u : lin s g ob seg -> len s' = len s -> (forall id x, holds s id x -> holds s' id x) -> (forall w, vle (w_view s w) (w_view s' w)) -> vle (w_view s t) (w_view s' u) ->
    (forall w, w_thread s' w = w_thread s w) -> lin s' g (observe ob (WSync t u)) seg.
  Proof.
    intros L El Ho Vw Vt Tt. constructor; cbn [observe o_calls o_cur o_know]; try rewrite El; try apply L.
    - intros w j J. assert (X : In j (o_know ob w) \/ w = u /\ In j (o_know ob t)).
      { unfold update in J. destruct (Nat.eqb_spec w u) as [->|N]; [apply in_app_or in J; destruct J; auto|auto]. }
      destruct X as [X|[-> X]]; destruct (l_know s g ob seg L _ j X) as (d & E & Y); exists d; (split; [exact E|]); intros Z; destruct (Y Z) as (k & Hk & W); exists k; (split; [|exact W]).
      + destruct (Vw w). lia.
      + destruct Vt. lia.
    - intros w i E. destruct (l_cur s g ob seg L w i E) as (c & A & B & D). exists c. split; [exact A|]. split; [exact B|]. intros j J. apply D in J. unfold update. destruct (Nat.eqb_spec w u) as [->|N]; [apply in_or_app; now right|exact J].
    - intros j K. apply (l_old s g ob seg L). destruct K as [(w & J)|K]; [|right; exact K]. cbn in J.
      destruct (Nat.eq_dec w u) as [Ew|N]; [rewrite Ew, update_eq in J; apply in_app_or in J; destruct J|rewrite update_ne in J by exact N]; left; eauto.
    - intros w. rewrite Tt. apply (fits_le _ _ _ _ (w_view s w)); [apply Vw|]. eapply (fits_move s s' ob); [exact Ho| | | | |apply (l_fits s g ob seg L w)]; eauto.
  Qed.
End Lin.
