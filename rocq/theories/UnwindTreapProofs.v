(** Proofs about the treap of UnwindModel.v. *)
From Verif Require Export UnwindProofs UnwindInstances.

Section TreapUnwind.
  Context {K V : Type} `{CmpLaws K}.
  Notation pairs := (list (K * V)).
  Notation treap := (tree (N * nat) K V).
  Implicit Types (t l r : treap) (e : K * V) (k : K) (b : nat).

  (** A stored length is at least what Node::update would store. *)
  Fixpoint len_over (t : treap) : Prop :=
    match t with
    | Leaf => True
    | Node (_, n) l _ r => 1 + t_len l + t_len r <= n /\ len_over l /\ len_over r
    end.
  Lemma len_over_size t : len_over t -> size t <= t_len t.
  Proof.
    induction t as [|[p n] l IHl e r IHr]; cbn [len_over size t_len]; [lia|].
    intros (L & Ll & Lr). specialize (IHl Ll). specialize (IHr Lr). lia.
  Qed.
  Lemma len_over_upd p l e r : len_over l -> len_over r -> len_over (t_upd p l e r).
  Proof. intros A B. cbn. auto. Qed.
  Lemma t_upd_tlen p l e r : t_len (t_upd p l e r) = 1 + t_len l + t_len r.
  Proof. reflexivity. Qed.
  Lemma len_over_shape t t' : shape t = shape t' -> len_over t -> len_over t' /\ t_len t' = t_len t.
  Proof.
    revert t'. induction t as [|[p n] l IHl e r IHr]; intros [|[p' n'] l' e' r'] E; cbn [shape] in E; try discriminate; [auto|].
    injection E as <- <- E1 E2. cbn [len_over t_len]. intros (L & Ll & Lr).
    destruct (IHl _ E1 Ll) as [X1 X2]. destruct (IHr _ E2 Lr) as [X3 X4]. rewrite X2, X4. auto.
  Qed.

  Lemma t_merge_over lt rt : len_over lt -> len_over rt ->
    len_over (t_merge lt rt) /\ t_len (t_merge lt rt) <= t_len lt + t_len rt.
  Proof.
    apply (t_merge_ind (fun lt rt t => len_over lt -> len_over rt -> len_over t /\ t_len t <= t_len lt + t_len rt)).
    - intros t A B. split; [exact A || exact B | cbn; lia].
    - intros t A B. split; [exact A || exact B | cbn; lia].
    - intros pl nl ll le lr pr nr rl re rr _ IH (A & A1 & A2) B. destruct (IH A2 B) as [X Y].
      split; [now apply len_over_upd|]. rewrite t_upd_tlen. cbn [t_len] in *. lia.
    - intros pl nl ll le lr pr nr rl re rr _ IH A (B & B1 & B2). destruct (IH A B1) as [X Y].
      split; [now apply len_over_upd|]. rewrite t_upd_tlen. cbn [t_len] in *. lia.
  Qed.

  Lemma t_split_over t k : len_over t ->
    let '(l, (d, g)) := t_split t k in len_over l /\ len_over d /\ len_over g /\ t_len l + t_len d + t_len g <= t_len t /\
      (d = Leaf \/ t_len d = 1).
  Proof.
    induction t as [|[p n] l IHl e r IHr]; cbn [t_split]; intros L; [cbn; auto 10|].
    destruct L as (L & L1 & L2). destruct (cmp k (fst e)).
    - cbn in *. repeat split; auto. lia.
    - specialize (IHl L1). destruct (t_split l k) as [l' [d g]]. destruct IHl as (I1 & I2 & I3 & I4 & I5).
      split; [exact I1|]. split; [exact I2|]. split; [now apply len_over_upd|]. split; [|exact I5]. rewrite t_upd_tlen. cbn [t_len]. lia.
    - specialize (IHr L2). destruct (t_split r k) as [r' [d g]]. destruct IHr as (I1 & I2 & I3 & I4 & I5).
      split; [now apply len_over_upd|]. split; [exact I2|]. split; [exact I3|]. split; [|exact I5]. rewrite t_upd_tlen. cbn [t_len]. lia.
  Qed.

  Lemma t_insert_over t k v p : len_over t ->
    len_over (fst (t_insert t k v p)) /\
    t_len (fst (t_insert t k v p)) <= t_len t + match snd (t_insert t k v p) with Some _ => 0 | None => 1 end.
  Proof.
    induction t as [|[q n] l IHl e r IHr]; intros L; [cbn; auto|]. cbn [t_insert].
    destruct (p <=? q)%N.
    - destruct L as (E & L1 & L2). destruct (cmp k (fst e)).
      + cbn [fst snd len_over t_len]. repeat split; auto. lia.
      + destruct (IHl L1) as [I1 I2]. destruct (t_insert l k v p) as [l' o]. cbn [fst snd] in *.
        split; [now apply len_over_upd|]. rewrite t_upd_tlen. cbn [t_len]. lia.
      + destruct (IHr L2) as [I1 I2]. destruct (t_insert r k v p) as [r' o]. cbn [fst snd] in *.
        split; [now apply len_over_upd|]. rewrite t_upd_tlen. cbn [t_len]. lia.
    - pose proof (t_split_over _ k L) as Sp. destruct (t_split (Node (q, n) l e r) k) as [l' [d g]].
      destruct Sp as (I1 & I2 & I3 & I4 & I5). cbn [fst snd]. split; [now apply len_over_upd|]. rewrite t_upd_tlen.
      destruct d as [|a dl de dr]; cbn [t_entry]; [lia|]. destruct I5 as [I5|I5]; [discriminate I5|]. lia.
  Qed.

  Lemma t_remove_over t k : len_over t ->
    len_over (fst (t_remove t k)) /\
    t_len (fst (t_remove t k)) + match snd (t_remove t k) with Some _ => 1 | None => 0 end <= t_len t.
  Proof.
    induction t as [|[q n] l IHl e r IHr]; intros L; [cbn; auto|]. cbn [t_remove].
    destruct L as (E & L1 & L2). destruct (cmp k (fst e)).
    - destruct (t_merge_over l r L1 L2). cbn [fst snd t_len]. split; [assumption | lia].
    - destruct (IHl L1) as [I1 I2]. destruct (t_remove l k) as [l' o]. cbn [fst snd] in *.
      split; [now apply len_over_upd|]. rewrite t_upd_tlen. cbn [t_len]. lia.
    - destruct (IHr L2) as [I1 I2]. destruct (t_remove r k) as [r' o]. cbn [fst snd] in *.
      split; [now apply len_over_upd|]. rewrite t_upd_tlen. cbn [t_len]. lia.
  Qed.

  (** ** Calls that panic *)
  Lemma t_split_u_ok t k : forall b, (exists b', t_split_u b t k = Some (b', t_split t k)) \/ (t_split_u b t k = None /\ b < size t).
  Proof.
    induction t as [|[p n] l IHl e r IHr]; intros b; cbn [t_split_u t_split size]; [eauto|].
    destruct b as [|b]; [right; split; [reflexivity | lia]|]. destruct (cmp k (fst e)).
    - eauto.
    - destruct (IHl b) as [[b' X]|[X L]]; rewrite X; [|right; split; [reflexivity | lia]].
      left. exists b'. destruct (t_split l k) as [l' [d g]]. reflexivity.
    - destruct (IHr b) as [[b' X]|[X L]]; rewrite X; [|right; split; [reflexivity | lia]].
      left. exists b'. destruct (t_split r k) as [l' [d g]]. reflexivity.
  Qed.

  Lemma t_insert_u_ok t k v p : sorted (inorder t) -> len_over t -> forall b,
    (exists b', t_insert_u b t k v p = Came b' (fst (t_insert t k v p)) (snd (t_insert t k v p))) \/
    (exists t', t_insert_u b t k v p = Threw t' /\ b < size t /\ len_over t' /\ t_len t' <= t_len t /\
       all_but_around (MInsert k v) (inorder t) (inorder t')).
  Proof.
    induction t as [|[q n] l IHl e r IHr]; intros S L b; [left; eexists; reflexivity|]. cbn [t_insert_u t_insert].
    destruct (p <=? q)%N.
    - pose proof L as (E & L1 & L2). destruct b as [|b].
      { right. eexists. split; [reflexivity|]. cbn [size]. split; [lia|]. split; [exact L|]. split; [lia|]. now left. }
      cbn [inorder] in S. pose proof (proj1 (sorted_mid _ _ _) S) as (S1 & S2 & F1 & F2). destruct (cmp k (fst e)) eqn:Ck.
      + left. eexists. reflexivity.
      + destruct (IHl S1 L1 b) as [[b' X]|(t' & X & B & O & T & R)]; rewrite X.
        * left. exists b'. destruct (t_insert l k v p). reflexivity.
        * right. eexists. split; [reflexivity|]. cbn [size len_over t_len]. split; [lia|]. split; [repeat split; auto; lia|].
          split; [lia|]. cbn [inorder all_but_around] in *. destruct R as [R|(a & m & c & R1 & R2 & R3 & R4)]; [left; now rewrite R|].
          right. exists a, m, (c ++ e :: inorder r). rewrite R1, R2, <- !app_assoc. repeat split; auto.
          apply Forall_app. split; [exact R4|]. apply all_gt_after, (sorted_suffix_gt (inorder l)); assumption.
      + destruct (IHr S2 L2 b) as [[b' X]|(t' & X & B & O & T & R)]; rewrite X.
        * left. exists b'. destruct (t_insert r k v p). reflexivity.
        * right. eexists. split; [reflexivity|]. cbn [size len_over t_len]. split; [lia|]. split; [repeat split; auto; lia|].
          split; [lia|]. cbn [inorder all_but_around] in *. destruct R as [R|(a & m & c & R1 & R2 & R3 & R4)]; [left; now rewrite R|].
          right. exists ((inorder l ++ [e]) ++ a), m, c. rewrite R1, R2, <- !app_assoc. repeat split; auto.
          rewrite app_assoc. apply Forall_app. split; [|exact R3]. now apply (sorted_prefix_lt (inorder l) e (inorder r)).
    - destruct (t_split_u_ok (Node (q, n) l e r) k b) as [[b' X]|[X B]]; rewrite X.
      + left. exists b'. destruct (t_split (Node (q, n) l e r) k) as [l' [d g]]. reflexivity.
      + right. exists Leaf. split; [reflexivity|]. split; [exact B|]. split; [exact I|]. split; [cbn; lia|].
        right. exists [], (inorder (Node (q, n) l e r)), []. rewrite app_nil_r. repeat split; constructor.
  Qed.

  Lemma t_remove_u_ok t k : forall b,
    (exists b', t_remove_u b t k = Came b' (fst (t_remove t k)) (snd (t_remove t k))) \/ (t_remove_u b t k = Threw t /\ b < size t).
  Proof.
    induction t as [|[q n] l IHl e r IHr]; intros b; cbn [t_remove_u t_remove size]; [left; eexists; reflexivity|].
    destruct b as [|b]; [right; split; [reflexivity | lia]|]. destruct (cmp k (fst e)); [left; eexists; reflexivity| |].
    - destruct (IHl b) as [[b' E]|[E L]]; rewrite E; destruct (t_remove l k); cbn [fst snd];
        [left; eexists; reflexivity | right; split; [reflexivity | lia] ].
    - destruct (IHr b) as [[b' E]|[E L]]; rewrite E; destruct (t_remove r k); cbn [fst snd];
        [left; eexists; reflexivity | right; split; [reflexivity | lia] ].
  Qed.

  Definition trel (t : treap) (l : pairs) (n : nat) : Prop :=
    inorder t = l /\ sorted l /\ len_over t /\ t_len t <= n.

  Lemma trel_bounds t (l : pairs) n : trel t l n -> length l <= t_len t <= n /\ (l = [] -> t_len t = 0).
  Proof.
    intros (<- & _ & O & L). rewrite size_inorder. pose proof (len_over_size t O). split; [lia|].
    destruct t as [|[p m] tl e tr]; [reflexivity|]. intros X. apply app_eq_nil in X as [_ X]. discriminate X.
  Qed.

  Lemma trel_step t (l : pairs) n o p b : trel t l n ->
    exists t' x, treap_step_u t (o, p, b) = Ok (t', x) /\ (length l <= b -> x <> None) /\
      match x with
      | Some out => treap_step t (o, p) = Ok (t', out) /\
                    (exists y, length l <= y <= n /\ (l = [] -> y = 0) /\ out = answer o l y) /\
                    trel t' (fst (map_spec_step l o)) (counted o l n)
      | None => exists l' : pairs, all_but_around o l l' /\ trel t' l' n
      end.
  Proof.
    intros U. destruct (trel_bounds _ _ _ U) as [Bd Bz]. pose proof U as (El & S & O & T). subst l.
    assert (Sz : length (inorder t) = size t) by apply size_inorder.
    assert (AN : forall o0 : map_op K V, match o0 with MLen | MIsEmpty => False | _ => True end ->
      exists y, length (inorder t) <= y <= n /\ (inorder t = [] -> y = 0) /\ snd (map_spec_step (inorder t) o0) = answer o0 (inorder t) y).
    { intros o0 X. exists (t_len t). destruct o0; try destruct X; auto. }
    assert (RS : trel t (inorder t) (n + length (inorder t) - length (inorder t))).
    { replace (n + _ - _) with n by lia. exact U. }
    assert (NL : trel Leaf [] 0) by (repeat split; auto using sorted_nil).
    destruct o as [k v|k|k|k v|k|k|k|k| | | | | | |vs|]; cbn [treap_step_u treap_step bind].
    - destruct (t_insert_spec t k v p S) as [E1 E2]. destruct (t_insert_over t k v p O) as [E3 E4].
      destruct (t_insert_u_ok t k v p S O b) as [[b' X]|(t' & X & B & O' & T' & R)]; rewrite X.
      + destruct (t_insert t k v p) as [t' o]. cbn [fst snd] in *. do 2 eexists. split; [reflexivity|]. split; [congruence|].
        split; [reflexivity|]. split.
        { destruct (AN (MInsert k v) Logic.I) as (y & Y1 & Y2 & Y3). exists y. split; [exact Y1|]. split; [exact Y2|]. rewrite <- Y3, E1. reflexivity. }
        cbn [map_spec_step fst counted]. split; [exact E2|]. split; [now apply sorted_insert|]. split; [exact E3|].
        pose proof (sorted_at_length (inorder t) k S) as SL. rewrite app_length. cbn [length].
        destruct (at_key_cases (inorder t) k S) as [Ea | (e & Ea & Ck)]; rewrite Ea in *; cbn [hd_error length] in *; subst o; lia.
      + do 2 eexists. split; [reflexivity|]. split; [lia|]. exists (inorder t'). split; [exact R|].
        split; [reflexivity|]. split; [|split; [exact O' | lia]].
        destruct R as [->|(a & m & c & R1 & R2 & _)]; [exact S|]. rewrite R2. rewrite R1 in S.
        apply sorted_app in S as (Sa & Sc & Sac). apply sorted_app in Sc as (_ & Sc & _). apply sorted_app.
        split; [exact Sa|]. split; [exact Sc|]. intros x y Hx Hy. apply Sac; auto. apply in_or_app. now right.
    - destruct (t_remove_spec t k S) as [E1 E2]. destruct (t_remove_over t k O) as [E3 E4].
      destruct (t_remove_u_ok t k b) as [[b' X]|[X B]]; rewrite X.
      + destruct (t_remove t k) as [t' o]. cbn [fst snd] in *. do 2 eexists. split; [reflexivity|]. split; [congruence|].
        split; [reflexivity|]. split.
        { destruct (AN (MRemove k) Logic.I) as (y & Y1 & Y2 & Y3). exists y. split; [exact Y1|]. split; [exact Y2|]. rewrite <- Y3, E1. reflexivity. }
        cbn [map_spec_step fst counted]. split; [exact E2|]. split; [now apply sorted_delete|]. split; [exact E3|].
        pose proof (sorted_at_length (inorder t) k S) as SL. rewrite app_length.
        destruct (at_key_cases (inorder t) k S) as [Ea | (e & Ea & Ck)]; rewrite Ea in *; cbn [hd_error length] in *; subst o; lia.
      + do 2 eexists. split; [reflexivity|]. split; [lia|]. exists (inorder t). split; [reflexivity | exact U].
    - do 2 eexists. split; [reflexivity|]. destruct (bst_get_u_ok t k b) as [E|[E B]]; rewrite E; cbn [option_map].
      + rewrite bst_get_spec by exact S. split; [congruence|]. split; [reflexivity|]. split; [apply (AN (MGet k) Logic.I) | exact RS].
      + split; [lia|]. exists (inorder t). split; [reflexivity | exact U].
    - destruct (bst_get_mut_set_spec t k v S) as (E1 & E2 & E3).
      destruct (bst_get_mut_set_u_ok t k v b) as [[b' X]|[X B]]; rewrite X.
      + destruct (bst_get_mut_set t k v) as [t' o]. cbn [fst snd] in *. do 2 eexists. split; [reflexivity|]. split; [congruence|].
        split; [reflexivity|]. split.
        { destruct (AN (MGetMut k v) Logic.I) as (y & Y1 & Y2 & Y3). exists y. split; [exact Y1|]. split; [exact Y2|]. rewrite <- Y3, E1. reflexivity. }
        destruct (len_over_shape t t' (eq_sym E3) O) as [O' T'].
        cbn [map_spec_step fst counted]. split; [exact E2|]. split; [now apply sorted_update|]. split; [exact O'|].
        pose proof (sorted_at_length (inorder t) k S) as SL. rewrite !app_length, map_length. lia.
      + do 2 eexists. split; [reflexivity|]. split; [lia|]. exists (inorder t). split; [reflexivity | exact U].
    - do 2 eexists. split; [reflexivity|]. destruct (bst_get_u_ok t k b) as [E|[E B]]; rewrite E; cbn [option_map].
      + rewrite bst_get_spec by exact S. split; [congruence|]. split; [reflexivity|]. split; [apply (AN (MIndex k) Logic.I) | exact RS].
      + split; [lia|]. exists (inorder t). split; [reflexivity | exact U].
    - do 2 eexists. split; [reflexivity|]. destruct (bst_get_u_ok t k b) as [E|[E B]]; rewrite E; cbn [option_map].
      + rewrite bst_get_spec by exact S. split; [congruence|]. pose proof (AN (MContains k) Logic.I) as X. cbn [map_spec_step snd] in X.
        split; [destruct (at_key k (inorder t)); reflexivity|]. split; [|exact RS]. destruct (at_key k (inorder t)); exact X.
      + split; [lia|]. exists (inorder t). split; [reflexivity | exact U].
    - do 2 eexists. split; [reflexivity|]. destruct (bst_floor_u_ok t k b) as [E|[E B]]; rewrite E; cbn [option_map].
      + rewrite bst_floor_spec by exact S. split; [congruence|]. split; [reflexivity|]. split; [apply (AN (MFloor k) Logic.I) | exact RS].
      + split; [lia|]. exists (inorder t). split; [reflexivity | exact U].
    - do 2 eexists. split; [reflexivity|]. destruct (bst_ceil_u_ok t k b) as [E|[E B]]; rewrite E; cbn [option_map].
      + rewrite bst_ceil_spec by exact S. split; [congruence|]. split; [reflexivity|]. split; [apply (AN (MCeil k) Logic.I) | exact RS].
      + split; [lia|]. exists (inorder t). split; [reflexivity | exact U].
    - rewrite bst_min_spec. do 2 eexists. split; [reflexivity|]. split; [congruence|]. split; [reflexivity|].
      split; [apply (AN MMin Logic.I) | exact RS].
    - rewrite bst_max_spec. do 2 eexists. split; [reflexivity|]. split; [congruence|]. split; [reflexivity|].
      split; [apply (AN MMax Logic.I) | exact RS].
    - do 2 eexists. split; [reflexivity|]. split; [congruence|]. split; [reflexivity|]. split; [exists (t_len t); auto | exact RS].
    - do 2 eexists. split; [reflexivity|]. split; [congruence|]. split; [reflexivity|]. split; [exists (t_len t); auto | exact RS].
    - do 2 eexists. split; [reflexivity|]. split; [congruence|]. split; [reflexivity|]. split; [apply (AN MClear Logic.I) | exact NL].
    - rewrite iter_all_spec. cbn [bind]. do 2 eexists. split; [reflexivity|]. split; [congruence|]. split; [reflexivity|].
      split; [apply (AN MIter Logic.I) | exact RS].
    - destruct (itermut_run_spec t vs) as (t' & E1 & E2 & E3). rewrite E1. cbn [bind].
      do 2 eexists. split; [reflexivity|]. split; [congruence|]. split; [reflexivity|]. split; [apply (AN (MIterMut vs) Logic.I)|].
      destruct (len_over_shape t t' (eq_sym E2) O) as [O' T'].
      assert (WL : length (write_vals (inorder t) vs) = length (inorder t))
        by (rewrite <- (map_length fst (write_vals _ _)), write_vals_keys, map_length; reflexivity).
      cbn [map_spec_step fst counted]. split; [exact E3|]. split; [now apply sorted_write_vals|]. split; [exact O' | lia].
    - rewrite iter_all_spec. cbn [bind]. do 2 eexists. split; [reflexivity|]. split; [congruence|]. split; [reflexivity|].
      split; [apply (AN MIntoIter Logic.I) | exact NL].
  Qed.

  Lemma trel_run (ops : list (map_op K V * N * nat)) : forall t (l : pairs) n, trel t l n ->
    exists t' outs (l' : pairs) n', run treap_step_u t ops = Ok (t', outs) /\ trel t' l' n' /\
      unwind_trace_within all_but_around l n (combine (map (fun x => fst (fst x)) ops) outs).
  Proof.
    induction ops as [|[[o p] b] ops IH]; intros t l n U; cbn [run].
    - exists t, [], l, n. cbn. auto.
    - destruct (trel_step t l n o p b U) as (t1 & x & E1 & _ & X). rewrite E1. cbn [bind].
      destruct x as [out|].
      + destruct X as (_ & Ea & U1). destruct (IH _ _ _ U1) as (t2 & outs & l2 & n2 & E2 & U2 & T2). rewrite E2. cbn [bind].
        do 4 eexists. split; [reflexivity|]. split; [exact U2|]. cbn [map fst combine unwind_trace_within]. auto.
      + destruct X as (l1 & Lv & U1). destruct (IH _ _ _ U1) as (t2 & outs & l2 & n2 & E2 & U2 & T2). rewrite E2. cbn [bind].
        do 4 eexists. split; [reflexivity|]. split; [exact U2|]. cbn [map fst combine unwind_trace_within]. eauto.
  Qed.
  Lemma trel_new : trel Leaf [] 0.
  Proof. repeat split; auto using sorted_nil. Qed.

  Lemma treap_unwind (ops : list (map_op K V * N * nat)) : exists t outs, run treap_step_u Leaf ops = Ok (t, outs) /\
    unwind_trace_within all_but_around [] 0 (combine (map (fun x => fst (fst x)) ops) outs).
  Proof. destruct (trel_run ops _ _ _ trel_new) as (t & outs & l & n & E & _ & T). eauto. Qed.

  Lemma treap_unwind_enough (ops : list (map_op K V * N * nat)) t outs o p b : run treap_step_u Leaf ops = Ok (t, outs) ->
    length (inorder t) <= b ->
    exists t' out, treap_step_u t (o, p, b) = Ok (t', Some out) /\ treap_step t (o, p) = Ok (t', out).
  Proof.
    intros R B. destruct (trel_run ops _ _ _ trel_new) as (t1 & outs1 & l & n & E & U & _).
    rewrite R in E. injection E as <- <-. pose proof U as (El & _). rewrite El in B.
    destruct (trel_step t l n o p b U) as (t' & x & E1 & Nn & X).
    destruct x as [out|]; [|now destruct (Nn B)]. destruct X as (X & _). eauto.
  Qed.
End TreapUnwind.

(** ** Calls that panic change the map. *)
Ltac trace_contradiction T :=
  match type of T with ?f ?l ?n ?tr => let c := eval vm_compute in tr in change tr with c in T end;
  repeat (lazymatch type of T with
  | _ /\ _ => let A := fresh "A" in destruct T as [A T];
      try (repeat match type of A with exists _, _ => destruct A as (? & ? & ? & A) end; vm_compute in A; discriminate A)
  | exists _, _ => destruct T as (? & -> & T)
  | _ => cbn [unwind_trace unwind_trace_within] in T
  end).
Lemma avl_changed : ~ forall (ops : list (map_op nat nat * nat)) m outs,
  run avl_step_u avl_new ops = Ok (m, outs) -> unwind_trace everything [] 0 (combine (map fst ops) outs).
Proof.
  intros X. destruct (run avl_step_u avl_new search_calls) as [[m outs]| |] eqn:E; [|vm_compute in E; discriminate E..].
  apply X in E as T. vm_compute in E. injection E as _ <-. trace_contradiction T.
Qed.
Lemma rb_changed : ~ forall (ops : list (map_op nat nat * nat)) m outs,
  run rb_step_u rb_new ops = Ok (m, outs) -> unwind_trace everything [] 0 (combine (map fst ops) outs).
Proof.
  intros X. destruct (run rb_step_u rb_new search_calls) as [[m outs]| |] eqn:E; [|vm_compute in E; discriminate E..].
  apply X in E as T. vm_compute in E. injection E as _ <-. trace_contradiction T.
Qed.
Lemma splay_changed : ~ forall (ops : list (map_op nat nat * nat)) m outs,
  run splay_step_u splay_new ops = Ok (m, outs) -> unwind_trace everything [] 0 (combine (map fst ops) outs).
Proof.
  intros X. destruct (run splay_step_u splay_new splay_calls) as [[m outs]| |] eqn:E; [|vm_compute in E; discriminate E..].
  apply X in E as T. vm_compute in E. injection E as _ <-. trace_contradiction T.
Qed.
Lemma treap_changed : ~ forall (ops : list (map_op nat nat * N * nat)) t outs,
  run treap_step_u Leaf ops = Ok (t, outs) -> unwind_trace_within everything [] 0 (combine (map (fun x => fst (fst x)) ops) outs).
Proof.
  intros X. destruct (run treap_step_u Leaf treap_calls) as [[t outs]| |] eqn:E; [|vm_compute in E; discriminate E..].
  apply X in E as T. vm_compute in E. injection E as _ <-. trace_contradiction T.
Qed.
