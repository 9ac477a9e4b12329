(** Proofs about UnwindModel.v. *)
From Verif Require Export UnwindModel UnwindSpec AvlProofs RbProofs SplayProofs TreapProofs.

Section GenericUnwind.
  Context {A K V : Type} `{CmpLaws K}.
  Notation tr := (tree A K V).
  Implicit Types (t : tr) (e : K * V) (k : K) (b : nat).

  Lemma bst_get_u_ok t k : forall b, bst_get_u b t k = Some (bst_get t k) \/ (bst_get_u b t k = None /\ b < size t).
  Proof.
    induction t as [|a l IHl e r IHr]; intros b; cbn [bst_get_u bst_get size]; [auto|].
    destruct b as [|b]; [right; split; [reflexivity | lia]|].
    destruct (cmp k (fst e)); [auto| |].
    - destruct (IHl b) as [E|[E L]]; rewrite E; [auto | right; split; [reflexivity | lia]].
    - destruct (IHr b) as [E|[E L]]; rewrite E; [auto | right; split; [reflexivity | lia]].
  Qed.
  Lemma bst_floor_u_ok t k : forall b, bst_floor_u b t k = Some (bst_floor t k) \/ (bst_floor_u b t k = None /\ b < size t).
  Proof.
    induction t as [|a l IHl e r IHr]; intros b; cbn [bst_floor_u bst_floor size]; [auto|].
    destruct b as [|b]; [right; split; [reflexivity | lia]|].
    destruct (cmp k (fst e)); [auto| |].
    - destruct (IHl b) as [E|[E L]]; rewrite E; [auto | right; split; [reflexivity | lia]].
    - destruct (IHr b) as [E|[E L]]; rewrite E; [left; destruct (bst_floor r k); reflexivity | right; split; [reflexivity | lia]].
  Qed.
  Lemma bst_ceil_u_ok t k : forall b, bst_ceil_u b t k = Some (bst_ceil t k) \/ (bst_ceil_u b t k = None /\ b < size t).
  Proof.
    induction t as [|a l IHl e r IHr]; intros b; cbn [bst_ceil_u bst_ceil size]; [auto|].
    destruct b as [|b]; [right; split; [reflexivity | lia]|].
    destruct (cmp k (fst e)); [auto| |].
    - destruct (IHl b) as [E|[E L]]; rewrite E; [left; destruct (bst_ceil l k); reflexivity | right; split; [reflexivity | lia]].
    - destruct (IHr b) as [E|[E L]]; rewrite E; [auto | right; split; [reflexivity | lia]].
  Qed.
  Lemma bst_get_mut_set_u_ok t k v : forall b,
    (exists b', bst_get_mut_set_u b t k v = Came b' (fst (bst_get_mut_set t k v)) (snd (bst_get_mut_set t k v))) \/
    (bst_get_mut_set_u b t k v = Threw t /\ b < size t).
  Proof.
    induction t as [|a l IHl e r IHr]; intros b; cbn [bst_get_mut_set_u bst_get_mut_set size]; [left; eexists; reflexivity|].
    destruct b as [|b]; [right; split; [reflexivity | lia]|].
    destruct (cmp k (fst e)); [left; eexists; reflexivity| |].
    - destruct (IHl b) as [[b' E]|[E L]]; rewrite E; destruct (bst_get_mut_set l k v); cbn [fst snd];
        [left; eexists; reflexivity | right; split; [reflexivity | lia] ].
    - destruct (IHr b) as [[b' E]|[E L]]; rewrite E; destruct (bst_get_mut_set r k v); cbn [fst snd];
        [left; eexists; reflexivity | right; split; [reflexivity | lia] ].
  Qed.

  Lemma before_all_lt k (l : list (K * V)) : before k l <-> all_lt l k.
  Proof. reflexivity. Qed.

  (** ** The map with a length field *)
  Variable t_insert : tr -> K -> V -> res (tr * option (K * V)).
  Variable t_remove : tr -> K -> res (tr * option (K * V)).
  Variable t_get_mut_set : tr -> K -> V -> res (tr * option (K * V)).
  Variable t_insert_u : nat -> tr -> K -> V -> res (outcome tr (option (K * V))).
  Variable t_remove_u : nat -> tr -> K -> res (outcome tr (option (K * V))).
  Variable t_get_mut_set_u : nat -> tr -> K -> V -> res (outcome tr (option (K * V))).
  Variable P : tr -> Prop.
  Variable leaves : map_op K V -> list (K * V) -> list (K * V) -> Prop.

  Definition follows (b : nat) (t : tr) (o : map_op K V) (x : res (tr * option (K * V)))
      (y : res (outcome tr (option (K * V)))) : Prop :=
    (exists b' t' ro, x = Ok (t', ro) /\ y = Ok (Came b' t' ro)) \/
    (exists t', y = Ok (Threw t') /\ leaves o (inorder t) (inorder t') /\ P t' /\ b < 4 * S (size t)).

  Hypothesis P_leaf : P Leaf.
  Hypothesis P_shape : forall t t', shape t = shape t' -> P t -> P t'.
  Hypothesis Hins : insert_ok t_insert P.
  Hypothesis Hrem : remove_ok t_remove P.
  Hypothesis Hgm : get_mut_ok t_get_mut_set P.
  Hypothesis Uins : forall b t k v, P t -> sorted (inorder t) -> follows b t (MInsert k v) (t_insert t k v) (t_insert_u b t k v).
  Hypothesis Urem : forall b t k, P t -> sorted (inorder t) -> follows b t (MRemove k) (t_remove t k) (t_remove_u b t k).
  Hypothesis Ugm : forall b t k v, P t -> sorted (inorder t) ->
    follows b t (MGetMut k v) (t_get_mut_set t k v) (t_get_mut_set_u b t k v).
  Hypothesis leaves_sorted : forall o (l l' : list (K * V)), sorted l -> leaves o l l' -> sorted l' /\ length l' <= length l.
  Hypothesis leaves_read : forall o (l : list (K * V)), match o with MInsert _ _ | MRemove _ | MGetMut _ _ => False | _ => True end -> leaves o l l.

  Definition urel (m : bmap A K V) (l : list (K * V)) (n : nat) : Prop :=
    inorder (bm_tree m) = l /\ sorted l /\ bm_len m = n /\ length l <= n /\ P (bm_tree m).

  Lemma urel_step m (l : list (K * V)) n o b : urel m l n ->
    exists m' x, bmap_step_u t_insert_u t_remove_u t_get_mut_set_u m (o, b) = Ok (m', x) /\
      (4 * S (length l) <= b -> x <> None) /\
      match x with
      | Some out => bmap_step t_insert t_remove t_get_mut_set m o = Ok (m', out) /\
                    out = answer o l n /\ urel m' (fst (map_spec_step l o)) (counted o l n)
      | None => exists l', leaves o l l' /\ urel m' l' (match o with MInsert _ _ => S n | _ => n end)
      end.
  Proof.
    intros (E & Ss & L & Le & HP). destruct m as [t n']; cbn [bm_tree bm_len] in *; subst l n'.
    assert (Sz : length (inorder t) = size t) by apply size_inorder.
    assert (RD : forall o0, match o0 with MInsert _ _ | MRemove _ | MGetMut _ _ => False | _ => True end ->
      exists l', leaves o0 (inorder t) l' /\ urel {| bm_tree := t; bm_len := n |} l' n).
    { intros o0 X. exists (inorder t). split; [now apply leaves_read | repeat split; auto]. }
    assert (RS : forall x : nat, x = n + length (inorder t) - length (inorder t) -> urel {| bm_tree := t; bm_len := n |} (inorder t) x).
    { intros x ->. replace (n + _ - _) with n by lia. repeat split; auto. }
    assert (NL : urel bmap_new [] 0) by (repeat split; auto using sorted_nil).
    destruct o as [k v|k|k|k v|k|k|k|k| | | | | | |vs|];
      cbn [bmap_step_u bmap_step map_spec_step answer counted fst snd bm_tree bm_len].
    - destruct (Hins t k v HP Ss) as (t' & E1 & E2 & HP').
      unfold bmap_insert. cbn [bm_tree bm_len].
      destruct (Uins b t k v HP Ss) as [(b' & t1 & r & X & Y)|(t1 & Y & Z & Q & B)]; rewrite Y; cbn [bind].
      + rewrite E1 in X. injection X as <- <-. rewrite E1. cbn [bind].
        pose proof (sorted_at_length (inorder t) k Ss) as SL.
        destruct (at_key_cases (inorder t) k Ss) as [Ea | (e & Ea & Ck)]; rewrite Ea in *; cbn [hd_error bind checked_pred length] in *.
        * do 2 eexists. split; [reflexivity|]. split; [congruence|]. split; [reflexivity|]. split; [reflexivity|].
          repeat split; cbn [bm_tree bm_len]; auto using sorted_insert; rewrite app_length; cbn [length]; lia.
        * do 2 eexists. split; [reflexivity|]. split; [congruence|]. split; [reflexivity|]. split; [reflexivity|].
          repeat split; cbn [bm_tree bm_len]; auto using sorted_insert; rewrite app_length; cbn [length]; lia.
      + do 2 eexists. split; [reflexivity|]. split; [lia|]. exists (inorder t1). split; [exact Z|].
        destruct (leaves_sorted _ _ _ Ss Z). repeat split; cbn [bm_tree bm_len]; auto. lia.
    - destruct (Hrem t k HP Ss) as (t' & E1 & E2 & HP').
      unfold bmap_remove. cbn [bm_tree bm_len].
      destruct (Urem b t k HP Ss) as [(b' & t1 & r & X & Y)|(t1 & Y & Z & Q & B)]; rewrite Y; cbn [bind].
      + rewrite E1 in X. injection X as <- <-. rewrite E1. cbn [bind].
        pose proof (sorted_at_length (inorder t) k Ss) as SL.
        destruct (at_key_cases (inorder t) k Ss) as [Ea | (e & Ea & Ck)]; rewrite Ea in *; cbn [hd_error bind length] in *.
        * do 2 eexists. split; [reflexivity|]. split; [congruence|]. split; [reflexivity|]. split; [reflexivity|].
          repeat split; cbn [bm_tree bm_len]; auto using sorted_delete; rewrite app_length; lia.
        * destruct n as [|n]; [lia|]. cbn [checked_pred bind].
          do 2 eexists. split; [reflexivity|]. split; [congruence|]. split; [reflexivity|]. split; [reflexivity|].
          repeat split; cbn [bm_tree bm_len]; auto using sorted_delete; rewrite app_length; lia.
      + do 2 eexists. split; [reflexivity|]. split; [lia|]. exists (inorder t1). split; [exact Z|].
        destruct (leaves_sorted _ _ _ Ss Z). repeat split; cbn [bm_tree bm_len]; auto. lia.
    - unfold reading, bmap_get. cbn [bm_tree]. do 2 eexists. split; [reflexivity|].
      destruct (bst_get_u_ok t k b) as [E|[E B]]; rewrite E; cbn [option_map].
      + rewrite bst_get_spec by exact Ss. split; [congruence|]. auto.
      + split; [lia | now apply RD].
    - destruct (Hgm t k v HP Ss) as (t' & E1 & E2 & HP').
      unfold bmap_get_mut_set. cbn [bm_tree bm_len].
      destruct (Ugm b t k v HP Ss) as [(b' & t1 & r & X & Y)|(t1 & Y & Z & Q & B)]; rewrite Y; cbn [bind].
      + rewrite E1 in X. injection X as <- <-. rewrite E1. cbn [bind].
        do 2 eexists. split; [reflexivity|]. split; [congruence|]. split; [reflexivity|]. split; [reflexivity|].
        repeat split; cbn [bm_tree bm_len]; auto using sorted_update; rewrite !app_length, map_length;
          rewrite (sorted_at_length (inorder t) k Ss) in *; lia.
      + do 2 eexists. split; [reflexivity|]. split; [lia|]. exists (inorder t1). split; [exact Z|].
        destruct (leaves_sorted _ _ _ Ss Z). repeat split; cbn [bm_tree bm_len]; auto. lia.
    - unfold reading, bmap_get. cbn [bm_tree]. do 2 eexists. split; [reflexivity|].
      destruct (bst_get_u_ok t k b) as [E|[E B]]; rewrite E; cbn [option_map].
      + rewrite bst_get_spec by exact Ss. split; [congruence|]. auto.
      + split; [lia | now apply RD].
    - unfold reading, bmap_get. cbn [bm_tree]. do 2 eexists. split; [reflexivity|].
      destruct (bst_get_u_ok t k b) as [E|[E B]]; rewrite E; cbn [option_map].
      + rewrite bst_get_spec by exact Ss. split; [congruence|]. split; [destruct (at_key k (inorder t)); reflexivity|].
        split; [destruct (at_key k (inorder t)); reflexivity | auto].
      + split; [lia | now apply RD].
    - unfold reading. do 2 eexists. split; [reflexivity|].
      destruct (bst_floor_u_ok t k b) as [E|[E B]]; rewrite E; cbn [option_map].
      + rewrite bst_floor_spec by exact Ss. split; [congruence|]. auto.
      + split; [lia | now apply RD].
    - unfold reading. do 2 eexists. split; [reflexivity|].
      destruct (bst_ceil_u_ok t k b) as [E|[E B]]; rewrite E; cbn [option_map].
      + rewrite bst_ceil_spec by exact Ss. split; [congruence|]. auto.
      + split; [lia | now apply RD].
    - rewrite bst_min_spec. do 2 eexists. split; [reflexivity|]. split; [congruence|]. auto.
    - rewrite bst_max_spec. do 2 eexists. split; [reflexivity|]. split; [congruence|]. auto.
    - do 2 eexists. split; [reflexivity|]. split; [congruence|]. auto.
    - do 2 eexists. split; [reflexivity|]. split; [congruence|]. auto.
    - do 2 eexists. split; [reflexivity|]. split; [congruence|]. auto.
    - rewrite iter_all_spec. cbn [bind]. do 2 eexists. split; [reflexivity|]. split; [congruence|]. auto.
    - destruct (itermut_run_spec t vs) as (t' & E1 & E2 & E3). rewrite E1. cbn [bind].
      assert (WL : length (write_vals (inorder t) vs) = length (inorder t))
        by (rewrite <- (map_length fst (write_vals _ _)), write_vals_keys, map_length; reflexivity).
      do 2 eexists. split; [reflexivity|]. split; [congruence|]. split; [reflexivity|]. split; [reflexivity|].
      repeat split; cbn [bm_tree bm_len]; auto using sorted_write_vals; try lia.
      eapply P_shape; [symmetry; exact E2 | exact HP].
    - rewrite iter_all_spec. cbn [bind]. do 2 eexists. split; [reflexivity|]. split; [congruence|]. auto.
  Qed.

  Lemma urel_run ops : forall m (l : list (K * V)) n, urel m l n ->
    exists m' outs l' n', run (bmap_step_u t_insert_u t_remove_u t_get_mut_set_u) m ops = Ok (m', outs) /\ urel m' l' n' /\
      unwind_trace leaves l n (combine (map fst ops) outs).
  Proof.
    induction ops as [|[o b] ops IH]; intros m l n U; cbn [run].
    - exists m, [], l, n. cbn. auto.
    - destruct (urel_step m l n o b U) as (m1 & x & E1 & _ & X). rewrite E1. cbn [bind].
      destruct x as [out|].
      + destruct X as (_ & Ea & U1). destruct (IH _ _ _ U1) as (m2 & outs & l2 & n2 & E2 & U2 & T2). rewrite E2. cbn [bind].
        do 4 eexists. split; [reflexivity|]. split; [exact U2|]. cbn [map fst combine unwind_trace]. auto.
      + destruct X as (l1 & Lv & U1). destruct (IH _ _ _ U1) as (m2 & outs & l2 & n2 & E2 & U2 & T2). rewrite E2. cbn [bind].
        do 4 eexists. split; [reflexivity|]. split; [exact U2|]. cbn [map fst combine unwind_trace]. eauto.
  Qed.

  Lemma urel_new : urel bmap_new [] 0.
  Proof. repeat split; auto using sorted_nil. Qed.

  Lemma unwind_generic ops : exists m outs,
    run (bmap_step_u t_insert_u t_remove_u t_get_mut_set_u) bmap_new ops = Ok (m, outs) /\
    unwind_trace leaves [] 0 (combine (map fst ops) outs).
  Proof. destruct (urel_run ops _ _ _ urel_new) as (m & outs & l & n & E & _ & T). eauto. Qed.

  Lemma unwind_generic_inv ops m outs :
    run (bmap_step_u t_insert_u t_remove_u t_get_mut_set_u) bmap_new ops = Ok (m, outs) -> P (bm_tree m).
  Proof.
    intros R. destruct (urel_run ops _ _ _ urel_new) as (m1 & outs1 & l & n & E & U & _).
    rewrite R in E. injection E as <- <-. apply U.
  Qed.

  Lemma unwind_generic_enough ops m outs o b :
    run (bmap_step_u t_insert_u t_remove_u t_get_mut_set_u) bmap_new ops = Ok (m, outs) ->
    4 * S (length (inorder (bm_tree m))) <= b ->
    exists m' out, bmap_step_u t_insert_u t_remove_u t_get_mut_set_u m (o, b) = Ok (m', Some out) /\
      bmap_step t_insert t_remove t_get_mut_set m o = Ok (m', out).
  Proof.
    intros R B. destruct (urel_run ops _ _ _ urel_new) as (m1 & outs1 & l & n & E & U & _).
    rewrite R in E. injection E as <- <-. pose proof U as (El & _). rewrite El in B.
    destruct (urel_step m l n o b U) as (m' & x & E1 & Nn & X).
    destruct x as [out|]; [|now destruct (Nn B)]. destruct X as (X & _). eauto.
  Qed.
End GenericUnwind.

Section TreesUnwind.
  Context {K V : Type} `{CmpLaws K}.
  Notation pairs := (list (K * V)).

  Lemma all_or_none_sorted (o : map_op K V) (l l' : pairs) : sorted l -> all_or_none o l l' -> sorted l' /\ length l' <= length l.
  Proof. intros S. destruct o; cbn; intros ->; split; auto using sorted_nil; cbn; lia. Qed.
  Lemma around_sorted (o : map_op K V) (l l' : pairs) : sorted l -> around_or_none o l l' -> sorted l' /\ length l' <= length l.
  Proof.
    intros S. assert (X : forall k, around_key k l l' -> sorted l' /\ length l' <= length l).
    { intros k (a & b & -> & _). apply sorted_app in S as (_ & S & _). apply sorted_app in S as (S & _).
      split; [exact S|]. rewrite !app_length. lia. }
    destruct o; cbn; try (intros ->; split; auto; lia); eauto.
    intros [Y|[_ ->]]; [eauto|]. split; [apply sorted_nil | cbn; lia].
  Qed.

  Lemma bst_follows {A} (P : tree A K V -> Prop) (leaves : map_op K V -> pairs -> pairs -> Prop) b t k v : P t -> sorted (inorder t) -> (forall l, leaves (MGetMut k v) l l) ->
    follows P leaves b t (MGetMut k v) (Ok (bst_get_mut_set t k v)) (search_get_mut_u b t k v).
  Proof.
    intros HP S R. destruct (bst_get_mut_set_u_ok t k v b) as [[b' E]|[E L]].
    - left. destruct (bst_get_mut_set t k v) as [t' o] eqn:Eg. exists b', t', o. split; [reflexivity|].
      unfold search_get_mut_u. now rewrite E.
    - right. exists t. unfold search_get_mut_u. rewrite E. repeat split; auto. lia.
  Qed.

  (** ** AvlMap *)
  Lemma avl_insert_u_ok (t : tree nat K V) k v : forall b t' o, avl_insert t k v = Ok (t', o) ->
    (exists b', avl_insert_u b t k v = Ok (Came b' t' o)) \/ (avl_insert_u b t k v = Ok (Threw t) /\ b < size t).
  Proof.
    induction t as [|h l IHl e r IHr]; intros b t' o; cbn [avl_insert avl_insert_u size].
    - intros E. injection E as <- <-. eauto.
    - intros E. destruct b as [|b]; [right; split; [reflexivity | lia]|]. destruct (cmp k (fst e)).
      + injection E as <- <-. eauto.
      + destruct (avl_insert l k v) as [[l' ol]| |]; cbn [bind] in E; try discriminate E.
        destruct (IHl b l' ol eq_refl) as [[b' X]|[X L]]; rewrite X; cbn [bind]; [|right; split; [reflexivity | lia]].
        left. destruct (avl_balance (Node h l' e r)); cbn [bind] in *; try discriminate E. injection E as <- <-. eauto.
      + destruct (avl_insert r k v) as [[r' or]| |]; cbn [bind] in E; try discriminate E.
        destruct (IHr b r' or eq_refl) as [[b' X]|[X L]]; rewrite X; cbn [bind]; [|right; split; [reflexivity | lia]].
        left. destruct (avl_balance (Node h l e r')); cbn [bind] in *; try discriminate E. injection E as <- <-. eauto.
  Qed.
  Lemma avl_remove_u_ok (t : tree nat K V) k : forall b t' o, avl_remove t k = Ok (t', o) ->
    (exists b', avl_remove_u b t k = Ok (Came b' t' o)) \/ (avl_remove_u b t k = Ok (Threw Leaf) /\ b < size t).
  Proof.
    induction t as [|h l IHl e r IHr]; intros b t' o; cbn [avl_remove avl_remove_u size].
    - intros E. injection E as <- <-. eauto.
    - intros E. destruct b as [|b]; [right; split; [reflexivity | lia]|]. destruct (cmp k (fst e)).
      + left. exists b. revert E. set (M := match l with Leaf => _ | Node _ _ _ _ => _ end).
        destruct M as [x| |]; cbn [bind]; try discriminate. destruct (avl_balance x); cbn [bind]; try discriminate.
        intros E. injection E as <- <-. reflexivity.
      + destruct (avl_remove l k) as [[l' ol]| |]; cbn [bind] in E; try discriminate E.
        destruct (IHl b l' ol eq_refl) as [[b' X]|[X L]]; rewrite X; cbn [bind]; [|right; split; [reflexivity | lia]].
        left. destruct (avl_balance (Node h l' e r)); cbn [bind] in *; try discriminate E. injection E as <- <-. eauto.
      + destruct (avl_remove r k) as [[r' or]| |]; cbn [bind] in E; try discriminate E.
        destruct (IHr b r' or eq_refl) as [[b' X]|[X L]]; rewrite X; cbn [bind]; [|right; split; [reflexivity | lia]].
        left. destruct (avl_balance (Node h l e r')); cbn [bind] in *; try discriminate E. injection E as <- <-. eauto.
  Qed.

  Notation anyt := (fun _ : tree nat K V => True).
  Lemma avl_ins_ok : insert_ok (K := K) (V := V) avl_insert anyt.
  Proof. intros t k v _ S. destruct (avl_insert_ok t k v S) as (t' & E1 & E2). eauto. Qed.
  Lemma avl_rem_ok : remove_ok (K := K) (V := V) avl_remove anyt.
  Proof. intros t k _ S. destruct (avl_remove_ok t k S) as (t' & E1 & E2). eauto. Qed.
  Lemma avl_gm_ok : get_mut_ok (K := K) (V := V) avl_get_mut_set anyt.
  Proof.
    intros t k v _ S. destruct (bst_get_mut_set_spec t k v S) as (E1 & E2 & E3).
    exists (fst (bst_get_mut_set t k v)). unfold avl_get_mut_set. rewrite <- E1.
    split; [now destruct (bst_get_mut_set t k v)|]. auto.
  Qed.
  Lemma avl_uins b (t : tree nat K V) k v : sorted (inorder t) -> follows anyt all_or_none b t (MInsert k v) (avl_insert t k v) (avl_insert_u b t k v).
  Proof.
    intros S. destruct (avl_insert_ok t k v S) as (t' & E1 & _).
    destruct (avl_insert_u_ok t k v b _ _ E1) as [[b' X]|[X L]]; [left; eauto 6|].
    right. exists t. cbn. repeat split; auto. lia.
  Qed.
  Lemma avl_urem b (t : tree nat K V) k : sorted (inorder t) -> follows anyt all_or_none b t (MRemove k) (avl_remove t k) (avl_remove_u b t k).
  Proof.
    intros S. destruct (avl_remove_ok t k S) as (t' & E1 & _).
    destruct (avl_remove_u_ok t k b _ _ E1) as [[b' X]|[X L]]; [left; eauto 6|].
    right. exists Leaf. cbn. repeat split; auto. lia.
  Qed.

  Lemma avl_unwind (ops : list (map_op K V * nat)) : exists m outs, run avl_step_u avl_new ops = Ok (m, outs) /\
    unwind_trace all_or_none [] 0 (combine (map fst ops) outs).
  Proof.
    apply (unwind_generic avl_insert avl_remove avl_get_mut_set avl_insert_u avl_remove_u search_get_mut_u anyt all_or_none);
      auto using avl_ins_ok, avl_rem_ok, avl_gm_ok, avl_uins, avl_urem; try (intros ? ? ?; apply all_or_none_sorted).
    - intros. apply bst_follows; auto. reflexivity.
    - intros o l. destruct o; cbn; tauto.
  Qed.
  Lemma avl_unwind_enough (ops : list (map_op K V * nat)) m outs o b : run avl_step_u avl_new ops = Ok (m, outs) ->
    4 * S (length (inorder (bm_tree m))) <= b ->
    exists m' out, avl_step_u m (o, b) = Ok (m', Some out) /\ avl_step m o = Ok (m', out).
  Proof.
    apply (unwind_generic_enough avl_insert avl_remove avl_get_mut_set avl_insert_u avl_remove_u search_get_mut_u anyt all_or_none);
      auto using avl_ins_ok, avl_rem_ok, avl_gm_ok, avl_uins, avl_urem; try (intros ? ? ?; apply all_or_none_sorted).
    - intros. apply bst_follows; auto. reflexivity.
    - intros o0 l. destruct o0; cbn; tauto.
  Qed.

  (** ** RedBlackMap *)
  Lemma rb_ins_u_ok (t : tree color K V) k v : forall b t' o, rb_ins t k v = Ok (t', o) ->
    (exists b', rb_ins_u b t k v = Ok (Came b' t' o)) \/ (rb_ins_u b t k v = Ok (Threw t) /\ b < size t).
  Proof.
    induction t as [|c l IHl e r IHr]; intros b t' o; cbn [rb_ins rb_ins_u size].
    - intros E. injection E as <- <-. eauto.
    - intros E. destruct b as [|b]; [right; split; [reflexivity | lia]|]. destruct (cmp k (fst e)).
      + cbn [bind] in E. destruct (rb_insert_fix _); cbn [bind] in *; try discriminate E. injection E as <- <-. eauto.
      + destruct (rb_ins l k v) as [[l' ol]| |]; cbn [bind] in E; try discriminate E.
        destruct (IHl b l' ol eq_refl) as [[b' X]|[X L]]; rewrite X; cbn [bind]; [|right; split; [reflexivity | lia]].
        left. destruct (rb_insert_fix (Node c l' e r)); cbn [bind] in *; try discriminate E. injection E as <- <-. eauto.
      + destruct (rb_ins r k v) as [[r' or]| |]; cbn [bind] in E; try discriminate E.
        destruct (IHr b r' or eq_refl) as [[b' X]|[X L]]; rewrite X; cbn [bind]; [|right; split; [reflexivity | lia]].
        left. destruct (rb_insert_fix (Node c l e r')); cbn [bind] in *; try discriminate E. injection E as <- <-. eauto.
  Qed.
  Lemma rb_rem_u_ok f : forall (t : tree color K V) k b t' o, rb_rem f t k = Ok (t', o) ->
    (exists b', rb_rem_u f b t k = Ok (Came b' t' o)) \/ (rb_rem_u f b t k = Ok (Threw Leaf) /\ b < 3 * f).
  Proof.
    induction f as [|f IH]; intros t k b t' o; cbn [rb_rem rb_rem_u]; [discriminate|].
    destruct t as [|c l e r]; [intros E; injection E as <- <-; eauto|]. intros E.
    destruct b as [|b]; [right; split; [reflexivity | lia]|].
    destruct (is_lt (cmp k (fst e))).
    - destruct (if should_shift l then _ else _) as [t1| |]; cbn [bind] in *; try discriminate E.
      destruct (rb_rem f (left_of t1) k) as [[l' ol]| |] eqn:Er; cbn [bind] in *; try discriminate E.
      destruct (IH _ _ b _ _ Er) as [[b' X]|[X L]]; rewrite X; cbn [bind]; [|right; split; [reflexivity | lia]].
      left. destruct (rb_balance (set_left t1 l')); cbn [bind] in *; try discriminate E. injection E as <- <-. eauto.
    - destruct (if is_red l then _ else _) as [t1| |]; cbn [bind] in *; try discriminate E.
      destruct b as [|b]; [right; split; [reflexivity | lia]|].
      destruct (key_is k t1 && is_none (right_of t1)).
      + destruct (assert (is_none (left_of t1))); cbn [bind] in *; try discriminate E. injection E as <- <-. eauto.
      + destruct (if should_shift (right_of t1) then _ else _) as [t2| |]; cbn [bind] in *; try discriminate E.
        destruct b as [|b]; [right; split; [reflexivity | lia]|].
        destruct (key_is k t2).
        * destruct t2 as [|c2 l2 e2 r2]; [discriminate E|].
          destruct (rb_combine f l2 r2 c2) as [x| |]; cbn [bind] in *; try discriminate E.
          destruct (rb_balance x); cbn [bind] in *; try discriminate E. injection E as <- <-. eauto.
        * destruct (rb_rem f (right_of t2) k) as [[l' ol]| |] eqn:Er; cbn [bind] in *; try discriminate E.
          destruct (IH _ _ b _ _ Er) as [[b' X]|[X L]]; rewrite X; cbn [bind]; [|right; split; [reflexivity | lia]].
          left. destruct (rb_balance (set_right t2 l')); cbn [bind] in *; try discriminate E. injection E as <- <-. eauto.
  Qed.
  Lemma fix_root_size (t : tree color K V) : size (fix_root t) = size t.
  Proof. destruct t as [|c l e r]; cbn; [reflexivity|]. destruct (negb (is_red l) && negb (is_red r)); reflexivity. Qed.

  Lemma rb_uins b (t : tree color K V) k v : rb_inv t -> sorted (inorder t) ->
    follows rb_inv all_or_none b t (MInsert k v) (rb_insert t k v) (rb_insert_u b t k v).
  Proof.
    intros Iv S. destruct (rb_insert_ok t k v Iv S) as (t' & E1 & _). rewrite E1. unfold rb_insert in E1. unfold rb_insert_u.
    destruct (rb_ins t k v) as [[t0 o0]| |] eqn:E0; cbn [bind] in E1; try discriminate E1. injection E1 as <- <-.
    destruct (rb_ins_u_ok t k v b _ _ E0) as [[b' X]|[X L]]; [left|right]; rewrite X; cbn [bind]; [eauto 6|].
    exists t. cbn. split; [reflexivity|]. split; [reflexivity|]. split; [exact Iv | lia].
  Qed.
  Lemma rb_urem b (t : tree color K V) k : rb_inv t -> sorted (inorder t) ->
    follows rb_inv all_or_none b t (MRemove k) (rb_remove t k) (rb_remove_u b t k).
  Proof.
    intros Iv S. destruct (rb_remove_ok t k Iv S) as (t' & E1 & _). rewrite E1. unfold rb_remove in E1. unfold rb_remove_u.
    destruct (rb_rem (Datatypes.S (size (fix_root t))) (fix_root t) k) as [[t0 o0]| |] eqn:E0; cbn [bind] in E1; try discriminate E1.
    injection E1 as <- <-.
    destruct (rb_rem_u_ok _ _ k b _ _ E0) as [[b' X]|[X L]]; [left|right]; rewrite X; cbn [bind]; [eauto 6|].
    exists Leaf. cbn. split; [reflexivity|]. split; [reflexivity|]. split; [apply rb_inv_leaf|]. rewrite fix_root_size in L. lia.
  Qed.

  Lemma rb_unwind (ops : list (map_op K V * nat)) : exists m outs, run rb_step_u rb_new ops = Ok (m, outs) /\
    unwind_trace all_or_none [] 0 (combine (map fst ops) outs).
  Proof.
    apply (unwind_generic rb_insert rb_remove rb_get_mut_set rb_insert_u rb_remove_u search_get_mut_u rb_inv all_or_none);
      auto using rb_inv_leaf, rb_uins, rb_urem; try (intros ? ? ?; apply all_or_none_sorted);
      try (intros ? ?; apply rb_inv_shape); try (intros ? ? ?; apply rb_insert_ok); try (intros ? ?; apply rb_remove_ok);
      try (intros ? ? ?; apply rb_get_mut_ok).
    - intros. apply bst_follows; auto. reflexivity.
    - intros o l. destruct o; cbn; tauto.
  Qed.
  Lemma rb_unwind_enough (ops : list (map_op K V * nat)) m outs o b : run rb_step_u rb_new ops = Ok (m, outs) ->
    4 * S (length (inorder (bm_tree m))) <= b ->
    exists m' out, rb_step_u m (o, b) = Ok (m', Some out) /\ rb_step m o = Ok (m', out).
  Proof.
    apply (unwind_generic_enough rb_insert rb_remove rb_get_mut_set rb_insert_u rb_remove_u search_get_mut_u rb_inv all_or_none);
      auto using rb_inv_leaf, rb_uins, rb_urem; try (intros ? ? ?; apply all_or_none_sorted);
      try (intros ? ?; apply rb_inv_shape); try (intros ? ? ?; apply rb_insert_ok); try (intros ? ?; apply rb_remove_ok);
      try (intros ? ? ?; apply rb_get_mut_ok).
    - intros. apply bst_follows; auto. reflexivity.
    - intros o0 l. destruct o0; cbn; tauto.
  Qed.
  Lemma rb_unwind_balanced (ops : list (map_op K V * nat)) m outs : run rb_step_u rb_new ops = Ok (m, outs) ->
    rb_balanced red_color (bm_tree m) /\ log_depth (bm_tree m).
  Proof.
    intros R. apply rb_inv_balanced. revert R.
    apply (unwind_generic_inv rb_insert rb_remove rb_get_mut_set rb_insert_u rb_remove_u search_get_mut_u rb_inv all_or_none);
      auto using rb_inv_leaf, rb_uins, rb_urem; try (intros ? ? ?; apply all_or_none_sorted);
      try (intros ? ?; apply rb_inv_shape); try (intros ? ? ?; apply rb_insert_ok); try (intros ? ?; apply rb_remove_ok);
      try (intros ? ? ?; apply rb_get_mut_ok).
    - intros. apply bst_follows; auto. reflexivity.
    - intros o0 l. destruct o0; cbn; tauto.
  Qed.

  (** ** SplayMap *)
  Notation sp := (tree unit K V).
  Lemma all_gt_after k (l : pairs) : all_gt l k -> after k l.
  Proof. intros G. eapply Forall_impl; [|exact G]. cbn. intros p X. now apply cmp_lt_gt. Qed.

  Lemma splay_loop_u_ok f : forall k (l : sp) e r zl zr b,
    size l + size r < f ->
    sorted (zl_list zl ++ (inorder l ++ e :: inorder r) ++ zr_list zr) ->
    all_lt (zl_list zl) k -> all_gt (zr_list zr) k ->
    (exists b' t', splay_loop f k l e r zl zr = Ok t' /\ splay_loop_u f b k l e r zl zr = Ok (Came b' t' tt) /\ b <= b' + 2 * f) \/
    (exists t', splay_loop_u f b k l e r zl zr = Ok (Threw t') /\
       around_key k (zl_list zl ++ (inorder l ++ e :: inorder r) ++ zr_list zr) (inorder t') /\ b < 2 * f).
  Proof.
    induction f as [|f IH]; intros k l e r zl zr b Hf S Al Ag; [lia|].
    assert (Thr : forall x, exists t', Ok (Threw (R := unit) (Node tt l e r)) = Ok (Threw t') /\
       around_key k (zl_list zl ++ (inorder l ++ e :: inorder r) ++ zr_list zr) (inorder t') /\ x < 2 + x).
    { intros x. exists (Node tt l e r). split; [reflexivity|]. split; [|lia].
      exists (zl_list zl), (zr_list zr). split; [reflexivity|]. split; [exact Al | now apply all_gt_after]. }
    cbn [splay_loop splay_loop_u].
    destruct b as [|b].
    { right. destruct (Thr 0) as (t' & X & Y & _). exists t'. split; [exact X|]. split; [exact Y | lia]. }
    destruct (cmp k (fst e)) eqn:Ck.
    - left. do 2 eexists. split; [reflexivity|]. split; [reflexivity | lia].
    - destruct l as [|[] cl ce cr].
      + left. do 2 eexists. split; [reflexivity|]. split; [reflexivity | lia].
      + destruct b as [|b].
        { right. destruct (Thr 0) as (t' & X & Y & _). exists t'. split; [exact X|]. split; [exact Y | lia]. }
        destruct (is_lt (cmp k (fst ce))) eqn:Cc.
        * assert (Cc' : cmp k (fst ce) = Lt) by (destruct (cmp k (fst ce)); simpl in Cc; congruence).
          destruct cl as [|[] ll le lr].
          -- left. do 2 eexists. split; [reflexivity|]. split; [reflexivity | lia].
          -- destruct (IH k ll le lr zl ((ce, Node tt cr e r) :: zr) b) as [(b' & t' & E1 & E2 & E3)|(t' & E1 & E2 & E3)]; auto.
             ++ simpl in Hf. lia.
             ++ lnorm. lnorm_in S. exact S.
             ++ lnorm. apply (sorted_suffix_gt (zl_list zl ++ inorder ll ++ le :: inorder lr)); [|exact Cc'].
                lnorm. lnorm_in S. exact S.
             ++ left. exists b', t'. split; [exact E1|]. split; [exact E2 | lia].
             ++ right. exists t'. split; [exact E1|]. split; [|lia].
                refine (eq_rect _ (fun x => around_key k x _) E2 _ _). lnorm. reflexivity.
        * destruct (IH k cl ce cr zl ((e, r) :: zr) b) as [(b' & t' & E1 & E2 & E3)|(t' & E1 & E2 & E3)]; auto.
          -- simpl in Hf. lia.
          -- lnorm. lnorm_in S. exact S.
          -- lnorm. apply (sorted_suffix_gt (zl_list zl ++ inorder cl ++ ce :: inorder cr)); [|exact Ck].
             lnorm. lnorm_in S. exact S.
          -- left. exists b', t'. split; [exact E1|]. split; [exact E2 | lia].
          -- right. exists t'. split; [exact E1|]. split; [|lia].
             refine (eq_rect _ (fun x => around_key k x _) E2 _ _). lnorm. reflexivity.
    - destruct r as [|[] cl ce cr].
      + left. do 2 eexists. split; [reflexivity|]. split; [reflexivity | lia].
      + destruct b as [|b].
        { right. destruct (Thr 0) as (t' & X & Y & _). exists t'. split; [exact X|]. split; [exact Y | lia]. }
        destruct (is_gt (cmp k (fst ce))) eqn:Cc.
        * assert (Cc' : cmp k (fst ce) = Gt) by (destruct (cmp k (fst ce)); simpl in Cc; congruence).
          destruct cr as [|[] rl re rr].
          -- left. do 2 eexists. split; [reflexivity|]. split; [reflexivity | lia].
          -- destruct (IH k rl re rr ((Node tt l e cl, ce) :: zl) zr b) as [(b' & t' & E1 & E2 & E3)|(t' & E1 & E2 & E3)]; auto.
             ++ simpl in Hf. lia.
             ++ lnorm. lnorm_in S. exact S.
             ++ lnorm. pose proof (sorted_prefix_lt (zl_list zl ++ inorder l ++ e :: inorder cl) ce
                  (inorder rl ++ re :: inorder rr ++ zr_list zr) k) as X.
                lnorm_in X. apply X; [lnorm_in S; exact S | exact Cc'].
             ++ left. exists b', t'. split; [exact E1|]. split; [exact E2 | lia].
             ++ right. exists t'. split; [exact E1|]. split; [|lia].
                refine (eq_rect _ (fun x => around_key k x _) E2 _ _). lnorm. reflexivity.
        * destruct (IH k cl ce cr ((l, e) :: zl) zr b) as [(b' & t' & E1 & E2 & E3)|(t' & E1 & E2 & E3)]; auto.
          -- simpl in Hf. lia.
          -- lnorm. lnorm_in S. exact S.
          -- lnorm. pose proof (sorted_prefix_lt (zl_list zl ++ inorder l) e
                  (inorder cl ++ ce :: inorder cr ++ zr_list zr) k) as X.
             lnorm_in X. apply X; [lnorm_in S; exact S | exact Ck].
          -- left. exists b', t'. split; [exact E1|]. split; [exact E2 | lia].
          -- right. exists t'. split; [exact E1|]. split; [|lia].
             refine (eq_rect _ (fun x => around_key k x _) E2 _ _). lnorm. reflexivity.
  Qed.

  Lemma splay_u_ok (t : sp) k b : t <> Leaf -> sorted (inorder t) ->
    (exists b' t', splay t k = Ok t' /\ splay_u b t k = Ok (Came b' t' tt) /\ b <= b' + 2 * size t) \/
    (exists t', splay_u b t k = Ok (Threw t') /\ around_key k (inorder t) (inorder t') /\ b < 2 * size t).
  Proof.
    destruct t as [|[] l e r]; [congruence|]. intros _ S. unfold splay, splay_u.
    destruct (splay_loop_u_ok (size (Node tt l e r)) k l e r [] [] b) as [X|X].
    - simpl. lia.
    - simpl in *. now rewrite app_nil_r.
    - apply all_lt_nil.
    - apply all_gt_nil.
    - left. exact X.
    - right. cbn [zl_list zr_list app inorder] in *. rewrite app_nil_r in X. exact X.
  Qed.

  Notation anys := (fun _ : sp => True).
  Lemma around_same k (l : pairs) : around_key k l l.
  Proof. exists [], []. cbn. rewrite app_nil_r. repeat split; constructor. Qed.

  Lemma splay_size (t : sp) k l e r : sorted (inorder t) -> splay t k = Ok (Node tt l e r) -> inorder l ++ e :: inorder r = inorder t.
  Proof.
    intros S E. destruct t as [|a0 l0 e0 r0]; [discriminate E|].
    destruct (splay_ok (Node a0 l0 e0 r0) k) as (l1 & e1 & r1 & E1 & E2 & _); [discriminate | exact S|].
    rewrite E in E1. injection E1 as -> -> ->. exact E2.
  Qed.

  Lemma splay_uins b (t : sp) k v : sorted (inorder t) -> follows anys around_or_none b t (MInsert k v) (splay_insert t k v) (splay_insert_u b t k v).
  Proof.
    intros S. destruct t as [|a0 l0 e0 r0]; [left; do 3 eexists; split; reflexivity|].
    unfold splay_insert, splay_insert_u. remember (Node a0 l0 e0 r0) as t eqn:Et.
    assert (Nl : t <> Leaf) by now subst.
    destruct (splay_ok t k Nl S) as (l & e & r & E1 & E2 & E3).
    destruct (splay_u_ok t k b Nl S) as [(b' & t' & X & Y & B)|(t' & Y & Z & B)]; rewrite Y; cbn [bind]; clear Et.
    - rewrite E1 in X. injection X as <-. rewrite E1. cbn [bind]. destruct b' as [|b'].
      + right. exists (Node tt l e r). split; [reflexivity|]. split; [|split; [exact I | lia]].
        cbn [around_or_none inorder]. rewrite E2. apply around_same.
      + left. destruct (cmp k (fst e)); do 3 eexists; split; reflexivity.
    - right. exists t'. split; [reflexivity|]. split; [exact Z|]. split; [exact I | lia].
  Qed.
  Lemma splay_ugm b (t : sp) k v : sorted (inorder t) ->
    follows anys around_or_none b t (MGetMut k v) (splay_get_mut_set t k v) (splay_get_mut_set_u b t k v).
  Proof.
    intros S. destruct t as [|a0 l0 e0 r0]; [left; do 3 eexists; split; reflexivity|].
    unfold splay_get_mut_set, splay_get_mut_set_u. remember (Node a0 l0 e0 r0) as t eqn:Et.
    assert (Nl : t <> Leaf) by now subst.
    destruct (splay_ok t k Nl S) as (l & e & r & E1 & E2 & E3).
    destruct (splay_u_ok t k b Nl S) as [(b' & t' & X & Y & B)|(t' & Y & Z & B)]; rewrite Y; cbn [bind]; clear Et.
    - rewrite E1 in X. injection X as <-. rewrite E1. cbn [bind]. destruct b' as [|b'].
      + right. exists (Node tt l e r). split; [reflexivity|]. split; [|split; [exact I | lia]].
        cbn [around_or_none inorder]. rewrite E2. apply around_same.
      + left. destruct (is_eq (cmp k (fst e))); do 3 eexists; split; reflexivity.
    - right. exists t'. split; [reflexivity|]. split; [exact Z|]. split; [exact I | lia].
  Qed.
  Lemma splay_urem b (t : sp) k : sorted (inorder t) -> follows anys around_or_none b t (MRemove k) (splay_remove t k) (splay_remove_u b t k).
  Proof.
    intros S. destruct t as [|a0 l0 e0 r0]; [left; do 3 eexists; split; reflexivity|].
    unfold splay_remove, splay_remove_u. remember (Node a0 l0 e0 r0) as t eqn:Et.
    assert (Nl : t <> Leaf) by now subst.
    destruct (splay_ok t k Nl S) as (l & e & r & E1 & E2 & E3).
    destruct (splay_u_ok t k b Nl S) as [(b' & t' & X & Y & B)|(t' & Y & Z & B)]; rewrite Y; cbn [bind]; clear Et.
    - rewrite E1 in X. injection X as <-. rewrite E1. cbn [bind]. destruct b' as [|b'].
      + right. exists (Node tt l e r). split; [reflexivity|]. split; [|split; [exact I | lia]].
        cbn [around_or_none inorder]. rewrite E2. left. apply around_same.
      + destruct (cmp k (fst e)) eqn:Ck; cbn [is_eq]; try (left; do 3 eexists; split; reflexivity).
        assert (Ak : at_key k (inorder t) <> []).
        { rewrite <- E2. rewrite <- E2 in S. destruct (pieces_eq _ _ _ _ S Ck) as (_ & Q & _). rewrite Q. discriminate. }
        assert (Sz : size t = Datatypes.S (size l + size r)).
        { rewrite <- (size_inorder t), <- E2, app_length. cbn [length]. rewrite !size_inorder. lia. }
        rewrite <- E2 in S. apply sorted_mid in S as (Sl & _).
        destruct l as [|al ll le lr]; [left; do 3 eexists; split; reflexivity|].
        remember (Node al ll le lr) as l eqn:El. assert (Nll : l <> Leaf) by now subst.
        destruct (splay_ok l k Nll Sl) as (l1 & e1 & r1 & F1 & F2 & F3).
        destruct (splay_u_ok l k b' Nll Sl) as [(b2 & t2 & X2 & Y2 & B2)|(t2 & Y2 & Z2 & B2)]; rewrite Y2; cbn [bind]; clear El.
        * rewrite F1 in X2. injection X2 as <-. rewrite F1. cbn [bind]. left. do 3 eexists. split; reflexivity.
        * right. exists Leaf. split; [reflexivity|]. split; [right; auto|]. split; [exact I | lia].
    - right. exists t'. split; [reflexivity|]. split; [left; exact Z|]. split; [exact I | lia].
  Qed.

  Lemma splay_ins_ok' : insert_ok (K := K) (V := V) splay_insert anys.
  Proof. intros t k v _ S. destruct (splay_insert_ok t k v S) as (t' & E1 & E2 & _). eauto. Qed.
  Lemma splay_rem_ok' : remove_ok (K := K) (V := V) splay_remove anys.
  Proof. intros t k _ S. destruct (splay_remove_ok t k S) as (t' & E1 & E2). eauto. Qed.
  Lemma splay_gm_ok' : get_mut_ok (K := K) (V := V) splay_get_mut_set anys.
  Proof. intros t k v _ S. destruct (splay_get_mut_ok t k v S) as (t' & E1 & E2 & _). eauto. Qed.

  Lemma splay_unwind (ops : list (map_op K V * nat)) : exists m outs, run splay_step_u splay_new ops = Ok (m, outs) /\
    unwind_trace around_or_none [] 0 (combine (map fst ops) outs).
  Proof.
    apply (unwind_generic splay_insert splay_remove splay_get_mut_set splay_insert_u splay_remove_u splay_get_mut_set_u anys around_or_none);
      auto using splay_ins_ok', splay_rem_ok', splay_gm_ok', splay_uins, splay_urem, splay_ugm; try (intros ? ? ?; apply around_sorted).
    intros o l. destruct o; cbn; tauto.
  Qed.
  Lemma splay_unwind_enough (ops : list (map_op K V * nat)) m outs o b : run splay_step_u splay_new ops = Ok (m, outs) ->
    4 * S (length (inorder (bm_tree m))) <= b ->
    exists m' out, splay_step_u m (o, b) = Ok (m', Some out) /\ splay_step m o = Ok (m', out).
  Proof.
    apply (unwind_generic_enough splay_insert splay_remove splay_get_mut_set splay_insert_u splay_remove_u splay_get_mut_set_u
      anys around_or_none);
      auto using splay_ins_ok', splay_rem_ok', splay_gm_ok', splay_uins, splay_urem, splay_ugm; try (intros ? ? ?; apply around_sorted).
    intros o0 l. destruct o0; cbn; tauto.
  Qed.
End TreesUnwind.
