(** Proofs about RadixCostModel.v. *)
From Verif Require Import RadixCostModel RadixCostSpec RadixMapProofs RunLemmas.

Lemma tick_fst {A} n (r : res (A * nat)) : rmap fst (tick n r) = rmap fst r.
Proof. destruct r as [[a m]| |]; reflexivity. Qed.
Lemma tick_ok {A} n (r : res (A * nat)) a m : tick n r = Ok (a, m) -> exists m', r = Ok (a, m') /\ m = n + m'.
Proof. destruct r as [[a' m']| |]; try discriminate. cbn. intros E. injection E as <- <-. eauto. Qed.

Section Erase.
  Context {T : Type}.
  Implicit Types t : rtree T.

  Lemma insert_child_erase t nk nv nc : rmap fst (insert_child_c t nk nv nc) = insert_child t nk nv nc.
  Proof.
    induction t as [|k v n IHn c _]; [reflexivity|]. cbn [insert_child_c insert_child].
    destruct (first_byte k) as [k0| |]; [|reflexivity..]. cbn [bind]. destruct (first_byte nk) as [n0| |]; [|reflexivity..]. cbn [bind].
    destruct (n0 <? k0); [reflexivity|]. rewrite <- IHn. destruct (insert_child_c n nk nv nc) as [[? ?]| |]; reflexivity.
  Qed.

  Lemma find_child_erase t b : rmap fst (find_child_c (fun c => Ok (negb (is_rnil c), 0)) b t) =
    find_child (fun c : rtree T => Ok (negb (is_rnil c))) b t.
  Proof.
    induction t as [|k v n IHn c _]; [reflexivity|]. cbn. destruct (first_byte k) as [k0| |]; [|reflexivity..]. cbn [bind].
    rewrite tick_fst. destruct (k0 =? b); [reflexivity | exact IHn].
  Qed.

  Lemma insert_erase t : (forall key v, rmap fst (r_insert_c t key v) = r_insert t key v) /\
    (forall key v b, rmap fst (with_child_c (fun c => r_insert_c c key v) b t) = with_child (fun c => r_insert c key v) b t).
  Proof.
    induction t as [|k u n [IHn IHnb] c [IHc IHcb]]; [split; reflexivity|].
    assert (A : forall key v, rmap fst (r_insert_c (RNode k u n c) key v) = r_insert (RNode k u n c) key v).
    { intros key v. cbn [r_insert_c r_insert]. rewrite tick_fst. destruct (mismatch k key) as [i|].
      - destruct (node_split k u c i) as [[nk' c1]| |]; [|reflexivity..]. cbn [bind]. rewrite <- insert_child_erase.
        destruct (insert_child_c c1 _ _ _) as [[? ?]| |]; reflexivity.
      - destruct (Nat.compare (length k) (length key)); [reflexivity | | destruct (node_split k u c (length key)) as [[? ?]| |]; reflexivity].
        destruct (first_byte (skipn (length k) key)) as [b| |]; [|reflexivity..]. cbn [bind]. rewrite <- find_child_erase.
        destruct (find_child_c _ b c) as [[[|] n1]| |]; [| |reflexivity..]; cbn [bind rmap fst].
        + rewrite <- IHcb. destruct (with_child_c _ b c) as [[[? ?] ?]| |]; reflexivity.
        + rewrite <- insert_child_erase. destruct (insert_child_c _ _ _ _) as [[? ?]| |]; reflexivity. }
    split; [exact A|]. intros key v b. cbn [with_child_c with_child]. destruct (first_byte k) as [k0| |]; [|reflexivity..]. cbn [bind].
    rewrite tick_fst. destruct (k0 =? b); [apply A|]. rewrite <- IHnb.
    fold (with_child_c (fun c => r_insert_c c key v) b n). destruct (with_child_c _ b n) as [[[? ?] ?]| |]; reflexivity.
  Qed.

  Lemma remove_erase t : (forall key, rmap fst (r_remove_c t key) = r_remove t key) /\
    (forall key b, rmap fst (with_child_c (fun c => r_remove_c c key) b t) = with_child (fun c => r_remove c key) b t).
  Proof.
    induction t as [|k u n [IHn IHnb] c [IHc IHcb]]; [split; reflexivity|].
    assert (A : forall key, rmap fst (r_remove_c (RNode k u n c) key) = r_remove (RNode k u n c) key).
    { intros key. cbn [r_remove_c r_remove]. rewrite tick_fst. destruct (mismatch k key) as [i|]; [reflexivity|].
      destruct (Nat.compare (length k) (length key)); [reflexivity | | reflexivity].
      destruct (first_byte (skipn (length k) key)) as [b| |]; [|reflexivity..]. cbn [bind].
      rewrite <- IHcb. destruct (with_child_c _ b c) as [[[? ?] ?]| |]; reflexivity. }
    split; [exact A|]. intros key b. cbn [with_child_c with_child]. destruct (first_byte k) as [k0| |]; [|reflexivity..]. cbn [bind].
    rewrite tick_fst. destruct (k0 =? b); [apply A|]. rewrite <- IHnb.
    fold (with_child_c (fun c => r_remove_c c key) b n). destruct (with_child_c _ b n) as [[[? ?] ?]| |]; reflexivity.
  Qed.

  Lemma get_mut_erase t : (forall key v, rmap fst (r_get_mut_set_c t key v) = r_get_mut_set t key v) /\
    (forall key v b, rmap fst (with_child_c (fun c => r_get_mut_set_c c key v) b t) = with_child (fun c => r_get_mut_set c key v) b t).
  Proof.
    induction t as [|k u n [IHn IHnb] c [IHc IHcb]]; [split; reflexivity|].
    assert (A : forall key v, rmap fst (r_get_mut_set_c (RNode k u n c) key v) = r_get_mut_set (RNode k u n c) key v).
    { intros key v. cbn [r_get_mut_set_c r_get_mut_set]. rewrite tick_fst. destruct (mismatch k key) as [i|]; [reflexivity|].
      destruct (Nat.compare (length k) (length key)); [reflexivity | | reflexivity].
      destruct (first_byte (skipn (length k) key)) as [b| |]; [|reflexivity..]. cbn [bind].
      rewrite <- IHcb. destruct (with_child_c _ b c) as [[[? ?] ?]| |]; reflexivity. }
    split; [exact A|]. intros key v b. cbn [with_child_c with_child]. destruct (first_byte k) as [k0| |]; [|reflexivity..]. cbn [bind].
    rewrite tick_fst. destruct (k0 =? b); [apply A|]. rewrite <- IHnb.
    fold (with_child_c (fun c => r_get_mut_set_c c key v) b n). destruct (with_child_c _ b n) as [[[? ?] ?]| |]; reflexivity.
  Qed.

  Lemma get_erase t : (forall key, rmap fst (r_get_c t key) = r_get t key) /\
    (forall key b, rmap fst (find_child_c (fun c => r_get_c c key) b t) = find_child (fun c => r_get c key) b t).
  Proof.
    induction t as [|k u n [IHn IHnb] c [IHc IHcb]]; [split; reflexivity|].
    assert (A : forall key, rmap fst (r_get_c (RNode k u n c) key) = r_get (RNode k u n c) key).
    { intros key. cbn [r_get_c r_get]. rewrite tick_fst. destruct (mismatch k key) as [i|]; [reflexivity|].
      destruct (Nat.compare (length k) (length key)); [reflexivity | | reflexivity].
      destruct (first_byte (skipn (length k) key)) as [b| |]; [|reflexivity..]. apply IHcb. }
    split; [exact A|]. intros key b. cbn [find_child_c find_child]. destruct (first_byte k) as [k0| |]; [|reflexivity..]. cbn [bind].
    rewrite tick_fst. destruct (k0 =? b); [apply A | apply IHnb].
  Qed.

  Lemma push_all_erase t : forall curr, fst (push_all_c t curr) = push_all t curr.
  Proof.
    induction t as [|k u n IHn c IHc]; intros curr; [reflexivity|]. cbn [push_all_c push_all]. rewrite <- IHn, <- IHc.
    destruct (push_all_c c (curr ++ k)), (push_all_c n curr). reflexivity.
  Qed.

  Lemma longest_prefix_erase t : (forall key curr, rmap fst (r_longest_prefix_c t key curr) = r_longest_prefix t key curr) /\
    (forall here key curr b,
       rmap fst (find_child_c (fun c => if is_rnil c then Ok (here, 0) else r_longest_prefix_c c key curr) b t) =
       find_child (fun c => if is_rnil c then Ok here else r_longest_prefix c key curr) b t).
  Proof.
    induction t as [|k u n [IHn IHnb] c [IHc IHcb]]; [split; reflexivity|].
    assert (A : forall key curr, rmap fst (r_longest_prefix_c (RNode k u n c) key curr) = r_longest_prefix (RNode k u n c) key curr).
    { intros key curr. cbn [r_longest_prefix_c r_longest_prefix]. rewrite tick_fst, <- push_all_erase.
      destruct (push_all_c c (curr ++ k)) as [l n1]. destruct (mismatch k key) as [i|]; [reflexivity|].
      destruct (Nat.compare (length k) (length key)); [reflexivity | | reflexivity].
      destruct (first_byte (skipn (length k) key)) as [b| |]; [|reflexivity..]. apply IHcb. }
    split; [exact A|]. intros here key curr b. cbn [find_child_c find_child]. destruct (first_byte k) as [k0| |]; [|reflexivity..]. cbn [bind].
    rewrite tick_fst. destruct (k0 =? b); [apply A | apply IHnb].
  Qed.

  Lemma min_erase t : forall curr, fst (r_min_c t curr) = r_min t curr.
  Proof.
    induction t as [|k u n IHn c IHc]; intros curr; [reflexivity|]. cbn [r_min_c r_min]. destruct (is_some u); [reflexivity|].
    rewrite <- IHc. destruct (r_min_c c (curr ++ k)). reflexivity.
  Qed.
  Lemma max_erase t : (forall curr, fst (r_max_c t curr) = r_max t curr) /\
    (forall curr, fst (last_child_c (fun c => r_max_c c curr) t) = last_child (fun c => r_max c curr) t).
  Proof.
    induction t as [|k u n [IHn IHnb] c [IHc IHcb]]; [split; reflexivity|].
    assert (A : forall curr, fst (r_max_c (RNode k u n c) curr) = r_max (RNode k u n c) curr).
    { intros curr. cbn [r_max_c r_max]. destruct (is_some u && is_rnil c); [reflexivity|]. rewrite <- IHcb.
      destruct (last_child_c _ c). reflexivity. }
    split; [exact A|]. intros curr. cbn [last_child_c last_child]. fold (last_child_c (fun c => r_max_c c curr) n).
    destruct n as [|k' u' n' c'].
    - rewrite <- A. destruct (r_max_c _ curr). reflexivity.
    - rewrite <- IHnb. destruct (last_child_c _ _). reflexivity.
  Qed.

  (** The counted functions return what the functions of the model return. *)
  Lemma radix_erase (t : rtree T) k v curr :
    rmap fst (r_insert_c t k v) = r_insert t k v /\ rmap fst (r_remove_c t k) = r_remove t k /\
    rmap fst (r_get_c t k) = r_get t k /\ rmap fst (r_get_mut_set_c t k v) = r_get_mut_set t k v /\
    rmap fst (r_longest_prefix_c t k curr) = r_longest_prefix t k curr /\
    fst (r_min_c t curr) = r_min t curr /\ fst (r_max_c t curr) = r_max t curr.
  Proof.
    repeat split; [apply insert_erase | apply remove_erase | apply get_erase | apply get_mut_erase | apply longest_prefix_erase
      | apply min_erase | apply max_erase].
  Qed.
End Erase.

(** ** Bounds. *)
Lemma mismatch_steps_le a : forall b, mismatch_steps a b <= length a /\ mismatch_steps a b <= length b.
Proof.
  induction a as [|x a IH]; intros [|y b]; cbn [mismatch_steps length]; try lia.
  destruct (IH b). destruct (x =? y); lia.
Qed.
Lemma mismatch_nonempty a b i : mismatch a b = Some i -> 1 <= length b.
Proof. destruct a, b; try discriminate. intros _. cbn. lia. Qed.

Section Bound.
  Context {T : Type}.
  Implicit Types t : rtree T.
  Variable B : nat.

  (** Every list of children below the list [t] has at most [B] members. *)
  Fixpoint thin t : Prop :=
    match t with
    | RNil => True
    | RNode _ _ n c => length (heads c) <= B /\ thin n /\ thin c
    end.

  Lemma increasing_length (l : list nat) : forall lo, StronglySorted lt l -> Forall (fun b => lo <= b < B) l -> length l <= B - lo.
  Proof.
    induction l as [|x l IH]; intros lo St F; [cbn; lia|]. inversion St as [|? ? Sl Fl]; subst. inversion F as [|? ? Hx Fx]; subst.
    cbn [length]. enough (length l <= B - S x) by lia. apply IH; [exact Sl|]. rewrite Forall_forall in *. intros y I.
    specialize (Fl y I). specialize (Fx y I). lia.
  Qed.
  Lemma wf_heads t : wf t -> StronglySorted lt (heads t).
  Proof. induction t as [|k v n IHn c _]; intros W; [constructor|]. destruct W as (_ & F & _ & Wn & _). rewrite heads_node. constructor; auto. Qed.

  Lemma wf_thin t : wf t -> (forall q w, In (q, w) (rent t) -> Forall (fun b => b < B) q) ->
    Forall (fun b => b < B) (heads t) /\ thin t.
  Proof.
    induction t as [|k v n IHn c IHc]; intros W E; [split; constructor|]. pose proof W as W0. destruct W as (K & F & D & Wn & Wc).
    destruct (IHn Wn) as [Hn Tn]. { intros q w I. apply (E q w). cbn [rent]. apply in_or_app. now right. }
    assert (Ec : forall q w, In (q, w) (own v ++ rent c) -> Forall (fun b => b < B) (k ++ q)).
    { intros q w I. apply (E (k ++ q) w). cbn [rent]. apply in_or_app. left. apply in_pre. eauto. }
    destruct (IHc Wc) as [Hc Tc]. { intros q w I. assert (X := Ec q w (in_or_app _ _ _ (or_intror I))). apply Forall_app in X. tauto. }
    split.
    - rewrite heads_node. constructor; [|exact Hn]. destruct (own v ++ rent c) as [|[q w] l] eqn:El.
      + apply app_eq_nil in El. destruct El as [Ev El]. destruct v; [discriminate|]. exfalso. apply (rent_nonempty c Wc); [|exact El].
        specialize (D eq_refl). now destruct c.
      + assert (X := Ec q w (or_introl eq_refl)). destruct k as [|b k]; [easy|]. cbn in X |- *. now inversion X.
    - cbn [thin]. repeat split; auto. rewrite <- (Nat.sub_0_r B). apply increasing_length; [now apply wf_heads|].
      rewrite Forall_forall in *. intros b I. specialize (Hc b I). lia.
  Qed.
  Lemma thin_drop b t : thin t -> thin (drop_to b t).
  Proof. induction t as [|k v n IHn c _]; intros W; [exact I|]. cbn [drop_to]. destruct (_ =? b); [exact W|]. apply IHn. apply W. Qed.

  Lemma find_cost {A} (f : rtree T -> res (A * nat)) b t a m : find_child_c f b t = Ok (a, m) ->
    exists m', f (drop_to b t) = Ok (a, m') /\ m <= length (heads t) + m'.
  Proof.
    revert a m. induction t as [|k v n IHn c _]; intros a m E; [exists m; cbn; split; [exact E | lia]|].
    cbn [find_child_c] in E. rewrite heads_node. cbn [length drop_to]. destruct k as [|x k]; [discriminate|]. cbn [first_byte bind hd] in *.
    apply tick_ok in E as (m' & E & ->). destruct (x =? b).
    - exists m'. split; [exact E | lia].
    - apply IHn in E as (m2 & E & L). exists m2. split; [exact E | lia].
  Qed.
  Lemma with_cost {A} (f : rtree T -> res ((rtree T * A) * nat)) b t a m : with_child_c f b t = Ok (a, m) ->
    exists a' m', f (drop_to b t) = Ok (a', m') /\ m <= length (heads t) + m'.
  Proof.
    revert a m. induction t as [|k v n IHn c _]; intros a m E; [exists a, m; cbn; split; [exact E | lia]|].
    cbn [with_child_c] in E. rewrite heads_node. cbn [length drop_to]. destruct k as [|x k]; [discriminate|]. cbn [first_byte bind hd] in *.
    apply tick_ok in E as (m' & E & ->). destruct (x =? b).
    - exists a, m'. split; [exact E | lia].
    - fold (with_child_c f b n) in E. destruct (with_child_c f b n) as [[[n' a'] m2]| |] eqn:En; try discriminate. cbn in E. injection E as <- <-.
      destruct (IHn _ _ eq_refl) as (a2 & m3 & E & L). exists a2, m3. split; [exact E | lia].
  Qed.
  Lemma insert_child_cost t nk nv nc a m : insert_child_c t nk nv nc = Ok (a, m) -> m <= length (heads t).
  Proof.
    revert a m. induction t as [|k v n IHn c _]; intros a m E; [injection E as <- <-; cbn; lia|].
    cbn [insert_child_c] in E. rewrite heads_node. cbn [length]. destruct (first_byte k); try discriminate. destruct (first_byte nk); try discriminate.
    cbn [bind] in E. destruct (_ <? _); [injection E as <- <-; lia|]. destruct (insert_child_c n nk nv nc) as [[n' m']| |]; try discriminate.
    cbn in E. injection E as <- <-. specialize (IHn _ _ eq_refl). lia.
  Qed.

  (** The node at the head of the list [t]: what is below it, and the bound of a search from it ([F]: cost of a list of children) *)
  Definition below_ok t : Prop := match t with RNil => True | RNode _ _ _ c => wf c /\ thin c /\ length (heads c) <= B end.
  Definition cap (F : nat) t (s : bytes) : nat :=
    match t with RNil => 0 | RNode k _ _ _ => (F + 2) * length s + 1 + (if length k =? 0 then F + 1 else 0) end.

  Lemma below_list t : wf t -> thin t -> below_ok t.
  Proof. destruct t as [|k v n c]; [easy|]. intros (_ & _ & _ & _ & W) (L & _ & Th). repeat split; auto. Qed.
  Lemma cap_list F t s : wf t -> cap F t s <= (F + 2) * length s + 1.
  Proof. destruct t as [|k v n c]; cbn [cap]; [lia|]. intros (K & _). destruct k; [easy|]. cbn [length Nat.eqb]. lia. Qed.

  (** One level of a search *)
  Lemma cap_stop F k v n (c : rtree T) s : 1 + mismatch_steps k s <= cap F (RNode k v n c) s.
  Proof. cbn [cap]. pose proof (proj2 (mismatch_steps_le k s)). nia. Qed.
  Lemma cap_down F k v n (c : rtree T) s m : length k < length s -> m <= F + ((F + 2) * (length s - length k) + 1) ->
    1 + mismatch_steps k s + m <= cap F (RNode k v n c) s.
  Proof.
    intros Lt Hm. cbn [cap]. pose proof (proj1 (mismatch_steps_le k s)). destruct (length k) as [|l]; cbn [Nat.eqb].
    - rewrite Nat.sub_0_r in Hm. lia.
    - replace (length s) with (S l + (length s - S l)) at 1 by lia. nia.
  Qed.

  Lemma get_cost t : (below_ok t -> forall s a m, r_get_c t s = Ok (a, m) -> m <= cap B t s) /\
    (wf t -> thin t -> forall b s a m, r_get_c (drop_to b t) s = Ok (a, m) -> m <= (B + 2) * length s + 1).
  Proof.
    induction t as [|k v n [IHn IHnb] c [IHc IHcb]].
    { split; [|intros _ _ b]; cbn; intros; injection H as <- <- || injection H0 as <- <-; lia. }
    assert (A : below_ok (RNode k v n c) -> forall s a m, r_get_c (RNode k v n c) s = Ok (a, m) -> m <= cap B (RNode k v n c) s).
    { intros (W & Th & L) s a m E. cbn [r_get_c] in E. apply tick_ok in E as (m' & E & ->).
      pose proof (cap_stop B k v n c s) as St.
      destruct (mismatch k s); [injection E as <- <-; lia|].
      destruct (Nat.compare_spec (length k) (length s)) as [Q|Q|Q]; [injection E as <- <-; lia | | injection E as <- <-; lia].
      destruct (skipn (length k) s) as [|b s'] eqn:Es; [discriminate|]. cbn [first_byte bind] in E.
      apply find_cost in E as (m2 & E & Hm). apply IHcb in E; auto. apply cap_down; [exact Q|].
      rewrite <- skipn_length, Es. lia. }
    split; [exact A|]. intros W Th b s a m E. cbn [drop_to] in E. destruct (hd 0 k =? b).
    - apply A in E; [|now apply below_list]. pose proof (cap_list B _ s W). lia.
    - destruct W as (_ & _ & _ & W & _). destruct Th as (_ & Th & _). eapply IHnb; eauto.
  Qed.

  Lemma remove_cost t : (below_ok t -> forall s a m, r_remove_c t s = Ok (a, m) -> m <= cap B t s) /\
    (wf t -> thin t -> forall b s a m, r_remove_c (drop_to b t) s = Ok (a, m) -> m <= (B + 2) * length s + 1).
  Proof.
    induction t as [|k v n [IHn IHnb] c [IHc IHcb]].
    { split; [|intros _ _ b]; cbn; intros; injection H as <- <- || injection H0 as <- <-; lia. }
    assert (A : below_ok (RNode k v n c) -> forall s a m, r_remove_c (RNode k v n c) s = Ok (a, m) -> m <= cap B (RNode k v n c) s).
    { intros (W & Th & L) s a m E. cbn [r_remove_c] in E. apply tick_ok in E as (m' & E & ->).
      pose proof (cap_stop B k v n c s) as St.
      destruct (mismatch k s); [injection E as <- <-; lia|].
      destruct (Nat.compare_spec (length k) (length s)) as [Q|Q|Q]; [injection E as <- <-; lia | | injection E as <- <-; lia].
      destruct (skipn (length k) s) as [|b s'] eqn:Es; [discriminate|]. cbn [first_byte bind] in E.
      destruct (with_child_c _ b c) as [[[c' o] m2]| |] eqn:Ew; try discriminate. cbn in E. injection E as <- <-.
      apply with_cost in Ew as (a2 & m3 & E & Hm). apply IHcb in E; auto. apply cap_down; [exact Q|].
      rewrite <- skipn_length, Es. lia. }
    split; [exact A|]. intros W Th b s a m E. cbn [drop_to] in E. destruct (hd 0 k =? b).
    - apply A in E; [|now apply below_list]. pose proof (cap_list B _ s W). lia.
    - destruct W as (_ & _ & _ & W & _). destruct Th as (_ & Th & _). eapply IHnb; eauto.
  Qed.

  Lemma get_mut_cost t : (below_ok t -> forall s x a m, r_get_mut_set_c t s x = Ok (a, m) -> m <= cap B t s) /\
    (wf t -> thin t -> forall b s x a m, r_get_mut_set_c (drop_to b t) s x = Ok (a, m) -> m <= (B + 2) * length s + 1).
  Proof.
    induction t as [|k v n [IHn IHnb] c [IHc IHcb]].
    { split; [|intros _ _ b]; cbn; intros; injection H as <- <- || injection H0 as <- <-; lia. }
    assert (A : below_ok (RNode k v n c) -> forall s x a m, r_get_mut_set_c (RNode k v n c) s x = Ok (a, m) -> m <= cap B (RNode k v n c) s).
    { intros (W & Th & L) s x a m E. cbn [r_get_mut_set_c] in E. apply tick_ok in E as (m' & E & ->).
      pose proof (cap_stop B k v n c s) as St.
      destruct (mismatch k s); [injection E as <- <-; lia|].
      destruct (Nat.compare_spec (length k) (length s)) as [Q|Q|Q]; [injection E as <- <-; lia | | injection E as <- <-; lia].
      destruct (skipn (length k) s) as [|b s'] eqn:Es; [discriminate|]. cbn [first_byte bind] in E.
      destruct (with_child_c _ b c) as [[[c' o] m2]| |] eqn:Ew; try discriminate. cbn in E. injection E as <- <-.
      apply with_cost in Ew as (a2 & m3 & E & Hm). apply IHcb in E; auto. apply cap_down; [exact Q|].
      rewrite <- skipn_length, Es. lia. }
    split; [exact A|]. intros W Th b s x a m E. cbn [drop_to] in E. destruct (hd 0 k =? b).
    - apply A in E; [|now apply below_list]. pose proof (cap_list B _ s W). lia.
    - destruct W as (_ & _ & _ & W & _). destruct Th as (_ & Th & _). eapply IHnb; eauto.
  Qed.

  Lemma insert_cost t : (below_ok t -> forall s x a m, r_insert_c t s x = Ok (a, m) -> m <= cap (B + B) t s) /\
    (wf t -> thin t -> forall b s x a m, r_insert_c (drop_to b t) s x = Ok (a, m) -> m <= (B + B + 2) * length s + 1).
  Proof.
    induction t as [|k v n [IHn IHnb] c [IHc IHcb]].
    { split; [|intros _ _ b]; cbn; intros; discriminate. }
    assert (A : below_ok (RNode k v n c) -> forall s x a m, r_insert_c (RNode k v n c) s x = Ok (a, m) -> m <= cap (B + B) (RNode k v n c) s).
    { intros (W & Th & L) s x a m E. cbn [r_insert_c] in E. apply tick_ok in E as (m' & E & ->).
      pose proof (cap_stop (B + B) k v n c s) as St.
      destruct (mismatch k s) as [i|] eqn:Em.
      - destruct (node_split k v c i) as [[k' c1]| |] eqn:En; try discriminate. cbn [bind] in E.
        destruct (insert_child_c c1 _ _ _) as [[c2 m2]| |] eqn:Ei; try discriminate. cbn in E. injection E as <- <-.
        apply insert_child_cost in Ei. unfold node_split in En. cbn in En. injection En as <- <-. cbn in Ei.
        cbn [cap]. pose proof (mismatch_nonempty _ _ _ Em). pose proof (proj2 (mismatch_steps_le k s)). nia.
      - destruct (Nat.compare_spec (length k) (length s)) as [Q|Q|Q]; [injection E as <- <-; lia | |].
        + destruct (skipn (length k) s) as [|b s'] eqn:Es; [discriminate|]. cbn [first_byte bind] in E.
          assert (Ls : length (b :: s') = length s - length k) by (rewrite <- Es; apply skipn_length).
          destruct (find_child_c _ b c) as [[fd m1]| |] eqn:Ef; try discriminate. cbn [bind] in E.
          apply find_cost in Ef as (z & Ez & Hz). injection Ez as _ <-. destruct fd.
          * destruct (with_child_c _ b c) as [[[c' o] m2]| |] eqn:Ew; try discriminate. cbn in E. injection E as <- <-.
            apply with_cost in Ew as (a2 & m3 & E & Hm). apply IHcb in E; auto. apply cap_down; [exact Q|]. rewrite <- Ls. lia.
          * destruct (insert_child_c c _ _ _) as [[c2 m2]| |] eqn:Ei; try discriminate. cbn in E. injection E as <- <-.
            apply insert_child_cost in Ei. apply cap_down; [exact Q|]. nia.
        + destruct (node_split k v c (length s)) as [[? ?]| |]; try discriminate. cbn in E. injection E as <- <-. lia. }
    split; [exact A|]. intros W Th b s x a m E. cbn [drop_to] in E. destruct (hd 0 k =? b).
    - apply A in E; [|now apply below_list]. pose proof (cap_list (B + B) _ s W). lia.
    - destruct W as (_ & _ & _ & W & _). destruct Th as (_ & Th & _). eapply IHnb; eauto.
  Qed.

  Lemma push_all_cost t : wf t -> forall curr, snd (push_all_c t curr) <= 2 * length (fst (push_all_c t curr)).
  Proof.
    intros W curr. rewrite push_all_erase, push_all_ok, map_length. pose proof (wf_size t W).
    enough (E : snd (push_all_c t curr) = r_size t) by (rewrite E; etransitivity; [|exact H]; apply Nat.le_add_r). clear. revert curr.
    induction t as [|k v n IHn c IHc]; intros curr; [reflexivity|]. cbn [push_all_c r_size]. rewrite <- (IHn curr), <- (IHc (curr ++ k)).
    destruct (push_all_c c (curr ++ k)), (push_all_c n curr). cbn. lia.
  Qed.

  Lemma longest_prefix_cost t : (below_ok t -> forall s curr a m, r_longest_prefix_c t s curr = Ok (a, m) -> m <= cap B t s + 2 * length a) /\
    (wf t -> thin t -> forall b s curr a m, r_longest_prefix_c (drop_to b t) s curr = Ok (a, m) -> m <= (B + 2) * length s + 1 + 2 * length a).
  Proof.
    induction t as [|k v n [IHn IHnb] c [IHc IHcb]].
    { split; [|intros _ _ b]; cbn; intros; injection H as <- <- || injection H0 as <- <-; lia. }
    assert (A : below_ok (RNode k v n c) -> forall s curr a m, r_longest_prefix_c (RNode k v n c) s curr = Ok (a, m) ->
      m <= cap B (RNode k v n c) s + 2 * length a).
    { intros (W & Th & L) s curr a m E. cbn [r_longest_prefix_c] in E. apply tick_ok in E as (m' & E & ->).
      pose proof (cap_stop B k v n c s) as St. pose proof (push_all_cost c W (curr ++ k)) as P.
      destruct (push_all_c c (curr ++ k)) as [l n1]. cbn [fst snd] in P.
      assert (All : Ok ((if is_some v then [curr ++ k] else []) ++ l, n1) = Ok (a, m') -> 1 + mismatch_steps k s + m' <= cap B (RNode k v n c) s + 2 * length a).
      { intros Q. injection Q as <- <-. rewrite app_length. unfold bytes in *. lia. }
      destruct (mismatch k s); [auto|].
      destruct (Nat.compare_spec (length k) (length s)) as [Q|Q|Q]; [auto | | auto]. clear All.
      destruct (skipn (length k) s) as [|b s'] eqn:Es; [discriminate|]. cbn [first_byte bind] in E.
      assert (Ls : length (b :: s') = length s - length k) by (rewrite <- Es; apply skipn_length).
      apply find_cost in E as (m2 & E & Hm). destruct (is_rnil (drop_to b c)) eqn:Ed.
      - injection E as <- <-. assert (X : 1 + mismatch_steps k s + m' <= cap B (RNode k v n c) s) by (apply cap_down; [exact Q | nia]). lia.
      - apply IHcb in E; auto. assert (X : 1 + mismatch_steps k s + (m' - 2 * length a) <= cap B (RNode k v n c) s)
          by (apply cap_down; [exact Q | rewrite <- Ls; lia]). lia. }
    split; [exact A|]. intros W Th b s curr a m E. cbn [drop_to] in E. destruct (hd 0 k =? b).
    - apply A in E; [|now apply below_list]. pose proof (cap_list B _ s W). lia.
    - destruct W as (_ & _ & _ & W & _). destruct Th as (_ & Th & _). eapply IHnb; eauto.
  Qed.

  Lemma min_cost t : wf t -> t <> RNil -> forall curr, exists q, fst (r_min_c t curr) = Some (curr ++ q) /\ snd (r_min_c t curr) <= length q.
  Proof.
    induction t as [|k v n IHn c IHc]; intros W Nn curr; [easy|]. destruct W as (K & _ & D & _ & W). cbn [r_min_c].
    assert (1 <= length k) by (destruct k; [easy | cbn; lia]). destruct v as [x|]; cbn [is_some].
    - exists k. split; [reflexivity | exact H].
    - specialize (D eq_refl). destruct (IHc W) with (curr := curr ++ k) as (q & E & L). { now destruct c. }
      destruct (r_min_c c (curr ++ k)) as [r m]. cbn [fst snd] in *. exists (k ++ q). rewrite app_length, E, <- app_assoc. split; [reflexivity | lia].
  Qed.

  Lemma max_cost t : (wf t -> thin t -> t <> RNil -> forall curr, exists q,
      fst (r_max_c t curr) = Some (curr ++ q) /\ snd (r_max_c t curr) <= (B + 1) * length q) /\
    (wf t -> thin t -> t <> RNil -> forall curr, exists q, fst (last_child_c (fun c => r_max_c c curr) t) = Some (curr ++ q) /\
      snd (last_child_c (fun c => r_max_c c curr) t) <= length (heads t) + (B + 1) * length q).
  Proof.
    induction t as [|k v n [IHn IHnb] c [IHc IHcb]]; [split; easy|].
    assert (A : wf (RNode k v n c) -> thin (RNode k v n c) -> forall curr, exists q,
      fst (r_max_c (RNode k v n c) curr) = Some (curr ++ q) /\ snd (r_max_c (RNode k v n c) curr) <= (B + 1) * length q).
    { intros (K & _ & D & _ & W) (L & _ & Th) curr. cbn [r_max_c]. assert (1 <= length k) by (destruct k; [easy | cbn; lia]).
      destruct (is_some v && is_rnil c) eqn:Eb.
      - exists k. split; [reflexivity | cbn [snd]; nia].
      - destruct (IHcb W Th) with (curr := curr ++ k) as (q & E & Hq).
        { intros ->. destruct v; [discriminate|]. exact (D eq_refl). }
        destruct (last_child_c _ c) as [r m]. cbn [fst snd] in *. exists (k ++ q). rewrite app_length, E, <- app_assoc.
        split; [reflexivity | nia]. }
    split; [intros W Th _; now apply A|]. intros W Th _ curr. cbn [last_child_c]. fold (last_child_c (fun c => r_max_c c curr) n). rewrite heads_node.
    destruct n as [|k' v' n' c'].
    - destruct (A W Th curr) as (q & E & Hq). destruct (r_max_c _ curr) as [r m]. cbn [fst snd] in *. exists q. split; [exact E | cbn; lia].
    - destruct W as (_ & _ & _ & W & _). destruct Th as (_ & Th & _). destruct (IHnb W Th ltac:(easy) curr) as (q & E & Hq).
      destruct (last_child_c _ _) as [r m]. cbn [fst snd] in *. exists q. split; [exact E|]. cbn [length]. lia.
  Qed.
End Bound.

(** ** Histories. *)
Section Histories.
  Context {T : Type}.
  Notation B := 256.

  Lemma root_below (t : rtree T) : root_ok t -> (forall q w, In (q, w) (rent t) -> Forall (fun b => b < B) q) -> below_ok B t.
  Proof.
    destruct t as [|k v n c]; [easy|]. intros (-> & W & _) E. cbn [below_ok].
    assert (X : forall q w, In (q, w) (rent c) -> Forall (fun b => b < B) q).
    { intros q w I. assert (Y : Forall (fun b => b < B) (k ++ q)).
      { apply (E _ w). cbn [rent]. rewrite app_nil_r. apply in_pre. exists q. split; [reflexivity|]. apply in_or_app. now right. }
      apply Forall_app in Y. tauto. }
    destruct (wf_thin B c W X) as [Hh Th]. repeat split; auto. rewrite <- (Nat.sub_0_r B). apply increasing_length; [now apply wf_heads|].
    eapply Forall_impl; [|exact Hh]. intros; cbn beta in *; lia.
  Qed.
  Lemma cap_root F (t : rtree T) s : cap F t s <= (F + 2) * (length s + 1).
  Proof. destruct t as [|k v n c]; cbn [cap]; [lia|]. destruct (length k =? 0); lia. Qed.

  Lemma step_cost (m : radix_map T) o m' out : root_ok (rm_root m) -> below_ok B (rm_root m) -> radix_step m o = Ok (m', out) ->
    exists n, radix_step_c m o = Ok (m', (out, n)) /\ forall l, key_length o out = Some l -> n <= 514 * (l + 1).
  Proof.
    intros R P E. unfold radix_step_c. rewrite E. cbn [bind].
    enough (exists n, radix_steps m o = Ok n /\ forall l, key_length o out = Some l -> n <= 514 * (l + 1)) as (n & -> & X) by (exists n; auto).
    destruct m as [t len]. cbn [rm_root] in *.
    assert (G : forall k x, r_get t k = Ok x -> exists n, rmap snd (r_get_c t k) = Ok n /\ n <= 514 * (length k + 1)).
    { intros k x Eg. rewrite <- (proj1 (get_erase t)) in Eg. destruct (r_get_c t k) as [[x' n]| |] eqn:Ec; try discriminate. exists n.
      split; [reflexivity|]. apply (proj1 (get_cost B t)) in Ec; auto. pose proof (cap_root B t k). lia. }
    destruct o; cbn [radix_step radix_steps key_length rm_root] in *; try (exists 0; split; [reflexivity | discriminate]).
    - (* insert *) rewrite <- (proj1 (insert_erase t)) in E. destruct (r_insert_c t k v) as [[x n]| |] eqn:Ec; try discriminate. exists n.
      split; [reflexivity|]. apply (proj1 (insert_cost B t)) in Ec; auto. pose proof (cap_root (B + B) t k). intros l El. injection El as <-. lia.
    - (* remove *) rewrite <- (proj1 (remove_erase t)) in E. destruct (r_remove_c t k) as [[x n]| |] eqn:Ec; try discriminate. exists n.
      split; [reflexivity|]. apply (proj1 (remove_cost B t)) in Ec; auto. pose proof (cap_root B t k). intros l El. injection El as <-. lia.
    - destruct (r_get t k) eqn:Eg; try discriminate. destruct (G _ _ Eg) as (n & -> & L). exists n. split; [reflexivity|]. intros l El. injection El as <-. exact L.
    - (* get_mut *) rewrite <- (proj1 (get_mut_erase t)) in E. destruct (r_get_mut_set_c t k v) as [[x n]| |] eqn:Ec; try discriminate. exists n.
      split; [reflexivity|]. apply (proj1 (get_mut_cost B t)) in Ec; auto. pose proof (cap_root B t k). intros l El. injection El as <-. lia.
    - destruct (r_get t k) eqn:Eg; try discriminate. destruct (G _ _ Eg) as (n & -> & L). exists n. split; [reflexivity|]. intros l El. injection El as <-. exact L.
    - destruct (r_get t k) eqn:Eg; try discriminate. destruct (G _ _ Eg) as (n & -> & L). exists n. split; [reflexivity|]. intros l El. injection El as <-. exact L.
    - (* min *) eexists. split; [reflexivity|]. injection E as <- <-. rewrite <- min_erase. destruct t as [|k v n c].
      { cbn. intros l El. injection El as <-. lia. }
      cbn [r_min_c]. destruct R as (-> & W & _). destruct v as [x|]; cbn [is_some].
      + cbn. intros l El. injection El as <-. lia.
      + destruct c as [|k' v' n' c']; [cbn; intros l El; injection El as <-; lia|].
        destruct (min_cost (RNode k' v' n' c') W ltac:(easy) ([] ++ k)) as (q & Eq & Lq).
        destruct (r_min_c _ ([] ++ k)) as [r n]. cbn [fst snd] in *. rewrite Eq. intros l El. injection El as <-. rewrite !app_length. cbn [length]. lia.
    - (* max *) eexists. split; [reflexivity|]. injection E as <- <-. rewrite <- (proj1 (max_erase t)). destruct t as [|k v n c].
      { cbn. intros l El. injection El as <-. lia. }
      destruct P as (W & Th & L). cbn [r_max_c]. destruct (is_some v && is_rnil c) eqn:Eb.
      + cbn. intros l El. injection El as <-. lia.
      + destruct c as [|k' v' n' c'].
        { cbn. intros l El. injection El as <-. lia. }
        destruct (proj2 (max_cost B (RNode k' v' n' c')) W Th ltac:(easy) ([] ++ k)) as (q & Eq & Lq).
        destruct (last_child_c _ _) as [r m2]. cbn [fst snd] in *. rewrite Eq. intros l El. injection El as <-. rewrite !app_length. cbn [length]. nia.
  Qed.

  Lemma spec_bytes (l : list (bytes * T)) (o : radix_op T) : (forall q w, In (q, w) l -> Forall (fun b => b < B) q) ->
    match o with XInsert k _ => Forall (fun b => b < B) k | _ => True end ->
    forall q w, In (q, w) (fst (map_spec_step l (radix_map_op o))) -> Forall (fun b => b < B) q.
  Proof.
    intros E Ho.
    assert (Fl : forall f q w, In (q, w) (filter f l) -> Forall (fun b => b < B) q).
    { intros f q w I. apply filter_In in I as [I _]. eauto. }
    intros q w I. destruct o; cbn [radix_map_op map_spec_step fst] in I; eauto; try contradiction.
    - apply in_app_or in I as [I|[I|I]]; [eapply Fl, I | injection I as <- <-; exact Ho | eapply Fl, I].
    - apply in_app_or in I as [I|I]; eapply Fl, I.
    - apply in_app_or in I as [I|I]; [eapply Fl, I|]. apply in_app_or in I as [I|I]; [|eapply Fl, I].
      apply in_map_iff in I as ([q' w'] & Eq & I). injection Eq as <- <-. eapply Fl, I.
    - revert I. clear - E. revert vs q w. induction l as [|[k x] l IH]; intros vs q w I; [destruct vs; contradiction|].
      destruct vs as [|y vs]; [exact (E q w I)|]. cbn [write_vals] in I. destruct I as [I|I].
      + injection I as <- <-. apply (E k x). now left.
      + revert I. apply IH. intros q' w' I'. apply (E q' w'). now right.
  Qed.

  Lemma cost_run (ops : list (radix_op T)) : forall m l dead, rrel m l dead -> (forall q w, In (q, w) l -> Forall (fun b => b < B) q) ->
    inserts_bytes ops -> inserts_safe l dead ops = true -> exists m' steps,
    run radix_step_c m ops = Ok (m', combine (snd (spec_run map_spec_step l (map radix_map_op ops))) steps) /\
    radix_steps_within (fun n => 514 * (n + 1)) ops (snd (spec_run map_spec_step l (map radix_map_op ops))) steps.
  Proof.
    induction ops as [|o ops IH]; intros m l dead R E Hb Sf.
    { exists m, []. split; [reflexivity|]. split; [reflexivity|]. intros [|i]; discriminate. }
    inversion Hb as [|? ? Ho Hb']; subst.
    assert (X : exists m', radix_step m o = Ok (m', snd (map_spec_step l (radix_map_op o))) /\
      rrel m' (fst (map_spec_step l (radix_map_op o))) (next_dead dead l o) /\
      inserts_safe (fst (map_spec_step l (radix_map_op o))) (next_dead dead l o) ops = true).
    { pose proof (radix_step_ok m l dead o R) as St. destruct o, dead; try discriminate Sf; destruct St as (m' & E1 & E2); exists m'; repeat split; auto; exact Sf || apply E2. }
    destruct X as (m1 & E1 & R1 & Sf1). pose proof (spec_bytes l o E Ho) as Eb. pose proof R as (El & _ & Ro & _).
    assert (Bo : below_ok B (rm_root m)) by (apply root_below; [exact Ro | rewrite El; exact E]).
    destruct (step_cost m o m1 _ Ro Bo E1) as (n & En & Ln).
    destruct (IH m1 _ _ R1 Eb Hb' Sf1) as (m2 & steps & E2 & Lw & Hw). cbn [run map spec_run]. rewrite En. cbn [bind]. rewrite E2. cbn [bind].
    destruct (map_spec_step l (radix_map_op o)) as [l' out]. cbn [fst snd] in *.
    destruct (spec_run map_spec_step l' (map radix_map_op ops)) as [l2 outs]. cbn [fst snd] in *.
    exists m2, (n :: steps). split; [reflexivity|]. split; [cbn; now rewrite Lw|].
    intros [|i] o' out' n' c Eo Eout Ec Ek; cbn [nth_error] in *.
    - injection Eo as <-. injection Eout as <-. injection Ec as <-. now apply Ln.
    - eapply Hw; eauto.
  Qed.

  Lemma radix_cost (ops : list (radix_op T)) : inserts_bytes ops -> inserts_safe [] false ops = true -> exists steps,
    outputs radix_step_c radix_new ops = Ok (combine (map_spec_outputs (map radix_map_op ops)) steps) /\
    radix_steps_within (fun n => 514 * (n + 1)) ops (map_spec_outputs (map radix_map_op ops)) steps.
  Proof.
    intros Hb Sf. destruct (cost_run ops radix_new [] false rrel_new ltac:(easy) Hb Sf) as (m & steps & E & W).
    exists steps. unfold outputs. rewrite E. split; [reflexivity | exact W].
  Qed.

  Lemma contents_bytes (ops : list (radix_op T)) : inserts_bytes ops ->
    forall q w, In (q, w) (radix_contents ops) -> Forall (fun b => b < B) q.
  Proof.
    unfold radix_contents. enough (X : forall l : list (bytes * T), (forall (q : bytes) w, In (q, w) l -> Forall (fun b => b < B) q) -> inserts_bytes ops ->
      forall (q : bytes) w, In (q, w) (fst (spec_run map_spec_step l (map radix_map_op ops))) -> Forall (fun b => b < B) q)
      by (intros Hb; apply X; [easy | exact Hb]).
    induction ops as [|o ops IH]; intros l E Hb; [exact E|]. inversion Hb as [|? ? Ho Hb']; subst. cbn [map spec_run].
    pose proof (spec_bytes l o E Ho) as Eb. destruct (map_spec_step l (radix_map_op o)) as [l' out]. cbn [fst] in Eb.
    specialize (IH l' Eb Hb'). destruct (spec_run map_spec_step l' (map radix_map_op ops)). exact IH.
  Qed.
  Lemma longest_prefix_steps (ops : list (radix_op T)) m outs k : inserts_bytes ops -> run radix_step radix_new ops = Ok (m, outs) ->
    exists ks n, radix_longest_prefix m k = Ok ks /\ radix_longest_prefix_c m k = Ok (ks, n) /\ n <= 258 * (length k + 1) + 2 * length ks.
  Proof.
    intros Hb R. destruct (radix_longest_prefix_ok ops m outs k R) as (ks & E & _). exists ks.
    destruct (radix_reachable ops m outs R) as (d & El & _ & Ro & _). unfold radix_longest_prefix, radix_longest_prefix_c in *.
    rewrite <- (proj1 (longest_prefix_erase (rm_root m))) in E |- *.
    destruct (r_longest_prefix_c (rm_root m) k []) as [[ks' n]| |] eqn:Ec; try discriminate. injection E as ->. exists n. repeat split.
    apply (proj1 (longest_prefix_cost B (rm_root m))) in Ec.
    - pose proof (cap_root B (rm_root m) k). lia.
    - apply root_below; [exact Ro|]. rewrite El. now apply contents_bytes.
  Qed.
End Histories.
