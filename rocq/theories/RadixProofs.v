(** Proofs about RadixModel.v. *)
From Verif Require Export RadixModel BstProofs.

(** ** The byte order. *)
Lemma bytes_eq_iff (a b : bytes) : cmp a b = Eq <-> a = b.
Proof.
  unfold cmp, bytes_cmp. revert b. induction a as [|x a IH]; intros [|y b]; simpl; split; try congruence; auto.
  - destruct (Nat.compare_spec x y) as [->|L|L]; try discriminate. intros E. apply IH in E. congruence.
  - intros E. injection E as -> ->. rewrite Nat.compare_refl. now apply IH.
Qed.

#[export] Instance bytes_laws : CmpLaws bytes.
Proof.
  constructor; unfold cmp, bytes_cmp.
  - induction x as [|x a IH]; intros [|y b]; simpl; auto. rewrite (Nat.compare_antisym x y).
    destruct (Nat.compare x y); simpl; auto.
  - induction x as [|x a IH]; intros [|y b] [|z c]; simpl; try congruence; auto.
    destruct (Nat.compare_spec x y) as [->|L|L]; try discriminate.
    + destruct (Nat.compare_spec y z) as [->|L'|L']; try discriminate; auto. apply IH.
    + intros _. destruct (Nat.compare_spec y z) as [->|L'|L']; try discriminate; intros _;
        destruct (Nat.compare_spec x z); auto; lia.
  - intros x y z E. change (cmp x y = Eq) in E. apply bytes_eq_iff in E. now subst.
Qed.

Lemma bytes_cmp_app (p a b : bytes) : cmp (p ++ a) (p ++ b) = cmp a b.
Proof.
  induction p as [|x p IH]; simpl; auto. unfold cmp, bytes_cmp in *. simpl. now rewrite Nat.compare_refl.
Qed.
Lemma bytes_cmp_cons (x y : nat) (a b : bytes) : x < y -> cmp (x :: a) (y :: b) = Lt.
Proof. intros L. unfold cmp, bytes_cmp. simpl. apply Nat.compare_lt_iff in L. now rewrite L. Qed.
Lemma bytes_cmp_nil (x : nat) (a : bytes) : cmp ([] : bytes) (x :: a) = Lt.
Proof. reflexivity. Qed.

Lemma mismatch_some a : forall b i, mismatch a b = Some i -> exists p x a' y b',
  a = p ++ x :: a' /\ b = p ++ y :: b' /\ x <> y /\ i = length p.
Proof.
  induction a as [|x a IH]; intros [|y b] i; simpl; try discriminate.
  destruct (Nat.eqb_spec x y) as [->|Hn].
  - destruct (mismatch a b) as [j|] eqn:E; [|discriminate]. intros X. injection X as <-.
    destruct (IH b j E) as (p & x & a' & z & b' & -> & -> & Hz & ->).
    exists (y :: p), x, a', z, b'. simpl. auto.
  - intros X. injection X as <-. exists [], x, a, y, b. simpl. auto.
Qed.
Lemma mismatch_none a : forall b, mismatch a b = None ->
  (length a <= length b -> b = a ++ skipn (length a) b) /\ (length b <= length a -> a = b ++ skipn (length b) a).
Proof.
  induction a as [|x a IH]; intros [|y b]; simpl; auto; try (split; auto; lia).
  destruct (Nat.eqb_spec x y) as [->|Hn]; [|discriminate].
  destruct (mismatch a b) eqn:E; [discriminate|]. intros _. destruct (IH b E) as [I1 I2].
  split; intros L; f_equal; [apply I1 | apply I2]; lia.
Qed.

Section RadixProofs.
  Context {T : Type}.
  Notation rt := (rtree T).
  Implicit Types (t n c : rt) (k s q : bytes) (v : option T) (x w : T) (b : nat).

  (** ** Contents and well-formedness. *)
  Definition pre {A} (k : bytes) (e : bytes * A) : bytes * A := (k ++ fst e, snd e).
  Definition own {A} (v : option A) : list (bytes * A) := match v with Some x => [([], x)] | None => [] end.
  Fixpoint rent {A} (t : rtree A) : list (bytes * A) :=
    match t with
    | RNil => []
    | RNode k v n c => map (pre k) (own v ++ rent c) ++ rent n
    end.
  Definition nent v c : list (bytes * T) := own v ++ rent c.
  Definition cont t : list (bytes * T) :=
    match t with RNil => [] | RNode k v _ c => map (pre k) (nent v c) end.

  Definition heads (t : rt) : list nat :=
    (fix go (t : rt) : list nat := match t with RNil => [] | RNode k _ n _ => hd 0 k :: go n end) t.
  Definition two (t : rt) : Prop := match t with RNode _ _ (RNode _ _ _ _) _ => True | _ => False end.
  Fixpoint wf (t : rt) : Prop :=
    match t with
    | RNil => True
    | RNode k v n c =>
        k <> [] /\ Forall (fun b => hd 0 k < b) (heads n) /\ (v = None -> two c) /\ wf n /\ wf c
    end.

  Lemma heads_node k v n c : heads (RNode k v n c) = hd 0 k :: heads n.
  Proof. reflexivity. Qed.

  Lemma in_own {A} (v : option A) s (w : A) : In (s, w) (own v) <-> s = [] /\ v = Some w.
  Proof.
    destruct v; simpl; split; [intros [E|[]]; injection E as <- <-; auto | intros [-> E]; injection E as ->; auto
      | tauto | intros [_ E]; discriminate].
  Qed.
  Lemma in_pre {A} k (l : list (bytes * A)) q (w : A) : In (q, w) (map (pre k) l) <-> exists s, q = k ++ s /\ In (s, w) l.
  Proof.
    rewrite in_map_iff. unfold pre. split.
    - intros ([s w'] & E & I). simpl in E. injection E as <- <-. eauto.
    - intros (s & -> & I). exists (s, w). auto.
  Qed.
  Lemma in_nent v c s w : In (s, w) (nent v c) <-> (s = [] /\ v = Some w) \/ In (s, w) (rent c).
  Proof. unfold nent. now rewrite in_app_iff, in_own. Qed.
  Lemma in_pre_app k (l : list (bytes * T)) s w : In (k ++ s, w) (map (pre k) l) <-> In (s, w) l.
  Proof.
    rewrite in_pre. split; [|eauto]. intros (s' & E & I). apply app_inv_head in E. now subst.
  Qed.

  Lemma rent_head t : wf t -> forall q w, In (q, w) (rent t) -> exists b s, q = b :: s /\ In b (heads t).
  Proof.
    induction t as [|k v n IHn c IHc]; intros W q w; [intros []|]. destruct W as (K & F & D & Wn & Wc).
    cbn [rent]. rewrite in_app_iff, heads_node. intros [I|I].
    - apply in_pre in I as (s & -> & _). destruct k as [|b k]; [contradiction|]. simpl. eauto.
    - destruct (IHn Wn q w I) as (b & s & -> & I'). simpl. eauto.
  Qed.

  Lemma rent_nonempty t : wf t -> t <> RNil -> rent t <> [].
  Proof.
    induction t as [|k v n IHn c IHc]; intros W N; [contradiction|]. destruct W as (K & F & D & Wn & Wc).
    cbn [rent]. destruct v as [y|]; [discriminate|]. simpl own. simpl.
    destruct c as [|ck cv cn cc]; [now specialize (D eq_refl)|].
    specialize (IHc Wc ltac:(discriminate)). destruct (rent (RNode ck cv cn cc)); [contradiction | discriminate].
  Qed.

  Lemma sorted_pre k (l : list (bytes * T)) : sorted l -> sorted (map (pre k) l).
  Proof.
    induction l as [|e l IH]; simpl; intros S; auto. apply sorted_cons in S as [G S].
    apply sorted_cons. split; auto. unfold all_gt in *. rewrite Forall_map. eapply Forall_impl; [|exact G].
    intros e' L. unfold pre. simpl. now rewrite bytes_cmp_app.
  Qed.

  Lemma nent_sorted v c : wf c -> sorted (rent c) -> sorted (nent v c).
  Proof.
    intros W S. unfold nent. destruct v as [y|]; auto. simpl. apply sorted_cons. split; auto.
    apply Forall_forall. intros [q w] I. destruct (rent_head c W q w I) as (b & s & -> & _). reflexivity.
  Qed.

  Lemma rent_sorted t : wf t -> sorted (rent t).
  Proof.
    induction t as [|k v n IHn c IHc]; intros W; [constructor|]. destruct W as (K & F & D & Wn & Wc).
    cbn [rent]. apply sorted_app. split; [apply sorted_pre, nent_sorted; auto|]. split; [auto|].
    intros [q w] [q' w'] I I'. apply in_pre in I as (s & -> & _).
    destruct (rent_head n Wn _ _ I') as (b & s' & -> & Ib).
    destruct k as [|b0 k]; [contradiction|]. simpl. apply bytes_cmp_cons.
    rewrite Forall_forall in F. now apply F.
  Qed.

  (** ** Finding a child. *)
  Fixpoint drop_to b t : rt :=
    match t with
    | RNil => RNil
    | RNode k v n c => if Nat.eqb (hd 0 k) b then t else drop_to b n
    end.
  Fixpoint graft b t (t' : rt) : rt :=
    match t with
    | RNil => t'
    | RNode k v n c => if Nat.eqb (hd 0 k) b then t' else RNode k v (graft b n t') c
    end.

  Lemma find_child_drop {A} (f : rt -> res A) b t : wf t -> find_child f b t = f (drop_to b t).
  Proof.
    induction t as [|k v n IHn c IHc]; intros W; [reflexivity|]. destruct W as (K & F & D & Wn & Wc).
    cbn [find_child drop_to]. destruct k as [|b0 k]; [contradiction|]. cbn [first_byte bind hd].
    destruct (b0 =? b); [reflexivity | apply (IHn Wn)].
  Qed.
  Lemma with_child_graft {A} (f : rt -> res (rt * A)) b t t' a : wf t -> f (drop_to b t) = Ok (t', a) ->
    with_child f b t = Ok (graft b t t', a).
  Proof.
    induction t as [|k v n IHn c IHc]; intros W E; [exact E|]. destruct W as (K & F & D & Wn & Wc).
    cbn [with_child drop_to graft] in *. destruct k as [|b0 k]; [contradiction|]. cbn [first_byte bind hd] in *.
    destruct (b0 =? b); auto. specialize (IHn Wn E). rewrite IHn. reflexivity.
  Qed.

  Lemma drop_to_head b t k v n c : drop_to b t = RNode k v n c -> hd 0 k = b.
  Proof.
    induction t as [|k0 v0 n0 IHn c0 IHc]; simpl; [discriminate|].
    destruct (Nat.eqb_spec (hd 0 k0) b) as [E|E]; auto. intros X. injection X as <- _ _ _. exact E.
  Qed.
  Lemma drop_to_wf b t : wf t -> wf (drop_to b t).
  Proof.
    induction t as [|k v n IHn c IHc]; simpl; auto. intros W. destruct (hd 0 k =? b); [exact W|]. apply IHn, W.
  Qed.
  Lemma drop_to_none b t : drop_to b t = RNil <-> ~ In b (heads t).
  Proof.
    induction t as [|k v n IHn c IHc]; [simpl; tauto|]. rewrite heads_node. cbn [drop_to].
    destruct (Nat.eqb_spec (hd 0 k) b) as [E|E]; simpl.
    - split; [discriminate | tauto].
    - rewrite IHn. split; tauto.
  Qed.
  Lemma graft_none b t : drop_to b t = RNil -> graft b t RNil = t.
  Proof.
    induction t as [|k v n IHn c IHc]; simpl; auto. destruct (hd 0 k =? b); [discriminate|].
    intros E. now rewrite (IHn E).
  Qed.

  Lemma rent_drop b t : wf t -> exists L R, rent t = L ++ cont (drop_to b t) ++ R /\
    (forall q w, In (q, w) L \/ In (q, w) R -> exists b' s, q = b' :: s /\ b' <> b).
  Proof.
    induction t as [|k v n IHn c IHc]; intros W.
    - exists [], []. split; [reflexivity|]. simpl. tauto.
    - destruct W as (K & F & D & Wn & Wc). cbn [rent drop_to]. destruct (Nat.eqb_spec (hd 0 k) b) as [E|E].
      + exists [], (rent n). cbn [cont app]. split; [reflexivity|]. intros q w [[]|I].
        destruct (rent_head n Wn q w I) as (b' & s & -> & Ib). rewrite Forall_forall in F. specialize (F _ Ib).
        exists b', s. split; [reflexivity | lia].
      + destruct (IHn Wn) as (L & R & E1 & H1). rewrite E1.
        exists (map (pre k) (nent v c) ++ L), R. split; [now rewrite <- app_assoc|].
        intros q w I. rewrite in_app_iff in I. destruct I as [[I|I]|I]; eauto.
        apply in_pre in I as (s & -> & _). destruct k as [|b0 k]; [contradiction|]. simpl in *. eauto.
  Qed.

  Lemma in_drop b t q w : wf t -> In (b :: q, w) (rent t) <-> In (b :: q, w) (cont (drop_to b t)).
  Proof.
    intros W. destruct (rent_drop b t W) as (L & R & E & H). rewrite E, !in_app_iff. split; [|tauto].
    intros [I|[I|I]]; auto; exfalso.
    - destruct (H (b :: q) w (or_introl I)) as (b' & s & E1 & Ne). congruence.
    - destruct (H (b :: q) w (or_intror I)) as (b' & s & E1 & Ne). congruence.
  Qed.

  (** Replacing the found child. *)
  Lemma graft_ok b t k v n c t1 : wf t -> drop_to b t = RNode k v n c ->
    wf t1 -> Forall (fun h => b <= h) (heads t1) ->
    (forall q w, hd 0 q <> b -> In (q, w) (rent t1) <-> In (q, w) (rent n)) ->
    wf (graft b t t1) /\ (forall lo, Forall (fun h => lo < h) (heads t) -> Forall (fun h => lo < h) (heads (graft b t t1))) /\
    (forall q w, In (q, w) (rent (graft b t t1)) <->
                 (hd 0 q = b /\ In (q, w) (rent t1)) \/ (hd 0 q <> b /\ In (q, w) (rent t))).
  Proof.
    intros W Dr W1 H1 R1. induction t as [|k0 v0 n0 IHn c0 IHc]; [discriminate|].
    pose proof W as (K & F & D & Wn & Wc). cbn [drop_to graft] in *.
    destruct (Nat.eqb_spec (hd 0 k0) b) as [E|E].
    - injection Dr as -> -> -> ->. split; [exact W1|]. split.
      + intros lo Fl. rewrite heads_node in Fl. inversion_clear Fl. eapply Forall_impl; [|exact H1]. simpl. lia.
      + intros q w. destruct (Nat.eq_dec (hd 0 q) b) as [Eq|Nq].
        * split; [intros I; left; auto | intros [[_ I]|[N _]]; [exact I | contradiction]].
        * rewrite (R1 q w Nq). cbn [rent]. rewrite in_app_iff. split; [intros I; right; split; [exact Nq | now right]|].
          intros [[N _]|[_ [I|I]]]; [contradiction | | exact I].
          apply in_pre in I as (s & -> & _). destruct k as [|b0 k]; [contradiction|]. simpl in *. congruence.
    - destruct (IHn Wn Dr) as (G1 & G2 & G3). split; [|split].
      + cbn [wf]. repeat (split; auto).
      + intros lo Fl. rewrite heads_node in *. inversion_clear Fl. constructor; auto.
      + intros q w. cbn [rent]. rewrite !in_app_iff, G3. split.
        * intros [I|[[A B]|[A B]]]; auto. right. split; [|now left].
          apply in_pre in I as (s & -> & _). destruct k0 as [|b0 k0]; [contradiction|]. simpl in *. congruence.
        * intros [[A B]|[A [B|B]]]; auto.
  Qed.

  Lemma graft_two b t k v n c k' v' c' : drop_to b t = RNode k v n c -> two t -> two (graft b t (RNode k' v' n c')).
  Proof.
    destruct t as [|k0 v0 n0 c0]; simpl; [discriminate|]. destruct (hd 0 k0 =? b).
    - intros E. injection E as -> -> -> ->. destruct n; simpl; auto.
    - destruct n0 as [|k1 v1 n1 c1]; [simpl; discriminate|]. simpl. destruct (hd 0 k1 =? b); auto.
  Qed.

  (** ** insert_child and split. *)
  Lemma insert_child_ok t nk nv nc : wf t -> nk <> [] -> ~ In (hd 0 nk) (heads t) -> wf nc -> (nv = None -> two nc) ->
    exists t', insert_child t nk nv nc = Ok t' /\ wf t' /\ (t <> RNil -> two t') /\
      (forall lo, lo < hd 0 nk -> Forall (fun h => lo < h) (heads t) -> Forall (fun h => lo < h) (heads t')) /\
      (forall q w, In (q, w) (rent t') <-> (exists s, q = nk ++ s /\ In (s, w) (nent nv nc)) \/ In (q, w) (rent t)).
  Proof.
    intros W NE NI Wc D. induction t as [|k0 v0 n0 IHn c0 IHc].
    - eexists; split; [reflexivity|]. split; [cbn [wf]; repeat (split; auto); constructor|]. split; [congruence|].
      split; [intros lo L _; constructor; auto; constructor|]. intros q w. cbn [rent].
      rewrite app_nil_r, in_pre. simpl. tauto.
    - pose proof W as (K & F & D0 & Wn & Wc0). rewrite heads_node in NI. cbn [insert_child].
      destruct k0 as [|b0 k0]; [contradiction|]. destruct nk as [|m0 nk]; [contradiction|]. cbn [first_byte bind hd] in *.
      destruct (Nat.ltb_spec m0 b0) as [L|L].
      + eexists; split; [reflexivity|]. split; [|split; [|split]].
        * cbn [wf]. split; [discriminate|]. split; [|auto]. rewrite heads_node. constructor; auto.
          eapply Forall_impl; [|exact F]. simpl. intros. lia.
        * intros _. exact I.
        * intros lo Hl Fl. rewrite heads_node. constructor; auto.
        * intros q w. cbn [rent]. rewrite in_app_iff, in_pre. reflexivity.
      + assert (L' : b0 < m0). { assert (m0 <> b0) by (intros ->; apply NI; now left). lia. }
        destruct IHn as (n' & E & W' & Tw & H' & R'); auto; [intros X; apply NI; now right|].
        rewrite E. cbn [bind]. eexists; split; [reflexivity|]. split; [|split; [|split]].
        * cbn [wf]. split; [discriminate|]. split; [now apply H'|]. auto.
        * intros _. destruct n'; [|exact I]. exfalso.
          destruct (nent nv nc) as [|[s w] l] eqn:En.
          -- unfold nent in En. apply app_eq_nil in En as [En1 En2]. destruct nv; [discriminate|].
             specialize (D eq_refl). destruct nc; [contradiction|]. now apply (rent_nonempty _ Wc) in En2.
          -- assert (I1 : In ((m0 :: nk) ++ s, w) (rent (RNil : rt))).
             { apply R'. left. exists s. split; [reflexivity | simpl; auto]. }
             destruct I1.
        * intros lo Hl Fl. rewrite heads_node in *. inversion_clear Fl. constructor; auto.
        * intros q w. cbn [rent]. rewrite !in_app_iff, R'. tauto.
  Qed.

  (** ** Operations on a node.  [changed R t s]: the content of a node after the call, pointwise. *)
  Definition ncond k v c : Prop := k <> [] -> v = None -> two c.

  Lemma rent_functional t s w w' : wf t -> In (s, w) (rent t) -> In (s, w') (rent t) -> w = w'.
  Proof.
    intros W I I'. assert (E : (s, w) = (s, w')).
    { apply (sorted_key_inj (rent t)); auto using rent_sorted. apply cmp_refl. }
    congruence.
  Qed.
  Lemma nent_functional v c s w w' : wf c -> In (s, w) (nent v c) -> In (s, w') (nent v c) -> w = w'.
  Proof.
    intros W I I'. assert (E : (s, w) = (s, w')).
    { apply (sorted_key_inj (nent v c)); auto using nent_sorted, rent_sorted. apply cmp_refl. }
    congruence.
  Qed.

  Lemma rent_not_nil t w : wf t -> ~ In ([], w) (rent t).
  Proof. intros W I. now destruct (rent_head t W _ _ I) as (b & s & E & _). Qed.

  Lemma node_cases k s : (exists i, mismatch k s = Some i /\ exists (p : bytes) (z : nat) (a' : bytes) (y : nat) (b' : bytes),
      k = p ++ z :: a' /\ s = p ++ y :: b' /\ z <> y /\ i = length p) \/
    (mismatch k s = None /\
      ((exists b s', s = k ++ b :: s' /\ Nat.compare (length k) (length s) = Lt /\ skipn (length k) s = b :: s') \/
       (exists b k', k = s ++ b :: k' /\ Nat.compare (length k) (length s) = Gt /\ skipn (length s) k = b :: k' /\ firstn (length s) k = s) \/
       (k = s /\ Nat.compare (length k) (length s) = Eq))).
  Proof.
    destruct (mismatch k s) as [i|] eqn:E.
    - left. exists i. split; auto. now apply mismatch_some.
    - right. split; auto. apply mismatch_none in E as [E1 E2].
      destruct (Nat.compare_spec (length k) (length s)) as [C|C|C].
      + right. right. split; auto. rewrite E1 by lia. rewrite (skipn_all2 s) by lia. now rewrite app_nil_r.
      + left. specialize (E1 ltac:(lia)). remember (skipn (length k) s) as r eqn:Er.
        destruct r as [|b r]; [|eauto].
        rewrite app_nil_r in E1. rewrite E1 in C. lia.
      + right. left. specialize (E2 ltac:(lia)). remember (skipn (length s) k) as r eqn:Er.
        destruct r as [|b r]; [rewrite app_nil_r in E2; rewrite E2 in C; lia|].
        exists b, r. repeat split; auto. rewrite E2. rewrite firstn_app, Nat.sub_diag. simpl.
        now rewrite app_nil_r, firstn_all.
  Qed.

  Definition ins_node t : Prop :=
    match t with
    | RNil => True
    | RNode k v n c => wf c -> ncond k v c -> forall s x, exists k' v' c' old,
        r_insert (RNode k v n c) s x = Ok (RNode k' v' n c', old) /\
        (forall q w, In (q, w) (map (pre k') (nent v' c')) <->
                     (q = s /\ w = x) \/ (q <> s /\ In (q, w) (map (pre k) (nent v c)))) /\
        (forall w, old = Some w <-> In (s, w) (map (pre k) (nent v c))) /\
        wf c' /\ ncond k' v' c' /\
        (k <> [] -> s <> [] -> hd 0 k = hd 0 s -> k' <> [] /\ hd 0 k' = hd 0 k)
    end.

  Lemma not_in_pre k (p : bytes) (z : nat) a' y (b' : bytes) w (l : list (bytes * T)) : k = p ++ z :: a' -> z <> y -> ~ In (p ++ y :: b', w) (map (pre k) l).
  Proof.
    intros -> N I. apply in_pre in I as (s & E & _). rewrite <- app_assoc in E. apply app_inv_head in E.
    simpl in E. congruence.
  Qed.

  Lemma node_split_eq k v c i : skipn i k <> [] -> node_split k v c i = Ok (firstn i k, RNode (skipn i k) v RNil c).
  Proof. reflexivity. Qed.

  Lemma r_insert_ok_all t : ins_node t /\ forall b, ins_node (drop_to b t).
  Proof.
    induction t as [|k v n IHn c IHc]; [simpl; auto|].
    assert (M : ins_node (RNode k v n c)).
    { intros Wc NC s x. cbn [r_insert].
      destruct (node_cases k s) as [(i & -> & p & a & k1 & y & s1 & -> & -> & Ny & ->)
        | (-> & [(b & s1 & -> & -> & ->) | [(b & k1 & Ek & -> & Sk & Fk) | (<- & ->)]])].
      - (* split inside the key *)
        assert (S1 : skipn (length p) (p ++ a :: k1) = a :: k1) by (rewrite skipn_app, skipn_all, Nat.sub_diag; reflexivity).
        assert (S2 : skipn (length p) (p ++ y :: s1) = y :: s1) by (rewrite skipn_app, skipn_all, Nat.sub_diag; reflexivity).
        rewrite node_split_eq by (rewrite S1; discriminate). cbn [bind]. rewrite S1, S2.
        assert (F1 : firstn (length p) (p ++ a :: k1) = p).
        { rewrite firstn_app, Nat.sub_diag, firstn_all. simpl. now rewrite app_nil_r. }
        rewrite F1.
        assert (D : v = None -> two c) by (intros V; apply NC; auto; now destruct p).
        assert (W1 : wf (RNode (a :: k1) v RNil c)) by (cbn [wf]; repeat (split; auto; try discriminate); constructor).
        destruct (insert_child_ok (RNode (a :: k1) v RNil c) (y :: s1) (Some x) RNil) as (c2 & E & W2 & Tw & _ & R2);
          auto; try discriminate; [simpl; intros [X|[]]; congruence | exact I |].
        rewrite E. cbn [bind]. exists p, None, c2, None. split; [reflexivity|]. split; [|split; [|split; [|split]]].
        + intros q w. rewrite !in_pre. split.
          * intros (s & -> & I). apply in_nent in I as [[_ X]|I]; [discriminate|]. apply R2 in I as [(s2 & -> & I)|I].
            -- apply in_nent in I as [[-> X]|[]]. injection X as ->. left. now rewrite app_nil_r.
            -- right. cbn [rent] in I. rewrite app_nil_r in I. apply in_pre in I as (s2 & -> & I). split.
               ++ intros X. apply app_inv_head in X. simpl in X. congruence.
               ++ exists s2. split; [now rewrite <- app_assoc | exact I].
          * intros [[-> ->]|[N (s2 & -> & I)]].
            -- exists (y :: s1). split; auto. apply in_nent. right. apply R2. left. exists [].
               rewrite app_nil_r. split; auto. apply in_nent. auto.
            -- exists ((a :: k1) ++ s2). split; [now rewrite <- app_assoc|]. apply in_nent. right. apply R2. right.
               cbn [rent]. rewrite app_nil_r. apply in_pre. eauto.
        + intros w. split; [discriminate|]. intros I. exfalso. eapply not_in_pre; [reflexivity | exact Ny | exact I].
        + exact W2.
        + intros _ _. apply Tw. discriminate.
        + intros _ _. destruct p; simpl; [intros X; congruence|]. split; [discriminate | reflexivity].
      - (* go down *)
        cbn [first_byte bind]. rewrite find_child_drop by exact Wc. cbn [bind].
        destruct (drop_to b c) as [|kb vb nb cb] eqn:Eb; cbn [is_rnil negb].
        + destruct (insert_child_ok c (b :: s1) (Some x) RNil) as (c2 & E & W2 & Tw & _ & R2);
            auto; try discriminate; [now apply drop_to_none | exact I |].
          rewrite E. cbn [bind]. exists k, v, c2, None. split; [reflexivity|]. split; [|split; [|split; [|split]]].
          * intros q w. rewrite !in_pre. split.
            -- intros (s & -> & I). apply in_nent in I as [[-> X]|I].
               ++ right. split; [intros Y; rewrite app_nil_r in Y; rewrite <- (app_nil_r k) in Y at 1;
                    apply app_inv_head in Y; discriminate|]. exists []. split; auto. apply in_nent. auto.
               ++ apply R2 in I as [(s2 & -> & I)|I].
                  ** apply in_nent in I as [[-> X]|[]]. injection X as ->. left. now rewrite app_nil_r.
                  ** right. split; [|exists s; split; auto; apply in_nent; auto].
                     intros X. apply app_inv_head in X. subst s. apply in_drop in I; auto. now rewrite Eb in I.
            -- intros [[-> ->]|[N (s & -> & I)]].
               ++ exists (b :: s1). split; auto. apply in_nent. right. apply R2. left. exists [].
                  rewrite app_nil_r. split; auto. apply in_nent. auto.
               ++ exists s. split; auto. apply in_nent in I as [I|I]; apply in_nent; auto. right. apply R2. auto.
          * intros w. split; [discriminate|]. intros I. exfalso. apply in_pre_app in I.
            apply in_nent in I as [[X _]|I]; [discriminate|]. apply in_drop in I; auto. now rewrite Eb in I.
          * exact W2.
          * intros NK V. specialize (NC NK V). apply Tw. now destruct c.
          * auto.
        + pose proof (drop_to_wf b c Wc) as Wb. rewrite Eb in Wb. destruct Wb as (Kb & Fb & Db & Wnb & Wcb).
          pose proof (drop_to_head _ _ _ _ _ _ Eb) as Hb.
          pose proof (proj2 IHc b) as A. rewrite Eb in A.
          destruct (A Wcb (fun _ => Db) (b :: s1) x) as (k' & v' & c' & old & E & R & O & Wc' & NC' & Hd).
          destruct (Hd Kb ltac:(discriminate) Hb) as [Kne Hk']. clear Hd.
          rewrite <- Eb in E. rewrite (with_child_graft _ _ _ _ _ Wc E). cbn [bind].
          assert (W1 : wf (RNode k' v' nb c')).
          { cbn [wf]. split; [exact Kne|]. split; [rewrite Hk'; exact Fb|]. split; [intros V; now apply NC'|]. auto. }
          destruct (graft_ok b c kb vb nb cb (RNode k' v' nb c') Wc Eb W1) as (G1 & G2 & G3).
          { rewrite heads_node, Hk', Hb. constructor; auto. eapply Forall_impl; [|exact Fb]. simpl. intros; lia. }
          { intros q w Nq. cbn [rent]. rewrite in_app_iff. split; [|auto]. intros [I|I]; auto. exfalso.
            apply in_pre in I as (s & -> & _). destruct k'; [contradiction|]. simpl in *. congruence. }
          assert (RN : forall q w, In (q, w) (rent (RNode k' v' nb c')) <-> In (q, w) (map (pre k') (nent v' c')) \/ In (q, w) (rent nb)).
          { intros q w. cbn [rent]. now rewrite in_app_iff. }
          assert (NB : forall q w, hd 0 q = b -> ~ In (q, w) (rent nb)).
          { intros q w Hq I. destruct (rent_head nb Wnb q w I) as (h & s & -> & Ih). simpl in Hq. subst h.
            rewrite Forall_forall in Fb. specialize (Fb _ Ih). lia. }
          exists k, v, (graft b c (RNode k' v' nb c')), old. split; [reflexivity|]. split; [|split; [|split; [|split]]].
          * intros q w. rewrite !in_pre. split.
            -- intros (s & -> & I). apply in_nent in I as [[-> X]|I].
               ++ right. split; [intros Y; rewrite app_nil_r in Y; rewrite <- (app_nil_r k) in Y at 1;
                    apply app_inv_head in Y; discriminate|]. exists []. split; auto. apply in_nent. auto.
               ++ apply G3 in I as [[Hs I]|[Hs I]].
                  ** apply RN in I as [I|I]; [|now apply NB in I]. apply R in I as [[-> ->]|[Ns I]]; [auto|].
                     right. split; [intros X; apply app_inv_head in X; contradiction|]. exists s. split; auto.
                     apply in_nent. right. assert (I2 : In (s, w) (cont (drop_to b c))) by (now rewrite Eb).
                     destruct s as [|b' s']; [apply in_pre in I as (z & Z & _); now destruct kb|].
                     simpl in Hs. subst b'. now apply in_drop.
                  ** right. split; [intros X; apply app_inv_head in X; subst s; now apply Hs|]. exists s. split; auto.
                     apply in_nent. auto.
            -- intros [[-> ->]|[N (s & -> & I)]].
               ++ exists (b :: s1). split; auto. apply in_nent. right. apply G3. left. split; auto. apply RN. left.
                  apply R. auto.
               ++ exists s. split; auto. apply in_nent in I as [I|I]; apply in_nent; auto. right. apply G3.
                  destruct (Nat.eq_dec (hd 0 s) b) as [Hs|Hs]; [left|right; auto]. split; auto. apply RN. left.
                  apply R. right. split; [congruence|]. destruct s as [|b' s']; [now apply rent_not_nil in I|].
                  simpl in Hs. subst b'. apply in_drop in I; auto. now rewrite Eb in I.
          * intros w. rewrite in_pre_app, in_nent, O. rewrite (in_drop b c s1 w Wc), Eb. simpl cont.
            split; [auto | intros [[X _]|I]; [discriminate | exact I]].
          * exact G1.
          * intros NK V. specialize (NC NK V). eapply graft_two; eauto.
          * auto.
      - (* the key ends inside this node's key *)
        rewrite node_split_eq by (rewrite Sk; discriminate). cbn [bind]. rewrite Sk, Fk.
        exists s, (Some x), (RNode (b :: k1) v RNil c), None. split; [reflexivity|].
        assert (D : v = None -> two c) by (intros V; apply NC; auto; rewrite Ek; now destruct s).
        split; [|split; [|split; [|split]]].
        + intros q w. rewrite !in_pre. split.
          * intros (s2 & -> & I). apply in_nent in I as [[-> X]|I].
            -- injection X as ->. left. now rewrite app_nil_r.
            -- right. cbn [rent] in I. rewrite app_nil_r in I. apply in_pre in I as (s3 & -> & I). split.
               ++ intros X. rewrite <- (app_nil_r s) in X at 2. apply app_inv_head in X. discriminate.
               ++ exists s3. rewrite Ek, <- app_assoc. auto.
          * intros [[-> ->]|[N (s2 & -> & I)]].
            -- exists []. rewrite app_nil_r. split; auto. apply in_nent. auto.
            -- exists ((b :: k1) ++ s2). rewrite Ek, <- app_assoc. split; auto. apply in_nent. right.
               cbn [rent]. rewrite app_nil_r. apply in_pre. eauto.
        + intros w. split; [discriminate|]. intros I. exfalso. apply in_pre in I as (s2 & E & _).
          rewrite Ek, <- app_assoc in E. rewrite <- (app_nil_r s) in E at 1. apply app_inv_head in E. discriminate.
        + cbn [wf]. repeat (split; auto; try discriminate); constructor.
        + intros _ X. discriminate.
        + intros K0 S0 _. split; auto. rewrite Ek. now destruct s.
      - (* this node *)
        exists k, (Some x), c, v. split; [reflexivity|]. split; [|split; [|split; [|split]]]; auto.
        + intros q w. rewrite !in_pre. split.
          * intros (s2 & -> & I). apply in_nent in I as [[-> X]|I].
            -- injection X as ->. left. now rewrite app_nil_r.
            -- right. split; [|exists s2; split; auto; apply in_nent; auto]. intros X.
               rewrite <- (app_nil_r k) in X at 2. apply app_inv_head in X. subst. now apply rent_not_nil in I.
          * intros [[-> ->]|[N (s2 & -> & I)]].
            -- exists []. rewrite app_nil_r. split; auto. apply in_nent. auto.
            -- exists s2. split; auto. apply in_nent in I as [[-> X]|I]; apply in_nent; auto.
               rewrite app_nil_r in N. contradiction.
        + intros w. rewrite <- (app_nil_r k) at 1. rewrite in_pre_app, in_nent. split; auto.
          intros [[_ X]|I]; [auto | now apply rent_not_nil in I].
        + intros _ X. discriminate. }
    split; [exact M|]. intros b. cbn [drop_to]. destruct (hd 0 k =? b); [exact M | apply IHn].
  Qed.

  (** ** get. *)
  Definition get_node t : Prop :=
    match t with
    | RNil => True
    | RNode k v n c => wf c -> forall s, exists o, r_get (RNode k v n c) s = Ok o /\
        (forall w, o = Some w <-> In (s, w) (map (pre k) (nent v c)))
    end.

  Lemma not_in_long k s b k1 w (l : list (bytes * T)) : k = s ++ b :: k1 -> ~ In (s, w) (map (pre k) l).
  Proof.
    intros -> I. apply in_pre in I as (s2 & E & _). rewrite <- app_assoc in E.
    rewrite <- (app_nil_r s) in E at 1. apply app_inv_head in E. discriminate.
  Qed.

  Lemma in_self k v c w : wf c -> In (k, w) (map (pre k) (nent v c)) <-> v = Some w.
  Proof.
    intros W. rewrite <- (app_nil_r k) at 1. rewrite in_pre_app, in_nent. split; auto.
    intros [[_ X]|I]; [auto | now apply rent_not_nil in I].
  Qed.

  Lemma in_down k v c b s w : wf c -> In (k ++ b :: s, w) (map (pre k) (nent v c)) <-> In (b :: s, w) (cont (drop_to b c)).
  Proof.
    intros W. rewrite in_pre_app, in_nent, (in_drop b c s w W). split; auto.
    intros [[X _]|I]; [discriminate | exact I].
  Qed.

  Lemma r_get_ok_all t : get_node t /\ forall b, get_node (drop_to b t).
  Proof.
    induction t as [|k v n IHn c IHc]; [simpl; auto|].
    assert (M : get_node (RNode k v n c)).
    { intros Wc s. cbn [r_get].
      destruct (node_cases k s) as [(i & -> & p & a & k1 & y & s1 & -> & -> & Ny & ->)
        | (-> & [(b & s1 & -> & -> & ->) | [(b & k1 & Ek & -> & Sk & Fk) | (<- & ->)]])].
      - exists None. split; [reflexivity|]. intros w. split; [discriminate|]. intros I.
        exfalso. eapply not_in_pre; [reflexivity | exact Ny | exact I].
      - cbn [first_byte bind]. rewrite find_child_drop by exact Wc.
        pose proof (proj2 IHc b) as A. pose proof (drop_to_wf b c Wc) as Wb.
        destruct (drop_to b c) as [|kb vb nb cb] eqn:Eb.
        + exists None. split; [reflexivity|]. intros w. split; [discriminate|]. rewrite in_down by auto. rewrite Eb. intros [].
        + destruct (A (proj2 (proj2 (proj2 (proj2 Wb)))) (b :: s1)) as (o & E & O). exists o. split; [exact E|].
          intros w. rewrite in_down by auto. rewrite Eb. apply O.
      - exists None. split; [reflexivity|]. intros w. split; [discriminate|]. intros I.
        exfalso. eapply not_in_long; eauto.
      - exists v. split; [reflexivity|]. intros w. now rewrite in_self. }
    split; [exact M|]. intros b. cbn [drop_to]. destruct (hd 0 k =? b); [exact M | apply IHn].
  Qed.

  (** ** get_mut: shapes. *)
  Fixpoint rshape {A} (t : rtree A) : rtree unit :=
    match t with RNil => RNil | RNode k v n c => RNode k (option_map (fun _ => tt) v) (rshape n) (rshape c) end.

  Lemma rshape_heads t t' : rshape t = rshape t' -> heads t = heads t'.
  Proof.
    revert t'. induction t as [|k v n IHn c IHc]; intros [|k' v' n' c'] E; try discriminate E; auto.
    injection E as -> _ En _. rewrite !heads_node. f_equal. now apply IHn.
  Qed.
  Lemma rshape_two t t' : rshape t = rshape t' -> two t -> two t'.
  Proof.
    destruct t as [|k v [|k1 v1 n1 c1] c], t' as [|k' v' [|k1' v1' n1' c1'] c']; simpl; auto; discriminate.
  Qed.
  Lemma rshape_wf t t' : rshape t = rshape t' -> wf t -> wf t'.
  Proof.
    revert t'. induction t as [|k v n IHn c IHc]; intros [|k' v' n' c']; simpl; try discriminate; auto.
    intros E. injection E as -> Ev En Ec. intros (K & F & D & Wn & Wc). split; auto.
    rewrite <- (rshape_heads _ _ En). split; auto. split; [|split; auto].
    intros ->. eapply rshape_two; [exact Ec|]. apply D. now destruct v.
  Qed.

  Definition gm_node t : Prop :=
    match t with
    | RNil => True
    | RNode k v n c => wf c -> forall s x, exists v' c' old,
        r_get_mut_set (RNode k v n c) s x = Ok (RNode k v' n c', old) /\
        (forall w, old = Some w <-> In (s, w) (map (pre k) (nent v c))) /\
        option_map (fun _ => tt) v' = option_map (fun _ => tt) v /\ rshape c' = rshape c /\
        (forall q w, In (q, w) (map (pre k) (nent v' c')) <->
                     (q = s /\ w = x /\ old <> None) \/ (q <> s /\ In (q, w) (map (pre k) (nent v c))))
    end.

  Lemma graft_shape b t k v n c v' c' : drop_to b t = RNode k v n c ->
    option_map (fun _ => tt) v' = option_map (fun _ => tt) v -> rshape c' = rshape c ->
    rshape (graft b t (RNode k v' n c')) = rshape t.
  Proof.
    intros Dr Ev Ec. induction t as [|k0 v0 n0 IHn c0 IHc]; [discriminate|]. cbn [drop_to graft] in *.
    destruct (hd 0 k0 =? b).
    - injection Dr as -> -> -> ->. simpl. now rewrite Ev, Ec.
    - simpl. now rewrite IHn.
  Qed.

  Lemma r_get_mut_ok_all t : gm_node t /\ forall b, gm_node (drop_to b t).
  Proof.
    induction t as [|k v n IHn c IHc]; [simpl; auto|].
    assert (M : gm_node (RNode k v n c)).
    { intros Wc s x. cbn [r_get_mut_set].
      destruct (node_cases k s) as [(i & -> & p & a & k1 & y & s1 & -> & -> & Ny & ->)
        | (-> & [(b & s1 & -> & -> & ->) | [(b & k1 & Ek & -> & Sk & Fk) | (<- & ->)]])].
      - exists v, c, None. split; [reflexivity|]. split; [|split; [auto|split; [auto|]]].
        + intros w. split; [discriminate|]. intros I. exfalso. eapply not_in_pre; [reflexivity | exact Ny | exact I].
        + intros q w. split; [|intros [(_ & _ & N)|[_ I]]; [congruence | exact I]].
          intros I. right. split; [|exact I]. intros ->. eapply not_in_pre; [reflexivity | exact Ny | exact I].
      - cbn [first_byte bind]. pose proof (proj2 IHc b) as A. pose proof (drop_to_wf b c Wc) as Wb.
        destruct (drop_to b c) as [|kb vb nb cb] eqn:Eb.
        + rewrite (with_child_graft _ b c RNil None Wc) by (now rewrite Eb). cbn [bind]. rewrite graft_none by exact Eb.
          exists v, c, None. split; [reflexivity|]. split; [|split; [auto|split; [auto|]]].
          * intros w. split; [discriminate|]. rewrite in_down by auto. rewrite Eb. intros [].
          * intros q w. split; [|intros [(_ & _ & N)|[_ I]]; [congruence | exact I]].
            intros I. right. split; [|exact I]. intros ->. apply in_down in I; auto. now rewrite Eb in I.
        + pose proof (drop_to_head _ _ _ _ _ _ Eb) as Hb. destruct Wb as (Kb & Fb & Db & Wnb & Wcb).
          destruct (A Wcb (b :: s1) x) as (v' & c' & old & E & O & Sv & Sc & R).
          rewrite <- Eb in E. rewrite (with_child_graft _ _ _ _ _ Wc E). cbn [bind].
          pose proof (graft_shape b c kb vb nb cb v' c' Eb Sv Sc) as GS.
          assert (W1 : wf (RNode kb v' nb c')).
          { apply rshape_wf with (RNode kb vb nb cb); [simpl; now rewrite Sv, Sc|]. cbn [wf]. auto 10. }
          destruct (graft_ok b c kb vb nb cb (RNode kb v' nb c') Wc Eb W1) as (G1 & G2 & G3).
          { rewrite heads_node, Hb. constructor; auto. eapply Forall_impl; [|exact Fb]. simpl. intros; lia. }
          { intros q w Nq. cbn [rent]. rewrite in_app_iff. split; [|auto]. intros [I|I]; auto. exfalso.
            apply in_pre in I as (s & -> & _). destruct kb; [contradiction|]. simpl in *. congruence. }
          assert (RN : forall q w, In (q, w) (rent (RNode kb v' nb c')) <-> In (q, w) (map (pre kb) (nent v' c')) \/ In (q, w) (rent nb)).
          { intros q w. cbn [rent]. now rewrite in_app_iff. }
          assert (NB : forall q w, hd 0 q = b -> ~ In (q, w) (rent nb)).
          { intros q w Hq I. destruct (rent_head nb Wnb q w I) as (h & s & -> & Ih). simpl in Hq. subst h.
            rewrite Forall_forall in Fb. specialize (Fb _ Ih). lia. }
          exists v, (graft b c (RNode kb v' nb c')), old. split; [reflexivity|].
          split; [|split; [auto|split; [exact GS|]]].
          * intros w. rewrite in_down by auto. rewrite Eb. apply O.
          * intros q w. rewrite !in_pre. split.
            -- intros (s & -> & I). apply in_nent in I as [[-> X]|I].
               ++ right. split; [intros Y; rewrite app_nil_r in Y; rewrite <- (app_nil_r k) in Y at 1;
                    apply app_inv_head in Y; discriminate|]. exists []. split; auto. apply in_nent. auto.
               ++ apply G3 in I as [[Hs I]|[Hs I]].
                  ** apply RN in I as [I|I]; [|now apply NB in I]. apply R in I as [(-> & -> & No)|[Ns I]]; [auto|].
                     right. split; [intros X; apply app_inv_head in X; contradiction|]. exists s. split; auto.
                     apply in_nent. right. assert (I2 : In (s, w) (cont (drop_to b c))) by (now rewrite Eb).
                     destruct s as [|b' s']; [apply in_pre in I as (z & Z & _); now destruct kb|].
                     simpl in Hs. subst b'. now apply in_drop.
                  ** right. split; [intros X; apply app_inv_head in X; subst s; now apply Hs|]. exists s. split; auto.
                     apply in_nent. auto.
            -- intros [(-> & -> & No)|[N (s & -> & I)]].
               ++ exists (b :: s1). split; auto. apply in_nent. right. apply G3. left. split; auto. apply RN. left.
                  apply R. auto.
               ++ exists s. split; auto. apply in_nent in I as [I|I]; apply in_nent; auto. right. apply G3.
                  destruct (Nat.eq_dec (hd 0 s) b) as [Hs|Hs]; [left|right; auto]. split; auto. apply RN. left.
                  apply R. right. split; [congruence|]. destruct s as [|b' s']; [now apply rent_not_nil in I|].
                  simpl in Hs. subst b'. apply in_drop in I; auto. now rewrite Eb in I.
      - exists v, c, None. split; [reflexivity|]. split; [|split; [auto|split; [auto|]]].
        + intros w. split; [discriminate|]. intros I. exfalso. eapply not_in_long; eauto.
        + intros q w. split; [|intros [(_ & _ & N)|[_ I]]; [congruence | exact I]].
          intros I. right. split; [|exact I]. intros ->. eapply not_in_long; eauto.
      - exists (option_map (fun _ => x) v), c, v. split; [reflexivity|]. split; [|split; [|split; [auto|]]].
        + intros w. now rewrite in_self.
        + now destruct v.
        + intros q w. rewrite !in_pre. split.
          * intros (s2 & -> & I). apply in_nent in I as [[-> X]|I].
            -- left. rewrite app_nil_r. destruct v; [|discriminate]. injection X as ->. repeat split; congruence.
            -- right. split; [|exists s2; split; auto; apply in_nent; auto]. intros X.
               rewrite <- (app_nil_r k) in X at 2. apply app_inv_head in X. subst. now apply rent_not_nil in I.
          * intros [(-> & -> & No)|[N (s2 & -> & I)]].
            -- exists []. rewrite app_nil_r. split; auto. apply in_nent. left. destruct v; [auto | congruence].
            -- exists s2. split; auto. apply in_nent in I as [[-> X]|I]; apply in_nent; auto.
               rewrite app_nil_r in N. contradiction. }
    split; [exact M|]. intros b. cbn [drop_to]. destruct (hd 0 k =? b); [exact M | apply IHn].
  Qed.

  (** ** remove. *)
  Definition rm_tree n (r : option (bytes * option T * rt)) : rt :=
    match r with None => n | Some (k', v', c') => RNode k' v' n c' end.
  Definition rm_cont (r : option (bytes * option T * rt)) : list (bytes * T) :=
    match r with None => [] | Some (k', v', c') => map (pre k') (nent v' c') end.
  Definition rm_good k (r : option (bytes * option T * rt)) : Prop :=
    match r with
    | None => True
    | Some (k', v', c') => wf c' /\ (v' = None -> two c') /\ (exists z, k' = k ++ z)
    end.

  Lemma finish_ok k v n c : wf c -> exists r,
    (let '(k', v', c') := node_merge k v c in
     if negb (is_some v') && is_rnil c' then n else RNode k' v' n c') = rm_tree n r /\
    rm_good k r /\ rm_cont r = map (pre k) (nent v c) /\ (r = None -> rm_cont r = []).
  Proof.
    intros W. destruct c as [|ck cv cn cc].
    - cbn [node_merge]. destruct v as [y|]; cbn [is_some negb andb is_rnil].
      + exists (Some (k, Some y, RNil)). repeat split; auto; try discriminate. exists []. now rewrite app_nil_r.
      + exists None. repeat split; auto.
    - cbn [node_merge]. pose proof W as (K & F & D & Wn & Wc). destruct (negb (is_some v) && is_rnil cn) eqn:B.
      + apply Bool.andb_true_iff in B as [B1 B2]. destruct v; [discriminate|]. destruct cn; [|discriminate].
        assert (E : map (pre (k ++ ck)) (nent cv cc) = map (pre k) (nent None (RNode ck cv RNil cc))).
        { unfold nent. simpl own. simpl app. cbn [rent]. rewrite app_nil_r, map_map. apply map_ext. intros e. unfold pre. simpl.
          now rewrite app_assoc. }
        destruct (negb (is_some cv) && is_rnil cc) eqn:B3.
        { apply Bool.andb_true_iff in B3 as [B3 B4]. destruct cv; [discriminate|]. specialize (D eq_refl). now destruct cc. }
        exists (Some (k ++ ck, cv, cc)). repeat split; auto; [eauto | discriminate].
      + assert (B2 : negb (is_some v) && is_rnil (RNode ck cv cn cc) = false) by (simpl; now rewrite Bool.andb_false_r).
        rewrite B2. exists (Some (k, v, RNode ck cv cn cc)).
        split; [reflexivity|]. split; [|split; [auto|discriminate]]. split; [exact W|]. split.
        * intros ->. simpl in B. destruct cn; [discriminate | exact I].
        * exists []. now rewrite app_nil_r.
  Qed.

  Definition rm_node t : Prop :=
    match t with
    | RNil => True
    | RNode k v n c => wf c -> ncond k v c -> forall s, exists r old,
        r_remove (RNode k v n c) s = Ok (rm_tree n r, old) /\ rm_good k r /\
        (r = None -> rm_cont r = []) /\
        (forall w, old = Some w <-> In (s, w) (map (pre k) (nent v c))) /\
        (forall q w, In (q, w) (rm_cont r) <-> q <> s /\ In (q, w) (map (pre k) (nent v c)))
    end.

  Lemma r_remove_ok_all t : rm_node t /\ forall b, rm_node (drop_to b t).
  Proof.
    induction t as [|k v n IHn c IHc]; [simpl; auto|].
    assert (M : rm_node (RNode k v n c)).
    { intros Wc NC s. cbn [r_remove].
      destruct (node_cases k s) as [(i & -> & p & a & k1 & y & s1 & -> & -> & Ny & ->)
        | (-> & [(b & s1 & -> & -> & ->) | [(b & k1 & Ek & -> & Sk & Fk) | (<- & ->)]])].
      - assert (D : v = None -> two c) by (intros V; apply NC; auto; now destruct p).
        exists (Some (p ++ a :: k1, v, c)), None. split; [reflexivity|].
        split; [split; [auto|split; [auto|exists []; now rewrite app_nil_r]]|]. split; [discriminate|]. split.
        + intros w. split; [discriminate|]. intros I. exfalso. eapply not_in_pre; [reflexivity | exact Ny | exact I].
        + intros q w. simpl. split; [|tauto]. intros I. split; auto. intros ->.
          eapply not_in_pre; [reflexivity | exact Ny | exact I].
      - cbn [first_byte bind]. pose proof (proj2 IHc b) as A. pose proof (drop_to_wf b c Wc) as Wb.
        destruct (drop_to b c) as [|kb vb nb cb] eqn:Eb.
        + rewrite (with_child_graft _ b c RNil None Wc) by (now rewrite Eb). cbn [bind]. rewrite graft_none by exact Eb.
          destruct (finish_ok k v n c Wc) as (r & -> & G & Rc & Rn). exists r, None.
          split; [reflexivity|]. split; [exact G|]. split; [exact Rn|]. split.
          * intros w. split; [discriminate|]. rewrite in_down by auto. rewrite Eb. intros [].
          * intros q w. rewrite Rc. split; [|tauto]. intros I. split; auto. intros ->. apply in_down in I; auto. now rewrite Eb in I.
        + pose proof (drop_to_head _ _ _ _ _ _ Eb) as Hb. destruct Wb as (Kb & Fb & Db & Wnb & Wcb).
          destruct (A Wcb (fun _ => Db) (b :: s1)) as (rb & old & E & Gb & Rnb & O & R).
          rewrite <- Eb in E. rewrite (with_child_graft _ _ _ _ _ Wc E). cbn [bind].
          assert (X : wf (rm_tree nb rb) /\ Forall (fun h => b <= h) (heads (rm_tree nb rb)) /\
                  (forall q w, In (q, w) (rent (rm_tree nb rb)) <-> In (q, w) (rm_cont rb) \/ In (q, w) (rent nb))).
          { assert (Fb' : Forall (fun h => b <= h) (heads nb)).
            { eapply Forall_impl; [|exact Fb]. simpl. intros; lia. }
            destruct rb as [[[k' v'] c']|]; cbn [rm_tree rm_cont].
            - destruct Gb as (Gw & Gd & z & ->). split; [|split].
              + cbn [wf]. split; [now destruct kb|]. split; [now destruct kb|]. auto.
              + rewrite heads_node. constructor; auto. destruct kb; [contradiction|]. simpl in *. lia.
              + intros q w. cbn [rent]. now rewrite in_app_iff.
            - split; [exact Wnb|]. split; [exact Fb'|]. intros q w. simpl. tauto. }
          destruct X as (W1 & H1 & RN).
          assert (Rh : forall q w, In (q, w) (rm_cont rb) -> hd 0 q = b).
          { intros q w I. apply R in I as [_ I]. apply in_pre in I as (z & -> & _). destruct kb; [contradiction|]. exact Hb. }
          destruct (graft_ok b c kb vb nb cb (rm_tree nb rb) Wc Eb W1 H1) as (G1 & G2 & G3).
          { intros q w Nq. rewrite RN. split; auto. intros [I|I]; auto. apply Rh in I. contradiction. }
          assert (NB : forall q w, hd 0 q = b -> ~ In (q, w) (rent nb)).
          { intros q w Hq I. destruct (rent_head nb Wnb q w I) as (h & s & -> & Ih). simpl in Hq. subst h.
            rewrite Forall_forall in Fb. specialize (Fb _ Ih). lia. }
          destruct (finish_ok k v n _ G1) as (r & -> & G & Rc & Rn). exists r, old.
          split; [reflexivity|]. split; [exact G|]. split; [exact Rn|]. split.
          * intros w. rewrite in_down by auto. rewrite Eb. apply O.
          * intros q w. rewrite Rc, !in_pre. split.
            -- intros (s & -> & I). apply in_nent in I as [[-> X]|I].
               ++ split; [intros Y; rewrite app_nil_r in Y; rewrite <- (app_nil_r k) in Y at 1;
                    apply app_inv_head in Y; discriminate|]. exists []. split; auto. apply in_nent. auto.
               ++ apply G3 in I as [[Hs I]|[Hs I]].
                  ** apply RN in I as [I|I]; [|now apply NB in I]. apply R in I as [Ns I].
                     split; [intros X; apply app_inv_head in X; contradiction|]. exists s. split; auto.
                     apply in_nent. right. assert (I2 : In (s, w) (cont (drop_to b c))) by (now rewrite Eb).
                     destruct s as [|b' s']; [apply in_pre in I as (z & Z & _); now destruct kb|].
                     simpl in Hs. subst b'. now apply in_drop.
                  ** split; [intros X; apply app_inv_head in X; subst s; now apply Hs|]. exists s. split; auto.
                     apply in_nent. auto.
            -- intros [N (s & -> & I)]. exists s. split; auto. apply in_nent in I as [I|I]; apply in_nent; auto. right. apply G3.
               destruct (Nat.eq_dec (hd 0 s) b) as [Hs|Hs]; [left|right; auto]. split; auto. apply RN. left.
               apply R. split; [congruence|]. destruct s as [|b' s']; [now apply rent_not_nil in I|].
               simpl in Hs. subst b'. apply in_drop in I; auto. now rewrite Eb in I.
      - assert (D : v = None -> two c) by (intros V; apply NC; auto; rewrite Ek; now destruct s).
        exists (Some (k, v, c)), None. split; [reflexivity|].
        split; [split; [auto|split; [auto|exists []; now rewrite app_nil_r]]|]. split; [discriminate|]. split.
        + intros w. split; [discriminate|]. intros I. exfalso. eapply not_in_long; eauto.
        + intros q w. simpl. split; [|tauto]. intros I. split; auto. intros ->. eapply not_in_long; eauto.
      - destruct (finish_ok k None n c Wc) as (r & -> & G & Rc & Rn). exists r, v.
        split; [reflexivity|]. split; [exact G|]. split; [exact Rn|]. split.
        + intros w. now rewrite in_self.
        + intros q w. rewrite Rc, !in_pre. split.
          * intros (s2 & -> & I). apply in_nent in I as [[-> X]|I]; [discriminate|].
            split; [|exists s2; split; auto; apply in_nent; auto]. intros X.
            rewrite <- (app_nil_r k) in X at 2. apply app_inv_head in X. subst. now apply rent_not_nil in I.
          * intros [N (s2 & -> & I)]. exists s2. split; auto. apply in_nent in I as [[-> X]|I]; apply in_nent; auto.
            rewrite app_nil_r in N. contradiction. }
    split; [exact M|]. intros b. cbn [drop_to]. destruct (hd 0 k =? b); [exact M | apply IHn].
  Qed.

  (** ** min and max. *)
  Lemma r_min_ok t : wf t -> forall curr, r_min t curr = option_map (fun e => curr ++ fst e) (hd_error (rent t)).
  Proof.
    induction t as [|k v n IHn c IHc]; intros W curr; [reflexivity|]. destruct W as (K & F & D & Wn & Wc).
    cbn [r_min rent]. destruct v as [y|]; cbn [is_some own app map hd_error option_map].
    - unfold pre. simpl. now rewrite app_nil_r.
    - specialize (D eq_refl). rewrite (IHc Wc). destruct (rent c) as [|[s w] l] eqn:E.
      + exfalso. apply (rent_nonempty c); auto. now destruct c.
      + unfold pre. simpl. now rewrite app_assoc.
  Qed.

  Lemma last_error_map {A B} (f : A -> B) (l : list A) : last_error (map f l) = option_map f (last_error l).
  Proof. induction l as [|a [|b l] IH]; auto. Qed.

  Lemma r_max_ok t : wf t -> forall curr,
    last_child (fun c => r_max c curr) t = option_map (fun e => curr ++ fst e) (last_error (rent t)).
  Proof.
    induction t as [|k v n IHn c IHc]; intros W curr; [reflexivity|]. destruct W as (K & F & D & Wn & Wc).
    cbn [last_child rent]. destruct n as [|kn vn nn cn] eqn:En.
    - cbn [r_max rent]. rewrite app_nil_r. destruct c as [|kc vc nc cc] eqn:Ec.
      + destruct v as [y|]; [|now specialize (D eq_refl)]. simpl. now rewrite app_nil_r.
      + rewrite Bool.andb_false_r. rewrite (IHc Wc). rewrite map_app. rewrite last_error_app2 by
          (intros X; apply map_eq_nil in X; revert X; apply rent_nonempty; [exact Wc | discriminate]).
        rewrite last_error_map. destruct (last_error (rent (RNode kc vc nc cc))); simpl; auto.
        now rewrite app_assoc.
    - rewrite last_error_app2 by (apply rent_nonempty; [exact Wn | discriminate]). apply (IHn Wn).
  Qed.
End RadixProofs.
