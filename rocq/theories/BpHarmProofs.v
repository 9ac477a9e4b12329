(** When overwriting an entry of the on-disk B+ tree map does harm: exactly when the entry lies in a full leaf behind more than
    [m / 2 + 1] others. *)
From Verif Require Import BpMapModel BpNodeSpec BpLeafProofs BpInternalProofs BpStoreProofs OrdLemmas ListLemmas RunLemmas MapSpec PermTac.
From Verif Require Export BpPageProofs.

Section Harm.
  Context {K V : Type} `{CmpLaws K} {Tg : tightness}.
  Variables m d : nat.
  Hypothesis Hm : 1 <= m.
  Hypothesis Hd : 3 <= d.
  Notation entry := (K * V)%type.
  Notation node := (node K V).
  Notation store := (store K V).
  Notation bt := (@bt K V).
  Notation flat := (flat m d).
  Notation flat_kids := (flat_kids m d).
  Notation ok := (ok m d).
  Notation inv := (inv m d).
  Implicit Types (t : bt) (es : list entry) (e : entry) (s : store).

  (** The leaves of a tree. *)
  Lemma flat_leaf : forall n root lo hi t nxt p l, ok n root lo hi t -> In (p, Leaf l) (flat t nxt) ->
    exists es nx, l = mk_leaf m es nx /\ incl es (contents t) /\ length es <= m /\ sorted es.
  Proof.
    induction n as [|n IH]; intros root lo hi [p0 es|p0 kids] nxt p l O J; try contradiction.
    - destruct J as [J|[]]. injection J as <- <-. destruct O as ((S & _) & L & _). exists es, nxt. repeat split; auto. apply incl_refl.
    - destruct O as ((_ & _ & Ch) & _). rewrite flat_node in J. destruct J as [J|J]; [discriminate|].
      change (contents (BNode p0 kids)) with (kcontents kids). revert Ch J.
      induction kids as [|[l0 c] kids IHk]; intros Ch J; [contradiction|]. destruct Ch as [Oc Ch].
      rewrite flat_kids_cons in J. rewrite kcontents_cons. apply in_app_or in J as [J|J].
      + destruct (IH _ _ _ _ _ _ _ Oc J) as (es & nx & E & Ic & L & S). exists es, nx. repeat split; auto. now apply incl_appl.
      + destruct (IHk Ch J) as (es & nx & E & Ic & L & S). exists es, nx. repeat split; auto. now apply incl_appr.
  Qed.
  Lemma kids_leaf n hi : forall kids nxt p l, chain (ok n false) kids hi -> In (p, Leaf l) (flat_kids kids nxt) ->
    exists es nx, l = mk_leaf m es nx /\ incl es (kcontents kids).
  Proof.
    induction kids as [|[l0 c] kids IHk]; intros nxt p l Ch J; [contradiction|]. destruct Ch as [Oc Ch].
    rewrite flat_kids_cons in J. rewrite kcontents_cons. apply in_app_or in J as [J|J].
    - destruct (flat_leaf _ _ _ _ _ _ _ _ Oc J) as (es & nx & E & Ic & _). exists es, nx. split; [exact E | now apply incl_appl].
    - destruct (IHk _ _ _ Ch J) as (es & nx & E & Ic). exists es, nx. split; [exact E | now apply incl_appr].
  Qed.

  (** The search for a key ends at the only leaf that holds it. *)
  Lemma descend_unique k hi t nxt q es nx fr : descend d k hi t nxt q es nx fr ->
    forall n root lo p es' nx' e, ok n root lo hi t -> In (p, Leaf (mk_leaf m es' nx')) (flat t nxt) ->
    In e es' -> cmp k (fst e) = Eq -> p = q /\ es' = es.
  Proof.
    induction 1 as [hi p0 es nxt|hi p0 L l c R nxt q es nx fr B F0 X IH]; intros n root lo p es' nx' e O J Je Ek.
    - destruct J as [J|[]]. assert (E : mk_leaf m es' nx' = mk_leaf m es nxt) by congruence. injection J as <- _.
      split; [reflexivity|]. now apply (mk_leaf_inj m d Hm Hd) in E.
    - destruct n as [|n]; [contradiction|]. destruct O as (O & _).
      destruct (split_contents m d n lo hi L l c R k Hm O B) as [A1 A2]. unfold all_lt in A1. unfold all_gt in A2.
      rewrite Forall_forall in A1, A2. destruct O as (_ & _ & Ch). apply chain_app in Ch as [C1 [Oc C2]].
      rewrite flat_node, flat_kids_app, flat_kids_cons in J. destruct J as [J|J]; [discriminate|].
      apply in_app_or in J as [J|J]; [|apply in_app_or in J as [J|J]].
      + destruct (kids_leaf _ _ _ _ _ _ C1 J) as (es1 & nx1 & E & Ic). apply (mk_leaf_inj m d Hm Hd) in E. subst es1.
        specialize (A1 e (Ic e Je)). rewrite (cmp_eq_sym _ _ Ek) in A1. discriminate.
      + exact (IH n false l p es' nx' e Oc J Je Ek).
      + destruct (kids_leaf _ _ _ _ _ _ C2 J) as (es1 & nx1 & E & Ic). apply (mk_leaf_inj m d Hm Hd) in E. subst es1.
        specialize (A2 e (Ic e Je)). rewrite Ek in A2. discriminate.
  Qed.

  Lemma inv_tree s ml : inv s ml -> exists n t, ok n true None None t /\ contents t = ml /\
    (forall p x, In (p, x) (flat t None) -> nth_error (st_pages s) p = Some x) /\
    (forall p x, in_tree s p -> nth_error (st_pages s) p = Some x -> In (p, x) (flat t None)) /\
    (forall k, exists q es nx fr, descend d k None t None q es nx fr /\ run_io s (search_node k) = Ok (s, (q, Leaf (mk_leaf m es nx), fr))).
  Proof.
    intros (n & t & fl & O & Rp & E). pose proof (rep_pages _ _ _ _ _ Rp) as (N & G). pose proof (rep_root _ _ _ _ _ Rp) as R2.
    assert (GB : forall p x, In (p, x) (flat t None) -> nth_error (st_pages s) p = Some x).
    { intros p x I. apply G. apply in_or_app. now left. }
    exists n, t. split; [exact O|]. split; [exact E|]. split; [exact GB|]. split.
    - intros p x T P. assert (J : In p (map fst (flat t None))).
      { clear x P. induction T as [|p i j q T IHp P J Q].
        - rewrite R2. change (root_of t) with (fst (root_of t, node_at m d t None)). apply in_map. apply flat_head.
        - apply in_map_iff in IHp as ([p' x] & Ep & I). cbn in Ep. subst p'. pose proof (GB p x I) as X. rewrite P in X.
          injection X as <-. now apply (in_tree_flat m d Hm Hd s n true None None t None O GB p i j). }
      apply in_map_iff in J as ([p' y] & Ep & J). cbn in Ep. subst p'. pose proof (GB p y J) as Y. rewrite P in Y. now injection Y as ->.
    - intros k. assert (Bd : in_b None None k) by (split; exact Logic.I).
      assert (Rp' : rep s (flat t None ++ []) fl (root_of t) (length ml)) by now rewrite app_nil_r.
      exact (search_ok m d k n true None None t None s [] fl _ Hm ltac:(lia) O Bd Rp').
  Qed.

  Lemma pad_nth_some es i e : nth_error (pad m es) i = Some (Some e) -> nth_error es i = Some e.
  Proof.
    unfold pad. intros E. destruct (Nat.lt_ge_cases i (length es)) as [Lt|Ge].
    - rewrite nth_error_app1 in E by (now rewrite map_length). rewrite nth_error_map in E. destruct (nth_error es i); cbn in E; congruence.
    - rewrite nth_error_app2 in E by (now rewrite map_length). apply nth_error_In, repeat_spec in E. discriminate.
  Qed.

  (** The harmful leaf is the one the insertion finds. *)
  Lemma harmful_leaf s ml k : inv s ml -> harmful m s k -> exists q es nx fr a e b,
    run_io s (search_node k) = Ok (s, (q, Leaf (mk_leaf m es nx), fr)) /\ nth_error (st_pages s) q = Some (Leaf (mk_leaf m es nx)) /\
    es = a ++ e :: b /\ cmp k (fst e) = Eq /\ length es = m /\ m / 2 + 1 < length a /\ sorted es /\ incl es ml /\
    (forall x, In x es -> exists fr', run_io s (search_node (fst x)) = Ok (s, (q, Leaf (mk_leaf m es nx), fr'))).
  Proof.
    intros I (p & l & i & e & T & P & Ll & Ne & Ek & Gt).
    destruct (inv_tree s ml I) as (n & t & O & <- & GB & TF & Sr).
    pose proof (TF _ _ T P) as J. destruct (flat_leaf _ _ _ _ _ _ _ _ O J) as (es & nx & -> & Ic & Le & S).
    cbn [mk_leaf lf_len lf_entries] in Ll, Ne. apply pad_nth_some in Ne.
    assert (U : forall x, In x es -> forall k', cmp k' (fst x) = Eq -> exists fr', run_io s (search_node k') = Ok (s, (p, Leaf (mk_leaf m es nx), fr'))).
    { intros x Jx k' Ex. destruct (Sr k') as (q & es' & nx' & fr & X & E).
      destruct (descend_unique k' None t None q es' nx' fr X n true None p es nx x O J Jx Ex) as [<- <-].
      exists fr. rewrite E. pose proof (descend_flat m d _ _ _ _ _ _ _ _ X) as J'. pose proof (GB _ _ J') as P'.
      rewrite P in P'. injection P' as <-. reflexivity. }
    destruct (U e (nth_error_In _ _ Ne) k Ek) as (fr & E). apply nth_error_split in Ne as (a & b & -> & La).
    exists p, (a ++ e :: b), nx, fr, a, e, b. repeat split; auto; try lia. intros x Jx. exact (U x Jx _ (cmp_refl _)).
  Qed.

  Lemma small_harmless s ml k : inv s ml -> m <= 4 \/ at_key k ml = [] -> ~ harmful m s k.
  Proof.
    intros I Sm Hf. destruct (harmful_leaf s ml k I Hf) as (q & es & nx & fr & a & e & b & _ & _ & -> & Ek & L & Gt & _ & Ic & _).
    rewrite app_length in L. cbn [length] in L. destruct Sm as [Sm|Sm].
    - destruct m as [|[|[|[|[|]]]]]; cbn in *; lia.
    - assert (J : In e (at_key k ml)).
      { apply filter_In. split; [apply Ic, in_or_app; right; now left|]. now rewrite (cmp_eq_sym _ _ Ek). }
      rewrite Sm in J. contradiction.
  Qed.

  Lemma harmful_dec s ml k : inv s ml -> harmful m s k \/ ~ harmful m s k.
  Proof.
    intros I. destruct (search_lands m d Hm Hd s ml k I) as (q & es & nx & fr & E & T & P & A & S & L).
    assert (U : harmful m s k -> length es = m /\ exists a e b, es = a ++ e :: b /\ cmp k (fst e) = Eq /\ m / 2 + 1 < length a).
    { intros Hf. destruct (harmful_leaf s ml k I Hf) as (q' & es' & nx' & fr' & a & e & b & E' & _ & Es & Ek & L' & Gt & _).
      rewrite E in E'. assert (Q : mk_leaf m es nx = mk_leaf m es' nx') by congruence. apply (mk_leaf_inj m d Hm Hd) in Q. rewrite <- Q in *.
      split; [exact L'|]. exists a, e, b. auto. }
    destruct (at_key_cases es k S) as [Q | (x & Q & Qx)].
    - right. intros Hf. destruct (U Hf) as (_ & a & e & b & -> & Ek & _). destruct (pieces_eq a e b k S Ek) as (_ & Y & _). congruence.
    - pose proof (sorted_split es k S) as Sp. rewrite Q in Sp.
      destruct (Nat.eq_dec (length es) m) as [Le|Ne]; [|right; intros Hf; destruct (U Hf); congruence].
      destruct (Nat.le_gt_cases (length (below k es)) (m / 2 + 1)) as [Lb|Gb].
      + right. intros Hf. destruct (U Hf) as (_ & a & e & b & Es & Ek & Gt). subst es.
        destruct (pieces_eq a e b k S Ek) as (Y & _). rewrite Y in Lb. lia.
      + left. exists q, (mk_leaf m es nx), (length (below k es)), x. split; [exact T|]. split; [exact P|].
        split; [exact Le|]. split; [|split; [exact Qx | exact Gb]]. apply pad_nth_in. rewrite Sp at 1. cbn [app].
        rewrite nth_error_app2 by lia. now rewrite Nat.sub_diag.
  Qed.

  (** A search in a file where only the leaf it ends at has changed. *)
  Lemma search_loop_other s s' k q l l' : get_page s q = Ok (Leaf l) -> get_page s' q = Ok (Leaf l') ->
    (forall p, p <> q -> get_page s' p = get_page s p) ->
    forall fuel page nd stk fr, get_page s page = Ok nd -> run_io s (search_loop fuel k page nd stk) = Ok (s, (q, Leaf l, fr)) ->
    exists nd', get_page s' page = Ok nd' /\ run_io s' (search_loop fuel k page nd' stk) = Ok (s', (q, Leaf l', fr)).
  Proof.
    intros G G' Ot. induction fuel as [|f IH]; intros page nd stk fr P E; [discriminate|].
    destruct (Nat.eq_dec page q) as [->|Ne].
    - rewrite G in P. injection P as <-. exists (Leaf l'). split; [exact G'|]. cbn in *. injection E as <-. reflexivity.
    - exists nd. rewrite (Ot _ Ne). split; [exact P|]. destruct nd as [i|lf|o]; cbn [search_loop] in *; [|cbn in *; congruence|cbn in *; congruence].
      destruct (internal_search i k) as [nx| |]; cbn in *; try discriminate.
      destruct (cell (in_ptrs i) nx) as [c| |]; cbn in *; try discriminate.
      destruct (get_page s c) as [nd| |] eqn:Pc; cbn in E; try discriminate.
      destruct (IH c nd _ _ Pc E) as (nd' & P' & E'). rewrite P'. exact E'.
  Qed.
  Lemma search_other s s' k q l l' fr : get_page s q = Ok (Leaf l) -> get_page s' q = Ok (Leaf l') ->
    (forall p, p <> q -> get_page s' p = get_page s p) -> st_mem s' = st_mem s ->
    run_io s (search_node k) = Ok (s, (q, Leaf l, fr)) -> run_io s' (search_node k) = Ok (s', (q, Leaf l', fr)).
  Proof.
    intros G G' Ot M E. unfold search_node in *. cbn [run_io] in *. rewrite M.
    destruct (get_page s (md_root (st_mem s))) as [nd| |] eqn:P; cbn [bind] in E; try discriminate.
    destruct (search_loop_other s s' k q l l' G G' Ot _ _ _ _ _ P E) as (nd' & P' & E'). rewrite P'. exact E'.
  Qed.

  (** The damaged leaf does not hold the entries that were lost. *)
  Lemma damaged_search es nx k v x y : sorted es -> length es = m -> at_key k es = [x] -> In y es ->
    ~ In y (firstn (m / 2 + 1) (below k es)) -> cmp (fst y) k = Lt ->
    leaf_search (mkLeaf m (map Some (firstn (m / 2 + 1) (below k es)) ++ repeat None (length (below k es) - (m / 2 + 1))
                    ++ map Some ((k, v) :: above k es)) nx) (fst y) = Ok None.
  Proof.
    intros S L A Jy Nf Ly. unfold leaf_search. cbn [lf_entries]. set (cells := map Some _ ++ _).
    destruct (length cells) as [|n] eqn:Ln.
    { subst cells. rewrite !app_length in Ln. cbn in Ln. lia. }
    cbn [checked_pred bind]. rewrite <- Ln. apply leaf_search_absent; [|lia|lia].
    intros i e N E. apply nth_error_In in N. subst cells. rewrite !in_app_iff in N. destruct N as [N | [N | N]].
    - apply in_map_iff in N. destruct N as (z & Ez & N). injection Ez as ->. apply Nf.
      assert (Je : In e es).
      { assert (In e (below k es)) as Jb by (rewrite <- (firstn_skipn (m / 2 + 1) (below k es)); apply in_or_app; now left).
        now apply in_below in Jb. }
      apply in_split in Jy as (a & b & ->). destruct (pieces_eq a y b (fst y) S (cmp_refl _)) as (_ & Q & _).
      assert (Je' : In e (at_key (fst y) (a ++ y :: b))) by (apply filter_In; split; [exact Je | now rewrite E]).
      rewrite Q in Je'. destruct Je' as [->|[]]. exact N.
    - apply repeat_spec in N. discriminate.
    - cbn [map] in N. destruct N as [N|N].
      + injection N as <-. cbn [fst] in E. rewrite (cmp_eq_sym _ _ E) in Ly. discriminate.
      + apply in_map_iff in N. destruct N as (z & Ez & N). injection Ez as ->. apply in_above in N as [_ N].
        rewrite (cmp_eq_l _ _ _ E) in N. congruence.
  Qed.

  Variables (ksize : K -> N) (vsize : V -> N) (cfg : config).
  Hypothesis Cm : leaf_degree cfg = m.
  Hypothesis Cd : internal_degree cfg = d.
  Notation step := (bp_step ksize vsize cfg).
  Notation fits := (valid ksize vsize cfg).

  Lemma harmful_step s ml k v : inv s ml -> harmful m s k -> fits k v = true ->
    exists s' k' y, step s (BInsert k v) = Ok (s', OPair (hd_error (at_key k ml))) /\ cmp k k' <> Eq /\ at_key k' ml = [y] /\
      step s' (BGet k') = Ok (s', OVal None).
  Proof.
    intros I Hf Fi. destruct (harmful_leaf s ml k I Hf) as (q & es & nx & fr & a & e & b & E & P & Es & Ek & L & Gt & S & Ic & U).
    pose proof (inv_sorted m d Hm s ml I) as Sml.
    assert (Sp : sorted (a ++ e :: b)) by (now rewrite <- Es). destruct (pieces_eq a e b k Sp Ek) as (Q1 & Q2 & Q3). rewrite <- Es in Q1, Q2, Q3.
    assert (Aml : at_key k ml = [e]).
    { assert (Je : In e ml) by (apply Ic; rewrite Es; apply in_or_app; right; now left).
      apply in_split in Je as (x & z & ->). now apply (pieces_eq x e z k). }
    pose proof (leaf_insert_full_found m es nx (k, v) e S L Hm Q2) as Li. cbn zeta in Li. cbn [fst] in Li.
    set (lf := mkLeaf m _ nx) in Li.
    assert (Wr : exists s', write_node s q (Leaf lf) = Ok s' /\ st_mem s' = st_mem s /\ get_page s' q = Ok (Leaf lf) /\
                   (forall p, p <> q -> get_page s' p = get_page s p)).
    { assert (Lq : q < length (st_pages s)) by (apply nth_error_Some; congruence).
      unfold write_node, set_cell. rewrite (cell_nth _ _ _ P). cbn [bind].
      eexists. split; [reflexivity|]. split; [reflexivity|]. unfold get_page, cell. cbn [st_pages]. split.
      - rewrite list_set_nth, Nat.eqb_refl. destruct (Nat.ltb_spec q (length (st_pages s))); [reflexivity | lia].
      - intros p Np. rewrite list_set_nth. destruct (Nat.eqb_spec q p); [congruence | reflexivity]. }
    destruct Wr as (s' & W & M & G' & Ot). assert (G : get_page s q = Ok (Leaf (mk_leaf m es nx))) by (unfold get_page, cell; now rewrite P).
    assert (Jy : exists y, nth_error a (m / 2 + 1) = Some y).
    { destruct (nth_error a (m / 2 + 1)) eqn:X; [now eexists|]. apply nth_error_None in X. lia. }
    destruct Jy as (y & Ny). assert (Ja : In y a) by (now apply nth_error_In in Ny).
    assert (Jes : In y es) by (rewrite Es; apply in_or_app; now left).
    exists s', (fst y), y. split; [|split; [|split]].
    - cbn [bp_step]. rewrite Fi, Cd. unfold insert_prog. rewrite run_bind. cbn [fst]. rewrite E. cbn [bind]. unfold insert_at.
      rewrite (run_pure _ _ _ _ Li). cbn [run_io]. rewrite W. cbn [bind run_io]. now rewrite Aml.
    - assert (Ly : cmp (fst y) k = Lt) by (rewrite <- Q1 in Ja; now apply in_below in Ja).
      intros Q. rewrite (cmp_eq_sym _ _ Q) in Ly. discriminate.
    - assert (Je : In y ml) by (now apply Ic). apply in_split in Je as (x & z & ->). now apply (pieces_eq x y z (fst y) Sml), cmp_refl.
    - destruct (U y Jes) as (fr' & Ey). pose proof (search_other s s' (fst y) q _ lf fr' G G' Ot M Ey) as E2.
      cbn [bp_step]. unfold get_prog. rewrite run_bind, E2. cbn [bind expect_leaf iobind].
      assert (Ls : leaf_search lf (fst y) = Ok None).
      { apply (damaged_search es nx k v e y); auto; rewrite ?Q1.
        - intros J. apply nth_error_split in Ny as (a1 & a2 & -> & La1). rewrite firstn_app in J.
          replace (m / 2 + 1 - length a1) with 0 in J by lia. rewrite <- La1, firstn_all in J. cbn in J. rewrite app_nil_r in J.
          rewrite <- app_assoc in Sp. cbn [app] in Sp. apply sorted_mid in Sp as (_ & _ & F1 & _). unfold all_lt in F1. rewrite Forall_forall in F1.
          specialize (F1 y J). now rewrite cmp_refl in F1.
        - rewrite <- Q1 in Ja. now apply in_below in Ja. }
      rewrite (run_pure _ _ _ _ Ls). reflexivity.
  Qed.
End Harm.
