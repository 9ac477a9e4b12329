(** A crash during [insert] leaves the chain of leaves whole: iteration finds the entries before or after the call. *)
From Verif Require Import BpMapModel BpNodeSpec BpCrashModel BpLeafProofs BpInternalProofs BpStoreProofs BpMapProofs OrdLemmas ListLemmas.
From Verif Require Export BpCrashProofs.

#[local] Instance strict_file : tightness := Strict.

Section CrashIter.
  Context {K V : Type} `{CmpLaws K}.
  Variables m d : nat.
  Hypothesis Hm : 1 <= m.
  Hypothesis Hd : 3 <= d.
  Notation entry := (K * V)%type.
  Notation node := (node K V).
  Notation store := (store K V).
  Notation frame := (@frame K).
  Notation bt := (@bt K V).
  Notation kid := (option K * bt)%type.
  Notation flat := (flat m d).
  Notation flat_kids := (flat_kids m d).
  Notation inode := (inode d).
  Notation ok := (ok m d).
  Notation kids_ok := (kids_ok m d).
  Notation inv := (inv m d).
  Notation leaf_chain := (leaf_chain m).
  Implicit Types (t c : bt) (kids L R M : list kid) (l lo hi : option K) (nxt : option nat) (es X pre post : list entry) (e : entry)
    (s : store) (F B : list (nat * node)).

  (** The way from page [p] along first pointers ends at the leaf [q]. *)
  Inductive lead s : nat -> nat -> nat -> Prop :=
  | Lead_leaf p lf : get_page s p = Ok (Leaf lf) -> lead s 0 p p
  | Lead_node n p i p' q : get_page s p = Ok (Internal i) -> cell (in_ptrs i) 0 = Ok p' -> lead s n p' q -> lead s (S n) p q.
  Definition holds s F : Prop := forall p n, In (p, n) F -> get_page s p = Ok n.
  (** The leaves from page [p] to before [nxt] hold [X]. *)
  Definition segm s p nxt X : Prop := forall r, leaf_chain s nxt r -> leaf_chain s (Some p) (X ++ r).

  Lemma holds_app s F G : holds s (F ++ G) <-> holds s F /\ holds s G.
  Proof.
    split.
    - intros B. split; intros p n I; apply B, in_or_app; auto.
    - intros [B1 B2] p n I. apply in_app_or in I as [I|I]; auto.
  Qed.
  Lemma holds_cons s p n G : holds s ((p, n) :: G) <-> get_page s p = Ok n /\ holds s G.
  Proof.
    split.
    - intros B. split; [apply B; now left|]. intros q x I. apply B. now right.
    - intros [B1 B2] q x [E|I]; [congruence | auto].
  Qed.
  Lemma holds_perm s F G : Permutation F G -> holds s F -> holds s G.
  Proof. intros P B p n I. apply B. eapply Permutation_in; [apply Permutation_sym; exact P | exact I]. Qed.

  Lemma tree_lead s : forall n root lo hi t nxt, ok n root lo hi t -> holds s (flat t nxt) -> lead s n (root_of t) (first_leaf t).
  Proof.
    induction n as [|n IH]; intros root lo hi [p es|p kids] nxt O B; try contradiction.
    - eapply Lead_leaf. apply B. now left.
    - destruct O as ((Fl & Dk & Ch) & _). rewrite flat_node in B. apply holds_cons in B as [G B].
      destruct kids as [|[l c] kids]; [contradiction|]. destruct Ch as [Oc _].
      rewrite flat_kids_cons in B. apply holds_app in B as [B _].
      eapply Lead_node; [exact G | exact (ptr_at m d Hm Hd [] l c kids Dk) | exact (IH _ _ _ _ _ Oc B)].
  Qed.
  Lemma tree_segm s n lo hi t nxt : ok n false lo hi t -> holds s (flat t nxt) -> segm s (first_leaf t) nxt (contents t).
  Proof. intros O B r Lc. exact (tree_chain m d Hm Hd s n lo hi t nxt r O B Lc). Qed.
  Lemma kids_chain s n hi nxt r : leaf_chain s nxt r -> forall kids, chain (ok n false) kids hi -> holds s (flat_kids kids nxt) ->
    leaf_chain s (nxt_of kids nxt) (kcontents kids ++ r).
  Proof.
    intros Lc. induction kids as [|[l c] kids IH]; intros Ch B; [exact Lc|]. destruct Ch as [Oc Ch].
    rewrite kcontents_cons, <- app_assoc. cbn [nxt_of]. rewrite flat_kids_cons in B. apply holds_app in B as [B1 B2].
    apply (tree_segm s n l (low_of kids hi) c (nxt_of kids nxt) Oc B1). now apply IH.
  Qed.

  (** What the rest [F] of the file does for a subtree of height [n] at page [rp] with first leaf [f]. *)
  Definition ctx N rt F nxt n rp f pre post : Prop :=
    length pre + length post <= m * length F /\
    forall s X, holds s F -> lead s n rp f -> segm s f nxt X ->
      exists g, lead s N rt g /\ leaf_chain s (Some g) (pre ++ X ++ post).

  Lemma ctx_top n rp f : ctx n rp [] None n rp f [] [].
  Proof.
    split; [cbn; lia|]. intros s X _ Le Sg. exists f. split; [exact Le|]. cbn [app]. apply Sg. constructor.
  Qed.
  Lemma ctx_down N rt F nxt n p L l c R pre post lo hi :
    kids_ok n lo (L ++ (l, c) :: R) hi -> length (kcontents L) <= m * length (flat_kids L (Some (first_leaf c))) ->
    length (kcontents R) <= m * length (flat_kids R nxt) ->
    ctx N rt F nxt (S n) p (first_leaf (BNode p (L ++ (l, c) :: R))) pre post ->
    ctx N rt ((p, Internal (inode (L ++ (l, c) :: R))) :: flat_kids L (Some (first_leaf c)) ++ flat_kids R nxt ++ F) (nxt_of R nxt)
      n (root_of c) (first_leaf c) (pre ++ kcontents L) (kcontents R ++ post).
  Proof.
    intros (Fl & Dk & Ch) LL LR [Le Cx]. split.
    { cbn [length]. rewrite !app_length. nia. }
    intros s X Ho Ld Sg. apply holds_cons in Ho as [Hp Ho]. apply holds_app in Ho as [HL Ho]. apply holds_app in Ho as [HR HF].
    apply chain_app in Ch as [ChL [_ ChR]].
    destruct (Cx s (kcontents L ++ X ++ kcontents R)) as (g & G1 & G2); [exact HF| | |].
    - destruct L as [|[l0 c0] L].
      + eapply Lead_node; [exact Hp | exact (ptr_at m d Hm Hd [] l c R Dk) | exact Ld].
      + eapply Lead_node; [exact Hp | exact (ptr_at m d Hm Hd [] l0 c0 (L ++ (l, c) :: R) Dk)|]. destruct ChL as [Oc0 _].
        rewrite flat_kids_cons in HL. apply holds_app in HL as [HL _]. exact (tree_lead s n false l0 _ c0 _ Oc0 HL).
    - intros r Lc. pose proof (kids_chain s n hi nxt r Lc R ChR HR) as LcR. apply Sg in LcR.
      pose proof (kids_chain s n l (Some (first_leaf c)) _ LcR L ChL HL) as LcL. rewrite <- !app_assoc.
      destruct L as [|[l0 c0] L]; exact LcL.
    - exists g. split; [exact G1|]. now rewrite <- !app_assoc in *.
  Qed.

  Lemma cell_inv {T} (l : list T) i x : cell l i = Ok x -> nth_error l i = Some x.
  Proof. unfold cell, expect. destruct (nth_error l i); cbn; congruence. Qed.
  (** An opened file with the pages [B]. *)
  Definition view s B rt : Prop := holds s B /\ md_root (st_mem s) = rt /\ length B <= md_pages (st_mem s).
  Lemma rep_view s B fl rt ln : rep s B fl rt ln -> view (reopen s) B rt.
  Proof.
    intros Rp. rewrite (rep_reopen _ _ _ _ _ Rp). split; [|split].
    - intros p n. now apply (rep_get _ _ _ _ _ _ _ Rp).
    - exact (rep_root _ _ _ _ _ Rp).
    - exact (rep_count _ _ _ _ _ Rp).
  Qed.
  Lemma view_perm s B B' rt : Permutation B B' -> view s B rt -> view s B' rt.
  Proof.
    intros P (V1 & V2 & V3). split; [now apply (holds_perm s B)|]. split; [exact V2|]. now rewrite <- (Permutation_length P).
  Qed.
  Lemma alloc_view s n B fl rt ln s1 q : rep s B fl rt ln -> alloc_node s n = Ok (s1, q) ->
    Forall (fun x => view (reopen x) B rt) (alloc_states s n).
  Proof.
    intros Rp E. pose proof (rep_view _ _ _ _ _ Rp) as V0. rewrite (rep_reopen _ _ _ _ _ Rp) in V0. destruct V0 as (H0 & R0 & L0).
    destruct (rep_alloc s n B fl rt ln Rp) as (s2 & q2 & fl' & E2 & Rp2). rewrite E in E2. injection E2 as <- <-.
    assert (Last : view (reopen s1) B rt).
    { apply rep_view in Rp2 as (A1 & A2 & A3). split; [|split; [exact A2|cbn [length] in A3; lia]]. now apply holds_cons in A1 as [_ A1]. }
    pose proof (proj1 (rep_strict _ _ _ _ _) Rp) as (Dk & Mm & N & D & G).
    unfold alloc_states. rewrite E. unfold alloc_node in E. rewrite Mm in *. cbn [md_free md_pages] in *. destruct fl as [|f fl]; cbn [hd_error] in *.
    - assert (Q : forall x, view (mkStore (resize_pages (st_pages s) (length (st_pages s)) ++ [x]) (st_disk s) (st_disk s)) B rt).
      { intros x. unfold resize_pages. rewrite firstn_all, Nat.sub_diag, app_nil_r. unfold view. rewrite Dk. cbn [st_mem md_root md_pages]. split; [|auto].
        intros p y I. specialize (H0 p y I). unfold get_page in *. apply cell_nth. apply cell_inv in H0.
        cbn [st_pages]. rewrite nth_error_app1; [exact H0|]. apply nth_error_Some. congruence. }
      repeat (constructor; [exact (Q _)|]). constructor; [exact Last | constructor].
    - constructor; [|constructor; [exact Last|constructor]]. unfold view, reopen. cbn [st_mem st_pages st_disk]. rewrite Dk. cbn [md_root md_pages].
      split; [|auto]. intros p y I. unfold get_page. cbn [st_pages]. specialize (H0 p y I). unfold get_page in H0. apply cell_inv in H0.
      apply cell_nth. rewrite list_set_nth. destruct (Nat.eqb_spec f p) as [<-|]; [|exact H0].
      exfalso. rewrite map_app in N. cbn [free_chain map fst] in N. apply NoDup_remove_2 in N. apply N.
      apply in_or_app. left. apply in_map_iff. now exists (f, y).
  Qed.

  Lemma lead_run s n p q lf : lead s n p q -> get_page s q = Ok (Leaf lf) -> forall nd fuel, get_page s p = Ok nd -> n < fuel ->
    run_io s (descend_loop (fun _ => 0) fuel nd) = Ok (s, Leaf lf).
  Proof.
    induction 1 as [p l0 G|n p i p' q G Cl Le IH]; intros Gq nd fuel Gp Lt; (destruct fuel as [|fuel]; [lia|]).
    - rewrite Gq in Gp. injection Gp as <-. reflexivity.
    - rewrite G in Gp. injection Gp as <-. cbn [descend_loop]. rewrite (run_pure _ _ _ _ Cl). cbn [run_io].
      assert (exists nd', get_page s p' = Ok nd') as [nd' G'] by (inversion Le; eauto).
      rewrite G'. cbn [bind]. apply IH; auto. lia.
  Qed.
  Lemma scan s N rt g X : md_root (st_mem s) = rt -> lead s N rt g -> leaf_chain s (Some g) X -> N <= md_pages (st_mem s) ->
    length X <= m * md_pages (st_mem s) -> run_io s iter_prog = Ok (s, X) /\ run_io s min_prog = Ok (s, option_map fst (hd_error X)).
  Proof.
    intros Rt Ld Lc Ln Lx. inversion Lc as [|p es nx r G Ne Lm Lc' E1 E2]; subst p X.
    assert (Ed : run_io s (edge_leaf (fun _ => 0)) = Ok (s, mk_leaf m es nx)).
    { unfold edge_leaf. cbn [run_io]. rewrite Rt. assert (exists nd, get_page s rt = Ok nd) as [nd G'] by (inversion Ld; eauto).
      rewrite G'. cbn [bind]. rewrite run_bind, (lead_run s N rt g _ Ld G nd) by (auto; lia). reflexivity. }
    split.
    - unfold iter_prog. rewrite run_bind, Ed. cbn [bind run_io]. unfold mk_leaf. cbn [lf_entries]. rewrite pad_length by exact Lm.
      rewrite (iter_chain m d Hm Hd s _ es 0 nx r); auto.
      + lia.
      + intros j _ J. destruct (nth_error es j) eqn:Q; [|apply nth_error_None in Q; lia]. now apply pad_nth_in.
      + rewrite app_length in Lx. nia.
    - unfold min_prog. rewrite run_bind, Ed. cbn [bind]. destruct es as [|e es]; [congruence|].
      rewrite (run_pure _ _ _ _ (mk_leaf_cell m (e :: es) nx 0 e eq_refl)). reflexivity.
  Qed.

  (** What a reader of the opened file sees in order. *)
  Definition sees s X : Prop := run_io (reopen s) iter_prog = Ok (reopen s, X) /\ run_io (reopen s) min_prog = Ok (reopen s, option_map fst (hd_error X)).

  Lemma ctx_sees N rt F nxt n rp f pre post X s B : ctx N rt F nxt n rp f pre post -> view (reopen s) (B ++ F) rt ->
    lead (reopen s) n rp f -> segm (reopen s) f nxt X -> N <= length (B ++ F) -> length X <= m * length B -> sees s (pre ++ X ++ post).
  Proof.
    intros [Le Cx] (V1 & V2 & V3) Ld Sg Ln Lx. apply holds_app in V1 as [_ V1]. destruct (Cx _ X V1 Ld Sg) as (g & G1 & G2).
    apply (scan _ N rt g); auto; [lia|]. rewrite app_length in V3. rewrite !app_length. nia.
  Qed.

  Lemma kids_bound n hi nxt : forall kids, chain (ok n false) kids hi -> length (kcontents kids) <= m * length (flat_kids kids nxt).
  Proof.
    induction kids as [|[l c] kids IH]; intros Ch; [cbn; lia|]. destruct Ch as [Oc Ch].
    rewrite kcontents_cons, flat_kids_cons, !app_length. specialize (IH Ch).
    pose proof (contents_bound m d Hm Hd n false _ _ c (nxt_of kids nxt) Oc). nia.
  Qed.

  (** The states of an insertion into a subtree, up to a pending split. *)
  Definition pend_states (ts : list store) (Q : store -> Prop) n lo hi t nxt F e rt ln (stk : list frame) : Prop :=
    at_key (fst e) (contents t) = [] /\
    exists here s' t1 sk t2 fl', ts = here ++ file_states s' (let! _ := grow d stk (root_of t) sk (root_of t2) in finish) /\
      Forall Q here /\
      rep s' (flat t1 (Some (first_leaf t2)) ++ flat t2 nxt ++ F) fl' rt ln /\
      ok n false lo (Some sk) t1 /\ ok n false (Some sk) hi t2 /\
      contents t1 ++ contents t2 = put e (contents t) /\ root_of t1 = root_of t /\ first_leaf t1 = first_leaf t /\
      length (flat t nxt) <= length (flat t1 (Some (first_leaf t2)) ++ flat t2 nxt).

  Lemma pend_sees N rt F nxt n t1 t2 lo sk hi pre post s : ctx N rt F nxt n (root_of t1) (first_leaf t1) pre post ->
    ok n false lo (Some sk) t1 -> ok n false (Some sk) hi t2 ->
    view (reopen s) ((flat t1 (Some (first_leaf t2)) ++ flat t2 nxt) ++ F) rt ->
    N <= length ((flat t1 (Some (first_leaf t2)) ++ flat t2 nxt) ++ F) ->
    sees s (pre ++ (contents t1 ++ contents t2) ++ post).
  Proof.
    intros Cx O1 O2 Vw Ln. pose proof Vw as (Ho & _ & _). apply holds_app in Ho as [Ho _]. apply holds_app in Ho as [Ho1 Ho2].
    apply (ctx_sees N rt F nxt n _ _ pre post _ s _ Cx Vw); [exact (tree_lead _ n false _ _ t1 _ O1 Ho1)| |exact Ln|].
    - intros r Lc. rewrite <- app_assoc. apply (tree_segm _ n _ _ t1 _ O1 Ho1). apply (tree_segm _ n _ _ t2 _ O2 Ho2). exact Lc.
    - rewrite !app_length. pose proof (contents_bound m d Hm Hd n false _ _ t1 (Some (first_leaf t2)) O1).
      pose proof (contents_bound m d Hm Hd n false _ _ t2 nxt O2). nia.
  Qed.
  Lemma node_sees N rt F nxt n root p kids lo hi pre post s :
    ctx N rt F nxt (S n) p (first_leaf (BNode p kids)) pre post -> ok (S n) root lo hi (BNode p kids) ->
    view (reopen s) (flat (BNode p kids) nxt ++ F) rt -> N <= length (flat (BNode p kids) nxt ++ F) -> sees s (pre ++ kcontents kids ++ post).
  Proof.
    intros Cx O Vw Ln. pose proof Vw as (Ho & _ & _). apply holds_app in Ho as [Ho _].
    apply (ctx_sees N rt F nxt (S n) _ _ pre post _ s _ Cx Vw); [exact (tree_lead _ (S n) root _ _ (BNode p kids) _ O Ho)| |exact Ln|].
    - destruct O as ((Fl & _ & Ch) & _). rewrite flat_node in Ho. apply holds_cons in Ho as [_ Ho]. intros r Lc.
      pose proof (kids_chain _ n hi nxt r Lc kids Ch Ho) as G. destruct kids as [|[l c] kids]; [contradiction | exact G].
    - exact (contents_bound m d Hm Hd (S n) root _ _ (BNode p kids) nxt O).
  Qed.

  Lemma states_leaf N root lo hi p es nxt s F fl rt ln stk e pre post :
    ok 0 root lo hi (BLeaf p es) -> in_b lo hi (fst e) -> safe m e es ->
    rep s (flat (BLeaf p es) nxt ++ F) fl rt ln ->
    ctx N rt F nxt 0 p p pre post -> N <= length (flat (BLeaf p es) nxt ++ F) ->
    let ts := file_states s (insert_at d p (Leaf (mk_leaf m es nxt)) stk e) in
    let Q x := sees x (pre ++ es ++ post) \/ sees x (pre ++ put e es ++ post) in
    length ts <= 2 \/ pend_states ts Q 0 lo hi (BLeaf p es) nxt F e rt ln stk.
  Proof.
    intros (Sg & Len & Min) B Sf Rp Cx Ln ts Q. subst ts. pose proof (seg_put lo hi e es Sg B) as SP.
    pose proof Sg as [S _]. cbn [BpTreeProofs.flat app] in Rp.
    assert (NS : forall o, leaf_insert (mk_leaf m es nxt) e = Ok (mk_leaf m (put e es) nxt, option_map IEntry o) ->
              length (file_states s (insert_at d p (Leaf (mk_leaf m es nxt)) stk e)) <= 2).
    { intros o E. unfold insert_at. rewrite states_pure, E. destruct o; cbn [option_map file_states];
        (destruct (write_node s p _); cbn [file_states length]; lia). }
    destruct (Nat.lt_ge_cases (length es) m) as [Lt|Ge].
    - left. apply (NS (hd_error (at_key (fst e) es))). now apply leaf_insert_room.
    - assert (Full : length es = m) by lia.
      destruct (at_key_cases es (fst e) S) as [A | (x & A & _)].
      2: { left. apply (NS (Some x)). destruct Sf as [Sf|[Sf|Sf]]; [lia|congruence|]. now apply leaf_insert_full_safe. }
      right. pose proof (leaf_insert_split m es nxt e S Full Hm A) as (sk & H1 & E).
      pose proof (put_length e es S A) as PL. rewrite Full in PL.
      pose proof (half_up m) as HU. pose proof (half_le m) as [HL1 HL2].
      set (h := m / 2 + 1) in *. set (a := firstn h (put e es)) in *.
      destruct (skipn h (put e es)) as [|x b] eqn:SK; [discriminate|]. cbn in H1. injection H1 as ->.
      assert (PE : put e es = a ++ sk :: b) by (unfold a; rewrite <- SK; symmetry; apply firstn_skipn).
      assert (LA : length a = h) by (unfold a; rewrite firstn_length; lia).
      assert (LB : length (sk :: b) = (m + 1) / 2).
      { rewrite PE, app_length in PL. lia. }
      split; [exact A|]. unfold insert_at. rewrite states_pure, E. cbn [file_states].
      destruct (rep_alloc s (Leaf (mk_leaf m (sk :: b) nxt)) _ _ _ _ Rp) as (s1 & q & fl1 & W1 & R1).
      rewrite W1.
      assert (R1' : rep s1 ((p, Leaf (mk_leaf m es nxt)) :: (q, Leaf (mk_leaf m (sk :: b) nxt)) :: F) fl1 rt ln).
      { eapply rep_perm; [|exact R1]. perm. }
      destruct (rep_write _ _ _ (Leaf (mk_leaf m a (Some q))) _ _ _ _ R1') as (s2 & W2 & R2).
      change (mkLeaf (lf_len (mk_leaf m a nxt)) (lf_entries (mk_leaf m a nxt)) (Some q)) with (mk_leaf m a (Some q)).
      rewrite W2. rewrite PE in SP. apply seg_cut in SP as [SA SB].
      assert (O1 : ok 0 false lo (Some (fst sk)) (BLeaf p a)) by (split; [exact SA|split; intros; lia]).
      assert (O2 : ok 0 false (Some (fst sk)) hi (BLeaf q (sk :: b))) by (split; [exact SB|split; intros; lia]).
      exists (alloc_states s (Leaf (mk_leaf m (sk :: b) nxt)) ++ [s2]), s2, (BLeaf p a), (fst sk), (BLeaf q (sk :: b)), fl1.
      split; [now rewrite <- app_assoc|]. split; [|split; [exact R2|]].
      + apply Forall_app. split.
        * pose proof (alloc_view _ _ _ _ _ _ _ _ Rp W1) as Fa. eapply Forall_impl; [|exact Fa]. intros x Vw. left.
          pose proof Vw as (Ho & _). apply holds_cons in Ho as [Gp _].
          apply (ctx_sees N rt F nxt 0 p p pre post es x [(p, Leaf (mk_leaf m es nxt))] Cx Vw); [eapply Lead_leaf; exact Gp| |exact Ln|cbn; lia].
          intros r Lc. apply LC_cons with nxt; auto. intros ->. cbn [length] in *. lia.
        * constructor; [|constructor]. right. rewrite PE.
          apply (pend_sees N rt F nxt 0 (BLeaf p a) (BLeaf q (sk :: b)) lo (fst sk) hi pre post s2 Cx O1 O2).
          -- exact (rep_view _ _ _ _ _ R2).
          -- cbn [BpTreeProofs.flat app length] in *. lia.
      + cbn [contents root_of first_leaf]. rewrite PE. repeat (split; [assumption || reflexivity|]). cbn. lia.
  Qed.

  Lemma insert_states e hi t nxt q es nx fr : descend d (fst e) hi t nxt q es nx fr ->
    forall N n root lo s F fl rt ln stk pre post, ok n root lo hi t -> in_b lo hi (fst e) -> safe m e es ->
    rep s (flat t nxt ++ F) fl rt ln ->
    ctx N rt F nxt n (root_of t) (first_leaf t) pre post -> N <= length (flat t nxt ++ F) ->
    let ts := file_states s (insert_at d q (Leaf (mk_leaf m es nx)) (fr ++ stk) e) in
    let Q x := sees x (pre ++ contents t ++ post) \/ sees x (pre ++ put e (contents t) ++ post) in
    length ts <= 2 \/ Forall Q ts \/ pend_states ts Q n lo hi t nxt F e rt ln stk.
  Proof.
    induction 1 as [hi p es nxt|hi p L l c R nxt q es nx fr B F0 X IH];
      intros N n root lo s F fl rt ln stk pre post O Be Sf Rp Cx Ln ts Q; subst ts.
    - destruct n as [|n]; [|contradiction].
      destruct (states_leaf N root lo hi p es nxt s F fl rt ln stk e pre post O Be Sf Rp Cx Ln) as [A|A]; [now left | right; now right].
    - destruct n as [|n]; [contradiction|]. pose proof O as O'. destruct O as (O & Len & Min).
      destruct (split_contents m d n lo hi L l c R (fst e) Hm O B) as [A1 A2].
      set (kids := L ++ (l, c) :: R) in *.
      assert (KC : contents (BNode p kids) = kcontents L ++ contents c ++ kcontents R).
      { change (contents (BNode p kids)) with (kcontents kids). unfold kids. now rewrite kcontents_app, kcontents_cons. }
      assert (AT : at_key (fst e) (contents (BNode p kids)) = at_key (fst e) (contents c)) by (rewrite KC; now apply at_mid).
      assert (PU : put e (contents (BNode p kids)) = kcontents L ++ put e (contents c) ++ kcontents R) by (rewrite KC; now apply put_mid).
      assert (Oc : ok n false l (low_of R hi) c).
      { destruct O as (_ & _ & Ch). apply chain_app in Ch as [_ [Ch _]]. exact Ch. }
      assert (PF : Permutation (flat (BNode p kids) nxt ++ F) (flat c (nxt_of R nxt) ++ (p, Internal (inode kids))
               :: flat_kids L (Some (first_leaf c)) ++ flat_kids R nxt ++ F)).
      { rewrite flat_node. unfold kids at 2. rewrite flat_kids_app, flat_kids_cons. cbn [nxt_of]. perm. }
      assert (Rp' : rep s (flat c (nxt_of R nxt) ++ (p, Internal (inode kids))
               :: flat_kids L (Some (first_leaf c)) ++ flat_kids R nxt ++ F) fl rt ln).
      { eapply rep_perm; [exact PF|exact Rp]. }
      assert (Cx' : ctx N rt ((p, Internal (inode kids)) :: flat_kids L (Some (first_leaf c)) ++ flat_kids R nxt ++ F) (nxt_of R nxt)
        n (root_of c) (first_leaf c) (pre ++ kcontents L) (kcontents R ++ post)).
      { pose proof O as (_ & _ & Ch). apply chain_app in Ch as [ChL [_ ChR]].
        apply (ctx_down N rt F nxt n p L l c R pre post lo hi O); [exact (kids_bound n _ _ L ChL) | exact (kids_bound n _ _ R ChR) | exact Cx]. }
      assert (Ln' : N <= length (flat c (nxt_of R nxt) ++ (p, Internal (inode kids)) :: flat_kids L (Some (first_leaf c)) ++ flat_kids R nxt ++ F)).
      { now rewrite <- (Permutation_length PF). }
      rewrite <- app_assoc. cbn [app].
      assert (QE : forall x, sees x ((pre ++ kcontents L) ++ contents c ++ kcontents R ++ post) \/
          sees x ((pre ++ kcontents L) ++ put e (contents c) ++ kcontents R ++ post) -> Q x).
      { intros x. unfold Q. rewrite PU, KC. now rewrite <- !app_assoc. }
      destruct (IH N n false l s _ fl rt ln ((p, inode kids, length L) :: stk) _ _ Oc B Sf Rp' Cx' Ln') as [IHr|[IHr|IHr]].
      + now left.
      + right. left. eapply Forall_impl; [exact QE | exact IHr].
      + right. destruct IHr as (A & here & s' & c1 & sk & c2 & fl' & E & Hr & R1 & O1 & O2 & C1 & Rt & Fl & Lg).
        assert (Hr' : Forall Q here) by (eapply Forall_impl; [exact QE | exact Hr]). clear Hr QE.
        unfold BpMapModel.frame in E |- *. rewrite E. cbn [grow iobind]. set (new := L ++ (l, c1) :: (Some sk, c2) :: R).
        assert (On : kids_ok n lo new hi).
        { apply (kids_splice m d n lo hi L [(l, c)] [(l, c1); (Some sk, c2)] R l); cbn; auto.
          constructor; [discriminate | constructor]. }
        assert (LN : length new = length kids + 1) by (unfold new, kids; rewrite !app_length; cbn [length]; lia).
        assert (CN : kcontents new = put e (contents (BNode p kids))).
        { rewrite PU. unfold new. rewrite kcontents_app, !kcontents_cons. rewrite <- C1. now rewrite <- app_assoc. }
        assert (FN : forall p', first_leaf (BNode p' new) = first_leaf (BNode p kids)).
        { intros p'. unfold new, kids. destruct L as [|[y b] L]; [exact Fl | reflexivity]. }
        assert (Pn : Permutation ((flat c1 (Some (first_leaf c2)) ++ flat c2 (nxt_of R nxt)) ++ (p, Internal (inode kids))
               :: flat_kids L (Some (first_leaf c)) ++ flat_kids R nxt ++ F) ((p, Internal (inode kids)) :: flat_kids new nxt ++ F)).
        { unfold new. rewrite flat_kids_app, !flat_kids_cons. cbn [nxt_of]. rewrite Fl. perm. }
        assert (R1' : rep s' ((p, Internal (inode kids)) :: flat_kids new nxt ++ F) fl' rt ln).
        { eapply rep_perm; [exact Pn|]. now rewrite <- app_assoc. }
        assert (Lnew : length (flat_kids kids nxt) <= length (flat_kids new nxt)).
        { unfold kids, new. rewrite !flat_kids_app, !flat_kids_cons. cbn [nxt_of]. rewrite Fl. rewrite !app_length in *. lia. }
        destruct (Nat.le_gt_cases (length new) (d + 1)) as [Fit|Over].
        * (* there is room *)
          left. pose proof (grow_room m d Hm Hd n lo hi L l c c1 sk c2 R On Rt Fit) as GI. fold new kids in GI.
          rewrite GI. cbn [pure iobind].
          destruct (rep_write _ _ _ (Internal (inode new)) _ _ _ _ R1') as (s2 & W & R2).
          cbn [file_states]. rewrite W. cbn [file_states finish iobind].
          assert (On' : ok (S n) root lo hi (BNode p new)) by (split; [exact On|]; split; [lia|]; intros Y; specialize (Min Y); lia).
          assert (Sx : forall x ln', rep x (flat (BNode p new) nxt ++ F) fl' rt ln' -> Q x).
          { intros x ln' Rx. right. rewrite <- CN. rewrite <- (FN p) in Cx.
            apply (node_sees N rt F nxt n root p new lo hi pre post x Cx On' (rep_view _ _ _ _ _ Rx)).
            rewrite flat_node in *. cbn [app length] in *. rewrite app_length in *. lia. }
          apply Forall_app. split; [exact Hr'|]. constructor; [exact (Sx _ _ R2)|].
          constructor; [eapply Sx, rep_set_len, R2 | constructor].
        * (* the node splits as well *)
          right. split; [congruence|].
          assert (Full : length new = d + 2) by lia.
          destruct (grow_full m d Hm Hd n lo hi L l c c1 sk c2 R On Rt Full) as (N1 & k' & c' & N2 & EN & L1 & L2 & GI).
          fold new kids in EN, GI. rewrite GI. cbn [pure iobind file_states].
          destruct (rep_alloc s' (Internal (inode ((Some k', c') :: N2))) _ _ _ _ R1') as (s1 & q2 & fl1 & W1 & R2).
          rewrite W1.
          assert (R2' : rep s1 ((p, Internal (inode kids)) :: (q2, Internal (inode ((Some k', c') :: N2))) :: flat_kids new nxt ++ F) fl1 rt ln).
          { eapply rep_perm; [|exact R2]. perm. }
          destruct (rep_write _ _ _ (Internal (inode N1)) _ _ _ _ R2') as (s2 & W2 & R3).
          rewrite W2. pose proof (half_up d) as HU. pose proof (half_le d) as [HL1 HL2].
          rewrite EN in On. assert (N1 <> []) as NE by (intros ->; cbn [length] in L1; lia).
          destruct (kids_cut m d n lo hi N1 (Some k') c' N2 NE On) as (K1 & K2 & _).
          assert (Ok1 : ok (S n) false lo (Some k') (BNode p N1)) by (split; [exact K1|]; split; [lia|]; intros _; lia).
          assert (Ok2 : ok (S n) false (Some k') hi (BNode q2 ((Some k', c') :: N2))) by (split; [exact K2|]; cbn [length]; split; [lia|]; intros _; lia).
          assert (CE : contents (BNode p N1) ++ contents (BNode q2 ((Some k', c') :: N2)) = put e (contents (BNode p kids))).
          { rewrite <- CN, EN. change (kcontents N1 ++ kcontents ((Some k', c') :: N2) = kcontents (N1 ++ (Some k', c') :: N2)).
            now rewrite kcontents_app. }
          assert (FE : first_leaf (BNode p N1) = first_leaf (BNode p kids)).
          { rewrite <- (FN p), EN. destruct N1 as [|[y b] N1]; [congruence | reflexivity]. }
          assert (P3 : Permutation ((p, Internal (inode N1)) :: (q2, Internal (inode ((Some k', c') :: N2))) :: flat_kids new nxt ++ F)
                 ((flat (BNode p N1) (Some (first_leaf (BNode q2 ((Some k', c') :: N2)))) ++ flat (BNode q2 ((Some k', c') :: N2)) nxt) ++ F)).
          { rewrite !flat_node. rewrite EN, flat_kids_app.
            change (nxt_of ((Some k', c') :: N2) nxt) with (Some (first_leaf c')).
            change (first_leaf (BNode q2 ((Some k', c') :: N2))) with (first_leaf c'). perm. }
          pose proof (Permutation_length P3) as LP. cbn [length] in LP. rewrite app_length in LP.
          exists (here ++ alloc_states s' (Internal (inode ((Some k', c') :: N2))) ++ [s2]), s2, (BNode p N1), k', (BNode q2 ((Some k', c') :: N2)), fl1.
          split; [now rewrite <- !app_assoc|]. split; [|split; [|split; [|split; [|split; [|split; [|split]]]]]]; auto.
          -- apply Forall_app. split; [exact Hr'|]. apply Forall_app. split.
             ++ pose proof (alloc_view _ _ _ _ _ _ _ _ R1' W1) as Fa. eapply Forall_impl; [|exact Fa]. intros x Vw. right.
                rewrite PU, <- C1.
                replace (pre ++ (kcontents L ++ (contents c1 ++ contents c2) ++ kcontents R) ++ post)
                  with ((pre ++ kcontents L) ++ (contents c1 ++ contents c2) ++ kcontents R ++ post) by now rewrite <- !app_assoc.
                rewrite <- Rt, <- Fl in Cx'.
                apply (pend_sees N rt _ (nxt_of R nxt) n c1 c2 l sk (low_of R hi) _ _ x Cx' O1 O2).
                ** eapply view_perm; [|exact Vw]. rewrite Fl. apply Permutation_sym. exact Pn.
                ** rewrite Fl, (Permutation_length Pn). rewrite flat_node in Ln. cbn [app length] in *. rewrite app_length in *. lia.
             ++ constructor; [|constructor]. right. rewrite <- CE. rewrite <- FE in Cx.
                apply (pend_sees N rt F nxt (S n) (BNode p N1) (BNode q2 ((Some k', c') :: N2)) lo k' hi pre post s2 Cx Ok1 Ok2).
                ** eapply view_perm; [exact P3 | exact (rep_view _ _ _ _ _ R3)].
                ** rewrite <- LP. rewrite flat_node in Ln. cbn [app length] in *. rewrite app_length in *. lia.
          -- eapply rep_perm; [|exact R3]. rewrite app_assoc. exact P3.
          -- rewrite app_length in LP. rewrite flat_node. cbn [length] in *. lia.
  Qed.

  Lemma same_sees s ml x : inv s ml -> same (reopen x) s -> sees x ml.
  Proof.
    intros I Sm. split.
    - rewrite (reads_run _ _ _ reads_iter Sm), (iter_inv m d Hm Hd s ml I). reflexivity.
    - rewrite (reads_run _ _ _ reads_min Sm), (min_inv m d Hm Hd s ml I). reflexivity.
  Qed.
  Lemma insert_crash s ml e : inv s ml -> lands m s e ->
    Forall (fun x => sees x ml \/ sees x (put e ml)) (file_states s (insert_prog d e)).
  Proof.
    intros I Sf. destruct (insert_inv m d Hm Hd s ml e I Sf) as (s' & E' & I').
    assert (Few : length (file_states s (insert_prog d e)) <= 2 -> Forall (fun x => sees x ml \/ sees x (put e ml)) (file_states s (insert_prog d e))).
    { intros Lf. assert (D : st_disk s = st_mem s) by (destruct I as (? & ? & ? & _ & Rp & _); exact (proj1 (proj1 (rep_strict _ _ _ _ _) Rp))).
      eapply Forall_impl; [|exact (few_insert d e s s' _ D E' Lf)]. intros x [Sm|Sm]; [left | right]; eapply same_sees; eauto. }
    pose proof I as (n & t & fl & O & Rp & Ct). subst ml. revert Few.
    assert (Rp' : rep s (flat t None ++ []) fl (root_of t) (length (contents t))) by now rewrite app_nil_r.
    assert (Bd : in_b None None (fst e)) by (split; exact Logic.I).
    destruct (search_ok m d (fst e) n true None None t None s [] fl _ Hm ltac:(lia) O Bd Rp') as (q & es & nx & fr & X & E).
    unfold insert_prog. rewrite states_bind, reads_states, E by apply reads_search. cbn [app]. intros Few.
    assert (Ln : n <= length (flat t None ++ [])).
    { rewrite app_nil_r. pose proof (depth_pages m d n true None None t None O). lia. }
    pose proof (insert_states e None t None q es nx fr X n n true None s [] fl _ _ [] [] [] O Bd (Sf _ _ _ _ E) Rp' (ctx_top n _ _) Ln) as C0.
    cbn zeta in C0. rewrite app_nil_r in C0. cbn [app] in C0. rewrite !app_nil_r in C0. destruct C0 as [C0|[C0|C0]]; [now apply Few | exact C0|].
    destruct C0 as (A & here & s2 & t1 & sk & t2 & fl' & E2 & Hr & R' & O1 & O2 & C' & Rt & Fl & Lg). rewrite E2.
    assert (G : forall (R : Type) (f : unit -> io K V R),
        iobind (grow d [] (root_of t) sk (root_of t2)) f =
        AllocNode (Internal (inode [(None, t1); (Some sk, t2)])) (fun q0 => SetRoot q0 (f tt))).
    { intros R f. unfold grow, internal_new, BpTreeProofs.inode, node_of, pad. cbn [in_keys in_ptrs tl map length].
      destruct d as [|[|[|d']]]; try lia. cbn. unfold kroot. cbn. rewrite Rt. reflexivity. }
    rewrite G. cbn [file_states]. rewrite app_nil_r in R'.
    destruct (rep_alloc s2 (Internal (inode [(None, t1); (Some sk, t2)])) _ _ _ _ R') as (s1 & q2 & fl1 & W1 & R1). rewrite W1.
    apply Forall_app. split; [exact Hr|]. apply Forall_app. split.
    - eapply Forall_impl; [|exact (alloc_view _ _ _ _ _ _ _ _ R' W1)]. intros x Vw. right. rewrite <- C'.
      pose proof (pend_sees n (root_of t1) [] None n t1 t2 None sk None [] [] x (ctx_top n _ _) O1 O2) as P. cbn [app] in P. rewrite !app_nil_r in P.
      apply P; [now rewrite Rt|]. rewrite app_nil_r in Ln. lia.
    - assert (On : ok (S n) true None None (BNode q2 [(None, t1); (Some sk, t2)])).
      { split; [|cbn [length]; split; [lia | discriminate]]. repeat split; cbn; auto. constructor; [discriminate | constructor]. }
      assert (Sx : forall x ln', rep x (flat (BNode q2 [(None, t1); (Some sk, t2)]) None) fl1 q2 ln' -> sees x (put e (contents t))).
      { intros x ln' Rx. rewrite <- C'.
        pose proof (node_sees (S n) q2 [] None n true q2 [(None, t1); (Some sk, t2)] None None [] [] x (ctx_top (S n) _ _) On) as P.
        cbn [app] in P. rewrite !app_nil_r in P. rewrite !kcontents_cons in P. cbn [kcontents flat_map] in P. rewrite app_nil_r in P.
        apply P; [exact (rep_view _ _ _ _ _ Rx)|]. rewrite flat_node, !flat_kids_cons. cbn [nxt_of length].
        pose proof (depth_pages m d n false None (Some sk) t1 (Some (first_leaf t2)) O1). rewrite app_length. lia. }
      assert (R2 : rep (set_root s1 q2) (flat (BNode q2 [(None, t1); (Some sk, t2)]) None) fl1 q2 (length (contents t))).
      { eapply rep_set_root. eapply rep_perm; [|exact R1]. rewrite flat_node, !flat_kids_cons. cbn [nxt_of]. perm. }
      constructor; [right; exact (Sx _ _ R2)|]. cbn [finish file_states]. constructor; [|constructor]. right. eapply Sx, rep_set_len, R2.
  Qed.

  Variables (ksize : K -> N) (vsize : V -> N) (cfg : config).
  Hypothesis Cm : leaf_degree cfg = m.
  Hypothesis Cd : internal_degree cfg = d.
  Notation fits := (valid ksize vsize cfg).
  Lemma crash_insert ops k v s outs x : never_harmful ksize vsize cfg (ops ++ [BInsert k v]) ->
    run (bp_step ksize vsize cfg) (new_store m) ops = Ok (s, outs) ->
    In x (call_states ksize vsize cfg s (BInsert k v)) ->
    let seen (y : list entry) := outputs (bp_step ksize vsize cfg) (reopen x) [BIter; BMin] = Ok [OList y; OKey (option_map fst (hd_error y))] in
    seen (bp_spec_state fits ops) \/ seen (bp_spec_state fits (ops ++ [BInsert k v])).
  Proof.
    intros Ov E J seen.
    assert (Ov1 : never_harmful ksize vsize cfg ops).
    { intros o1 k' v' o2 s0 r0 ->. apply (Ov o1 k' v' (o2 ++ [BInsert k v])). now rewrite <- app_assoc. }
    destruct (bp_run_inv m d Hm Hd ksize vsize cfg Cm Cd ops Ov1) as (s1 & E1 & I1). rewrite E in E1. injection E1 as <- ->.
    unfold call_states in J. rewrite Cd in J. destruct (fits k v) eqn:Fi; [|contradiction].
    assert (Sf : lands m s (k, v)).
    { apply (harmless_lands m d Hm Hd s _ (k, v) I1). rewrite <- Cm in E |- *. exact (Ov ops k v [] s _ eq_refl E Fi). }
    pose proof (insert_crash s _ (k, v) I1 Sf) as Fa. rewrite Forall_forall in Fa. specialize (Fa x J).
    assert (SE : forall y, sees x y -> seen y).
    { intros y [S1 S2]. unfold seen, outputs. cbn [run bp_step]. rewrite S1. cbn [bind]. rewrite S2. reflexivity. }
    assert (PE : bp_spec_state fits (ops ++ [BInsert k v]) = put (k, v) (bp_spec_state fits ops)).
    { unfold bp_spec_state. rewrite spec_run_app. destruct (spec_run (bp_spec_step fits) [] ops) as [a b]. cbn. now rewrite Fi. }
    rewrite PE. destruct Fa as [Fa|Fa]; [left | right]; now apply SE.
  Qed.
End CrashIter.
