(** The whole on-disk B+ tree map: reading operations and refinement of the ordered map. *)
From Verif Require Import BpMapModel BpNodeSpec BpLeafProofs BpInternalProofs BpStoreProofs OrdLemmas ListLemmas RunLemmas MapSpec.
From Verif Require Export BpDeleteProofs.

Section MapOps.
  Context {K V : Type} `{CmpLaws K} {Tg : tightness}.
  Variables m d : nat.
  Hypothesis Hm : 1 <= m.
  Hypothesis Hd : 3 <= d.
  Notation entry := (K * V)%type.
  Notation node := (node K V).
  Notation store := (store K V).
  Notation frame := (@frame K).
  Notation bt := (@bt K V).
  Notation kid := (option K * bt)%type.
  Notation flat := (flat m d).
  Notation flat_kids := (flat_kids m d).
  Notation inode := (inode d).
  Notation ok := (ok m d).
  Notation kids_ok := (kids_ok m d).
  Notation node_at := (node_at m d).
  Notation inv := (inv m d).
  Implicit Types (t c : bt) (kids L R M A B : list kid) (l lo hi : option K) (nxt : option nat) (es : list entry) (e : entry) (s : store).

  (** *** Leaves in order *)
  Inductive leaf_chain s : option nat -> list entry -> Prop :=
  | LC_nil : leaf_chain s None []
  | LC_cons p es nx r : get_page s p = Ok (Leaf (mk_leaf m es nx)) -> es <> [] -> length es <= m ->
      leaf_chain s nx r -> leaf_chain s (Some p) (es ++ r).

  Definition bound s t nxt : Prop := forall p n, In (p, n) (flat t nxt) -> get_page s p = Ok n.

  Lemma bound_kids s p kids nxt : bound s (BNode p kids) nxt ->
    get_page s p = Ok (Internal (inode kids)) /\ (forall q n, In (q, n) (flat_kids kids nxt) -> get_page s q = Ok n).
  Proof.
    intros B. split; [apply B; rewrite flat_node; now left|]. intros q n I. apply B. rewrite flat_node. now right.
  Qed.

  Lemma tree_chain s : forall n lo hi t nxt r, ok n false lo hi t -> bound s t nxt -> leaf_chain s nxt r ->
    leaf_chain s (Some (first_leaf t)) (contents t ++ r).
  Proof.
    induction n as [|n IH]; intros lo hi [p es|p kids] nxt r O B Lc; try contradiction.
    - destruct O as (_ & Lm & Hf). cbn [first_leaf contents]. specialize (Hf eq_refl). pose proof (half_le m).
      pose proof (half_up m). apply LC_cons with nxt; auto.
      + apply B. now left.
      + intros ->. cbn [length] in Hf. lia.
    - destruct O as ((Fl & _ & Ch) & _). apply bound_kids in B as [_ B].
      assert (G : forall kids, chain (ok n false) kids hi -> (forall q x, In (q, x) (flat_kids kids nxt) -> get_page s q = Ok x) ->
        leaf_chain s (nxt_of kids nxt) (kcontents kids ++ r)).
      { clear kids Fl Ch B. induction kids as [|[l c] kids IHk]; intros Ch B; [exact Lc|].
        destruct Ch as [Oc Ch]. rewrite kcontents_cons, <- app_assoc. cbn [nxt_of].
        apply (IH l (low_of kids hi) c (nxt_of kids nxt)); [exact Oc| |].
        - intros q x I. apply B. rewrite flat_kids_cons. apply in_or_app. now left.
        - apply IHk; [exact Ch|]. intros q x I. apply B. rewrite flat_kids_cons. apply in_or_app. now right. }
      specialize (G kids Ch B). destruct kids as [|[l c] kids]; [contradiction|]. exact G.
  Qed.

  Lemma ptr_at L l c R : keyed (tl (L ++ (l, c) :: R)) ->
    cell (in_ptrs (inode (L ++ (l, c) :: R))) (length L) = Ok (root_of c).
  Proof.
    intros D. rewrite inode_at. unfold node_of, cell. cbn [in_ptrs]. rewrite <- !app_assoc.
    rewrite nth_error_app2 by (rewrite map_length; lia). now rewrite map_length, Nat.sub_diag.
  Qed.

  Lemma root_chain s n root lo hi t : ok n root lo hi t -> bound s t None ->
    exists es nx r, contents t = es ++ r /\ leaf_chain s nx r /\ length es <= m /\ (r <> [] -> es <> []) /\
      forall fuel, n < fuel -> run_io s (descend_loop (fun _ => 0) fuel (node_at t None)) = Ok (s, Leaf (mk_leaf m es nx)).
  Proof.
    intros O B.
    assert (G : forall n root lo hi t nxt r, ok n root lo hi t -> bound s t nxt -> leaf_chain s nxt r -> (root = true -> nxt = None) ->
      exists es nx r', contents t ++ r = es ++ r' /\ leaf_chain s nx r' /\ length es <= m /\ (r' <> [] -> es <> []) /\
      forall fuel, n < fuel -> run_io s (descend_loop (fun _ => 0) fuel (node_at t nxt)) = Ok (s, Leaf (mk_leaf m es nx))).
    { clear - Hm Hd. induction n as [|n IH]; intros root lo hi [p es|p kids] nxt r O B Lc Rt; try contradiction.
      - destruct O as (_ & Lm & Hf). exists es, nxt, r. split; [reflexivity|]. split; [exact Lc|]. split; [exact Lm|]. split.
        + intros Nr. destruct root.
          * rewrite (Rt eq_refl) in Lc. inversion Lc; congruence.
          * specialize (Hf eq_refl). pose proof (half_le m). pose proof (half_up m). intros ->. cbn [length] in Hf. lia.
        + intros [|fuel] Lt; [lia|]. reflexivity.
      - destruct O as (Ok' & _). pose proof Ok' as (Fl & Dk & Ch). apply bound_kids in B as [_ B].
        destruct kids as [|[l c] kids]; [contradiction|]. destruct Ch as [Oc Ch].
        assert (Lk : leaf_chain s (nxt_of kids nxt) (kcontents kids ++ r)).
        { clear Fl Dk Oc Ok'. assert (B' : forall q x, In (q, x) (flat_kids kids nxt) -> get_page s q = Ok x).
          { intros q x I. apply B. rewrite flat_kids_cons. apply in_or_app. now right. }
          clear B. induction kids as [|[l' c'] kids IHk]; [exact Lc|]. destruct Ch as [Oc Ch].
          rewrite kcontents_cons, <- app_assoc. cbn [nxt_of].
          apply (tree_chain s n l' (low_of kids hi) c' (nxt_of kids nxt)); [exact Oc| |].
          - intros q x I. apply B'. rewrite flat_kids_cons. apply in_or_app. now left.
          - apply IHk; [exact Ch|]. intros q x I. apply B'. rewrite flat_kids_cons. apply in_or_app. now right. }
        destruct (IH false l (low_of kids hi) c (nxt_of kids nxt) (kcontents kids ++ r) Oc) as (es & nx & r' & E1 & E2 & E3 & E4 & E5); auto.
        { intros q x I. apply B. rewrite flat_kids_cons. apply in_or_app. now left. }
        { discriminate. }
        exists es, nx, r'. split.
        { rewrite <- E1. change (contents (BNode p ((l, c) :: kids))) with (kcontents ((l, c) :: kids)).
          now rewrite kcontents_cons, <- app_assoc. }
        split; [exact E2|]. split; [exact E3|]. split; [exact E4|]. intros [|fuel] Lt; [lia|].
        cbn [descend_loop node_at]. rewrite (run_pure _ _ _ _ (ptr_at [] l c kids Dk)). cbn [run_io].
        rewrite (B (root_of c) (node_at c (nxt_of kids nxt))) by (rewrite flat_kids_cons; apply in_or_app; left; apply flat_head).
        cbn [bind]. apply E5. lia. }
    destruct (G n root lo hi t None [] O B (LC_nil s) (fun _ => eq_refl)) as (es & nx & r & E1 & X).
    rewrite app_nil_r in E1. exists es, nx, r. split; [exact E1 | exact X].
  Qed.

  Lemma last_run s : forall n root lo hi t nxt, ok n root lo hi t -> bound s t nxt ->
      exists es nx r, contents t = r ++ es /\ length es <= m /\ (r <> [] -> es <> []) /\
      forall fuel, n < fuel -> run_io s (descend_loop (fun i => in_len i) fuel (node_at t nxt)) = Ok (s, Leaf (mk_leaf m es nx)).
  Proof.
    induction n as [|n IH]; intros root lo hi [p es|p kids] nxt O B; try contradiction.
    - destruct O as (_ & Lm & Hf). exists es, nxt, []. repeat split; auto; try congruence.
      intros [|fuel] Lt; [lia|]. reflexivity.
    - destruct O as (Ok' & Len & _). pose proof Ok' as (Fl & Dk & Ch). apply bound_kids in B as [_ B].
      destruct (exists_last (first_low_ne _ _ Fl)) as (L & [l c] & ->). 
      apply chain_app in Ch as [_ [Oc _]]. cbn [low_of] in Oc.
      destruct (IH false l hi c nxt Oc) as (es & nx & r & E1 & E2 & E3 & E4).
      { intros q x I. apply B. rewrite flat_kids_app. apply in_or_app. right. rewrite flat_kids_cons. apply in_or_app. now left. }
      exists es, nx, (kcontents L ++ r). split.
      { change (contents (BNode p (L ++ [(l, c)]))) with (kcontents (L ++ [(l, c)])). rewrite kcontents_app, kcontents_cons, E1.
        cbn. now rewrite app_nil_r, <- app_assoc. }
      split; [exact E2|]. split.
      { intros _. apply ok_seg in Oc as [_ Ne]; [|exact Hm]. destruct r as [|x r]; [|apply E3; discriminate]. cbn in E1. congruence. }
      intros [|fuel] Lt; [lia|]. cbn [descend_loop node_at].
      assert (IL : in_len (inode (L ++ [(l, c)])) = length L).
      { pose proof (inode_len m d Hm Hd (L ++ [(l, c)]) ltac:(destruct L; discriminate) Dk) as Q.
        rewrite app_length in Q. cbn [length] in Q. lia. }
      rewrite IL. rewrite (run_pure _ _ _ _ (ptr_at L l c [] Dk)). cbn [run_io].
      rewrite (B (root_of c) (node_at c nxt)) by (rewrite flat_kids_app; apply in_or_app; right; rewrite flat_kids_cons; apply in_or_app; left; apply (flat_head m d c nxt)).
      cbn [bind]. apply E4. lia.
  Qed.

  Lemma rep_bound s t F fl rt ln : rep s (flat t None ++ F) fl rt ln -> bound s t None.
  Proof. intros Rp p n I. eapply rep_get; [exact Rp|]. apply in_or_app. now left. Qed.

  Lemma mk_leaf_cell es nx i e : nth_error es i = Some e -> cell (lf_entries (mk_leaf m es nx)) i = Ok (Some e).
  Proof. intros E. apply cell_nth. now apply pad_nth_in. Qed.
  Lemma mk_leaf_empty (nx : option nat) : cell (lf_entries (mk_leaf m (@nil entry) nx)) 0 = Ok None.
  Proof. apply cell_nth. apply pad_nth_out. cbn [length]. lia. Qed.

  Lemma inv_open s ml : inv s ml -> exists n t fl, ok n true None None t /\
    rep s (flat t None ++ []) fl (root_of t) (length ml) /\ contents t = ml /\ n < S (md_pages (st_mem s)) /\
    length (flat t None) <= md_pages (st_mem s).
  Proof.
    intros (n & t & fl & O & Rp & E). exists n, t, fl. rewrite app_nil_r. split; [exact O|]. split; [exact Rp|]. split; [exact E|]. split.
    - pose proof (depth_pages m d n true None None t None O). apply rep_count in Rp. lia.
    - apply rep_count in Rp. exact Rp.
  Qed.

  Lemma get_inv s ml k : inv s ml -> run_io s (get_prog k) = Ok (s, option_map snd (hd_error (at_key k ml))).
  Proof.
    intros I. destruct (inv_open s ml I) as (n & t & fl & O & Rp & <- & _ & _).
    assert (Bd : in_b None None k) by (split; exact Logic.I).
    destruct (search_ok m d k n true None None t None s [] fl _ Hm ltac:(lia) O Bd Rp) as (q & es & nx & fr & X & E).
    destruct (descend_leaf m d k Hm _ _ _ _ _ _ _ X n true None O Bd) as (A & Srt & Lm).
    unfold get_prog. rewrite run_bind, E. cbn [bind expect_leaf iobind]. rewrite leaf_search_ok by assumption.
    cbn [pure iobind]. rewrite A. destruct (at_key_cases es k Srt) as [Q | (x & Q & _)]; rewrite Q; [reflexivity|].
    rewrite (run_pure _ _ _ (Some x)).
    - reflexivity.
    - apply mk_leaf_cell. rewrite (sorted_split es k Srt) at 1. rewrite Q. rewrite nth_error_app2 by lia.
      now rewrite Nat.sub_diag.
  Qed.

  Lemma first_leaf_inv s ml : inv s ml -> exists es nx r, ml = es ++ r /\ leaf_chain s nx r /\ length es <= m /\
    (r <> [] -> es <> []) /\ run_io s (edge_leaf (fun _ => 0)) = Ok (s, mk_leaf m es nx).
  Proof.
    intros I. destruct (inv_open s ml I) as (n & t & fl & O & Rp & <- & Fu & _).
    destruct (root_chain s n true None None t O (rep_bound _ _ _ _ _ _ Rp)) as (es & nx & r & E1 & E2 & E3 & E4 & E5).
    exists es, nx, r. repeat (split; [assumption|]). unfold edge_leaf. cbn [run_io].
    rewrite (rep_root _ _ _ _ _ Rp). erewrite rep_get; [|exact Rp|apply in_or_app; left; apply flat_head]. cbn [bind].
    rewrite run_bind, E5 by exact Fu. reflexivity.
  Qed.
  Lemma last_leaf_inv s ml : inv s ml -> exists es nx r, ml = r ++ es /\ length es <= m /\
    (r <> [] -> es <> []) /\ run_io s (edge_leaf (fun i => in_len i)) = Ok (s, mk_leaf m es nx).
  Proof.
    intros I. destruct (inv_open s ml I) as (n & t & fl & O & Rp & <- & Fu & _).
    destruct (last_run s n true None None t None O (rep_bound _ _ _ _ _ _ Rp)) as (es & nx & r & E1 & E2 & E3 & E4).
    exists es, nx, r. repeat (split; [assumption|]). unfold edge_leaf. cbn [run_io].
    rewrite (rep_root _ _ _ _ _ Rp). erewrite rep_get; [|exact Rp|apply in_or_app; left; apply flat_head]. cbn [bind].
    rewrite run_bind, E4 by exact Fu. reflexivity.
  Qed.

  Lemma min_inv s ml : inv s ml -> run_io s min_prog = Ok (s, option_map fst (hd_error ml)).
  Proof.
    intros I. destruct (first_leaf_inv s ml I) as (es & nx & r & -> & _ & Lm & Ne & E).
    unfold min_prog. rewrite run_bind, E. cbn [bind]. destruct es as [|e es].
    - destruct r; [|now destruct Ne]. rewrite (run_pure _ _ _ _ (mk_leaf_empty nx)). reflexivity.
    - rewrite (run_pure _ _ _ _ (mk_leaf_cell (e :: es) nx 0 e eq_refl)). reflexivity.
  Qed.
  Lemma max_inv s ml : inv s ml -> run_io s max_prog = Ok (s, option_map fst (last_error ml)).
  Proof.
    intros I. destruct (last_leaf_inv s ml I) as (es & nx & r & -> & Lm & Ne & E).
    unfold max_prog. rewrite run_bind, E. cbn [bind mk_leaf lf_len]. destruct es as [|e es].
    - destruct r; [|now destruct Ne]. reflexivity.
    - replace (length (e :: es) =? 0) with false by reflexivity.
      destruct (@exists_last _ (e :: es)) as (es' & x & Q); [discriminate|]. rewrite Q.
      rewrite app_assoc, last_error_app.
      rewrite (run_pure _ _ _ (Some x)); [reflexivity|]. change (pad m (es' ++ [x])) with (lf_entries (mk_leaf m (es' ++ [x]) nx)).
      apply mk_leaf_cell. rewrite app_length. cbn [length]. rewrite nth_error_app2 by lia.
      now replace (length es' + 1 - 1 - length es') with 0 by lia.
  Qed.

  (** *** Iteration *)
  Lemma list_set_nth_other {T : Type} (l : list T) i x j : j <> i -> nth_error (list_set l i x) j = nth_error l j.
  Proof. intros Ne. rewrite list_set_nth. destruct (Nat.eqb_spec i j); congruence. Qed.
  Lemma iter_chain s : forall fuel es i nx r ents, leaf_chain s nx r -> i <= length es ->
    (forall j, i <= j -> j < length es -> nth_error ents j = Some (nth_error es j)) ->
    length es - i + length r < fuel ->
    run_io s (iter_loop fuel (mkLeaf (length es) ents nx) i) = Ok (s, skipn i es ++ r).
  Proof.
    induction fuel as [|fuel IH]; intros es i nx r ents Lc Li En Lf; [lia|]. cbn [iter_loop lf_len lf_next lf_entries].
    destruct (length es <=? i) eqn:Q.
    - apply Nat.leb_le in Q. rewrite (skipn_all2 es) by lia. cbn [app]. destruct Lc as [|p es' nx r Gp Ne Lm Lc]; [reflexivity|].
      cbn [run_io]. rewrite Gp. cbn [bind expect_leaf iobind]. destruct es' as [|e es']; [congruence|].
      rewrite (run_pure _ _ _ _ (mk_leaf_cell (e :: es') nx 0 e eq_refl)). rewrite run_bind.
      change (mk_leaf m (e :: es') nx) with (mkLeaf (length (e :: es')) (pad m (e :: es')) nx). cbn [lf_len lf_next lf_entries].
      rewrite (IH (e :: es') (0 + 1) nx r); auto.
      + cbn [length]. lia.
      + intros j J1 J2. rewrite list_set_nth_other by lia.
        destruct (nth_error (e :: es') j) eqn:X; [|apply nth_error_None in X; lia]. apply pad_nth_in. exact X.
      + cbn [length app] in *. rewrite app_length in Lf. lia.
    - apply Nat.leb_gt in Q. destruct (nth_error es i) as [e|] eqn:X; [|apply nth_error_None in X; lia].
      assert (CE : cell ents i = Ok (Some e)) by (apply cell_nth; rewrite En by lia; now rewrite X).
      rewrite (run_pure _ _ _ _ CE). rewrite run_bind. rewrite (IH es (i + 1) nx r); auto.
      + cbn [bind run_io]. do 2 f_equal.
        apply nth_error_split in X as (a & b & -> & <-). rewrite !skipn_app.
        rewrite Nat.sub_diag. replace (length a + 1 - length a) with 1 by lia. rewrite (skipn_all2 a) by lia; rewrite (skipn_all2 (n := length a) a) by lia. reflexivity.
      + lia.
      + intros j J1 J2. rewrite list_set_nth_other by lia. apply En; lia.
      + lia.
  Qed.

  Lemma contents_bound : forall n root lo hi t nxt, ok n root lo hi t -> length (contents t) <= m * length (flat t nxt).
  Proof.
    induction n as [|n IH]; intros root lo hi [p es|p kids] nxt O; try contradiction.
    - destruct O as (_ & Lm & _). cbn [contents BpTreeProofs.flat length]. lia.
    - destruct O as ((_ & _ & Ch) & _). rewrite flat_node. cbn [length].
      change (contents (BNode p kids)) with (kcontents kids).
      assert (G : length (kcontents kids) <= m * length (flat_kids kids nxt)); [|nia].
      revert Ch. induction kids as [|[l c] kids IHk]; intros Ch; [cbn; lia|].
      destruct Ch as [Oc Ch]. rewrite kcontents_cons, flat_kids_cons, !app_length.
      specialize (IHk Ch). specialize (IH false _ _ c (nxt_of kids nxt) Oc). nia.
  Qed.

  Lemma iter_inv s ml : inv s ml -> run_io s iter_prog = Ok (s, ml).
  Proof.
    intros I. destruct (first_leaf_inv s ml I) as (es & nx & r & E0 & Lc & Lm & Ne & E).
    unfold iter_prog. rewrite run_bind, E. cbn [bind run_io]. unfold mk_leaf. cbn [lf_entries]. rewrite pad_length by exact Lm.
    rewrite (iter_chain s _ es 0 nx r); auto.
    - cbn [skipn]. now subst.
    - lia.
    - intros j _ J. destruct (nth_error es j) eqn:X; [|apply nth_error_None in X; lia]. now apply pad_nth_in.
    - destruct (inv_open s ml I) as (n & t & fl & O & _ & Ct & _ & Fp).
      pose proof (contents_bound n true None None t None O) as CB. rewrite Ct, E0, app_length in CB. nia.
  Qed.

  (** *** Single calls *)
  Lemma inv_new : inv (new_store m : store) [].
  Proof.
    exists 0, (BLeaf 0 []), []. split; [|split; [|reflexivity]].
    - split; [split; constructor|]. cbn [length]. split; [lia | discriminate].
    - pose proof (rep_new (K := K) (V := V) m) as R.
      cbn [BpTreeProofs.flat root_of length]. unfold mk_leaf, pad. cbn [length map app]. rewrite Nat.sub_0_r. exact R.
  Qed.
  Lemma inv_opened s ml : Tg <> Loose -> inv s ml -> inv (reopen s) ml.
  Proof. intros Nl (n & t & fl & O & Rp & E). exists n, t, fl. split; [exact O|]. split; [now apply rep_opened | exact E]. Qed.
  Lemma inv_len s ml : inv s ml -> md_len (st_mem s) = length ml.
  Proof. intros (n & t & fl & O & Rp & E). now apply rep_len in Rp. Qed.

  (** Pages of the ghost tree are reachable. *)
  Lemma flat_in_tree (s : store) : forall n root lo hi (t : bt) nxt, ok n root lo hi t ->
    (forall p x, In (p, x) (flat t nxt) -> nth_error (st_pages s) p = Some x) ->
    in_tree s (root_of t) -> forall p, In p (map fst (flat t nxt)) -> in_tree s p.
  Proof.
    induction n as [|n IH]; intros root lo hi [p0 es|p0 kids] nxt O B Rt p I; try contradiction.
    - destruct I as [<-|[]]. exact Rt.
    - rewrite flat_node in I, B. destruct I as [<-|I]; [exact Rt|].
      destruct O as ((_ & Dk & Ch) & Len & _).
      assert (G : forall L R, kids = L ++ R -> chain (ok n false) R hi ->
        (forall q x, In (q, x) (flat_kids R nxt) -> nth_error (st_pages s) q = Some x) ->
        In p (map fst (flat_kids R nxt)) -> in_tree s p).
      { intros L R. revert L. induction R as [|[l c] R IHr]; intros L E ChR BR IR; [contradiction|].
        destruct ChR as [Oc ChR]. rewrite flat_kids_cons in BR, IR. rewrite map_app in IR. apply in_app_or in IR as [IR|IR].
        - apply (IH false l (low_of R hi) c (nxt_of R nxt)); auto.
          + intros q x J. apply BR. apply in_or_app. now left.
          + assert (NN : kids <> []) by (destruct kids; [cbn in Len; lia | discriminate]).
            apply Child with (p := p0) (i := inode kids) (j := length L).
            * exact Rt.
            * apply B. now left.
            * pose proof (inode_len m d Hm Hd kids NN Dk) as IL. rewrite E in IL at 2. rewrite app_length in IL. cbn [length] in IL. lia.
            * pose proof (ptr_at L l c R ltac:(rewrite <- E; exact Dk)) as P. rewrite <- E in P.
              unfold cell, expect in P. destruct (nth_error _ _) eqn:Q; [|discriminate]. congruence.
        - apply (IHr (L ++ [(l, c)])); auto.
          + rewrite E, <- app_assoc. reflexivity.
          + intros q x J. apply BR. apply in_or_app. now right. }
      apply (G [] kids eq_refl Ch); auto. intros q x J. apply B. now right.
  Qed.

  (** The leaf a search ends at is one of them. *)
  Lemma descend_flat k hi t nxt q es nx fr : descend d k hi t nxt q es nx fr -> In (q, Leaf (mk_leaf m es nx)) (flat t nxt).
  Proof.
    induction 1 as [hi p es nxt|hi p L l c R nxt q es nx fr B F0 X IH]; [now left|].
    rewrite flat_node, flat_kids_app, flat_kids_cons. right. apply in_or_app. right. apply in_or_app. now left.
  Qed.
  Lemma search_lands s ml k : inv s ml -> exists q es nx fr,
    run_io s (search_node k) = Ok (s, (q, Leaf (mk_leaf m es nx), fr)) /\ in_tree s q /\
    nth_error (st_pages s) q = Some (Leaf (mk_leaf m es nx)) /\ at_key k ml = at_key k es /\ sorted es /\ length es <= m.
  Proof.
    intros (n & t & fl & O & Rp & <-).
    assert (Rp' : rep s (flat t None ++ []) fl (root_of t) (length (contents t))) by now rewrite app_nil_r.
    assert (Bd : in_b None None k) by (split; exact Logic.I).
    destruct (search_ok m d k n true None None t None s [] fl _ Hm ltac:(lia) O Bd Rp') as (q & es & nx & fr & X & E).
    exists q, es, nx, fr. split; [exact E|]. pose proof (descend_flat _ _ _ _ _ _ _ _ X) as J.
    pose proof (rep_pages _ _ _ _ _ Rp) as (N & G).
    assert (GB : forall p x, In (p, x) (flat t None) -> nth_error (st_pages s) p = Some x).
    { intros p x I. apply G. apply in_or_app. now left. }
    split; [|split; [now apply GB|]].
    - apply (flat_in_tree s n true None None t None O GB).
      + pose proof (Root s) as Rt. rewrite (rep_root _ _ _ _ _ Rp) in Rt. exact Rt.
      + apply (in_map fst) in J. exact J.
    - exact (descend_leaf m d k Hm _ _ _ _ _ _ _ X n true None O Bd).
  Qed.
  Lemma mk_leaf_inj es es' nx nx' : mk_leaf m es nx = mk_leaf m es' nx' -> es = es'.
  Proof.
    unfold mk_leaf, pad. intros E. injection E as L E _. revert es' L E.
    generalize (m - length es). intros a es'. generalize (m - length es'). intros b. revert es'.
    induction es as [|x es IH]; intros [|y es'] L E; try discriminate; [reflexivity|].
    cbn in *. injection E as -> E. f_equal. apply IH; [lia | exact E].
  Qed.
  (** An insertion that does no harm. *)
  Lemma harmless_lands s ml e : inv s ml -> ~ harmful m s (fst e) -> lands m s e.
  Proof.
    intros I N. destruct (search_lands s ml (fst e) I) as (q & es & nx & fr & E & T & P & A & S & L).
    intros q' es' nx' fr' E'. rewrite E in E'. injection E' as _ El Ee _ _.
    assert (es = es') as <- by (apply (mk_leaf_inj es es' nx nx); unfold mk_leaf; congruence).
    unfold safe. destruct (Nat.lt_ge_cases (length es) m) as [Lt|Ge]; [now left|right].
    destruct (at_key_cases es (fst e) S) as [Q | (x & Q & Qx)]; [now left|right].
    destruct (Nat.le_gt_cases (length (below (fst e) es)) (m / 2 + 1)) as [Le|Gt]; [exact Le|]. destruct N.
    exists q, (mk_leaf m es nx), (length (below (fst e) es)), x. split; [exact T|]. split; [exact P|]. split; [|split; [|split; [exact Qx | exact Gt]]].
    - cbn [mk_leaf lf_len]. lia.
    - apply pad_nth_in. rewrite (sorted_split es (fst e) S) at 1. rewrite Q. rewrite nth_error_app2 by lia. now rewrite Nat.sub_diag.
  Qed.

  Variables (ksize : K -> N) (vsize : V -> N) (cfg : config).
  Hypothesis Cm : leaf_degree cfg = m.
  Hypothesis Cd : internal_degree cfg = d.

  Lemma bp_step_inv_any s ml o : inv s ml -> (Tg = Loose -> o <> BReopen) ->
    (forall k v, o = BInsert k v -> valid ksize vsize cfg k v = true -> ~ harmful m s k) ->
    exists s', bp_step ksize vsize cfg s o = Ok (s', snd (bp_spec_step (valid ksize vsize cfg) ml o)) /\
      inv s' (fst (bp_spec_step (valid ksize vsize cfg) ml o)).
  Proof.
    intros I Nl Ov. unfold bp_step. rewrite Cm, Cd. destruct o; cbn [bp_spec_step].
    - destruct (valid ksize vsize cfg k v) eqn:Fi; [|exists s; split; [reflexivity | exact I]].
      destruct (insert_inv m d Hm Hd s ml (k, v) I) as (s' & E & I').
      { apply (harmless_lands s ml (k, v) I). exact (Ov k v eq_refl Fi). }
      exists s'. rewrite E. split; [reflexivity | exact I'].
    - destruct (remove_inv m d Hm Hd s ml k I) as (s' & E & I'). exists s'. rewrite E. split; [reflexivity | exact I'].
    - exists s. rewrite (get_inv s ml k I). split; [reflexivity | exact I].
    - exists s. rewrite (get_inv s ml k I). cbn [bind]. split; [|exact I]. now destruct (at_key k ml).
    - exists s. rewrite (inv_len s ml I). split; [reflexivity | exact I].
    - exists s. rewrite (inv_len s ml I). split; [reflexivity | exact I].
    - exists (clear_store m s). split; [reflexivity|]. apply inv_new.
    - exists s. rewrite (min_inv s ml I). split; [reflexivity | exact I].
    - exists s. rewrite (max_inv s ml I). split; [reflexivity | exact I].
    - exists s. rewrite (iter_inv s ml I). split; [reflexivity | exact I].
    - exists (reopen s). split; [reflexivity|]. apply inv_opened; [|exact I]. intros E. now apply Nl.
  Qed.

  Lemma spec_run_app {St Op Rt : Type} (step : St -> Op -> St * Rt) ops1 : forall (a : St) ops2,
    spec_run step a (ops1 ++ ops2) =
      (let '(s1, r1) := spec_run step a ops1 in let '(s2, r2) := spec_run step s1 ops2 in (s2, r1 ++ r2)).
  Proof.
    induction ops1 as [|o ops1 IH]; intros s0 ops2; cbn; [now destruct (spec_run step s0 ops2)|].
    destruct (step s0 o) as [s1 r]. rewrite IH. destruct (spec_run step s1 ops1) as [s2 r1].
    now destruct (spec_run step s2 ops2).
  Qed.

End MapOps.

#[local] Instance strict_file : tightness := Strict.
Section MapRun.
  Context {K V : Type} `{CmpLaws K}.
  Variables m d : nat.
  Hypothesis Hm : 1 <= m.
  Hypothesis Hd : 3 <= d.
  Notation inv := (inv (K := K) (V := V) m d).
  Implicit Types (s : store K V) (ml : list (K * V)).
  Lemma inv_reopen s ml : inv s ml -> reopen s = s.
  Proof. intros (n & t & fl & O & Rp & E). now apply rep_reopen in Rp. Qed.

  Variables (ksize : K -> N) (vsize : V -> N) (cfg : config).
  Hypothesis Cm : leaf_degree cfg = m.
  Hypothesis Cd : internal_degree cfg = d.

  Lemma bp_step_inv s ml o : inv s ml ->
    (forall k v, o = BInsert k v -> valid ksize vsize cfg k v = true -> ~ harmful m s k) ->
    exists s', bp_step ksize vsize cfg s o = Ok (s', snd (bp_spec_step (valid ksize vsize cfg) ml o)) /\
      inv s' (fst (bp_spec_step (valid ksize vsize cfg) ml o)).
  Proof. intros I. apply (bp_step_inv_any m d Hm Hd ksize vsize cfg Cm Cd s ml o I). discriminate. Qed.

  Lemma bp_run_inv ops : never_harmful ksize vsize cfg ops ->
    exists s, run (bp_step ksize vsize cfg) (new_store m) ops = Ok (s, bp_spec_outputs (valid ksize vsize cfg) ops) /\
      inv s (bp_spec_state (valid ksize vsize cfg) ops).
  Proof.
    intros Ov. unfold bp_spec_outputs, spec_outputs, bp_spec_state.
    assert (G : forall ops2 ops1 s r0, ops = ops1 ++ ops2 -> inv s (bp_spec_state (valid ksize vsize cfg) ops1) ->
      run (bp_step ksize vsize cfg) (new_store m) ops1 = Ok (s, r0) ->
      let r := spec_run (bp_spec_step (valid ksize vsize cfg)) (bp_spec_state (valid ksize vsize cfg) ops1) ops2 in
      exists s', run (bp_step ksize vsize cfg) s ops2 = Ok (s', snd r) /\ inv s' (fst r)).
    { induction ops2 as [|o ops2 IH]; intros ops1 s r0 E I Rn r; [exists s; split; [reflexivity | exact I]|].
      destruct (bp_step_inv s (bp_spec_state (valid ksize vsize cfg) ops1) o I) as (s1 & E1 & I1).
      { intros k v -> Fi. rewrite <- Cm in Rn |- *. exact (Ov ops1 k v ops2 s r0 E Rn Fi). }
      assert (St : fst (bp_spec_step (valid ksize vsize cfg) (bp_spec_state (valid ksize vsize cfg) ops1) o) =
        bp_spec_state (valid ksize vsize cfg) (ops1 ++ [o])).
      { unfold bp_spec_state. rewrite spec_run_app. destruct (spec_run _ [] ops1) as [a b]. cbn [fst].
        cbn [spec_run]. now destruct (bp_spec_step (valid ksize vsize cfg) a o). }
      rewrite St in I1. edestruct (IH (ops1 ++ [o]) s1) as (s2 & E2 & I2).
      { rewrite E, <- app_assoc. reflexivity. }
      { exact I1. }
      { eapply run_app_ok; [exact Rn|]. cbn [run]. rewrite E1. reflexivity. }
      exists s2. subst r. cbn [run spec_run]. rewrite E1. cbn [bind]. rewrite E2. cbn [bind]. rewrite <- St in *.
      destruct (bp_spec_step _ _ o) as [a b]. cbn [fst snd] in *. destruct (spec_run _ a ops2) as [x y].
      split; [reflexivity | exact I2]. }
    destruct (G ops [] (new_store m) [] eq_refl ltac:(now apply inv_new) eq_refl) as (s & E & I). exists s. split; [exact E | exact I].
  Qed.
End MapRun.
