(** The page file of the B+ tree: every page is owned by exactly one entry of a list of bindings or
    is on the free list. *)
From Verif Require Import BpMapModel BpLeafProofs ListLemmas.
From Verif Require Export PermTac.

(** How much is known about the file, see [rep]. *)
Inductive tightness : Set := Strict | Saved | Loose.
Existing Class tightness.

Section Store.
  Context {K V : Type} `{Cmp K}.
  Notation node := (node K V).
  Notation store := (store K V).
  Implicit Types (s : store) (n : node) (B E : list (nat * node)) (fl : list nat) (p q : nat).

  Lemma run_bind {A R} s (c : io K V A) (f : A -> io K V R) :
    run_io s (iobind c f) = let* (s1, a) := run_io s c in run_io s1 (f a).
  Proof.
    revert s. induction c as [a| | |p c IH|p n c IH|n c IH|p c IH|c IH|p c IH|c IH|n c IH|c IH]; intros s; cbn; auto.
    - destruct (get_page s p); cbn; auto.
    - destruct (write_node s p n); cbn; auto.
    - destruct (alloc_node s n) as [[s1 q]| |]; cbn; auto.
    - destruct (free_node s p); cbn; auto.
  Qed.
  Lemma run_pure {A R} s (r : res A) (f : A -> io K V R) a : r = Ok a ->
    run_io s (iobind (pure r) f) = run_io s (f a).
  Proof. intros ->. reflexivity. Qed.

  (** [E] binds exactly the pages of the file. *)
  Definition exact_pages (pages : list node) E : Prop :=
    NoDup (map fst E) /\ (forall p, p < length pages <-> In p (map fst E)) /\
    (forall p n, In (p, n) E -> nth_error pages p = Some n).

  Fixpoint free_chain fl : list (nat * node) :=
    match fl with [] => [] | f :: r => (f, Free (hd_error r)) :: free_chain r end.

  (** The pages [E], all below [np]. *)
  Definition some_pages (pages : list node) (np : nat) E : Prop :=
    NoDup (map fst E) /\ (forall p n, In (p, n) E -> nth_error pages p = Some n /\ p < np).

  (** The metadata in memory and the pages [B].  [Strict]: every page of the file is in use or free, and the
      metadata on disk is that in memory; [Saved]: the metadata on disk does as well; [Loose]: no more is known. *)
  Definition rep {T : tightness} s B fl (rt ln : nat) : Prop :=
    exists np, st_mem s = mkMeta np ln rt (hd_error fl) /\ some_pages (st_pages s) np (B ++ free_chain fl) /\
    match T with
    | Strict => st_disk s = st_mem s /\ np = length (st_pages s) /\
        (forall p, p < length (st_pages s) -> In p (map fst (B ++ free_chain fl)))
    | Saved => exists np', st_disk s = mkMeta np' ln rt (hd_error fl) /\ Forall (fun p => p < np') (map fst (B ++ free_chain fl))
    | Loose => True
    end.
  Lemma rep_strict s B fl rt ln : rep (T := Strict) s B fl rt ln <->
    st_disk s = st_mem s /\ st_mem s = mkMeta (length (st_pages s)) ln rt (hd_error fl) /\
    exact_pages (st_pages s) (B ++ free_chain fl).
  Proof.
    split.
    - intros (np & M & (N & G) & D & -> & Cv). split; [exact D|]. split; [exact M|]. split; [exact N|]. split.
      + intros p. split; [apply Cv|]. intros J. apply in_map_iff in J as ([q x] & <- & J). now apply (G q x).
      + intros p n J. now apply G.
    - intros (D & M & N & Cv & G). exists (length (st_pages s)). split; [exact M|]. split; [split; [exact N|]|split; [exact D|split; [reflexivity|apply Cv]]].
      intros p n J. split; [now apply G|]. apply Cv. change p with (fst (p, n)). now apply in_map.
  Qed.

  Lemma exact_perm pages E E' : Permutation E E' -> exact_pages pages E -> exact_pages pages E'.
  Proof.
    intros P (N & D & G). split; [|split].
    - eapply Permutation_NoDup; [|exact N]. now apply Permutation_map.
    - intros p. rewrite D. split; apply Permutation_in; [|apply Permutation_sym]; now apply Permutation_map.
    - intros p n I. apply G. eapply Permutation_in; [apply Permutation_sym; exact P | exact I].
  Qed.
  Lemma exact_set pages p n n' E : exact_pages pages ((p, n) :: E) ->
    p < length pages /\ exact_pages (list_set pages p n') ((p, n') :: E).
  Proof.
    intros (N & D & G). cbn [map fst] in *.
    assert (L : p < length pages) by (apply D; now left).
    split; [exact L|]. split; [exact N|]. split.
    - intros q. rewrite list_set_length. apply D.
    - intros q x [Q|I].
      + injection Q as <- <-. rewrite list_set_nth, Nat.eqb_refl. now rewrite (proj2 (Nat.ltb_lt _ _) L).
      + rewrite list_set_nth. destruct (p =? q) eqn:Q.
        * apply Nat.eqb_eq in Q. subst q. inversion N as [|? ? N1 N2]; subst. exfalso. apply N1.
          apply in_map_iff. now exists (p, x).
        * apply G. now right.
  Qed.
  Lemma exact_snoc pages n E : exact_pages pages E -> exact_pages (pages ++ [n]) ((length pages, n) :: E).
  Proof.
    intros (N & D & G). cbn. split; [|split].
    - constructor; [|exact N]. intros I. apply D in I. cbn in I. lia.
    - intros p. rewrite app_length. cbn [map fst In length]. rewrite <- D. lia.
    - intros p x [Q|I].
      + injection Q as <- <-. rewrite nth_error_app2 by lia. now rewrite Nat.sub_diag.
      + pose proof (G p x I) as Q. rewrite nth_error_app1; [exact Q|]. apply nth_error_Some. congruence.
  Qed.

  Lemma some_perm pages np E E' : Permutation E E' -> some_pages pages np E -> some_pages pages np E'.
  Proof.
    intros P (N & G). split.
    - eapply Permutation_NoDup; [|exact N]. now apply Permutation_map.
    - intros p n I. apply G. eapply Permutation_in; [apply Permutation_sym; exact P | exact I].
  Qed.
  Lemma some_set pages np p n n' E : some_pages pages np ((p, n) :: E) ->
    p < length pages /\ some_pages (list_set pages p n') np ((p, n') :: E).
  Proof.
    intros (N & G). cbn [map fst] in *. destruct (G p n (or_introl eq_refl)) as [Gp Lp].
    assert (L : p < length pages) by (apply nth_error_Some; congruence).
    split; [exact L|]. split; [exact N|]. intros q x [Q|I].
    - injection Q as <- <-. rewrite list_set_nth, Nat.eqb_refl. rewrite (proj2 (Nat.ltb_lt _ _) L). auto.
    - rewrite list_set_nth. destruct (p =? q) eqn:Q.
      + apply Nat.eqb_eq in Q. subst q. inversion N as [|? ? N1 N2]; subst. exfalso. apply N1. apply in_map_iff. now exists (p, x).
      + apply G. now right.
  Qed.
  Lemma resize_length (pages : list node) np : length (resize_pages pages np) = np.
  Proof. unfold resize_pages. rewrite app_length, firstn_length, repeat_length. lia. Qed.
  Lemma resize_nth (pages : list node) np p n : p < np -> nth_error pages p = Some n -> nth_error (resize_pages pages np) p = Some n.
  Proof.
    intros L E. unfold resize_pages. assert (p < length pages) by (apply nth_error_Some; congruence).
    rewrite nth_error_app1 by (rewrite firstn_length; lia). rewrite <- E. clear E. revert p L H0. revert pages.
    induction np as [|np IH]; intros pages p L Lp; [lia|]. destruct pages as [|x pages]; cbn in Lp; [lia|].
    destruct p; cbn; [reflexivity|]. apply IH; lia.
  Qed.
  Lemma some_snoc pages np n E : some_pages pages np E -> some_pages (resize_pages pages np ++ [n]) (np + 1) ((np, n) :: E).
  Proof.
    intros (N & G). split.
    - constructor; [|exact N]. intros J. apply in_map_iff in J as ([q x] & Eq & J). cbn in Eq. destruct (G q x J). lia.
    - intros p x [Q|J].
      + injection Q as <- <-. rewrite nth_error_app2 by (rewrite resize_length; lia). rewrite resize_length, Nat.sub_diag. split; [reflexivity | lia].
      + destruct (G p x J) as [G1 G2]. rewrite nth_error_app1 by (rewrite resize_length; lia). split; [now apply resize_nth | lia].
  Qed.

  Context {T : tightness}.
  Lemma rep_perm s B B' fl rt ln : Permutation B B' -> rep s B fl rt ln -> rep s B' fl rt ln.
  Proof.
    intros P (np & M & S & X). apply (Permutation_app_tail (free_chain fl)) in P.
    exists np. split; [exact M|]. split; [now apply (some_perm _ _ _ _ P)|]. destruct T.
    - destruct X as (D & L & Cv). split; [exact D|]. split; [exact L|]. intros p J.
      apply (Permutation_in p (Permutation_map fst P)). now apply Cv.
    - destruct X as (np' & D & F). exists np'. split; [exact D|]. apply (Permutation_Forall (Permutation_map fst P) F).
    - exact I.
  Qed.
  Lemma rep_get s B fl rt ln p n : rep s B fl rt ln -> In (p, n) B -> get_page s p = Ok n.
  Proof.
    intros (np & _ & (_ & G) & _) I. unfold get_page. apply cell_nth. apply G. apply in_or_app. now left.
  Qed.
  Lemma rep_write s p n n' B fl rt ln : rep s ((p, n) :: B) fl rt ln ->
    exists s', write_node s p n' = Ok s' /\ rep s' ((p, n') :: B) fl rt ln.
  Proof.
    intros (np & M & S & X). destruct (some_set _ _ _ _ n' _ S) as [L S'].
    eexists. unfold write_node. rewrite set_cell_ok by exact L. cbn [bind]. split; [reflexivity|].
    exists np. cbn [st_mem st_pages st_disk]. split; [exact M|]. split; [exact S'|]. cbn [app map fst] in X |- *. rewrite list_set_length. exact X.
  Qed.
  (** Metadata that was just written. *)
  Lemma rep_meta s B fl rt ln np : some_pages (st_pages s) np (B ++ free_chain fl) ->
    (T = Strict -> np = length (st_pages s) /\ forall p, p < length (st_pages s) -> In p (map fst (B ++ free_chain fl))) ->
    rep (set_meta s (mkMeta np ln rt (hd_error fl))) B fl rt ln.
  Proof.
    intros S X. exists np. split; [reflexivity|]. split; [exact S|]. destruct T; cbn [set_meta st_pages st_disk st_mem].
    - split; [reflexivity|]. now apply X.
    - exists np. split; [reflexivity|]. apply Forall_forall. intros p J. apply in_map_iff in J as ([q x] & <- & J). now apply (proj2 S) in J.
    - exact I.
  Qed.
  Lemma rep_alloc s n B fl rt ln : rep s B fl rt ln ->
    exists s' q fl', alloc_node s n = Ok (s', q) /\ rep s' ((q, n) :: B) fl' rt ln.
  Proof.
    intros (np & M & S & X). unfold alloc_node. rewrite M. cbn [md_free md_pages md_len md_root].
    destruct fl as [|f fl]; cbn [hd_error].
    - eexists _, _, []. split; [reflexivity|]. apply (rep_meta _ _ []); cbn [st_pages].
      + cbn [app]. now apply some_snoc.
      + intros ->. destruct X as (_ & -> & Cv). rewrite app_length, resize_length. split; [reflexivity|]. cbn [length app map fst].
        intros p J. destruct (Nat.eq_dec (length (st_pages s)) p); [now left|]. right. apply Cv. lia.
    - cbn [free_chain] in S, X.
      assert (P : Permutation (B ++ (f, Free (hd_error fl)) :: free_chain fl) ((f, Free (hd_error fl)) :: B ++ free_chain fl)) by perm.
      pose proof (some_perm _ _ _ _ P S) as S1. destruct (proj2 S1 f _ (or_introl eq_refl)) as [GF LF].
      unfold get_page. rewrite (cell_nth _ _ _ GF). cbn [bind].
      destruct (some_set _ _ _ _ n _ S1) as [L S2]. unfold write_node.
      rewrite set_cell_ok by exact L. cbn [bind].
      eexists _, _, fl. split; [reflexivity|]. apply rep_meta; cbn [st_pages]; [exact S2|].
      intros ->. destruct X as (_ & -> & Cv). rewrite list_set_length. split; [reflexivity|].
      intros p J. exact (Permutation_in p (Permutation_map fst P) (Cv p J)).
  Qed.
  Lemma rep_free s p n B fl rt ln : rep s ((p, n) :: B) fl rt ln ->
    exists s', free_node s p = Ok s' /\ rep s' B (p :: fl) rt ln.
  Proof.
    intros (np & M & S & X). unfold free_node, write_node. rewrite M. cbn [md_free md_pages md_len md_root].
    destruct (some_set _ _ _ _ (Free (hd_error fl)) _ S) as [L S1]. rewrite set_cell_ok by exact L. cbn [bind].
    eexists. split; [reflexivity|]. apply (rep_meta _ B (p :: fl)); cbn [st_pages].
    - eapply some_perm; [|exact S1]. cbn [app free_chain]. apply Permutation_middle.
    - intros ->. destruct X as (_ & -> & Cv). rewrite list_set_length. split; [reflexivity|].
      intros q J. specialize (Cv q J). rewrite map_app in Cv |- *. cbn [map fst free_chain app] in *.
      apply in_or_app. destruct Cv as [->|Cv]; [right; now left|]. apply in_app_or in Cv as [Cv|Cv]; [now left | right; now right].
  Qed.
  Lemma rep_set_root s B fl rt ln rt' : rep s B fl rt ln -> rep (set_root s rt') B fl rt' ln.
  Proof.
    intros (np & M & S & X). unfold set_root. rewrite M. cbn [md_free md_pages md_len md_root]. apply rep_meta; [exact S|].
    intros ->. now destruct X as (_ & X).
  Qed.
  Lemma rep_set_len s B fl rt ln ln' : rep s B fl rt ln -> rep (set_len s ln') B fl rt ln'.
  Proof.
    intros (np & M & S & X). unfold set_len. rewrite M. cbn [md_free md_pages md_len md_root]. apply rep_meta; [exact S|].
    intros ->. now destruct X as (_ & X).
  Qed.
  Lemma rep_reopen s B fl rt ln : rep (T := Strict) s B fl rt ln -> reopen s = s.
  Proof. intros (np & _ & _ & R1 & _). destruct s as [a b c]. unfold reopen. cbn in *. now subst. Qed.
  Lemma rep_root s B fl rt ln : rep s B fl rt ln -> md_root (st_mem s) = rt.
  Proof. intros (np & -> & _). reflexivity. Qed.
  Lemma rep_len s B fl rt ln : rep s B fl rt ln -> md_len (st_mem s) = ln.
  Proof. intros (np & -> & _). reflexivity. Qed.
  Lemma rep_count s B fl rt ln : rep s B fl rt ln -> length B <= md_pages (st_mem s).
  Proof.
    intros (np & -> & (N & G) & _). cbn. rewrite map_app in N. apply NoDup_left in N.
    rewrite <- (map_length fst B).
    assert (length (map fst B) <= length (seq 0 np)).
    { apply NoDup_incl_length; [exact N|]. intros p I. apply in_seq. split; [lia|]. cbn.
      apply in_map_iff in I as ([q x] & <- & I). apply (G q x). apply in_or_app. now left. }
    now rewrite seq_length in *.
  Qed.
  Lemma rep_pages s B fl rt ln : rep s B fl rt ln -> NoDup (map fst (B ++ free_chain fl)) /\
    (forall p n, In (p, n) (B ++ free_chain fl) -> nth_error (st_pages s) p = Some n).
  Proof. intros (np & _ & (N & G) & _). split; [exact N|]. intros p n J. now apply G. Qed.
  (** The file as it is opened again. *)
  Lemma rep_opened s B fl rt ln : T <> Loose -> rep s B fl rt ln -> rep (reopen s) B fl rt ln.
  Proof.
    intros Nl R. destruct T; [now rewrite (rep_reopen s B fl rt ln R)| |congruence].
    destruct R as (np & M & (N & G) & np' & D & F). exists np'. cbn [reopen st_mem st_pages st_disk]. split; [exact D|].
    rewrite Forall_forall in F. split; [|exists np'; split; [exact D | now apply Forall_forall]].
    split; [exact N|]. intros p n J. split; [now apply G|]. apply F. change p with (fst (p, n)). now apply in_map.
  Qed.
  Lemma rep_new m : rep (new_store m) [(0, Leaf (leaf_new m))] [] 0 0.
  Proof.
    change (new_store m) with (set_meta (mkStore [Leaf (leaf_new m)] (mkMeta 1 0 0 None) (mkMeta 1 0 0 None) : store) (mkMeta 1 0 0 (hd_error []))).
    apply rep_meta; cbn.
    - split; [constructor; [intros []|constructor]|]. intros p n [Q|[]]. injection Q as <- <-. split; [reflexivity | lia].
    - intros _. split; [reflexivity|]. intros p L. left. lia.
  Qed.
  Lemma rep_clear m s : rep (clear_store m s) [(0, Leaf (leaf_new m))] [] 0 0.
  Proof. apply (rep_new m). Qed.
End Store.
