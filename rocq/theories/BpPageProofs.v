(** Page accounting of the on-disk B+ tree. *)
From Verif Require Import BpMapModel BpNodeSpec BpLeafProofs BpInternalProofs BpStoreProofs OrdLemmas ListLemmas MapSpec PermTac.
From Verif Require Export BpMapProofs.
From Coq Require Import Permutation.

Lemma NoDup_app_remove_r {A} (a b : list A) : NoDup (a ++ b) -> NoDup a.
Proof.
  induction a as [|x a IH]; intros N; [constructor|]. inversion N as [|? ? N1 N2]; subst.
  constructor; [|now apply IH]. intros I. apply N1. apply in_or_app. now left.
Qed.
Lemma NoDup_app_remove_l {A} (a b : list A) : NoDup (a ++ b) -> NoDup b.
Proof. induction a as [|x a IH]; intros N; [exact N|]. inversion N; subst. now apply IH. Qed.

#[local] Instance strict_file : tightness := Strict.

Section Pages.
  Context {K V : Type} `{CmpLaws K}.
  Variables m d : nat.
  Hypothesis Hm : 1 <= m.
  Hypothesis Hd : 3 <= d.
  Notation entry := (K * V)%type.
  Notation node := (node K V).
  Notation store := (store K V).
  Notation bt := (@bt K V).
  Notation kid := (option K * bt)%type.
  Notation flat := (flat m d).
  Notation flat_kids := (flat_kids m d).
  Notation inode := (inode d).
  Notation ok := (ok m d).
  Notation inv := (inv m d).

  Lemma free_chain_pages (s : store) fl :
    (forall p n, In (p, n) (free_chain fl) -> nth_error (st_pages s) p = Some n) -> free_pages s (hd_error fl) fl.
  Proof.
    induction fl as [|p fl IH]; intros G; [reflexivity|]. split; [reflexivity|].
    exists (hd_error fl). split; [apply G; now left|]. apply IH. intros q n I. apply G. now right.
  Qed.
  Lemma free_chain_fst (fl : list nat) : map fst (@free_chain K V fl) = fl.
  Proof. induction fl as [|p fl IH]; [reflexivity|]. cbn. now rewrite IH. Qed.

  Lemma in_tree_flat (s : store) : forall n root lo hi (t : bt) nxt, ok n root lo hi t ->
    (forall p x, In (p, x) (flat t nxt) -> nth_error (st_pages s) p = Some x) ->
    forall p i j q, In (p, Internal i) (flat t nxt) -> j <= in_len i -> nth_error (in_ptrs i) j = Some q ->
    In q (map fst (flat t nxt)).
  Proof.
    induction n as [|n IH]; intros root lo hi [p0 es|p0 kids] nxt O B p i j q I J N; try contradiction.
    - destruct I as [I|[]]. discriminate.
    - destruct O as ((_ & Dk & Ch) & Len & _). rewrite flat_node in *. cbn [map fst].
      destruct I as [I|I].
      + injection I as <- <-. right.
        assert (NN : kids <> []) by (destruct kids; [cbn in Len; lia | discriminate]).
        pose proof (inode_len m d Hm Hd kids NN Dk) as IL.
        assert (Jl : j < length kids) by lia.
        destruct (nth_error kids j) as [[l c]|] eqn:X; [|apply nth_error_None in X; lia].
        apply nth_error_split in X as (L & R & E & Lj). subst j.
        pose proof (ptr_at m d Hm Hd L l c R ltac:(rewrite <- E; exact Dk)) as P. rewrite <- E in P.
        unfold cell, expect in P. rewrite N in P. injection P as ->.
        rewrite E, flat_kids_app, flat_kids_cons, !map_app. apply in_or_app. right. apply in_or_app. left.
        change (root_of c) with (fst (root_of c, node_at m d c (nxt_of R nxt))). apply in_map. apply flat_head.
      + right. assert (G : forall R, chain (ok n false) R hi ->
          (forall q x, In (q, x) (flat_kids R nxt) -> nth_error (st_pages s) q = Some x) ->
          In (p, Internal i) (flat_kids R nxt) -> In q (map fst (flat_kids R nxt))).
        { induction R as [|[l c] R IHr]; intros ChR BR IR; [contradiction|].
          destruct ChR as [Oc ChR]. rewrite flat_kids_cons in *. rewrite map_app. apply in_or_app.
          apply in_app_or in IR as [IR|IR].
          - left. apply (IH false l (low_of R hi) c (nxt_of R nxt) Oc) with (p := p) (i := i) (j := j); auto.
            intros q' x' J'. apply BR. apply in_or_app. now left.
          - right. apply IHr; auto. intros q' x' J'. apply BR. apply in_or_app. now right. }
        apply G; auto. intros q' x' J'. apply B. now right.
  Qed.

  Lemma inv_pages (s : store) ml : inv s ml ->
    md_pages (st_mem s) = length (st_pages s) /\ st_disk s = st_mem s /\
    exists fl, free_pages s (md_free (st_mem s)) fl /\ NoDup fl /\
      (forall p, p < length (st_pages s) -> (in_tree s p /\ ~ In p fl) \/ (~ in_tree s p /\ In p fl)) /\
      (forall p, in_tree s p \/ In p fl -> p < length (st_pages s)).
  Proof.
    intros (n & t & fl & O & Rp & E). pose proof (proj1 (rep_strict _ _ _ _ _) Rp) as (R1 & R2 & N & D & G).
    split; [now rewrite R2|]. split; [exact R1|].
    assert (GB : forall p x, In (p, x) (flat t None) -> nth_error (st_pages s) p = Some x).
    { intros p x I. apply G. apply in_or_app. now left. }
    assert (TI : forall p, in_tree s p <-> In p (map fst (flat t None))).
    { intros p. split.
      - induction 1 as [|p i j q T IHp P J Q].
        + rewrite R2. cbn [md_root]. change (root_of t) with (fst (root_of t, node_at m d t None)). apply in_map. apply flat_head.
        + apply in_map_iff in IHp as ([p' x] & Ep & I). cbn in Ep. subst p'. pose proof (GB p x I) as X. rewrite P in X.
          injection X as <-. now apply (in_tree_flat s n true None None t None O GB p i j).
      - apply (flat_in_tree m d Hm Hd s n true None None t None O GB). pose proof (Root s) as Rt. rewrite R2 in Rt. exact Rt. }
    rewrite map_app, free_chain_fst in N. exists fl. split; [|split; [|split]].
    - rewrite R2. cbn [md_free]. apply free_chain_pages. intros p x I. apply G. apply in_or_app. now right.
    - now apply NoDup_app_remove_l in N.
    - intros p L. apply D in L. rewrite map_app, free_chain_fst in L. rewrite TI.
      assert (X : In p (map fst (flat t None)) -> In p fl -> False).
      { clear - N. induction (map fst (flat t None)) as [|a l IH]; [intros []|]. inversion N as [|? ? N1 N2]; subst.
        intros [->|I] J; [apply N1; apply in_or_app; now right | now apply IH]. }
      apply in_app_or in L as [L|L]; [left|right]; tauto.
    - intros p. rewrite TI. intros I. apply D. rewrite map_app, free_chain_fst. apply in_or_app. exact I.
  Qed.
End Pages.

(** *** The pager with any client *)
Section Client.
  Context {K V : Type}.
  Notation node := (node K V).
  Notation store := (store K V).
  Implicit Types (s : store) (h : holdings K V) (n : node).

  Definition client_new (m : nat) : store * holdings K V := (new_store m, [(0, Leaf (leaf_new m))]).

  Lemma nth_cut {A} (l : list A) i x : nth_error l i = Some x -> firstn i l ++ x :: skipn (S i) l = l.
  Proof.
    revert i. induction l as [|a l IH]; intros [|i] E; cbn in E; try discriminate.
    - injection E as ->. reflexivity.
    - cbn [firstn app]. rewrite <- (IH i E) at 3. reflexivity.
  Qed.
  Lemma nth_list_set {A} (l : list A) i x y : nth_error l i = Some x -> list_set l i y = firstn i l ++ y :: skipn (S i) l.
  Proof.
    revert i. induction l as [|a l IH]; intros [|i] E; cbn in E; try discriminate; [reflexivity|].
    cbn [list_set firstn app]. now rewrite (IH i E).
  Qed.
  Lemma list_set_out {A} (l : list A) i y : nth_error l i = None -> list_set l i y = l.
  Proof. revert i. induction l as [|a l IH]; intros [|i] E; cbn in *; auto; try discriminate. now rewrite IH. Qed.
  Lemma nth_out_cut {A} (l : list A) i : nth_error l i = None -> firstn i l ++ skipn (S i) l = l.
  Proof.
    intros E. apply nth_error_None in E. rewrite firstn_all2, skipn_all2 by lia. apply app_nil_r.
  Qed.

  Lemma client_step_ok s h fl rt ln o : rep s h fl rt ln ->
    exists s' h' fl', client_step (s, h) o = Ok (s', h', snd (client_spec (map snd h) o)) /\
      rep s' h' fl' rt ln /\ map snd h' = fst (client_spec (map snd h) o).
  Proof.
    intros Rp. destruct o as [n|i n|i|i|]; cbn [client_step client_spec fst snd].
    - destruct (rep_alloc s n h fl rt ln Rp) as (s' & q & fl' & E & R'). rewrite E. cbn [bind].
      exists s', ((q, n) :: h), fl'. auto.
    - destruct (nth_error h i) as [[p x]|] eqn:E.
      + pose proof (nth_cut h i _ E) as X. assert (R0 : rep s ((p, x) :: firstn i h ++ skipn (S i) h) fl rt ln).
        { eapply rep_perm; [|exact Rp]. rewrite <- X at 1. apply Permutation_sym. apply Permutation_middle. }
        destruct (rep_write s p x n _ fl rt ln R0) as (s' & W & R'). rewrite W. cbn [bind].
        exists s', (list_set h i (p, n)), fl. split; [reflexivity|]. split.
        * rewrite (nth_list_set h i (p, x)) by exact E. eapply rep_perm; [|exact R']. apply Permutation_middle.
        * rewrite (nth_list_set h i (p, x)) by exact E. rewrite (nth_list_set (map snd h) i x) by (rewrite nth_error_map, E; reflexivity).
          rewrite map_app. cbn [map snd]. now rewrite firstn_map, skipn_map.
      + exists s, h, fl. split; [reflexivity|]. split; [exact Rp|]. rewrite list_set_out; [reflexivity|]. now rewrite nth_error_map, E.
    - destruct (nth_error h i) as [[p x]|] eqn:E.
      + pose proof (nth_cut h i _ E) as X. assert (R0 : rep s ((p, x) :: firstn i h ++ skipn (S i) h) fl rt ln).
        { eapply rep_perm; [|exact Rp]. rewrite <- X at 1. apply Permutation_sym. apply Permutation_middle. }
        destruct (rep_free s p x _ fl rt ln R0) as (s' & W & R'). rewrite W. cbn [bind].
        exists s', (firstn i h ++ skipn (S i) h), (p :: fl). split; [reflexivity|]. split; [exact R'|].
        now rewrite map_app, firstn_map, skipn_map.
      + exists s, h, fl. split; [reflexivity|]. split; [exact Rp|]. symmetry. apply nth_out_cut. now rewrite nth_error_map, E.
    - rewrite nth_error_map. destruct (nth_error h i) as [[p x]|] eqn:E.
      + rewrite (rep_get s h fl rt ln p x Rp) by (eapply nth_error_In; exact E). cbn. exists s, h, fl. auto.
      + cbn. exists s, h, fl. auto.
    - rewrite (rep_reopen s h fl rt ln Rp). exists s, h, fl. auto.
  Qed.

  Lemma client_run_ok ops : forall s h fl rt ln, rep s h fl rt ln ->
    exists s' h' fl', run client_step (s, h) ops = Ok ((s', h'), snd (spec_run client_spec (map snd h) ops)) /\
      rep s' h' fl' rt ln /\ map snd h' = fst (spec_run client_spec (map snd h) ops).
  Proof.
    induction ops as [|o ops IH]; intros s h fl rt ln Rp; [exists s, h, fl; auto|].
    destruct (client_step_ok s h fl rt ln o Rp) as (s1 & h1 & fl1 & E1 & R1 & M1).
    destruct (IH s1 h1 fl1 rt ln R1) as (s2 & h2 & fl2 & E2 & R2 & M2).
    cbn [run spec_run]. rewrite E1. cbn [bind]. rewrite E2. cbn [bind]. rewrite M1 in *.
    destruct (client_spec (map snd h) o) as [a b]. cbn [fst snd] in *. destruct (spec_run client_spec a ops) as [x y].
    exists s2, h2, fl2. auto.
  Qed.

  Lemma client_pages m ops : exists s h outs fl,
    run client_step (client_new m) ops = Ok ((s, h), outs) /\
    outs = snd (spec_run client_spec [Leaf (leaf_new m)] ops) /\
    NoDup (map fst h) /\ free_pages s (md_free (st_mem s)) fl /\ NoDup fl /\
    (forall p, p < length (st_pages s) <-> In p (map fst h) \/ In p fl) /\
    (forall p, In p (map fst h) -> ~ In p fl) /\ md_pages (st_mem s) = length (st_pages s).
  Proof.
    destruct (client_run_ok ops (new_store m) [(0, Leaf (leaf_new m))] [] 0 0 (rep_new m)) as (s & h & fl & E & Rp & M).
    exists s, h, (snd (spec_run client_spec [Leaf (leaf_new m)] ops)), fl. split; [exact E|]. split; [reflexivity|].
    pose proof (proj1 (rep_strict _ _ _ _ _) Rp) as (R1 & R2 & N & D & G). rewrite map_app, free_chain_fst in N.
    split; [now apply NoDup_app_remove_r in N|]. split.
    { rewrite R2. cbn [md_free]. apply free_chain_pages. intros p x I. apply G. apply in_or_app. now right. }
    split; [now apply NoDup_app_remove_l in N|]. split; [|split].
    - intros p. rewrite D, map_app, free_chain_fst. split; intros I; [now apply in_app_or in I | now apply in_or_app].
    - intros p I J. clear - N I J. induction (map fst h) as [|a l IH]; [contradiction|]. inversion N as [|? ? N1 N2]; subst.
      destruct I as [->|I]; [apply N1; apply in_or_app; now right | now apply IH].
    - now rewrite R2.
  Qed.
End Client.
