(** Whatever the map programs of the on-disk B+ tree do, the nodes they write have the right number of
    cells and contain only keys, entries and page numbers that were there before. *)
From Verif Require Import BpMapModel ListLemmas.

Section Lists.
  Context {A : Type} (P : A -> Prop).
  Lemma cell_in (l : list A) i x : cell l i = Ok x -> Forall P l -> P x.
  Proof.
    unfold cell, expect. intros E F. destruct (nth_error l i) eqn:N; [|discriminate]. injection E as <-.
    rewrite Forall_forall in F. apply F. eapply nth_error_In; exact N.
  Qed.
  Lemma list_set_all (l : list A) : forall i x, Forall P l -> P x -> Forall P (list_set l i x).
  Proof.
    induction l as [|a l IH]; intros [|i] x F Q; cbn; auto; inversion F; subst; constructor; auto.
  Qed.
  Lemma set_cell_all (l l' : list A) i x : set_cell l i x = Ok l' -> Forall P l -> P x -> Forall P l' /\ length l' = length l.
  Proof.
    unfold set_cell. destruct (cell l i); cbn; try discriminate. intros E F Q. injection E as <-.
    split; [now apply list_set_all | apply list_set_length].
  Qed.
  Lemma swap_all (l l' : list A) i j : swap l i j = Ok l' -> Forall P l -> Forall P l' /\ length l' = length l.
  Proof.
    unfold swap. intros E F. destruct (cell l i) eqn:E1; cbn in E; try discriminate.
    destruct (cell l j) eqn:E2; cbn in E; try discriminate. injection E as <-.
    split; [|now rewrite !list_set_length]. apply list_set_all; [apply list_set_all; auto|]; eapply cell_in; eauto.
  Qed.
  Lemma swap_up_all n : forall (l l' : list A) i, swap_up l i n = Ok l' -> Forall P l -> Forall P l' /\ length l' = length l.
  Proof.
    induction n as [|n IH]; cbn; intros l l' i E F; [injection E as <-; auto|].
    destruct (swap l i (S i)) as [l1| |] eqn:E1; cbn in E; try discriminate.
    destruct (swap_all _ _ _ _ E1 F) as [F1 L1]. destruct (IH _ _ _ E F1) as [F2 L2]. split; [auto | lia].
  Qed.
  Lemma copy_cells_all n : forall (dst src dst' : list A) a i, copy_cells dst src a n i = Ok dst' -> Forall P dst -> Forall P src ->
    Forall P dst' /\ length dst' = length dst.
  Proof.
    induction n as [|n IH]; cbn; intros dst src dst' a i E F G; [injection E as <-; auto|].
    destruct (cell src i) as [x| |] eqn:E1; cbn in E; try discriminate.
    destruct (set_cell dst (a + i) x) as [d1| |] eqn:E2; cbn in E; try discriminate.
    destruct (set_cell_all _ _ _ _ E2 F (cell_in _ _ _ E1 G)) as [F1 L1].
    destruct (IH _ _ _ _ _ E F1 G) as [F2 L2]. split; [auto | lia].
  Qed.
  Lemma repeat_all x n : P x -> Forall P (repeat x n).
  Proof. intros Q. induction n; cbn; auto. Qed.
End Lists.

Ltac step_eq E :=
  match type of E with
  | bind ?x _ = Ok _ => let Q := fresh "E" in destruct x eqn:Q; cbn [bind] in E; try discriminate E
  end.

Section Good.
  Context {K V : Type} `{Cmp K}.
  Notation entry := (K * V)%type.
  Notation leaf := (leaf K V).
  Notation internal := (internal K).
  Notation node := (node K V).
  Notation io := (io K V).
  Notation frame := (@frame K).
  Variables m d : nat.
  Variable PE : entry -> Prop.
  Variable PK : K -> Prop.
  Variable PP : nat -> Prop.
  Hypothesis EK : forall e, PE e -> PK (fst e).
  Hypothesis P0 : PP 0.

  Definition oc {A} (P : A -> Prop) (o : option A) : Prop := match o with None => True | Some a => P a end.
  Definition good_leaf (l : leaf) : Prop :=
    length (lf_entries l) = m /\ lf_len l <= m /\ Forall (oc PE) (lf_entries l) /\ oc PP (lf_next l).
  Definition good_int (i : internal) : Prop :=
    length (in_keys i) = d /\ length (in_ptrs i) = d + 1 /\ in_len i <= d /\ Forall (oc PK) (in_keys i) /\ Forall PP (in_ptrs i).
  Definition good (n : node) : Prop :=
    match n with Leaf l => good_leaf l | Internal i => good_int i | Free nx => oc PP nx end.

  Lemma oc_in {A} (P : A -> Prop) l i c x : cell l i = Ok c -> expect c = Ok x -> Forall (oc P) l -> P x.
  Proof.
    intros E1 E2 F. pose proof (cell_in _ _ _ _ E1 F) as Q. destruct c; [|discriminate]. injection E2 as <-. exact Q.
  Qed.

  Lemma good_leaf_new : good_leaf (leaf_new m).
  Proof.
    unfold good_leaf, leaf_new. cbn. rewrite repeat_length. repeat split; auto; try lia. now apply repeat_all.
  Qed.
  Lemma good_int_new : good_int (internal_new d).
  Proof.
    unfold good_int, internal_new. cbn. rewrite !repeat_length. repeat split; auto; try lia; now apply repeat_all.
  Qed.

  (** *** Leaves *)
  Lemma leaf_place_good : forall es e es' o, leaf_place es e = Ok (es', o) -> Forall (oc PE) es -> PE e ->
    Forall (oc PE) es' /\ length es' = length es /\ oc PE o.
  Proof.
    induction es as [|[x|] es IH]; intros e es' o E F Q; cbn in E; try discriminate; inversion F as [|? ? F1 F2]; subst.
    - destruct (cmp (fst e) (fst x)).
      + injection E as <- <-. cbn. auto.
      + step_eq E. destruct a as [r o1]. injection E as <- <-. destruct (IH _ _ _ E0 F2 F1) as (A & B & D).
        cbn. split; auto.
      + step_eq E. destruct a as [r o1]. injection E as <- <-. destruct (IH _ _ _ E0 F2 Q) as (A & B & D).
        cbn. split; auto.
    - injection E as <- <-. cbn. auto.
  Qed.

  Lemma leaf_shift_good half : forall es i sp e o, leaf_shift half i es sp e = Ok o ->
    Forall (oc PE) es -> Forall (oc PE) sp -> PE e ->
    match o with
    | Shifted es' sp' e' => Forall (oc PE) es' /\ length es' = length es /\ Forall (oc PE) sp' /\ length sp' = length sp /\ PE e'
    | Replaced es' old => Forall (oc PE) es' /\ length es' = length es /\ PE old
    end.
  Proof.
    induction es as [|c es IH]; intros i sp e o E F G Q; cbn [leaf_shift] in E.
    - injection E as <-. auto.
    - inversion F as [|? ? F1 F2]; subst.
      assert (Cont : forall c' e', oc PE c' -> PE e' ->
        (if half <? i
         then let* x := cell sp (i - half - 1) in let* o := leaf_shift half (S i) es (list_set sp (i - half - 1) c') e' in Ok (shift_cons x o)
         else let* o := leaf_shift half (S i) es sp e' in Ok (shift_cons c' o)) = Ok o ->
        match o with
        | Shifted es' sp' e' => Forall (oc PE) es' /\ length es' = length (c :: es) /\ Forall (oc PE) sp' /\ length sp' = length sp /\ PE e'
        | Replaced es' old => Forall (oc PE) es' /\ length es' = length (c :: es) /\ PE old
        end).
      { clear E. intros c' e' Qc Qe E. destruct (half <? i).
        - step_eq E. step_eq E. injection E as <-.
          pose proof (IH _ _ _ _ E1 F2 (list_set_all _ _ _ _ G Qc) Qe) as X. pose proof (cell_in _ _ _ _ E0 G) as Y.
          destruct a0; cbn; try rewrite list_set_length in *; intuition (cbn; auto; lia).
        - step_eq E. injection E as <-. pose proof (IH _ _ _ _ E0 F2 G Qe) as X.
          destruct a; cbn; intuition (cbn; auto; lia). }
      destruct c as [x|]; [|now apply Cont with None e].
      destruct (cmp (fst e) (fst x)).
      + injection E as <-. cbn. auto.
      + now apply Cont with (Some e) x.
      + now apply Cont with (Some x) e.
  Qed.

  Definition good_case (o : option (insert_case K V)) : Prop :=
    match o with Some (ISplit sk r) => PK sk /\ good_leaf r | _ => True end.
  Lemma leaf_insert_good l e l' o : leaf_insert l e = Ok (l', o) -> good_leaf l -> PE e -> good_leaf l' /\ good_case o.
  Proof.
    intros E (G1 & G2 & G3 & G4) Q. unfold leaf_insert in E. rewrite G1 in E. destruct (lf_len l <? m) eqn:Lt.
    - apply Nat.ltb_lt in Lt. step_eq E. destruct a as [es o1]. destruct (leaf_place_good _ _ _ _ E0 G3 Q) as (A & B & D).
      destruct o1; injection E as <- <-; (split; [|exact I]); unfold good_leaf; cbn; repeat split; auto; try congruence; lia.
    - apply Nat.ltb_ge in Lt. step_eq E. pose proof (leaf_shift_good _ _ _ _ _ _ E0 G3 (repeat_all (oc PE) None m I) Q) as X.
      destruct a as [es sp e'|es old].
      + destruct X as (X1 & X2 & X3 & X4 & X5). step_eq E. step_eq E. step_eq E. step_eq E. injection E as <- <-.
        rewrite repeat_length in X4. destruct (set_cell_all (oc PE) _ _ _ _ E2 X3 X5) as [Y1 Y2].
        assert (1 <= m) by (destruct m; [discriminate | lia]).
        assert (lf_len l = m) as LL by lia. rewrite LL.
        split; [|cbn [good_case]; split; [apply EK; eapply oc_in; eauto|]]; unfold good_leaf; cbn [lf_len lf_entries lf_next oc]; repeat split; auto; try congruence.
        * pose proof (Nat.div_lt_upper_bound (m + 2) 2 (m + 1)) as W. assert (U : (m + 2) / 2 < m + 1) by (apply W; lia). unfold Nat.div in U. lia.
        * apply (Nat.div_le_upper_bound (m + 1) 2 m); lia.
      + injection E as <- <-. split; [|exact I]. unfold good_leaf. cbn. intuition congruence.
  Qed.
  Lemma leaf_remove_at_good l i l' e : leaf_remove_at l i = Ok (l', e) -> good_leaf l -> good_leaf l' /\ PE e.
  Proof.
    intros E (G1 & G2 & G3 & G4). unfold leaf_remove_at in E. step_eq E. step_eq E. step_eq E. step_eq E. injection E as <- <-.
    destruct (swap_up_all (oc PE) _ _ _ _ E1 G3) as [F L]. split; [|eapply oc_in; eauto].
    unfold good_leaf. cbn. rewrite list_set_length. repeat split; auto; try congruence; try lia. apply list_set_all; cbn; auto.
  Qed.
  Lemma leaf_remove_loop_good key len n : forall i es r es' r', leaf_remove_loop key len n i es r = Ok (es', r') ->
    Forall (oc PE) es -> Forall (oc PE) es' /\ length es' = length es.
  Proof.
    induction n as [|n IH]; intros i es r es' r' E F; cbn [leaf_remove_loop] in E; [injection E as <- <-; auto|].
    step_eq E. destruct a as [e|]; [|now apply IH in E].
    destruct (is_eq (cmp key (fst e))); [|now apply IH in E].
    destruct (i + 1 <? len); [|now apply IH in E].
    step_eq E. destruct (swap_all (oc PE) _ _ _ _ E1 F) as [F1 L1]. apply IH in E as [F2 L2]; [|exact F1]. split; [auto | lia].
  Qed.
  Lemma leaf_remove_good l k l' o : leaf_remove l k = Ok (l', o) -> good_leaf l -> good_leaf l'.
  Proof.
    intros E (G1 & G2 & G3 & G4). unfold leaf_remove in E. step_eq E. destruct a as [es r].
    destruct (leaf_remove_loop_good _ _ _ _ _ _ _ _ E0 G3) as [F L]. destruct r.
    - step_eq E. step_eq E. injection E as <- <-. unfold good_leaf. cbn. rewrite list_set_length.
      assert (a <= lf_len l) by (destruct (lf_len l); [discriminate|]; injection E1 as <-; lia).
      repeat split; auto; try congruence; try lia. apply list_set_all; cbn; auto.
    - injection E as <- <-. unfold good_leaf. cbn. intuition congruence.
  Qed.
  Lemma leaf_merge_good l r l' : leaf_merge l r = Ok l' -> good_leaf l -> good_leaf r -> good_leaf l'.
  Proof.
    intros E (G1 & G2 & G3 & G4) (R1 & R2 & R3 & R4). unfold leaf_merge in E. step_eq E. step_eq E. injection E as <-.
    destruct (copy_cells_all (oc PE) _ _ _ _ _ _ E1 G3 R3) as [F L]. unfold assert in E0.
    destruct (lf_len l + lf_len r <=? length (lf_entries l)) eqn:Q; [|discriminate]. apply Nat.leb_le in Q.
    unfold good_leaf. cbn. repeat split; auto; try congruence; try lia.
  Qed.

  (** *** Internal nodes *)
  Lemma internal_place_good off : forall todo i keys ptrs k p keys' ptrs' i' q,
    internal_place off i todo keys ptrs k p = Ok (keys', ptrs', i', q) ->
    Forall (oc PK) todo -> Forall (oc PK) keys -> Forall PP ptrs -> PK k -> PP p ->
    Forall (oc PK) keys' /\ length keys' = length keys /\ Forall PP ptrs' /\ length ptrs' = length ptrs /\ PP q.
  Proof.
    induction todo as [|[x|] todo IH]; intros i keys ptrs k p keys' ptrs' i' q E T F G Qk Qp; cbn [internal_place] in E.
    - step_eq E. step_eq E. injection E as <- <- <- <-.
      destruct (set_cell_all (oc PK) _ _ _ _ E0 F Qk) as [F1 L1]. pose proof (cell_in PP _ _ _ E1 G).
      rewrite list_set_length. repeat split; auto using list_set_all.
    - inversion T as [|? ? T1 T2]; subst. destruct (is_lt (cmp k x)).
      + step_eq E. pose proof (cell_in PP _ _ _ E0 G). apply IH in E; auto using list_set_all.
        rewrite !list_set_length in E. exact E.
      + now apply IH in E.
    - step_eq E. step_eq E. injection E as <- <- <- <-.
      destruct (set_cell_all (oc PK) _ _ _ _ E0 F Qk) as [F1 L1]. pose proof (cell_in PP _ _ _ E1 G).
      rewrite list_set_length. repeat split; auto using list_set_all.
  Qed.

  Definition good_shifting n1 n2 n3 n4 (s : shifting) : Prop :=
    Forall (oc PK) (sh_keys s) /\ length (sh_keys s) = n1 /\ Forall PP (sh_ptrs s) /\ length (sh_ptrs s) = n2 /\
    Forall (oc PK) (sh_skeys s) /\ length (sh_skeys s) = n3 /\ Forall PP (sh_sptrs s) /\ length (sh_sptrs s) = n4 /\
    PK (sh_k s) /\ PP (sh_p s).
  Lemma shift_body_good off half i s s' n1 n2 n3 n4 : internal_shift_body off half i s = Ok s' ->
    good_shifting n1 n2 n3 n4 s -> good_shifting n1 n2 n3 n4 s'.
  Proof.
    intros E G. unfold internal_shift_body in E. step_eq E.
    assert (X : forall s1, (match a with
      | Some x => if is_lt (cmp (sh_k s) x) then
            let* q := cell (sh_ptrs s) (i + off) in
            Ok (mkShifting (list_set (sh_keys s) i (Some (sh_k s))) (list_set (sh_ptrs s) (i + off) (sh_p s))
                  (sh_skeys s) (sh_sptrs s) x q) else Ok s
      | None => Ok s end) = Ok s1 -> good_shifting n1 n2 n3 n4 s1).
    { intros s1 E1. destruct a as [x|]; [|injection E1 as <-; exact G]. destruct (is_lt (cmp (sh_k s) x)); [|injection E1 as <-; exact G].
      step_eq E1. injection E1 as <-. destruct G as (G1 & G2 & G3 & G4 & G5 & G6 & G7 & G8 & G9 & G10).
      pose proof (cell_in PP _ _ _ E2 G3). pose proof (cell_in (oc PK) _ _ _ E0 G1).
      unfold good_shifting. cbn. rewrite !list_set_length. repeat split; auto using list_set_all. }
    step_eq E. specialize (X _ eq_refl). destruct (half <? i); [|injection E as <-; exact X].
    do 4 step_eq E. injection E as <-. destruct X as (G1 & G2 & G3 & G4 & G5 & G6 & G7 & G8 & G9 & G10).
    pose proof (cell_in (oc PK) _ _ _ E2 G1). pose proof (cell_in (oc PK) _ _ _ E3 G5).
    pose proof (cell_in PP _ _ _ E4 G3). pose proof (cell_in PP _ _ _ E5 G7).
    unfold good_shifting. cbn. rewrite !list_set_length. repeat split; auto using list_set_all.
  Qed.
  Lemma shift_good off half n : forall i s s' n1 n2 n3 n4, internal_shift off half n i s = Ok s' ->
    good_shifting n1 n2 n3 n4 s -> good_shifting n1 n2 n3 n4 s'.
  Proof.
    induction n as [|n IH]; intros i s s' n1 n2 n3 n4 E G; cbn in E; [injection E as <-; exact G|].
    step_eq E. eapply IH; [exact E|]. eapply shift_body_good; eauto.
  Qed.
  Lemma internal_insert_good nd k p r nd' o : internal_insert nd k p r = Ok (nd', o) -> good_int nd -> PK k -> PP p ->
    good_int nd' /\ (match o with Some (sk, n) => PK sk /\ good_int n | None => True end).
  Proof.
    intros E (G1 & G2 & G3 & G4 & G5) Qk Qp. unfold internal_insert in E. rewrite G1 in E. destruct (in_len nd <? d) eqn:Lt.
    - apply Nat.ltb_lt in Lt. step_eq E. destruct a as [[[keys ptrs] i] q].
      destruct (internal_place_good _ _ _ _ _ _ _ _ _ _ _ E0 G4 G4 G5 Qk Qp) as (A1 & A2 & A3 & A4 & A5).
      step_eq E. injection E as <- <-. split; [|exact I].
      assert (Forall PP a /\ length a = length ptrs) as [B1 B2].
      { destruct r; [injection E1 as <-; auto|]. now apply (set_cell_all PP _ _ _ _ E1). }
      unfold good_int. cbn. repeat split; auto; try congruence; lia.
    - step_eq E. assert (X : good_shifting d (d + 1) d (d + 1) a).
      { eapply shift_good; [exact E0|]. unfold good_shifting. cbn. rewrite !repeat_length.
        repeat split; auto; now apply repeat_all. }
      destruct X as (X1 & X2 & X3 & X4 & X5 & X6 & X7 & X8 & X9 & X10).
      do 7 step_eq E. injection E as <- <-.
      destruct (set_cell_all (oc PK) _ _ _ _ E2 X5 X9) as [Y1 Y2].
      destruct (set_cell_all PP _ _ _ _ E3 X7 X10) as [Z1 Z2].
      pose proof (cell_in PP _ _ _ E6 X3) as W1. pose proof (cell_in PP _ _ _ E7 Z1) as W2.
      assert (2 <= d) by (unfold checked_sub in E1; destruct (2 <=? d) eqn:Q; [apply Nat.leb_le in Q; lia | discriminate]).
      split; [|split; [eapply oc_in; eauto|]]; unfold good_int; cbn [in_len in_keys in_ptrs]; rewrite ?list_set_length;
        (repeat split; auto using list_set_all; try congruence).
      + apply (Nat.div_le_upper_bound (d + 1) 2 d); lia.
      + now apply list_set_all.
      + apply (Nat.div_le_upper_bound d 2 d); lia.
  Qed.
  Lemma internal_remove_at_good nd i r nd' k q : internal_remove_at nd i r = Ok (nd', (k, q)) -> good_int nd ->
    good_int nd' /\ PK k /\ PP q.
  Proof.
    intros E (G1 & G2 & G3 & G4 & G5). unfold internal_remove_at in E. do 7 step_eq E. injection E as <- <- <-.
    destruct (swap_up_all (oc PK) _ _ _ _ E1 G4) as [F1 L1]. destruct (swap_up_all PP _ _ _ _ E2 G5) as [F2 L2].
    assert (Forall PP a2 /\ length a2 = length a1) as [F3 L3].
    { destruct r; [injection E3 as <-; auto|]. now apply (swap_all PP _ _ _ _ E3). }
    pose proof (cell_in PP _ _ _ E4 F3) as Q1.
    split; [|split; [eapply oc_in; eauto | exact Q1]]. unfold good_int. cbn. rewrite !list_set_length.
    repeat split; auto using list_set_all; try congruence; try lia. now apply list_set_all.
  Qed.
  Lemma internal_merge_good nd sk r nd' : internal_merge nd sk r = Ok nd' -> good_int nd -> PK sk -> good_int r -> good_int nd'.
  Proof.
    intros E (G1 & G2 & G3 & G4 & G5) Qk (R1 & R2 & R3 & R4 & R5). unfold internal_merge in E. do 6 step_eq E. injection E as <-.
    destruct (set_cell_all (oc PK) _ _ _ _ E1 G4 Qk) as [F1 L1]. destruct (copy_cells_all (oc PK) _ _ _ _ _ _ E2 F1 R4) as [F2 L2].
    destruct (copy_cells_all PP _ _ _ _ _ _ E3 G5 R5) as [F3 L3]. pose proof (cell_in PP _ _ _ E4 R5) as Q1.
    destruct (set_cell_all PP _ _ _ _ E5 F3 Q1) as [F4 L4]. unfold assert in E0.
    destruct (in_len nd + in_len r <? length (in_keys nd)) eqn:Q; [|discriminate]. apply Nat.ltb_lt in Q.
    unfold good_int. cbn. repeat split; auto; try congruence; lia.
  Qed.

  (** *** Programs: whatever good nodes and page numbers they are given, they write good ones. *)
  Fixpoint wgood {A} (Q : A -> Prop) (c : io A) : Prop :=
    match c with
    | Ret a => Q a
    | Fail => True
    | Spin => True
    | GetPage p k => forall n, good n -> wgood Q (k n)
    | WriteNode p n k => good n /\ wgood Q k
    | AllocNode n k => good n /\ forall q, PP q -> wgood Q (k q)
    | FreeNode p k => PP p /\ wgood Q k
    | GetRoot k => forall q, PP q -> wgood Q (k q)
    | SetRoot p k => PP p /\ wgood Q k
    | GetLen k => forall n, wgood Q (k n)
    | SetLen n k => wgood Q k
    | PageCount k => forall n, wgood Q (k n)
    end.
  Lemma wgood_bind {A B} (Q : A -> Prop) (R : B -> Prop) (c : io A) (f : A -> io B) :
    wgood Q c -> (forall a, Q a -> wgood R (f a)) -> wgood R (iobind c f).
  Proof.
    intros W F. induction c; cbn in *; auto; intuition.
  Qed.
  Lemma wgood_pure {A B} (R : B -> Prop) (r : res A) (f : A -> io B) :
    (forall a, r = Ok a -> wgood R (f a)) -> wgood R (iobind (pure r) f).
  Proof. intros F. destruct r; cbn; auto. Qed.
  Lemma wgood_mono {A} (Q R : A -> Prop) (c : io A) : (forall a, Q a -> R a) -> wgood Q c -> wgood R c.
  Proof. intros I W. induction c; cbn in *; auto; intuition. Qed.

  Definition gframe (f : frame) : Prop := let '(p, i, _) := f in PP p /\ good_int i.
  Definition gsearch (r : nat * node * list frame) : Prop := let '(p, n, st) := r in PP p /\ good n /\ Forall gframe st.

  Lemma search_loop_good key fuel : forall page nd st, PP page -> good nd -> Forall gframe st ->
    wgood gsearch (search_loop fuel key page nd st).
  Proof.
    induction fuel as [|fuel IH]; intros page nd st Qp Qn Qs; cbn [search_loop]; [exact I|].
    destruct nd as [i|l|nx]; [|cbn; auto|cbn; auto].
    apply wgood_pure. intros next _. apply wgood_pure. intros p Ep. cbn [wgood]. intros n Gn.
    apply IH; auto.
    - eapply cell_in; [exact Ep|]. apply Qn.
    - constructor; auto. split; auto.
  Qed.
  Lemma search_good key : wgood gsearch (search_node key).
  Proof. unfold search_node. cbn [wgood]. intros n q Qq nd Gn. now apply search_loop_good. Qed.

  Lemma grow_good : forall st page sk sp, Forall gframe st -> PP page -> PK sk -> PP sp -> wgood (fun _ => True) (grow d st page sk sp).
  Proof.
    induction st as [|[[pp par] i] st IH]; intros page sk sp F Q1 Q2 Q3; cbn [grow].
    - apply wgood_pure. intros keys E1. apply wgood_pure. intros ptrs E2. apply wgood_pure. intros ptrs' E3.
      destruct good_int_new as (G1 & G2 & G3 & G4 & G5).
      destruct (set_cell_all (oc PK) _ _ _ _ E1 G4 Q2) as [A1 A2]. destruct (set_cell_all PP _ _ _ _ E2 G5 Q1) as [B1 B2].
      destruct (set_cell_all PP _ _ _ _ E3 B1 Q3) as [D1 D2]. cbn [wgood good]. split; [|auto].
      unfold good_int. cbn [in_len in_keys in_ptrs]. repeat split; auto; try congruence.
      assert (keys <> []).
      { intros ->. unfold internal_new in A2. cbn in A2. rewrite repeat_length in A2.
        unfold set_cell, cell in E1. cbn in E1. rewrite <- A2 in E1. discriminate. }
      rewrite <- G1, <- A2. destruct keys; [congruence | cbn; lia].
    - inversion F as [|? ? F1 F2]; subst. destruct F1 as [Fp Fi]. apply wgood_pure. intros [par' o] E.
      destruct (internal_insert_good _ _ _ _ _ _ E Fi Q2 Q3) as [A B]. destruct o as [[sk' sn]|]; cbn [wgood].
      + destruct B as [B1 B2]. split; [exact B2|]. intros q Qq. split; [exact A|]. now apply IH.
      + auto.
  Qed.
  Lemma insert_good e : PE e -> wgood (fun _ => True) (insert_prog d e).
  Proof.
    intros Qe. unfold insert_prog. eapply wgood_bind; [apply search_good|]. intros [[page nd] st] (Q1 & Q2 & Q3).
    unfold insert_at. destruct nd as [i|l|nx]; try exact I. apply wgood_pure. intros [l' o] E.
    destruct (leaf_insert_good _ _ _ _ E Q2 Qe) as [A B]. destruct o as [[sk sn|old]|]; cbn [wgood].
    - destruct B as [B1 B2]. split; [exact B2|]. intros q Qq. split.
      + destruct A as (A1 & A2 & A3 & A4). unfold good, good_leaf. cbn. auto.
      + eapply wgood_bind; [apply grow_good; auto|]. intros _ _. cbn. auto.
    - auto.
    - auto.
  Qed.

  Definition gdel (o : option (nat * nat * internal)) : Prop :=
    match o with Some (_, p, i) => PP p /\ good_int i | None => True end.
  Lemma gpar par keys : good_int par -> Forall (oc PK) keys -> length keys = length (in_keys par) ->
    good_int (mkInternal (in_len par) keys (in_ptrs par)).
  Proof. intros (G1 & G2 & G3 & G4 & G5) F L. unfold good_int. cbn. intuition congruence. Qed.

  Lemma fix_leaf_good page l pp par i : PP page -> good_leaf l -> PP pp -> good_int par ->
    wgood gdel (fix_leaf m page l pp par i).
  Proof.
    intros Q1 Q2 Q3 Q4. unfold fix_leaf. apply wgood_pure. intros sp Es.
    pose proof Q4 as (G1 & G2 & G3 & G4 & G5). pose proof (cell_in PP _ _ _ Es G5) as Qs.
    cbn [wgood]. intros n Gn. destruct n as [i0|sib|nx]; cbn [expect_leaf iobind wgood]; auto. cbn [good] in Gn.
    destruct (lf_len sib =? (m + 1) / 2).
    - destruct (sibling_of i =? i + 1); apply wgood_pure; intros l' E; cbn [wgood]; pose proof (leaf_merge_good _ _ _ E) as M; cbn; auto.
    - apply (wgood_bind (fun x : leaf * leaf * internal => let '(a, b, c) := x in good_leaf a /\ good_leaf b /\ good_int c)).
      + destruct (sibling_of i =? i + 1).
        * apply wgood_pure. intros [sib' e] E1. destruct (leaf_remove_at_good _ _ _ _ E1 Gn) as [A1 A2].
          apply wgood_pure. intros c E2. apply wgood_pure. intros first E3. apply wgood_pure. intros keys E4.
          apply wgood_pure. intros [l' o] E5. destruct (leaf_insert_good _ _ _ _ E5 Q2 A2) as [A3 _].
          pose proof A1 as (_ & _ & A4 & _). pose proof (oc_in _ _ _ _ _ E2 E3 A4) as A5.
          destruct (set_cell_all (oc PK) _ _ _ _ E4 G4 (EK _ A5)) as [A6 A7]. cbn. auto using gpar.
        * apply wgood_pure. intros r E0. apply wgood_pure. intros [sib' e] E1. destruct (leaf_remove_at_good _ _ _ _ E1 Gn) as [A1 A2].
          apply wgood_pure. intros keys E4. apply wgood_pure. intros [l' o] E5. destruct (leaf_insert_good _ _ _ _ E5 Q2 A2) as [A3 _].
          destruct (set_cell_all (oc PK) _ _ _ _ E4 G4 (EK _ A2)) as [A6 A7]. cbn. auto using gpar.
      + intros [[a b] c] (A1 & A2 & A3). cbn. auto.
  Qed.
  Lemma remove_leaf_good page nd st key : PP page -> good nd -> Forall gframe st ->
    wgood (fun r : option entry * option (nat * nat * internal) * list frame => let '(_, del, st') := r in gdel del /\ Forall gframe st')
      (remove_leaf m page nd st key).
  Proof.
    intros Q1 Q2 Q3. unfold remove_leaf. destruct nd as [i0|l|nx]; cbn [expect_leaf iobind wgood]; auto.
    apply wgood_pure. intros [l' ret] E. pose proof (leaf_remove_good _ _ _ _ E Q2) as G.
    destruct (lf_len l' <? (m + 1) / 2), st as [|[[pp par] i] st].
    - destruct ret; cbn; auto. intros n. apply wgood_pure. intros n' _. cbn. auto.
    - inversion Q3 as [|? ? F0 F3]; subst. destruct F0 as [F1 F2]. eapply wgood_bind; [now apply fix_leaf_good|].
      intros del Gd. cbn [wgood]. intros n. apply wgood_pure. intros n' _. cbn. auto.
    - destruct ret; cbn; auto. intros n. apply wgood_pure. intros n' _. cbn. auto.
    - destruct ret; cbn; auto. intros n. apply wgood_pure. intros n' _. cbn. auto.
  Qed.
  Lemma fix_internal_good page nd pp par i : PP page -> good_int nd -> PP pp -> good_int par ->
    wgood gdel (fix_internal d page nd pp par i).
  Proof.
    intros Q1 Q2 Q3 Q4. unfold fix_internal. apply wgood_pure. intros sp Es.
    pose proof Q4 as (G1 & G2 & G3 & G4 & G5). pose proof (cell_in PP _ _ _ Es G5) as Qs.
    cbn [wgood]. intros n Gn. destruct n as [sib|l0|nx]; cbn [expect_internal iobind wgood]; auto. cbn [good] in Gn.
    destruct (in_len sib + 1 =? (d + 1) / 2).
    - destruct (sibling_of i =? i + 1); apply wgood_pure; intros c E1; apply wgood_pure; intros pk E2; apply wgood_pure; intros l' E;
        pose proof (oc_in _ _ _ _ _ E1 E2 G4) as Qk; pose proof (internal_merge_good _ _ _ _ E) as M; cbn; auto.
    - apply (wgood_bind (fun x : internal * internal * internal => let '(a, b, c) := x in good_int a /\ good_int b /\ good_int c)).
      + destruct (sibling_of i =? i + 1).
        * apply wgood_pure. intros [sib' [k q]] E1. destruct (internal_remove_at_good _ _ _ _ _ _ E1 Gn) as (A1 & A2 & A3).
          apply wgood_pure. intros c E2. apply wgood_pure. intros pk E3. apply wgood_pure. intros [nd' o] E4.
          pose proof (oc_in _ _ _ _ _ E2 E3 G4) as Qk. destruct (internal_insert_good _ _ _ _ _ _ E4 Q2 Qk A3) as [A4 _].
          cbn. split; auto. split; auto. apply gpar; auto; [now apply list_set_all | apply list_set_length].
        * apply wgood_pure. intros r E0. apply wgood_pure. intros [sib' [k q]] E1. destruct (internal_remove_at_good _ _ _ _ _ _ E1 Gn) as (A1 & A2 & A3).
          apply wgood_pure. intros c E2. apply wgood_pure. intros pk E3. apply wgood_pure. intros [nd' o] E4.
          pose proof (oc_in _ _ _ _ _ E2 E3 G4) as Qk. destruct (internal_insert_good _ _ _ _ _ _ E4 Q2 Qk A3) as [A4 _].
          cbn. split; auto. split; auto. apply gpar; auto; [now apply list_set_all | apply list_set_length].
      + intros [[a b] c] (A1 & A2 & A3). cbn. auto.
  Qed.
  Lemma shrink_good : forall st i page nd, Forall gframe st -> PP page -> good_int nd -> wgood (fun _ => True) (shrink d st i page nd).
  Proof.
    induction st as [|[[pp par] pi] st IH]; intros i page nd F Q1 Q2; cbn [shrink]; apply wgood_pure; intros [nd' [k q]] E;
      destruct (internal_remove_at_good _ _ _ _ _ _ E Q2) as (A1 & A2 & A3).
    - destruct (in_len nd' + 1 <? (d + 1) / 2); [|cbn; auto]. destruct (in_len nd' =? 0); [|cbn; auto].
      apply wgood_pure. intros r Er. cbn. split; auto. eapply cell_in; [exact Er|]. apply A1.
    - inversion F as [|? ? F0 F3]; subst. destruct F0 as [F1 F2]. destruct (in_len nd' + 1 <? (d + 1) / 2); [|cbn; auto].
      eapply wgood_bind; [now apply fix_internal_good|]. intros [[[i' p'] n']|] Gd; [|exact I]. destruct Gd. now apply IH.
  Qed.
  Lemma remove_good k : wgood (fun _ => True) (remove_prog m d k).
  Proof.
    unfold remove_prog. eapply wgood_bind; [apply search_good|]. intros [[page nd] st] (Q1 & Q2 & Q3).
    unfold remove_at. eapply wgood_bind; [apply remove_leaf_good; auto|]. intros [[ret del] st'] (A & B).
    destruct del as [[[i p] n]|]; [|exact I]. destruct A as [A1 A2].
    eapply wgood_bind; [now apply shrink_good|]. intros _ _. exact I.
  Qed.
  Lemma get_good k : wgood (fun _ => True) (get_prog k).
  Proof.
    unfold get_prog. eapply wgood_bind; [apply search_good|]. intros [[page nd] st] (Q1 & Q2 & Q3).
    destruct nd as [i0|l|nx]; cbn [expect_leaf iobind wgood]; auto. apply wgood_pure. intros [i|] _; [|exact I].
    apply wgood_pure. intros c _. exact I.
  Qed.
  Lemma descend_good pick fuel : forall nd, good nd -> wgood good (descend_loop pick fuel nd).
  Proof.
    induction fuel as [|fuel IH]; intros nd G; cbn [descend_loop]; [exact I|]. destruct nd as [i|l|nx]; auto.
    apply wgood_pure. intros p _. cbn. intros n Gn. now apply IH.
  Qed.
  Lemma edge_good pick : wgood good_leaf (edge_leaf pick).
  Proof.
    unfold edge_leaf. cbn [wgood]. intros n q _ nd Gn. eapply wgood_bind; [now apply descend_good|].
    intros nd' G'. destruct nd'; cbn; auto.
  Qed.
  Lemma min_good : wgood (fun _ => True) min_prog.
  Proof.
    unfold min_prog. eapply wgood_bind; [apply edge_good|]. intros l _. apply wgood_pure. intros c _. exact I.
  Qed.
  Lemma max_good : wgood (fun _ => True) max_prog.
  Proof.
    unfold max_prog. eapply wgood_bind; [apply edge_good|]. intros l _. destruct (lf_len l =? 0); [exact I|].
    apply wgood_pure. intros c _. exact I.
  Qed.
  Lemma iter_loop_good fuel : forall l i, wgood (fun _ => True) (iter_loop fuel l i).
  Proof.
    induction fuel as [|fuel IH]; intros l i; cbn [iter_loop]; [exact I|].
    assert (St : forall l i, wgood (fun _ => True)
      (let? c := cell (lf_entries l) i in
       match c with
       | None => Ret []
       | Some e => let! r := iter_loop fuel (mkLeaf (lf_len l) (list_set (lf_entries l) i None) (lf_next l)) (i + 1) in Ret (e :: r)
       end)).
    { intros l0 i0. apply wgood_pure. intros [e|] _; [|exact I]. eapply wgood_bind; [apply IH|]. intros r _. exact I. }
    destruct (lf_len l <=? i); [|apply St]. destruct (lf_next l) as [p|]; [|exact I]. cbn [wgood]. intros n _.
    eapply (wgood_bind (fun _ => True)); [destruct n; exact I|]. intros l' _. apply St.
  Qed.
  Lemma iter_good : wgood (fun _ => True) iter_prog.
  Proof.
    unfold iter_prog. eapply wgood_bind; [apply edge_good|]. intros l _. cbn [wgood]. intros n. apply iter_loop_good.
  Qed.
End Good.
