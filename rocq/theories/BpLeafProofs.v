(** Closed forms of the array loops of B+ tree leaves. *)
From Verif Require Import BpNodeModel OrdLemmas ListLemmas MapSpec.

(** Arrays. *)
Section Cells.
  Context {A : Type}.
  Implicit Types (l r : list A).

  Lemma cell_app l x r i : i = length l -> cell (l ++ x :: r) i = Ok x.
  Proof. intros ->. unfold cell. rewrite nth_error_app2 by lia. now rewrite Nat.sub_diag. Qed.
  Lemma set_app l x r y i : i = length l -> list_set (l ++ x :: r) i y = l ++ y :: r.
  Proof. intros ->. induction l as [|a l IH]; simpl; [reflexivity|]. now rewrite IH. Qed.
  Lemma set_cell_app l x r y i : i = length l -> set_cell (l ++ x :: r) i y = Ok (l ++ y :: r).
  Proof. intros E. unfold set_cell. rewrite cell_app by exact E. simpl. now rewrite set_app. Qed.
  Lemma cell_nth l i x : nth_error l i = Some x -> cell l i = Ok x.
  Proof. unfold cell. now intros ->. Qed.
  Lemma cell_out l i : length l <= i -> cell l i = Panic.
  Proof. intros E. unfold cell. now rewrite (proj2 (nth_error_None l i) E). Qed.
  Lemma set_cell_ok l i x : i < length l -> set_cell l i x = Ok (list_set l i x).
  Proof.
    intros E. unfold set_cell, cell. destruct (nth_error l i) eqn:Q; [reflexivity|].
    apply nth_error_None in Q. lia.
  Qed.

  Lemma swap_app l x y r i : i = length l -> swap (l ++ x :: y :: r) i (S i) = Ok (l ++ y :: x :: r).
  Proof.
    intros E. unfold swap. rewrite cell_app by exact E. simpl.
    replace (l ++ x :: y :: r) with ((l ++ [x]) ++ y :: r) by now rewrite <- app_assoc.
    rewrite cell_app by (rewrite app_length; cbn [length]; lia). simpl. f_equal.
    rewrite <- app_assoc. simpl. rewrite set_app by exact E.
    replace (l ++ y :: y :: r) with ((l ++ [y]) ++ y :: r) by now rewrite <- app_assoc.
    rewrite set_app by (rewrite app_length; cbn [length]; lia). now rewrite <- app_assoc.
  Qed.

  Lemma swap_up_app : forall b l x r i n, i = length l -> n = length b ->
    swap_up (l ++ x :: b ++ r) i n = Ok (l ++ b ++ x :: r).
  Proof.
    induction b as [|y b IH]; intros l x r i n E ->; simpl; [reflexivity|].
    rewrite swap_app by exact E. simpl.
    replace (l ++ y :: x :: b ++ r) with ((l ++ [y]) ++ x :: b ++ r) by now rewrite <- app_assoc.
    rewrite (IH (l ++ [y])) by (try rewrite app_length; cbn [length]; lia). now rewrite <- app_assoc.
  Qed.

  Lemma copy_app : forall src l old r pre post at_ n i,
    at_ + i = length l -> i = length pre -> n = length src -> length old = n ->
    copy_cells (l ++ old ++ r) (pre ++ src ++ post) at_ n i = Ok (l ++ src ++ r).
  Proof.
    induction src as [|x src IH]; intros l old r pre post at_ n i E1 E2 -> E3.
    - destruct old; [reflexivity | discriminate].
    - destruct old as [|y old]; [discriminate|]. simpl. rewrite cell_app by exact E2. simpl.
      rewrite set_cell_app by exact E1. simpl.
      replace (l ++ x :: old ++ r) with ((l ++ [x]) ++ old ++ r) by now rewrite <- app_assoc.
      replace (pre ++ x :: src ++ post) with ((pre ++ [x]) ++ src ++ post) by now rewrite <- app_assoc.
      rewrite IH; [now rewrite <- app_assoc| | | reflexivity | simpl in E3; lia];
        rewrite app_length; cbn [length]; lia.
  Qed.
End Cells.

Lemma repeat_S_app {A} (x : A) n r : repeat x (S n) ++ r = x :: repeat x n ++ r.
Proof. reflexivity. Qed.

Lemma repeat_snoc {A} (x : A) n : repeat x n ++ [x] = repeat x (S n).
Proof. induction n; simpl; [reflexivity | now rewrite IHn]. Qed.

Lemma skipn_nil_ge {A} (l : list A) n : length l <= n -> skipn n l = [].
Proof. apply skipn_all2. Qed.

Section Leaf.
  Context {K V : Type} `{CmpLaws K}.
  Notation entry := (K * V)%type.
  Implicit Types (es : list entry) (e x : entry) (k : K).

  (** An array of length [n] whose occupied cells are [l]. *)
  Definition pad {A} (n : nat) (l : list A) : list (option A) := map Some l ++ repeat None (n - length l).
  Definition mk_leaf (m : nat) (es : list entry) (nx : option nat) : leaf K V :=
    mkLeaf (length es) (pad m es) nx.

  Lemma pad_length {A} n (l : list A) : length l <= n -> length (pad n l) = n.
  Proof. intros E. unfold pad. rewrite app_length, map_length, repeat_length. lia. Qed.
  Lemma pad_full {A} n (l : list A) : length l = n -> pad n l = map Some l.
  Proof. intros E. unfold pad. now rewrite E, Nat.sub_diag, app_nil_r. Qed.
  Lemma pad_room {A} n (l : list A) : length l < n ->
    pad n l = map Some l ++ None :: repeat None (n - length l - 1).
  Proof. intros E. unfold pad. destruct (n - length l) as [|q] eqn:Q; [lia|]. simpl. now rewrite Nat.sub_0_r. Qed.
  Lemma pad_nth_in {A} n (l : list A) i (x : A) : nth_error l i = Some x -> nth_error (pad n l) i = Some (Some x).
  Proof.
    intros E. unfold pad. assert (i < length l) by (apply nth_error_Some; congruence).
    rewrite nth_error_app1 by (rewrite map_length; lia). now rewrite nth_error_map, E.
  Qed.
  Lemma pad_nth_out {A} n (l : list A) i : length l <= i < n -> nth_error (pad n l) i = Some None.
  Proof.
    intros E. unfold pad. rewrite nth_error_app2 by (rewrite map_length; lia). rewrite map_length.
    apply nth_error_repeat. lia.
  Qed.

  (** [es] with [e] put in its place (an entry with an equal key is replaced). *)
  Definition put (e : entry) (es : list entry) : list entry := below (fst e) es ++ e :: above (fst e) es.

  Lemma put_gt e x es : sorted (x :: es) -> cmp (fst e) (fst x) = Gt -> put e (x :: es) = x :: put e es.
  Proof.
    intros S E. unfold put. rewrite below_cons, above_cons.
    rewrite (cmp_gt_lt _ _ E). reflexivity.
  Qed.
  Lemma put_front e es : all_gt es (fst e) -> put e es = e :: es.
  Proof. intros F. unfold put. now rewrite (below_all_gt _ _ F), (above_all_gt _ _ F). Qed.
  Lemma put_lt e x es : sorted (x :: es) -> cmp (fst e) (fst x) = Lt ->
    put e (x :: es) = e :: put x es /\ put x es = x :: es.
  Proof.
    intros S E. apply sorted_cons in S as [F S].
    rewrite (put_front x) by exact F. split; [|reflexivity]. apply put_front.
    apply all_gt_cons. split; [exact E|]. now apply all_gt_weaken with (fst x).
  Qed.
  Lemma at_gt e x es : cmp (fst e) (fst x) = Gt -> at_key (fst e) (x :: es) = at_key (fst e) es.
  Proof. intros E. now rewrite at_cons, (cmp_gt_lt _ _ E). Qed.
  Lemma at_lt e x es : sorted (x :: es) -> cmp (fst e) (fst x) = Lt -> at_key (fst e) (x :: es) = [].
  Proof.
    intros S E. apply sorted_cons in S as [F S]. apply at_all_gt. apply all_gt_cons.
    split; [exact E|]. now apply all_gt_weaken with (fst x).
  Qed.
  Lemma put_length e es : sorted es -> at_key (fst e) es = [] -> length (put e es) = S (length es).
  Proof.
    intros S E. rewrite (sorted_split es (fst e) S) at 2. unfold put. rewrite E. simpl.
    rewrite !app_length. simpl. lia.
  Qed.
  Lemma put_length_at e es x : sorted es -> at_key (fst e) es = [x] -> length (put e es) = length es.
  Proof.
    intros S E. rewrite (sorted_split es (fst e) S) at 2. unfold put. rewrite E. simpl.
    rewrite !app_length. simpl. lia.
  Qed.
  Lemma put_sorted e es : sorted es -> sorted (put e es).
  Proof. destruct e as [k v]. apply sorted_insert. Qed.

  (** node.rs:234-246 *)
  Lemma leaf_place_ok : forall es e r, sorted es ->
    leaf_place (map Some es ++ None :: r) e =
      Ok (match at_key (fst e) es with
          | [] => (map Some (put e es) ++ r, None)
          | x :: _ => (map Some (put e es) ++ None :: r, Some x)
          end).
  Proof.
    induction es as [|x es IH]; intros e r S; [reflexivity|].
    cbn [map app leaf_place]. destruct (cmp (fst e) (fst x)) eqn:E.
    - assert (Ex : cmp (fst x) (fst e) = Eq) by now apply cmp_eq_sym.
      apply sorted_cons in S as [F S].
      assert (G : all_gt es (fst e)) by (eapply all_gt_eq; eauto).
      rewrite at_cons, Ex. cbn [is_eq]. unfold put. rewrite below_cons, above_cons, Ex. cbn [is_lt is_gt].
      now rewrite (below_all_gt _ _ G), (above_all_gt _ _ G).
    - destruct (put_lt _ _ _ S E) as [P1 P2]. rewrite (at_lt _ _ _ S E), P1.
      pose proof S as S'. apply sorted_cons in S' as [F S'].
      rewrite IH by exact S'. rewrite (at_all_gt _ _ F). reflexivity.
    - rewrite (put_gt _ _ _ S E), (at_gt _ _ _ E).
      apply sorted_cons in S as [F S]. rewrite IH by exact S.
      destruct (at_key (fst e) es); reflexivity.
  Qed.

  Lemma put_ne e es : put e es <> [].
  Proof. unfold put. destruct (below (fst e) es); discriminate. Qed.
  Lemma removelast_put x e es : removelast (x :: put e es) = x :: removelast (put e es).
  Proof. pose proof (put_ne e es). simpl. destruct (put e es); [contradiction | reflexivity]. Qed.
  Lemma last_put x e es y : last (x :: put e es) y = last (put e es) y.
  Proof. pose proof (put_ne e es). simpl. destruct (put e es); [contradiction | reflexivity]. Qed.
  Lemma last_put_any e es x y : last (put e es) x = last (put e es) y.
  Proof.
    pose proof (put_ne e es). induction (put e es) as [|a l IH]; [contradiction|].
    simpl. destruct l; [reflexivity|]. apply IH. discriminate.
  Qed.

  (** node.rs:251-266, no entry with the key of [e]: the first [half + 1] entries stay, the others
      move to the new leaf, the last one is carried out of the loop. *)
  Lemma leaf_shift_ok half : forall es i sp r e, sorted es -> at_key (fst e) es = [] ->
    length sp = i - (half + 1) -> length es <= r + (half + 1 - i) ->
    let D := removelast (put e es) in
    let n := half + 1 - i in
    leaf_shift half i (map Some es) (map Some sp ++ repeat None r) e =
      Ok (Shifted (map Some (firstn n D) ++ repeat None (length es - n))
                  (map Some (sp ++ skipn n D) ++ repeat None (r - (length es - n)))
                  (last (put e es) e)).
  Proof.
    induction es as [|x es IH]; intros i sp r e S A L1 L2 D n.
    - subst D. change (put e []) with [e]. cbn [removelast last map leaf_shift length].
      rewrite firstn_nil, skipn_nil, (app_nil_r sp), Nat.sub_0_l, Nat.sub_0_r. reflexivity.
    - (* one iteration puts y into cell i and goes on carrying e' *)
      assert (Step : forall y e', sorted es -> at_key (fst e') es = [] -> put e (x :: es) = y :: put e' es ->
        (if half <? i then
            let* c := cell (map Some sp ++ repeat None r) (i - half - 1) in
            let* o := leaf_shift half (Datatypes.S i) (map Some es)
                        (list_set (map Some sp ++ repeat None r) (i - half - 1) (Some y)) e' in
            Ok (shift_cons c o)
          else
            let* o := leaf_shift half (Datatypes.S i) (map Some es) (map Some sp ++ repeat None r) e' in
            Ok (shift_cons (Some y) o)) =
        Ok (Shifted (map Some (firstn n D) ++ repeat None (length (x :: es) - n))
                  (map Some (sp ++ skipn n D) ++ repeat None (r - (length (x :: es) - n)))
                  (last (put e (x :: es)) e))).
      { intros y e' S' A' P. subst D. rewrite P, removelast_put, last_put, (last_put_any e' es e e').
        simpl length in *. destruct (half <? i) eqn:Q.
        - apply Nat.ltb_lt in Q. assert (n = 0) by (subst n; lia).
          destruct r as [|r]; [lia|]. rewrite repeat_S_app || simpl repeat.
          rewrite cell_app by (rewrite map_length; lia). cbn [bind].
          rewrite set_app by (rewrite map_length; lia).
          replace (map Some sp ++ Some y :: repeat None r) with (map Some (sp ++ [y]) ++ repeat None r)
            by (rewrite map_app, <- app_assoc; reflexivity).
          rewrite IH; [|exact S' | exact A' | rewrite app_length; cbn [length]; lia | lia]. cbn [bind shift_cons].
          replace (half + 1 - Datatypes.S i) with 0 by lia. replace n with 0.
          rewrite !Nat.sub_0_r. cbn [firstn skipn map app]. rewrite <- app_assoc. cbn [app].
          replace (Datatypes.S r - Datatypes.S (length es)) with (r - length es) by lia.
          reflexivity.
        - apply Nat.ltb_ge in Q. rewrite IH; [|exact S' | exact A' | lia | lia]. cbn [bind shift_cons].
          assert (n = Datatypes.S (half + 1 - Datatypes.S i)) as -> by (subst n; lia).
          reflexivity. }
      cbn [map leaf_shift]. destruct (cmp (fst e) (fst x)) eqn:E.
      + rewrite at_cons, (cmp_eq_sym _ _ E) in A. discriminate.
      + destruct (put_lt _ _ _ S E) as [P1 P2]. pose proof S as S'. apply sorted_cons in S' as [F S'].
        apply (Step e x S'); [now apply at_all_gt | exact P1].
      + pose proof S as S'. apply sorted_cons in S' as [F S']. rewrite (at_gt _ _ _ E) in A.
        apply (Step x e S' A). now apply put_gt.
  Qed.

  (** node.rs:251-266 when the key is present: the entries before it that were already moved away
      are lost. *)
  Lemma leaf_shift_found half : forall es i sp r e x, sorted es -> at_key (fst e) es = [x] ->
    length sp = i - (half + 1) -> length es <= r + (half + 1 - i) ->
    let B := below (fst e) es in
    let n := half + 1 - i in
    leaf_shift half i (map Some es) (map Some sp ++ repeat None r) e =
      Ok (Replaced (map Some (firstn n B) ++ repeat None (length B - n) ++ map Some (e :: above (fst e) es)) x).
  Proof.
    induction es as [|y es IH]; intros i sp r e x S A L1 L2 B n; [discriminate|].
    cbn [map leaf_shift]. destruct (cmp (fst e) (fst y)) eqn:E.
    - subst B. pose proof (cmp_eq_sym _ _ E) as E'. rewrite at_cons, E' in A. cbn in A. injection A as -> A.
      apply sorted_cons in S as [F S]. assert (G : all_gt es (fst e)) by (eapply all_gt_eq; eauto).
      rewrite below_cons, above_cons, E'. cbn.
      rewrite (below_all_gt _ _ G), (above_all_gt _ _ G), firstn_nil. reflexivity.
    - rewrite (at_lt _ _ _ S E) in A. discriminate.
    - rewrite (at_gt _ _ _ E) in A. apply cmp_gt_lt in E.
      subst B. rewrite below_cons, above_cons, E. cbn [is_lt is_gt].
      apply sorted_cons in S as [F S]. simpl length in *. destruct (half <? i) eqn:Q.
      + apply Nat.ltb_lt in Q. assert (n = 0) by (subst n; lia).
        destruct r as [|r]; [lia|]. simpl repeat.
        rewrite cell_app by (rewrite map_length; lia). cbn [bind].
        rewrite set_app by (rewrite map_length; lia).
        replace (map Some sp ++ Some y :: repeat None r) with (map Some (sp ++ [y]) ++ repeat None r)
          by (rewrite map_app, <- app_assoc; reflexivity).
        rewrite (IH _ _ _ _ x); [|exact S | exact A | rewrite app_length; cbn [length]; lia | lia].
        cbn [bind shift_cons]. replace (half + 1 - Datatypes.S i) with 0 by lia. replace n with 0.
        rewrite !Nat.sub_0_r. reflexivity.
      + apply Nat.ltb_ge in Q. rewrite (IH _ _ _ _ x); [|exact S | exact A | lia | lia].
        cbn [bind shift_cons]. assert (n = Datatypes.S (half + 1 - Datatypes.S i)) as -> by (subst n; lia).
        reflexivity.
  Qed.

  Lemma at_key_single k es x r : sorted es -> at_key k es = x :: r -> r = [].
  Proof. intros S E. destruct (at_key_cases es k S) as [Q | (y & Q & _)]; congruence. Qed.

  (** *** The operations on packed leaves *)

  Lemma leaf_insert_room m es nx e : sorted es -> length es < m ->
    leaf_insert (mk_leaf m es nx) e =
      Ok (mk_leaf m (put e es) nx, option_map IEntry (hd_error (at_key (fst e) es))).
  Proof.
    intros S L. unfold leaf_insert, mk_leaf. cbn [lf_len lf_entries lf_next].
    rewrite pad_length by lia. rewrite (proj2 (Nat.ltb_lt _ _) L).
    rewrite (pad_room m es L), leaf_place_ok by exact S. cbn [bind].
    destruct (at_key (fst e) es) as [|x r] eqn:A.
    - cbn [option_map hd_error]. rewrite put_length by auto. unfold pad. rewrite put_length by auto.
      replace (m - length es - 1) with (m - Datatypes.S (length es)) by lia.
      now rewrite Nat.add_1_r.
    - pose proof (at_key_single _ _ _ _ S A) as ->. cbn [option_map hd_error].
      rewrite (pad_room m (put e es)) by (rewrite (put_length_at _ _ _ S A); exact L).
      now rewrite (put_length_at _ _ _ S A).
  Qed.

  Lemma removelast_firstn_last (l : list entry) y : l <> [] -> removelast l ++ [last l y] = l.
  Proof. intros N. symmetry. now apply app_removelast_last. Qed.
  Lemma removelast_length (l : list entry) : length (removelast l) = length l - 1.
  Proof.
    induction l as [|a l IH]; [reflexivity|]. cbn [removelast]. destruct l; [reflexivity|].
    cbn [length] in *. rewrite IH. lia.
  Qed.

  Lemma leaf_insert_split m es nx e : sorted es -> length es = m -> 1 <= m -> at_key (fst e) es = [] ->
    exists sk, hd_error (skipn (m / 2 + 1) (put e es)) = Some sk /\
    leaf_insert (mk_leaf m es nx) e =
      Ok (mk_leaf m (firstn (m / 2 + 1) (put e es)) nx,
          Some (ISplit (fst sk) (mk_leaf m (skipn (m / 2 + 1) (put e es)) nx))).
  Proof.
    intros S L P A.
    pose proof (put_length e es S A) as PL. pose proof (put_ne e es) as PN.
    assert (Hm : m / 2 * 2 <= m) by (rewrite Nat.mul_comm; apply Nat.mul_div_le; lia).
    assert (Hm2 : m < 2 * (m / 2) + 2) by (pose proof (Nat.mod_upper_bound m 2); pose proof (Nat.div_mod m 2); lia).
    assert (Hc : (m - 1) / 2 = m - (m / 2 + 1)).
    { symmetry. apply Nat.div_unique with (r := (m - 1) - 2 * (m - (m / 2 + 1))); lia. }
    assert (Hs : (m + 2) / 2 = m / 2 + 1).
    { symmetry. apply Nat.div_unique with (r := m - 2 * (m / 2)); lia. }
    assert (Hs2 : (m + 1) / 2 = m - m / 2).
    { symmetry. apply Nat.div_unique with (r := m + 1 - 2 * (m - m / 2)); lia. }
    set (D := removelast (put e es)). set (M := put e es) in *.
    assert (ML : M = D ++ [last M e]) by (subst D M; symmetry; now apply removelast_firstn_last).
    assert (DL : length D = m) by (subst D; rewrite removelast_length; lia).
    assert (SK : skipn (m / 2 + 1) D ++ [last M e] = skipn (m / 2 + 1) M).
    { rewrite ML at 2. rewrite skipn_app. replace (m / 2 + 1 - length D) with 0 by lia. reflexivity. }
    assert (FK : firstn (m / 2 + 1) D = firstn (m / 2 + 1) M).
    { rewrite ML at 1. rewrite firstn_app. replace (m / 2 + 1 - length D) with 0 by lia.
      now rewrite app_nil_r. }
    destruct (skipn (m / 2 + 1) M) as [|sk rest] eqn:EM.
    { apply (f_equal (@length _)) in SK. rewrite app_length in SK. simpl in SK. lia. }
    exists sk. split; [reflexivity|].
    replace (mk_leaf m es nx) with (mkLeaf m (map Some es) nx) by (unfold mk_leaf; now rewrite pad_full, L).
    unfold leaf_insert. cbn [lf_len lf_entries lf_next]. rewrite map_length, L, Nat.ltb_irrefl.
    replace (repeat None m) with (map (@Some entry) [] ++ repeat None m) by reflexivity.
    rewrite leaf_shift_ok; [|exact S | exact A | reflexivity | lia]. cbn [bind].
    fold M. fold D. rewrite Nat.sub_0_r. rewrite L, FK. cbn [app].
    assert (checked_pred m = Ok (m - 1)) as -> by (destruct m; simpl; [lia | f_equal; lia]).
    cbn [bind]. rewrite Hc.
    assert (SL : length (skipn (m / 2 + 1) D) = m - (m / 2 + 1)) by (rewrite skipn_length; lia).
    assert (RL : m - (m - (m / 2 + 1)) = Datatypes.S (m / 2)) by lia.
    rewrite RL. cbn [repeat].
    rewrite set_cell_app by (rewrite map_length; lia). cbn [bind].
    replace (map Some (skipn (m / 2 + 1) D) ++ Some (last M e) :: repeat None (m / 2))
      with (map Some (skipn (m / 2 + 1) D ++ [last M e]) ++ repeat None (m / 2))
      by (rewrite map_app, <- app_assoc; reflexivity).
    rewrite SK. cbn [map app cell nth_error expect bind].
    unfold mk_leaf, pad. rewrite map_cons.
    assert (LF : length (firstn (m / 2 + 1) M) = m / 2 + 1) by (rewrite firstn_length; lia).
    assert (LS : length (sk :: rest) = m - m / 2) by (rewrite <- EM, skipn_length; lia).
    rewrite LF, LS, Hs, Hs2. do 3 f_equal. replace (m - (m - m / 2)) with (m / 2) by lia. reflexivity.
  Qed.

  (** Overwriting a key in a full leaf: the entries in cells [m / 2 + 1] up to the one overwritten
      are gone. *)
  Lemma leaf_insert_full_found m es nx e x : sorted es -> length es = m -> 1 <= m ->
    at_key (fst e) es = [x] ->
    let B := below (fst e) es in
    leaf_insert (mk_leaf m es nx) e =
      Ok (mkLeaf m (map Some (firstn (m / 2 + 1) B) ++ repeat None (length B - (m / 2 + 1))
                    ++ map Some (e :: above (fst e) es)) nx, Some (IEntry x)).
  Proof.
    intros S L P A B. unfold leaf_insert, mk_leaf. cbn [lf_len lf_entries lf_next].
    rewrite pad_length by lia. rewrite (proj2 (Nat.ltb_ge _ _)) by lia. rewrite pad_full by exact L.
    replace (repeat None m) with (map (@Some entry) [] ++ repeat None m) by reflexivity.
    rewrite (leaf_shift_found (m / 2) es 0 [] m e x); [|exact S | exact A | reflexivity | lia].
    cbn [bind]. rewrite Nat.sub_0_r, L. reflexivity.
  Qed.

  Lemma leaf_insert_full_safe m es nx e x : sorted es -> length es = m -> 1 <= m ->
    at_key (fst e) es = [x] -> length (below (fst e) es) <= m / 2 + 1 ->
    leaf_insert (mk_leaf m es nx) e = Ok (mk_leaf m (put e es) nx, Some (IEntry x)).
  Proof.
    intros S L P A B. rewrite (leaf_insert_full_found m es nx e x) by assumption.
    pose proof (put_length_at e es x S A) as PL.
    unfold mk_leaf. rewrite pad_full by lia. rewrite PL, L.
    rewrite firstn_all2 by exact B. replace (length (below (fst e) es) - (m / 2 + 1)) with 0 by lia.
    unfold put. rewrite map_app. reflexivity.
  Qed.

  (** *** remove_at, remove, search, merge *)

  Lemma pad_split {A} m (a b : list A) c : length (a ++ c :: b) <= m ->
    pad m (a ++ c :: b) = map Some a ++ Some c :: map Some b ++ repeat None (m - length (a ++ c :: b)).
  Proof. intros L. unfold pad. rewrite map_app, <- app_assoc. reflexivity. Qed.

  Lemma pad_take {A} m (a : list A) c n : length a + 1 <= m -> n = length a ->
    list_set (map Some a ++ Some c :: repeat None (m - length a - 1)) n None = pad m a.
  Proof.
    intros L ->. rewrite set_app by (now rewrite map_length).
    now rewrite pad_room by lia.
  Qed.

  Lemma leaf_remove_at_ok m a c b nx : length (a ++ c :: b) <= m ->
    leaf_remove_at (mk_leaf m (a ++ c :: b) nx) (length a) = Ok (mk_leaf m (a ++ b) nx, c).
  Proof.
    intros L. unfold leaf_remove_at, mk_leaf. cbn [lf_len lf_entries lf_next].
    assert (Q : length (a ++ c :: b) = Datatypes.S (length (a ++ b))) by (rewrite !app_length; simpl; lia).
    rewrite Q. unfold assert.
    rewrite (proj2 (Nat.ltb_lt _ _)) by (rewrite app_length; lia). cbn [bind].
    replace (Datatypes.S (length (a ++ b)) - 1) with (length (a ++ b)) by lia.
    rewrite pad_split by exact L.
    rewrite swap_up_app with (b := map Some b)
      by (try rewrite map_length; rewrite ?app_length; lia). cbn [bind].
    rewrite app_assoc, <- map_app. rewrite cell_app by (now rewrite map_length).
    cbn [bind expect]. rewrite Q.
    replace (m - Datatypes.S (length (a ++ b))) with (m - length (a ++ b) - 1) by lia.
    rewrite pad_take by (try reflexivity; lia). reflexivity.
  Qed.

  (** The loop passes over entries with other keys. *)
  Lemma remove_loop_skip key len : forall b a r removed n i, i = length a ->
    Forall (fun e => cmp key (fst e) <> Eq) b ->
    leaf_remove_loop key len (length b + n) i (a ++ map Some b ++ r) removed =
    leaf_remove_loop key len n (i + length b) (a ++ map Some b ++ r) removed.
  Proof.
    induction b as [|e b IH]; intros a r removed n i E F; [simpl; now rewrite Nat.add_0_r|].
    inversion F as [|? ? F1 F2]; subst. cbn [length Nat.add leaf_remove_loop map app].
    rewrite cell_app by reflexivity. cbn [bind].
    assert (is_eq (cmp key (fst e)) = false) as ->
      by (destruct (cmp key (fst e)); [congruence | reflexivity | reflexivity]).
    replace (a ++ Some e :: map Some b ++ r) with ((a ++ [Some e]) ++ map Some b ++ r)
      by now rewrite <- app_assoc.
    rewrite IH by (try rewrite app_length; simpl; auto; lia).
    f_equal. now rewrite Nat.add_succ_r.
  Qed.

  (** From the matching entry on it carries that entry to the end. *)
  Lemma remove_loop_carry key len e r : cmp key (fst e) = Eq -> forall b a i removed, i = length a ->
    len = length a + Datatypes.S (length b) ->
    leaf_remove_loop key len (Datatypes.S (length b)) i (a ++ Some e :: map Some b ++ r) removed =
    Ok (a ++ map Some b ++ Some e :: r, true).
  Proof.
    intros Ck. induction b as [|x b IH]; intros a i removed -> L; cbn [length leaf_remove_loop map app].
    - rewrite cell_app by reflexivity. cbn [bind]. rewrite Ck. cbn [is_eq].
      rewrite (proj2 (Nat.ltb_ge _ _)) by (simpl in L; lia). reflexivity.
    - rewrite cell_app by reflexivity. cbn [bind]. rewrite Ck. cbn [is_eq].
      rewrite (proj2 (Nat.ltb_lt _ _)) by (simpl in L; lia).
      rewrite Nat.add_1_r, swap_app by reflexivity. cbn [bind].
      replace (a ++ Some x :: Some e :: map Some b ++ r) with ((a ++ [Some x]) ++ Some e :: map Some b ++ r)
        by now rewrite <- app_assoc.
      specialize (IH (a ++ [Some x]) (Datatypes.S (length a)) true). cbn [leaf_remove_loop] in IH.
      rewrite IH by (rewrite app_length; simpl in *; lia). now rewrite <- app_assoc.
  Qed.

  Lemma leaf_remove_ok m es nx k : sorted es -> length es <= m ->
    leaf_remove (mk_leaf m es nx) k =
      Ok (mk_leaf m (below k es ++ above k es) nx, hd_error (at_key k es)).
  Proof.
    intros S L. unfold leaf_remove, mk_leaf at 1 2 3 4. cbn [lf_len lf_entries lf_next].
    pose proof (sorted_split es k S) as E. set (B := below k es) in *. set (A := above k es) in *.
    assert (FB : Forall (fun e => cmp k (fst e) <> Eq) B).
    { pose proof (below_lt es k) as F. eapply Forall_impl; [|exact F]. intros e Q C1. simpl in Q. korder. }
    assert (FA : Forall (fun e => cmp k (fst e) <> Eq) A).
    { pose proof (above_gt es k) as F. eapply Forall_impl; [|exact F]. intros e Q C1. simpl in Q. korder. }
    destruct (at_key_cases es k S) as [Q | (x & Q & Ck)]; rewrite Q in *; cbn [app hd_error] in *.
    - assert (F : Forall (fun e => cmp k (fst e) <> Eq) es) by (rewrite E; apply Forall_app; auto).
      pose proof (remove_loop_skip k (length es) es [] (repeat None (m - length es)) false 0 0 eq_refl F) as P.
      rewrite Nat.add_0_r in P. cbn [app] in P. unfold pad. rewrite P.
      cbn [leaf_remove_loop bind]. unfold mk_leaf. rewrite <- E. reflexivity.
    - assert (LE : length es = length B + Datatypes.S (length A)) by (rewrite E, app_length; reflexivity).
      assert (PE : pad m es = map Some B ++ Some x :: map Some A ++ repeat None (m - length es)).
      { rewrite E at 1. rewrite pad_split by (rewrite <- E; exact L). now rewrite <- E. }
      rewrite PE. rewrite LE at 2.
      pose proof (remove_loop_skip k (length es) B [] (Some x :: map Some A ++ repeat None (m - length es))
                    false (Datatypes.S (length A)) 0 eq_refl FB) as P.
      cbn [app] in P. rewrite P.
      rewrite remove_loop_carry by (rewrite ?map_length; auto; lia). cbn [bind].
      rewrite LE. rewrite Nat.add_succ_r. cbn [checked_pred bind].
      rewrite app_assoc, <- map_app.
      rewrite cell_app by (rewrite map_length, app_length; lia). cbn [bind].
      replace (m - Datatypes.S (length B + length A)) with (m - length (B ++ A) - 1) by (rewrite app_length; lia).
      unfold mk_leaf. rewrite pad_take by (rewrite app_length; lia).
      now rewrite app_length.
  Qed.

  (** Binary search: [b] entries lie below the key, and if [hit] the next one is equal. *)
  Lemma leaf_search_loop_ok cells key b (hit : bool) : b <= length cells -> (hit = true -> b < length cells) ->
    (forall i, i < b -> exists e, nth_error cells i = Some (Some e) /\ cmp (fst e) key = Lt) ->
    (hit = true -> exists e, nth_error cells b = Some (Some e) /\ cmp (fst e) key = Eq) ->
    (forall i c, (if hit then b < i else b <= i) -> nth_error cells i = Some c ->
       match c with None => True | Some e => cmp (fst e) key = Gt end) ->
    forall fuel lo hi, hi - lo < fuel -> lo <= b -> (if hit then b < hi else b <= hi) -> hi <= length cells ->
    leaf_search_loop fuel cells key lo hi = Ok (if hit then Some b else None).
  Proof.
    intros Lb Lh P1 P2 P3. induction fuel as [|f IH]; intros lo hi F L1 L2 L3; [lia|].
    cbn [leaf_search_loop]. destruct (lo <? hi) eqn:Q.
    - apply Nat.ltb_lt in Q. set (mid := lo + (hi - 1 - lo) / 2).
      assert (Hmid : lo <= mid < hi).
      { subst mid. pose proof (Nat.div_le_upper_bound (hi - 1 - lo) 2 (hi - 1 - lo)). lia. }
      destruct (nth_error cells mid) as [c|] eqn:N; [|apply nth_error_None in N; lia].
      rewrite (cell_nth _ _ _ N). cbn [bind].
      destruct (lt_dec mid b) as [C1|C1].
      + destruct (P1 mid C1) as (e & N' & Ck). rewrite N in N'. injection N' as ->. rewrite Ck.
        apply IH; try lia. destruct hit; lia.
      + destruct c as [e|].
        * destruct hit.
          -- destruct (Nat.eq_dec mid b) as [->|Ne].
             ++ destruct (P2 eq_refl) as (e' & N' & Ck). rewrite N in N'. injection N' as <-. now rewrite Ck.
             ++ pose proof (P3 mid (Some e) ltac:(lia) N) as G. cbn in G. rewrite G. apply IH; lia.
          -- pose proof (P3 mid (Some e) ltac:(lia) N) as G. cbn in G. rewrite G. apply IH; lia.
        * destruct hit.
          -- destruct (Nat.eq_dec mid b) as [Eb|Ne].
             ++ destruct (P2 eq_refl) as (e' & N' & Ck). rewrite <- Eb, N in N'. discriminate.
             ++ apply IH; lia.
          -- apply IH; lia.
    - apply Nat.ltb_ge in Q. destruct hit; [lia | reflexivity].
  Qed.

  Lemma leaf_search_ok m es nx k : sorted es -> length es <= m -> 1 <= m ->
    leaf_search (mk_leaf m es nx) k =
      Ok (match at_key k es with [] => None | _ => Some (length (below k es)) end).
  Proof.
    intros S L P. unfold leaf_search, mk_leaf. cbn [lf_entries]. rewrite pad_length by exact L.
    assert (checked_pred m = Ok (m - 1)) as -> by (destruct m; simpl; [lia | f_equal; lia]). cbn [bind].
    pose proof (sorted_split es k S) as E. set (B := below k es) in *. set (A := above k es) in *.
    assert (PB : forall i, i < length B -> exists e, nth_error (pad m es) i = Some (Some e) /\ cmp (fst e) k = Lt).
    { intros i Hi. destruct (nth_error B i) as [e|] eqn:N; [|apply nth_error_None in N; lia].
      exists e. split.
      - apply pad_nth_in. rewrite E. now rewrite nth_error_app1.
      - pose proof (below_lt es k) as F. unfold all_lt in F. rewrite Forall_forall in F. apply F.
        eapply nth_error_In; exact N. }
    assert (PA : forall j c, length B + length (at_key k es) <= j -> nth_error (pad m es) j = Some c ->
              match c with None => True | Some e => cmp (fst e) k = Gt end).
    { intros j c Hj N. destruct c as [e|]; [|exact I].
      destruct (lt_dec j (length es)) as [Q|Q].
      - destruct (nth_error es j) as [e'|] eqn:N'; [|apply nth_error_None in N'; lia].
        rewrite (pad_nth_in m es j e' N') in N. injection N as ->.
        rewrite E in N'. rewrite nth_error_app2 in N' by lia. rewrite nth_error_app2 in N' by lia.
        apply nth_error_In in N'. pose proof (above_gt es k) as F. unfold all_gt in F.
        rewrite Forall_forall in F. apply cmp_lt_gt. now apply F.
      - assert (j < m) by (apply nth_error_Some with (l := pad m es) in N as N2 || idtac;
          rewrite <- (pad_length m es L); apply nth_error_Some; congruence).
        rewrite pad_nth_out in N by lia. discriminate. }
    assert (LB : length B + length (at_key k es) <= length es).
    { rewrite E at 2. rewrite !app_length. lia. }
    destruct (at_key_cases es k S) as [Q | (x & Q & Ck)]; rewrite Q in *; cbn [length] in *.
    - rewrite (leaf_search_loop_ok (pad m es) k (length B) false); auto;
        rewrite ?pad_length by exact L; try lia; try discriminate.
      intros i c Hi. apply PA. lia.
    - rewrite (leaf_search_loop_ok (pad m es) k (length B) true); auto;
        rewrite ?pad_length by exact L; try lia.
      + intros _. exists x. split; [|now apply cmp_eq_sym]. apply pad_nth_in. rewrite E.
        rewrite nth_error_app2 by lia. now rewrite Nat.sub_diag.
      + intros i c Hi. apply PA. lia.
  Qed.

  Lemma leaf_merge_ok m a b nx ny : length a + length b <= m ->
    leaf_merge (mk_leaf m a nx) (mk_leaf m b ny) = Ok (mk_leaf m (a ++ b) ny).
  Proof.
    intros L. unfold leaf_merge, mk_leaf. cbn [lf_len lf_entries lf_next].
    rewrite pad_length by lia. unfold assert. rewrite (proj2 (Nat.leb_le _ _)) by exact L. cbn [bind].
    unfold pad at 1. replace (m - length a) with (length b + (m - length (a ++ b))) by (rewrite app_length; lia).
    rewrite repeat_app. unfold pad at 1.
    replace (map (@Some entry) b ++ repeat None (m - length b))
      with ([] ++ map (@Some entry) b ++ repeat None (m - length b)) by reflexivity.
    rewrite copy_app by (rewrite ?map_length, ?repeat_length; simpl; lia).
    cbn [bind]. rewrite app_length. do 2 f_equal. unfold pad. rewrite map_app, <- app_assoc, app_length. reflexivity.
  Qed.

  Lemma leaf_search_absent cells key : (forall i e, nth_error cells i = Some (Some e) -> cmp (fst e) key <> Eq) ->
    forall fuel lo hi, hi - lo < fuel -> hi <= length cells -> @leaf_search_loop K V _ fuel cells key lo hi = Ok None.
  Proof.
    intros A. induction fuel as [|f IH]; intros lo hi F L; [lia|]. cbn [leaf_search_loop].
    destruct (lo <? hi) eqn:Q; [|reflexivity]. apply Nat.ltb_lt in Q. set (mid := lo + (hi - 1 - lo) / 2).
    assert (Hmid : lo <= mid < hi).
    { subst mid. pose proof (Nat.div_le_upper_bound (hi - 1 - lo) 2 (hi - 1 - lo)). lia. }
    destruct (nth_error cells mid) as [c|] eqn:N; [|apply nth_error_None in N; lia].
    rewrite (cell_nth _ _ _ N). cbn [bind]. destruct c as [e|]; [|apply IH; lia].
    pose proof (A mid e N). destruct (cmp (fst e) key); [congruence | apply IH; lia | apply IH; lia].
  Qed.
End Leaf.
