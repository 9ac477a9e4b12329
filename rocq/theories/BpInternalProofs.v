(** Closed forms of the array loops of internal B+ tree nodes. *)
From Verif Require Import BpNodeModel OrdLemmas ListLemmas MapSpec.
From Verif Require Export BpLeafProofs.

Lemma half_up d : (d + 1) / 2 = d - d / 2.
Proof.
  pose proof (Nat.mod_upper_bound d 2). pose proof (Nat.div_mod d 2).
  symmetry. apply Nat.div_unique with (r := d + 1 - 2 * (d - d / 2)); lia.
Qed.
Lemma half_le d : 2 * (d / 2) <= d /\ d < 2 * (d / 2) + 2.
Proof. pose proof (Nat.mod_upper_bound d 2). pose proof (Nat.div_mod d 2). lia. Qed.

(** Equality of lists built from the same pieces and padding. *)
Ltac list_eq :=
  unfold pad; rewrite ?map_app, ?app_length; cbn [map length fst snd]; rewrite ?app_length, ?map_length;
  cbn [length]; rewrite <- ?app_assoc; cbn [app]; rewrite <- ?app_assoc; cbn [app];
  repeat match goal with
  | |- ?a ++ ?b = ?a ++ ?c => apply (f_equal (app a))
  | |- ?x :: ?b = ?x :: ?c => apply (f_equal (cons x))
  | |- repeat ?x ?n = repeat ?x ?m => replace m with n by lia; reflexivity
  | |- ?x => reflexivity
  end.

Section Internal.
  Context {K : Type} `{CmpLaws K}.
  Implicit Types (ks : list K) (ps : list nat) (k x : K) (p q d i n : nat).

  (** The internal node of degree [d] with keys [ks] and children [ps]. *)
  Definition node_of d ks ps : internal K :=
    mkInternal (length ks) (pad d ks) (ps ++ repeat 0 (d + 1 - length ps)).
  (** The same with every key next to the child on its right. *)
  Definition mk_int d p (kp : list (K * nat)) : internal K := node_of d (map fst kp) (p :: map snd kp).

  Lemma internal_place_skip off : forall ks1 i todo keys ptrs k p,
    Forall (fun x => cmp k x <> Lt) ks1 ->
    internal_place off i (map Some ks1 ++ todo) keys ptrs k p =
    internal_place off (i + length ks1) todo keys ptrs k p.
  Proof.
    induction ks1 as [|x ks1 IH]; intros i todo keys ptrs k p F; cbn [map app length].
    - now rewrite Nat.add_0_r.
    - inversion F as [|? ? F1 F2]; subst. cbn [internal_place].
      assert (is_lt (cmp k x) = false) as -> by (destruct (cmp k x); simpl; congruence).
      rewrite IH by exact F2. f_equal. lia.
  Qed.

  Lemma internal_place_carry off : forall ks2 ps2 i A P kr z pr k p,
    StronglySorted (fun x y => cmp x y = Lt) (k :: ks2) -> length ps2 = length ks2 ->
    i = length A -> i + off = length P ->
    internal_place off i (map Some ks2 ++ None :: kr) (A ++ map Some ks2 ++ None :: kr) (P ++ ps2 ++ z :: pr) k p =
    Ok (A ++ map Some (k :: ks2) ++ kr, P ++ (p :: ps2) ++ pr, i + length ks2, z).
  Proof.
    induction ks2 as [|x ks2 IH]; intros [|q ps2] i A P kr z pr k p S L E1 E2; try discriminate.
    - cbn [map app internal_place length]. rewrite set_cell_app by exact E1. cbn [bind].
      rewrite cell_app by exact E2. cbn [bind]. rewrite set_app by exact E2. now rewrite Nat.add_0_r.
    - inversion S as [|? ? S1 F]; subst. inversion F as [|? ? F1 F2]; subst.
      cbn [map app internal_place length]. rewrite F1. cbn [is_lt].
      rewrite cell_app by exact E2. cbn [bind]. rewrite set_app by reflexivity. rewrite set_app by exact E2.
      replace (A ++ Some k :: map Some ks2 ++ None :: kr) with ((A ++ [Some k]) ++ map Some ks2 ++ None :: kr)
        by now rewrite <- app_assoc.
      replace (P ++ p :: ps2 ++ z :: pr) with ((P ++ [p]) ++ ps2 ++ z :: pr) by now rewrite <- app_assoc.
      rewrite IH; [| exact S1 | now injection L | rewrite app_length; cbn [length]; lia
                   | rewrite app_length; cbn [length]; lia].
      rewrite <- !app_assoc. cbn [map app]. do 3 f_equal. lia.
  Qed.

  Lemma repeat_room (n l : nat) : l < n -> repeat 0 (n - l) = 0 :: repeat 0 (n - l - 1).
  Proof. intros E. destruct (n - l) eqn:Q; [lia|]. simpl. now rewrite Nat.sub_0_r. Qed.

  (** node.rs:67-83, on either side *)
  Lemma internal_insert_room d ks1 ks2 ps1 ps2 k p (right : bool) :
    StronglySorted (fun x y => cmp x y = Lt) (k :: ks2) -> Forall (fun x => cmp k x <> Lt) ks1 ->
    length (ks1 ++ ks2) < d -> length (ps1 ++ ps2) = length (ks1 ++ ks2) + 1 ->
    length ps1 = length ks1 + (if right then 1 else 0) ->
    internal_insert (node_of d (ks1 ++ ks2) (ps1 ++ ps2)) k p right =
      Ok (node_of d (ks1 ++ k :: ks2) (ps1 ++ p :: ps2), None).
  Proof.
    intros S F L LP LP1. unfold internal_insert, node_of at 1 2 3 4 5. cbn [in_len in_keys in_ptrs].
    rewrite pad_length by lia. rewrite (proj2 (Nat.ltb_lt _ _) L).
    rewrite (pad_room d (ks1 ++ ks2) L). rewrite LP.
    replace (d + 1 - (length (ks1 ++ ks2) + 1)) with (d - length (ks1 ++ ks2)) by lia.
    rewrite (repeat_room d _ L).
    set (kr := repeat None (d - length (ks1 ++ ks2) - 1)).
    set (zr := repeat 0 (d - length (ks1 ++ ks2) - 1)).
    rewrite map_app, <- !app_assoc. rewrite internal_place_skip by exact F. cbn [Nat.add].
    rewrite !app_length in *. destruct right.
    - rewrite internal_place_carry; [| exact S | lia | now rewrite map_length | lia]. cbn [bind].
      unfold node_of. cbn [in_len]. subst kr zr. do 3 f_equal; [rewrite !app_length; cbn [length]; lia | |]; list_eq.
    - (* left: the last pointer is pushed one cell further *)
      destruct (exists_last (l := ps2)) as (ps3 & z & ->); [intros ->; simpl in LP; lia|].
      rewrite app_length in LP. cbn [length] in LP. rewrite <- app_assoc. cbn [app].
      rewrite internal_place_carry; [| exact S | lia | now rewrite map_length | lia]. cbn [bind].
      rewrite (app_assoc ps1).
      rewrite set_cell_app by (rewrite app_length; cbn [length]; lia). cbn [bind].
      unfold node_of. cbn [in_len]. subst kr zr. do 3 f_equal; [rewrite !app_length; cbn [length]; lia | |]; list_eq.
  Qed.

  (** node.rs:88-106 for insertion on the right *)
  Lemma internal_shift_ok half : forall (rem : list (K * nat)) i KA PA SK SP r k p p0,
    sorted rem -> at_key k rem = [] ->
    length KA = i -> length PA = i -> length SK = i - (half + 1) -> length SP = length SK ->
    length rem <= r + (half + 1 - i) ->
    let D := removelast (put (k, p) rem) in
    let n := half + 1 - i in
    internal_shift 1 half (length rem) i
      (mkShifting (KA ++ map Some (map fst rem)) (p0 :: PA ++ map snd rem)
                  (map Some SK ++ repeat None r) (0 :: SP ++ repeat 0 r) k p) =
    Ok (mkShifting (KA ++ map Some (map fst (firstn n D)) ++ repeat None (length rem - n))
                   (p0 :: PA ++ map snd (firstn n D) ++ repeat 0 (length rem - n))
                   (map Some (SK ++ map fst (skipn n D)) ++ repeat None (r - (length rem - n)))
                   (0 :: (SP ++ map snd (skipn n D)) ++ repeat 0 (r - (length rem - n)))
                   (fst (last (put (k, p) rem) (k, p))) (snd (last (put (k, p) rem) (k, p)))).
  Proof.
    induction rem as [|[x q] rem IH]; intros i KA PA SK SP r k p p0 S A LK LP LS1 LS2 LR D n.
    - subst D. change (put (k, p) []) with [(k, p)]. cbn [removelast last map length internal_shift fst snd].
      rewrite firstn_nil, skipn_nil. cbn [map]. rewrite !app_nil_r, Nat.sub_0_l, Nat.sub_0_r. cbn [repeat].
      rewrite ?app_nil_r. reflexivity.
    - assert (Step : forall y u k' p', sorted rem -> at_key k' rem = [] ->
        put (k, p) ((x, q) :: rem) = (y, u) :: put (k', p') rem ->
        (let s := mkShifting (KA ++ Some y :: map Some (map fst rem)) (p0 :: PA ++ u :: map snd rem)
                    (map Some SK ++ repeat None r) (0 :: SP ++ repeat 0 r) k' p' in
         let* s' :=
           (if half <? i then
              let* a := cell (sh_keys s) i in
              let* b := cell (sh_skeys s) (i - half - 1) in
              let* p := cell (sh_ptrs s) (i + 1) in
              let* q := cell (sh_sptrs s) (i - half - (1 - 1)) in
              Ok (mkShifting (list_set (sh_keys s) i b) (list_set (sh_ptrs s) (i + 1) q)
                    (list_set (sh_skeys s) (i - half - 1) a) (list_set (sh_sptrs s) (i - half - (1 - 1)) p)
                    (sh_k s) (sh_p s))
            else Ok s) in
         internal_shift 1 half (length rem) (Datatypes.S i) s') =
        Ok (mkShifting (KA ++ map Some (map fst (firstn n D)) ++ repeat None (length ((x, q) :: rem) - n))
                   (p0 :: PA ++ map snd (firstn n D) ++ repeat 0 (length ((x, q) :: rem) - n))
                   (map Some (SK ++ map fst (skipn n D)) ++ repeat None (r - (length ((x, q) :: rem) - n)))
                   (0 :: (SP ++ map snd (skipn n D)) ++ repeat 0 (r - (length ((x, q) :: rem) - n)))
                   (fst (last (put (k, p) ((x, q) :: rem)) (k, p))) (snd (last (put (k, p) ((x, q) :: rem)) (k, p))))).
      { intros y u k' p' S' A' P. subst D. rewrite P, removelast_put, last_put, (last_put_any (k', p') rem (k, p) (k', p')).
        cbn [length sh_keys sh_ptrs sh_skeys sh_sptrs sh_k sh_p] in *. destruct (half <? i) eqn:Q.
        - apply Nat.ltb_lt in Q. assert (n = 0) as -> by (subst n; lia).
          destruct r as [|r]; [lia|]. cbn [repeat].
          rewrite cell_app by (symmetry; exact LK). cbn [bind].
          rewrite cell_app by (rewrite map_length; lia). cbn [bind].
          replace (p0 :: PA ++ u :: map snd rem) with ((p0 :: PA) ++ u :: map snd rem) by reflexivity.
          rewrite cell_app by (cbn [length]; lia). cbn [bind].
          replace (0 :: SP ++ 0 :: repeat 0 r) with ((0 :: SP) ++ 0 :: repeat 0 r) by reflexivity.
          rewrite cell_app by (cbn [length]; lia). cbn [bind].
          rewrite !set_app by (rewrite ?map_length; cbn [length]; lia).
          specialize (IH (Datatypes.S i) (KA ++ [None]) (PA ++ [0]) (SK ++ [y]) (SP ++ [u]) r k' p' p0 S' A').
          replace (half + 1 - Datatypes.S i) with 0 in IH by lia. cbn zeta in IH.
          rewrite !app_length in IH. cbn [length] in IH.
          specialize (IH ltac:(lia) ltac:(lia) ltac:(lia) ltac:(lia) ltac:(lia)).
          rewrite map_app, <- !app_assoc in IH. cbn [map app] in IH. cbn [app]. rewrite IH.
          cbn [firstn skipn map app]. rewrite !Nat.sub_0_r. cbn [Nat.sub repeat fst snd].
          rewrite <- !app_assoc. cbn [app fst snd]. reflexivity.
        - apply Nat.ltb_ge in Q. cbn [bind].
          specialize (IH (Datatypes.S i) (KA ++ [Some y]) (PA ++ [u]) SK SP r k' p' p0 S' A').
          cbn zeta in IH. rewrite !app_length in IH. cbn [length] in IH.
          specialize (IH ltac:(lia) ltac:(lia) ltac:(lia) ltac:(lia) ltac:(lia)).
          rewrite <- !app_assoc in IH. cbn [app] in IH. rewrite IH.
          assert (n = Datatypes.S (half + 1 - Datatypes.S i)) as -> by (subst n; lia).
          cbn [firstn skipn map app fst snd Nat.sub]. rewrite <- ?app_assoc; reflexivity. }
      cbn [length internal_shift map fst snd]. unfold internal_shift_body at 1.
      cbn [sh_keys sh_ptrs sh_skeys sh_sptrs sh_k sh_p].
      rewrite cell_app by (symmetry; exact LK). cbn [bind].
      destruct (cmp k x) eqn:E; cbn [is_lt].
      + change k with (fst (k, p)) in A. change x with (fst (x, q)) in E.
        rewrite at_cons in A. cbn [fst] in *. rewrite (cmp_eq_sym _ _ E) in A. discriminate.
      + replace (p0 :: PA ++ q :: map snd rem) with ((p0 :: PA) ++ q :: map snd rem) by reflexivity.
        rewrite cell_app by (cbn [length]; lia). cbn [bind].
        rewrite set_app by (symmetry; exact LK). rewrite set_app by (cbn [length]; lia).
        destruct (put_lt (k, p) (x, q) rem S E) as [P1 P2]. pose proof S as S'. apply sorted_cons in S' as [F S'].
        apply (Step k p x q S'); [now apply at_all_gt | exact P1].
      + pose proof S as S'. apply sorted_cons in S' as [F S'].
        pose proof (at_gt (k, p) (x, q) rem E) as AE. cbn [fst] in AE. rewrite AE in A.
        apply (Step x q k p S' A). now apply (put_gt (k, p)).
  Qed.

  Lemma node_of_full d ks ps : length ks = d -> length ps = d + 1 ->
    node_of d ks ps = mkInternal d (map Some ks) ps.
  Proof. intros E1 E2. unfold node_of. rewrite pad_full by exact E1. now rewrite E1, E2, Nat.sub_diag, app_nil_r. Qed.

  Lemma split_at {A} (l : list A) n : n < length l -> exists (a : list A) (x : A) (b : list A), l = a ++ x :: b /\ length a = n.
  Proof.
    intros E. destruct (nth_error l n) as [x|] eqn:N; [|apply nth_error_None in N; lia].
    apply nth_error_split in N as (a & b & -> & L). exists a, x, b. auto.
  Qed.

  (** node.rs:85-119 for insertion on the right *)
  Lemma internal_insert_split d p0 (kp : list (K * nat)) k p : sorted kp -> at_key k kp = [] ->
    length kp = d -> 2 <= d ->
    exists M1 sk sp M2, put (k, p) kp = M1 ++ (sk, sp) :: M2 /\
      length M1 = (d + 1) / 2 /\ length M2 = d / 2 /\
      internal_insert (mk_int d p0 kp) k p true = Ok (mk_int d p0 M1, Some (sk, mk_int d sp M2)).
  Proof.
    intros S A L P. pose proof (half_up d) as HU. pose proof (half_le d) as [HL1 HL2].
    pose proof (put_length (k, p) kp S A) as ML. pose proof (put_ne (k, p) kp) as MN.
    pose proof (removelast_firstn_last (put (k, p) kp) (k, p) MN) as MD.
    pose proof (removelast_length (put (k, p) kp)) as DL.
    destruct (split_at (removelast (put (k, p) kp)) ((d + 1) / 2)) as (M1 & [sk sp] & M3 & DE & L1); [lia|].
    set (lst := last (put (k, p) kp) (k, p)) in *.
    exists M1, sk, sp, (M3 ++ [lst]).
    assert (L3 : length M3 = d - (d + 1) / 2 - 1).
    { rewrite DE, app_length in DL. cbn [length] in DL. lia. }
    split; [rewrite <- MD, DE, <- app_assoc; reflexivity|].
    split; [exact L1|]. split; [rewrite app_length; cbn [length]; lia|].
    unfold mk_int at 1. rewrite node_of_full by (cbn [length]; rewrite map_length; lia).
    unfold internal_insert. cbn [in_len in_keys in_ptrs]. rewrite !map_length, L, Nat.ltb_irrefl.
    pose proof (internal_shift_ok ((d + 1) / 2) kp 0 [] [] [] [] d k p p0 S A eq_refl eq_refl eq_refl eq_refl ltac:(lia)) as SH.
    cbn zeta in SH. cbn [app map] in SH. rewrite L in SH. rewrite Nat.sub_0_r in SH.
    replace (repeat 0 (d + 1)) with (0 :: repeat 0 d) by (now rewrite Nat.add_1_r).
    rewrite SH. cbn [bind sh_keys sh_ptrs sh_skeys sh_sptrs sh_k sh_p]. fold lst. rewrite DE.
    replace ((d + 1) / 2 + 1) with (length (M1 ++ [(sk, sp)])) by (rewrite app_length; cbn [length]; lia).
    replace (M1 ++ (sk, sp) :: M3) with ((M1 ++ [(sk, sp)]) ++ M3) by now rewrite <- app_assoc.
    rewrite firstn_app, Nat.sub_diag, firstn_all, skipn_app, Nat.sub_diag, skipn_all.
    cbn [firstn skipn app]. rewrite app_nil_r, app_length. cbn [length].
    replace (d - (length M1 + 1)) with (length M3) by lia.
    assert (HD : (d - 2) / 2 = length M3).
    { symmetry. apply Nat.div_unique with (r := d - 2 - 2 * length M3); lia. }
    unfold checked_sub. rewrite (proj2 (Nat.leb_le _ _) P). cbn [bind]. rewrite HD.
    replace (d - length M3) with (Datatypes.S (d - length M3 - 1)) by lia. cbn [repeat].
    rewrite set_cell_app by (now rewrite !map_length). cbn [bind].
    replace (0 :: map snd M3 ++ 0 :: repeat 0 (d - length M3 - 1))
      with ((0 :: map snd M3) ++ 0 :: repeat 0 (d - length M3 - 1)) by reflexivity.
    rewrite set_cell_app by (cbn [length]; rewrite map_length; lia). cbn [bind].
    rewrite !map_app, <- !app_assoc. cbn [map app fst snd].
    rewrite cell_app by (rewrite !map_length; lia). cbn [bind expect].
    replace (p0 :: map snd M1 ++ sp :: repeat 0 (length M3)) with ((p0 :: map snd M1) ++ sp :: repeat 0 (length M3)) by reflexivity.
    rewrite cell_app by (cbn [length]; rewrite map_length; lia).
    cbn [bind Nat.sub cell nth_error expect list_set].
    rewrite !set_app by (cbn [length]; rewrite !map_length; lia).
    unfold mk_int, node_of. do 4 f_equal.
    - rewrite map_length. lia.
    - unfold pad. rewrite !map_length. f_equal.
      replace (d - length M1) with (Datatypes.S (length M3)) by lia. reflexivity.
    - cbn [app length]. rewrite map_length. do 2 f_equal.
      replace (d + 1 - Datatypes.S (length M1)) with (Datatypes.S (length M3)) by lia. reflexivity.
    - f_equal. f_equal.
      + rewrite map_length, app_length. cbn [length]. lia.
      + unfold pad. rewrite !map_app, <- !app_assoc, app_length, !map_length. cbn [map app length]. do 3 f_equal.
        lia.
      + rewrite map_app. cbn [map app length]. rewrite app_length, map_length. cbn [length].
        rewrite <- app_assoc. cbn [app]. do 4 f_equal. lia.
  Qed.

  (** node.rs:122-140, on either side *)
  Lemma internal_remove_at_ok d ks1 k ks2 ps1 p ps2 (right : bool) :
    length (ks1 ++ k :: ks2) <= d -> length (ps1 ++ p :: ps2) = length (ks1 ++ k :: ks2) + 1 ->
    length ps1 = length ks1 + (if right then 1 else 0) ->
    internal_remove_at (node_of d (ks1 ++ k :: ks2) (ps1 ++ p :: ps2)) (length ks1) right =
      Ok (node_of d (ks1 ++ ks2) (ps1 ++ ps2), (k, p)).
  Proof.
    intros L LP LP1. remember (node_of d (ks1 ++ ks2) (ps1 ++ ps2)) as R eqn:ER.
    unfold internal_remove_at, node_of. cbn [in_len in_keys in_ptrs].
    assert (Q : length (ks1 ++ k :: ks2) = Datatypes.S (length (ks1 ++ ks2))) by (rewrite !app_length; simpl; lia).
    assert (QP : length (ps1 ++ p :: ps2) = Datatypes.S (length (ps1 ++ ps2))) by (rewrite !app_length; simpl; lia).
    rewrite Q. unfold assert. rewrite (proj2 (Nat.ltb_lt _ _)) by (rewrite app_length; lia). cbn [bind].
    replace (Datatypes.S (length (ks1 ++ ks2)) - 1) with (length (ks1 ++ ks2)) by lia.
    rewrite pad_split by exact L. rewrite QP.
    rewrite (swap_up_app (map Some ks2)) by (rewrite ?map_length, ?app_length; lia). cbn [bind].
    rewrite <- app_assoc. cbn [app].
    set (zr := repeat 0 (d + 1 - Datatypes.S (length (ps1 ++ ps2)))).
    assert (PT : (let* ptrs := swap_up (ps1 ++ p :: ps2 ++ zr) (length ks1 + (if right then 1 else 0)) (length (ks1 ++ ks2) - length ks1) in
                  if right then Ok ptrs else swap ptrs (length (ks1 ++ ks2)) (length (ks1 ++ ks2) + 1)) =
                 Ok ((ps1 ++ ps2) ++ p :: zr)).
    { rewrite !app_length in *. cbn [length] in *. destruct right.
      - rewrite (swap_up_app ps2) by lia. cbn [bind]. now rewrite <- app_assoc.
      - destruct (exists_last (l := ps2)) as (ps3 & z & ->); [intros ->; simpl in LP; lia|].
        rewrite app_length in LP. cbn [length] in LP. rewrite <- app_assoc. cbn [app].
        rewrite (swap_up_app ps3) by lia. cbn [bind].
        rewrite app_assoc. rewrite Nat.add_1_r, swap_app by (rewrite app_length; lia).
        rewrite <- !app_assoc. reflexivity. }
    destruct (swap_up (ps1 ++ p :: ps2 ++ zr) (length ks1 + (if right then 1 else 0)) (length (ks1 ++ ks2) - length ks1))
      as [ptrs| |]; cbn [bind] in PT; try discriminate. cbn [bind]. rewrite PT. cbn [bind].
    assert (LL : length (ks1 ++ ks2) + 1 = length (ps1 ++ ps2)) by lia.
    rewrite cell_app by exact LL. cbn [bind].
    rewrite app_assoc, <- map_app.
    rewrite cell_app by (now rewrite map_length). cbn [bind expect].
    rewrite (set_app (ps1 ++ ps2)) by exact LL. rewrite Q.
    replace (d - Datatypes.S (length (ks1 ++ ks2))) with (d - length (ks1 ++ ks2) - 1) by lia.
    rewrite pad_take by (try reflexivity; lia).
    subst R. unfold node_of. do 4 f_equal. subst zr.
    rewrite (repeat_room (d + 1) (length (ps1 ++ ps2))) by lia. do 2 f_equal. lia.
  Qed.

  (** node.rs:142-163: the number of keys that are not above the searched one *)
  Lemma internal_search_loop_ok cells key b : b <= length cells ->
    (forall i, i < b -> exists x, nth_error cells i = Some (Some x) /\ cmp x key <> Gt) ->
    (forall i c, b <= i -> nth_error cells i = Some c -> match c with None => True | Some x => cmp x key = Gt end) ->
    forall fuel lo hi, hi - lo < fuel -> lo <= b <= hi -> hi <= length cells ->
    internal_search_loop fuel cells key lo hi = Ok b.
  Proof.
    intros Lb P1 P2. induction fuel as [|f IH]; intros lo hi F L1 L2; [lia|].
    cbn [internal_search_loop]. destruct (lo <? hi) eqn:Q.
    - apply Nat.ltb_lt in Q. set (mid := lo + (hi - 1 - lo) / 2).
      assert (Hmid : lo <= mid < hi).
      { subst mid. pose proof (Nat.div_le_upper_bound (hi - 1 - lo) 2 (hi - 1 - lo)). lia. }
      destruct (nth_error cells mid) as [c|] eqn:N; [|apply nth_error_None in N; lia].
      rewrite (cell_nth _ _ _ N). cbn [bind]. destruct (lt_dec mid b) as [C1|C1].
      + destruct (P1 mid C1) as (x & N' & Ck). rewrite N in N'. injection N' as ->.
        assert (is_gt (cmp x key) = false) as -> by (destruct (cmp x key); simpl; congruence).
        apply IH; lia.
      + pose proof (P2 mid c ltac:(lia) N) as G. destruct c as [x|]; [rewrite G; cbn [is_gt]|]; apply IH; lia.
    - apply Nat.ltb_ge in Q. f_equal. lia.
  Qed.

  Lemma internal_search_ok d ks1 ks2 ps key : length (ks1 ++ ks2) <= d -> 1 <= d ->
    Forall (fun x => cmp x key <> Gt) ks1 -> Forall (fun x => cmp x key = Gt) ks2 ->
    internal_search (node_of d (ks1 ++ ks2) ps) key = Ok (length ks1).
  Proof.
    intros L P F1 F2. unfold internal_search, node_of. cbn [in_keys]. rewrite pad_length by exact L.
    assert (checked_pred d = Ok (d - 1)) as -> by (destruct d; simpl; [lia | f_equal; lia]). cbn [bind].
    apply internal_search_loop_ok; rewrite ?pad_length by exact L; try lia;
      try (rewrite app_length in L; lia).
    - intros i Hi. destruct (nth_error ks1 i) as [x|] eqn:N; [|apply nth_error_None in N; lia].
      exists x. split; [apply pad_nth_in; now rewrite nth_error_app1|].
      rewrite Forall_forall in F1. apply F1. eapply nth_error_In; exact N.
    - intros i c Hi N. destruct c as [x|]; [|exact I].
      destruct (lt_dec i (length (ks1 ++ ks2))) as [Q|Q].
      + destruct (nth_error (ks1 ++ ks2) i) as [y|] eqn:N'; [|apply nth_error_None in N'; lia].
        rewrite (pad_nth_in d _ i y N') in N. injection N as ->.
        rewrite nth_error_app2 in N' by lia. rewrite Forall_forall in F2. apply F2. eapply nth_error_In; exact N'.
      + assert (i < d) by (rewrite <- (pad_length d (ks1 ++ ks2) L); apply nth_error_Some; congruence).
        rewrite pad_nth_out in N by lia. discriminate.
  Qed.

  (** node.rs:165-175 *)
  Lemma internal_merge_ok d ks1 ps1 sk ks2 ps2 : length ks1 + length ks2 < d ->
    length ps1 = length ks1 + 1 -> length ps2 = length ks2 + 1 ->
    internal_merge (node_of d ks1 ps1) sk (node_of d ks2 ps2) =
      Ok (node_of d (ks1 ++ sk :: ks2) (ps1 ++ ps2)).
  Proof.
    intros L LP1 LP2. unfold internal_merge, node_of. cbn [in_len in_keys in_ptrs].
    rewrite pad_length by lia. unfold assert. rewrite (proj2 (Nat.ltb_lt _ _) L). cbn [bind].
    rewrite (pad_room d ks1) by lia. rewrite set_cell_app by (now rewrite map_length). cbn [bind].
    replace (map Some ks1 ++ Some sk :: repeat None (d - length ks1 - 1))
      with (map Some (ks1 ++ [sk]) ++ repeat None (length ks2) ++ repeat None (d - length ks1 - 1 - length ks2))
      by (rewrite map_app, <- !app_assoc, <- repeat_app; cbn [map app]; do 3 f_equal; lia).
    unfold pad at 1. rewrite <- (app_nil_l (map Some ks2 ++ _)).
    rewrite copy_app by (rewrite ?map_length, ?app_length, ?repeat_length; cbn [length]; lia). cbn [bind].
    destruct (exists_last (l := ps2)) as (ps3 & z & ->); [intros ->; simpl in LP2; lia|].
    rewrite app_length in *. cbn [length] in *.
    rewrite LP1. replace (d + 1 - (length ks1 + 1)) with (length ks2 + Datatypes.S (d - length ks1 - length ks2 - 1)) by lia.
    rewrite repeat_app.
    replace ((ps3 ++ [z]) ++ repeat 0 (d + 1 - (length ps3 + 1)))
      with ([] ++ ps3 ++ z :: repeat 0 (d + 1 - (length ps3 + 1))) by (rewrite <- app_assoc; reflexivity).
    rewrite copy_app by (rewrite ?repeat_length; cbn [length]; lia). cbn [bind app].
    rewrite cell_app by lia. cbn [bind repeat].
    rewrite app_assoc. rewrite set_cell_app by (rewrite app_length; lia). cbn [bind].
    do 2 f_equal.
    - rewrite !app_length. cbn [length]. lia.
    - unfold pad. rewrite !map_app, <- !app_assoc, app_length. cbn [map app length]. do 4 f_equal. lia.
    - rewrite !app_length. cbn [length]. rewrite <- !app_assoc. cbn [app]. do 4 f_equal. lia.
  Qed.
End Internal.
