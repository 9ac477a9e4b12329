(** SkipMap with panicking comparisons: whole histories, and calls in which no comparison panics. *)
From Verif Require Export SkipUnwindSeq.

Section Histories.
  Context {K V : Type} `{CmpLaws K}.
  Notation pairs := (list (K * V)).
  Implicit Types (m : skip_map K V) (shown aside : pairs) (o : map_op K V).

  Lemma step_call m shown aside lost o d b : urel m shown aside lost -> exists m' x shown' aside' lost',
    skip_step_u m (o, d, b) = Ok (m', x) /\ skip_call shown aside lost o x shown' aside' lost' /\ urel m' shown' aside' lost'.
  Proof.
    intros U. assert (Pl : forall out, out = snd (map_spec_step shown o) -> fst (map_spec_step shown o) = shown ->
      o <> MLen -> o <> MIsEmpty -> o <> MClear -> o <> MIntoIter -> skip_call shown aside lost o (Some out) shown aside lost).
    { intros out -> E N1 N2 N3 N4. pose proof (plain_other o shown aside N1 N2 N3 N4) as P. rewrite E in P.
      pose proof (call_plain _ _ lost _ _ _ _ P) as G. destruct o; try exact G; congruence. }
    pose proof U as U'. destruct U' as (ch & par & Xs & Xa & I & R & Es & Ea & Len & Lv).
    assert (Len' : sk_len m = length shown + length aside) by (subst; now rewrite !map_length).
    destruct o; cbn [skip_step_u skip_step].
    - destruct (insert_call m shown aside lost k v d b U) as (m' & x & s' & a' & E & G & U'). rewrite E. cbn [bind]. eauto 10.
    - destruct (remove_call m shown aside lost k b U) as (m' & x & s' & a' & E & G & U'). rewrite E. cbn [bind]. eauto 10.
    - destruct (get_call m shown aside lost k b U) as (x & E & G). rewrite E. cbn [bind]. eexists m, _, shown, aside, lost. split; [reflexivity|]. split; [|exact U].
      destruct G as [->|[->|[(e & -> & Ke & Ie)|[-> Ne]]]]; cbn [option_map].
      + apply (call_panic _ _ _ (MGet k)).
      + apply Pl; discriminate || reflexivity.
      + apply call_astray; [now intros ->|]. now apply astray_get.
      + apply call_astray; auto. apply astray_no_get.
    - destruct (get_mut_call m shown aside lost k v b U) as (m' & x & s' & a' & E & G & U'). rewrite E. cbn [bind]. eauto 10.
    - destruct (get_call m shown aside lost k b U) as (x & E & G). rewrite E. cbn [bind]. eexists m, _, shown, aside, lost. split; [reflexivity|]. split; [|exact U].
      destruct G as [->|[->|[(e & -> & Ke & Ie)|[-> Ne]]]]; cbn [option_map].
      + apply (call_panic _ _ _ (MIndex k)).
      + apply Pl; discriminate || reflexivity.
      + apply call_astray; [now intros ->|]. now apply astray_index.
      + apply call_astray; auto. apply astray_no_index.
    - destruct (get_call m shown aside lost k b U) as (x & E & G). rewrite E. cbn [bind]. eexists m, _, shown, aside, lost. split; [reflexivity|]. split; [|exact U].
      destruct G as [->|[->|[(e & -> & Ke & Ie)|[-> Ne]]]]; cbn [option_map].
      + apply (call_panic _ _ _ (MContains k)).
      + apply Pl; try discriminate; [|reflexivity]. cbn [map_spec_step snd]. now destruct (at_key k shown).
      + apply call_astray; [now intros ->|]. now apply (astray_contains _ _ e).
      + apply call_astray; auto. apply astray_no_contains.
    - destruct (floor_stop m shown aside lost k U) as (x & E & G). unfold skip_floor_u.
      destruct (descend _ _ _ _) as [[cur nx]| |] eqn:D; try discriminate. cbn [bind] in E.
      destruct (descend_u_sim _ _ _ b _ _ D) as [Q|Q]; rewrite Q; cbn [bind].
      + eexists m, _, shown, aside, lost. split; [reflexivity|]. split; [apply (call_panic _ _ _ (MFloor k))|exact U].
      + rewrite E. cbn [bind]. eexists m, _, shown, aside, lost. split; [reflexivity|]. split; [|exact U]. cbn [option_map].
        destruct G as [->|(e & -> & Ke & Ie)]; [apply Pl; discriminate || reflexivity|]. apply call_astray; [now intros ->|]. now apply astray_floor.
    - destruct (ceil_stop m shown aside lost k U) as (x & E & G). unfold skip_ceil_u.
      destruct (descend _ _ _ _) as [[cur nx]| |] eqn:D; try discriminate. cbn [bind] in E.
      destruct (descend_u_sim _ _ _ b _ _ D) as [Q|Q]; rewrite Q; cbn [bind].
      + eexists m, _, shown, aside, lost. split; [reflexivity|]. split; [apply (call_panic _ _ _ (MCeil k))|exact U].
      + rewrite E. cbn [bind]. eexists m, _, shown, aside, lost. split; [reflexivity|]. split; [|exact U]. cbn [option_map].
        destruct G as [->|[(e & -> & Ke & Ie)|[-> Ne]]]; [apply Pl; discriminate || reflexivity| |].
        * apply call_astray; [now intros ->|]. now apply astray_ceil.
        * apply call_astray; auto. apply astray_no_ceil.
    - rewrite (min_call m shown aside lost U). cbn [bind]. eexists m, _, shown, aside, lost. split; [reflexivity|]. split; [|exact U].
      apply Pl; discriminate || reflexivity.
    - destruct (max_stop m shown aside lost U) as (x & E & G). rewrite E. cbn [bind]. eexists m, _, shown, aside, lost. split; [reflexivity|]. split; [|exact U].
      destruct G as [->|(e & -> & Ie)]; [apply Pl; discriminate || reflexivity|]. apply call_astray; [now intros ->|]. now apply astray_max.
    - eexists m, _, shown, aside, lost. split; [reflexivity|]. split; [|exact U]. rewrite Len'.
      apply (call_plain _ _ lost MLen). now apply plain_len.
    - eexists m, _, shown, aside, lost. split; [reflexivity|]. split; [|exact U]. rewrite Len'.
      apply (call_plain _ _ lost MIsEmpty). now apply plain_is_empty.
    - destruct (clear_call m shown aside lost U) as (m' & E & U'). rewrite E. cbn [bind]. eexists m', _, [], [], _. split; [reflexivity|]. split; [|exact U'].
      apply (call_plain _ _ lost MClear). apply (plain_all MClear); auto.
    - rewrite (iter_call m shown aside lost U). cbn [bind]. eexists m, _, shown, aside, lost. split; [reflexivity|]. split; [|exact U].
      apply Pl; discriminate || reflexivity.
    - destruct (iter_mut_call m shown aside lost vs U) as (m' & E & U'). rewrite E. cbn [bind]. eexists m', _, _, aside, lost. split; [reflexivity|]. split; [|exact U'].
      apply (call_plain _ _ lost (MIterMut vs)). apply (plain_other (MIterMut vs)); discriminate.
    - destruct (into_iter_call m shown aside lost U) as (h' & E & _). rewrite E. cbn [bind]. eexists _, _, [], [], 0. split; [reflexivity|]. split; [|apply urel_new].
      apply (call_plain _ _ lost MIntoIter). apply (plain_all MIntoIter); auto.
  Qed.

  Definition calls (ops : list (map_op K V * N * nat)) : list (map_op K V) := map (fun x => fst (fst x)) ops.
  Lemma run_history : forall (ops : list (map_op K V * N * nat)) m shown aside lost, urel m shown aside lost ->
    exists m' outs shown' aside' lost', run skip_step_u m ops = Ok (m', outs) /\
      skip_history shown aside lost (combine (calls ops) outs) shown' aside' lost' /\ urel m' shown' aside' lost'.
  Proof.
    induction ops as [|[[o d] b] ops IH]; intros m shown aside lost U.
    - exists m, [], shown, aside, lost. split; [reflexivity|]. split; [constructor|exact U].
    - destruct (step_call m shown aside lost o d b U) as (m1 & x & s1 & a1 & l1 & E & G & U1).
      destruct (IH m1 s1 a1 l1 U1) as (m2 & outs & s2 & a2 & l2 & E2 & G2 & U2).
      exists m2, (x :: outs), s2, a2, l2. cbn [run]. rewrite E. cbn [bind]. rewrite E2. cbn [bind]. split; [reflexivity|].
      split; [|exact U2]. cbn [calls map fst combine]. econstructor; eauto.
  Qed.

  Lemma skip_unwind_ok (ops : list (map_op K V * N * nat)) : exists m outs shown aside lost,
    run skip_step_u skip_new ops = Ok (m, outs) /\ length outs = length ops /\
    skip_history [] [] 0 (combine (map (fun x => fst (fst x)) ops) outs) shown aside lost /\
    skip_iter m = Ok shown /\ sorted shown /\ live_nodes (sk_heap m) = S (length shown + length aside + lost) /\
    exists h', skip_drop m = Ok (h', shown) /\ live_nodes h' = length aside + lost.
  Proof.
    destruct (run_history ops skip_new [] [] 0 urel_new) as (m & outs & s & a & l & E & G & U). exists m, outs, s, a, l. split; [exact E|].
    split. { clear - E. revert E. generalize (skip_new : skip_map K V) as m0. revert outs. induction ops as [|o ops IH]; intros outs m0.
      - intros [= <- <-]. reflexivity.
      - cbn [run]. destruct (skip_step_u m0 o) as [[m1 x]| |]; try discriminate. cbn [bind]. destruct (run skip_step_u m1 ops) as [[m2 r]| |] eqn:Q; try discriminate.
        cbn [bind]. intros [= <- <-]. cbn [length]. f_equal. eauto. }
    split; [exact G|]. split; [eapply iter_call; eauto|]. split.
    { destruct U as (ch & par & Xs & Xa & I & R & -> & _). apply R. }
    split; [|eapply drop_call; eauto]. destruct U as (ch & par & Xs & Xa & I & R & -> & -> & Len & Lv). now rewrite !map_length.
  Qed.

  (** As long as no insert panicked, nothing is set aside. *)
  Lemma no_insert_trace : forall tr (shown s' a' : pairs) l', skip_history shown [] 0 tr s' a' l' -> no_insert_panicked tr ->
    unwind_trace everything shown (length shown) tr /\ a' = [] /\ l' = 0.
  Proof.
    induction tr as [|[o x] tr IH]; intros shown s' a' l' G N; inversion G; subst; cbn [unwind_trace]; auto.
    inversion N as [|? ? N1 N2]; subst.
    match goal with X : skip_call _ _ _ _ _ _ _ _ |- _ => inversion X; subst end.
    - match goal with P : plain _ _ _ _ _ _ |- _ => inversion P; subst end.
      + cbn [answer length map_spec_step fst counted]. rewrite Nat.add_0_r.
        match goal with X : skip_history _ _ _ _ _ _ _ |- _ => destruct (IH _ _ _ _ X N2) as (A & B & D) end.
        replace (length shown1 + length shown1 - length shown1) with (length shown1) by lia. auto.
      + cbn [answer length map_spec_step fst counted]. rewrite Nat.add_0_r.
        match goal with X : skip_history _ _ _ _ _ _ _ |- _ => destruct (IH _ _ _ _ X N2) as (A & B & D) end.
        replace (length shown1 + length shown1 - length shown1) with (length shown1) by lia. auto.
      + match goal with X : _ \/ _ |- _ => destruct X as [-> | ->] end; cbn [length Nat.add] in *;
          match goal with X : skip_history _ _ _ _ _ _ _ |- _ => destruct (IH _ _ _ _ X N2) as (A & B & D) end; auto.
      + assert (L0 : match o with MClear => 0 + length (@nil (K * V)) | MIntoIter => 0 | _ => 0 end = 0) by now destruct o.
        match goal with X : skip_history _ _ _ _ _ _ _ |- _ => rewrite L0 in X; destruct (IH _ _ _ _ X N2) as (A & B & D) end.
        split; [|auto]. split.
        * unfold answer. destruct o; auto; congruence.
        * replace (counted o shown (length shown)) with (length (fst (map_spec_step shown o))); auto. unfold counted. destruct o; try lia; congruence.
    - congruence.
    - assert (Q : put_aside o (@nil (K * V)) = [] /\ match o with MInsert _ _ => S (length shown1) | _ => length shown1 end = length shown1).
      { destruct o; cbn; auto. destruct N1. }
      destruct Q as [Q1 Q2].
      match goal with X : skip_history _ _ _ _ _ _ _ |- _ => rewrite Q1 in X; destruct (IH _ _ _ _ X N2) as (A & B & D) end.
      split; auto. exists shown1. split; [reflexivity|]. now rewrite Q2.
  Qed.
  Lemma skip_no_insert_ok (ops : list (map_op K V * N * nat)) m outs : run skip_step_u skip_new ops = Ok (m, outs) ->
    no_insert_panicked (combine (map (fun x => fst (fst x)) ops) outs) ->
    unwind_trace everything [] 0 (combine (map (fun x => fst (fst x)) ops) outs) /\
    exists h' l, skip_drop m = Ok (h', l) /\ live_nodes h' = 0.
  Proof.
    intros E N. destruct (skip_unwind_ok ops) as (m' & outs' & s & a & l & E' & _ & G & _ & _ & _ & h' & D & Lv). rewrite E in E'. injection E' as <- <-.
    destruct (no_insert_trace _ _ _ _ _ G N) as (T & -> & ->). split; [exact T|]. eauto.
  Qed.
End Histories.

(** ** Calls in which no comparison panics. *)
Section Returns.
  Context {K V : Type} `{Cmp K}.
  Notation hp := (heap (K * V) (option nat)).
  Implicit Types (h : hp) (m : skip_map K V).

  Definition same_res {A} (b : nat) (x : res A) (y : res (option (nat * A))) : Prop :=
    match x with
    | Ok r => exists b', b <= b' /\ y = Ok (Some (b', r))
    | Panic => y = Panic
    | Timeout => y = Timeout
    end.
  Lemma walk_returns go i h : forall fuel b cur, fuel <= b -> same_res (b - fuel) (walk fuel h cur i go) (walk_u fuel b h cur i go).
  Proof.
    induction fuel as [|fuel IH]; intros b cur Hb; [reflexivity|]. cbn [walk walk_u].
    destruct (get_link h cur i) as [[y|]| |]; cbn [bind same_res]; auto; [|exists b; split; auto; lia].
    destruct (get_data h y) as [e| |]; cbn [bind same_res]; auto. destruct b as [|b]; [lia|].
    destruct (go (fst e)); [apply IH; lia|]. exists b. split; auto. lia.
  Qed.
  Lemma unlink_returns h cur i nx k b : 1 <= b -> same_res (b - 1) (unlink h cur i nx k) (unlink_u b h cur i nx k).
  Proof.
    intros Hb. unfold unlink_u. destruct nx as [y|]; [|cbn; exists b; split; auto; lia]. destruct b as [|b]; [lia|].
    destruct (unlink h cur i (Some y) k) as [x| |]; cbn [bind same_res]; auto. exists b. split; auto. lia.
  Qed.
  Lemma set_link_len h a i l h' : set_link h a i l = Ok h' -> length h' = length h.
  Proof.
    unfold set_link. destruct (read h a) as [n| |]; try discriminate. cbn [bind]. destruct (_ <? _); [|discriminate]. intros [= <-]. apply list_set_length.
  Qed.
  Lemma dealloc_len h a h' : dealloc h a = Ok h' -> length h' = length h.
  Proof. unfold dealloc. destruct (read h a) as [n| |]; try discriminate. cbn [bind]. intros [= <-]. apply list_set_length. Qed.
  Lemma unlink_len h cur i nx k h' r : unlink h cur i nx k = Ok (h', r) -> length h' = length h.
  Proof.
    unfold unlink. destruct nx as [y|]; [|intros [= <- <-]; reflexivity]. destruct (get_data h y) as [e| |]; try discriminate. cbn [bind].
    destruct (is_eq (cmp (fst e) k)); [|intros [= <- <-]; reflexivity].
    destruct (get_link h y i) as [nn| |]; try discriminate. cbn [bind]. destruct (set_link h cur i nn) as [h1| |] eqn:E1; try discriminate. cbn [bind].
    apply set_link_len in E1. destruct i as [|i].
    - destruct (dealloc h1 y) as [h2| |] eqn:E2; try discriminate. cbn [bind]. apply dealloc_len in E2. intros [= <- <-]. congruence.
    - intros [= <- <-]. exact E1.
  Qed.
  Definition came {A} (x : res (hp * A)) (y : res (outcome hp A)) : Prop :=
    match x with
    | Ok (h, r) => exists b', y = Ok (Came b' h r)
    | Panic => y = Panic
    | Timeout => y = Timeout
    end.
  (** The walk and the comparison with the next node, at one level. *)
  Lemma walk_all_returns go i h b cur : S (length h) <= b -> same_res (b - S (length h)) (walk_all h cur i go) (walk_all_u b h cur i go).
  Proof. apply walk_returns. Qed.
  Lemma remove_returns k : forall i b h cur, S i * (length h + 2) <= b -> came (remove_loop i h cur k) (remove_loop_u i b h cur k).
  Proof.
    assert (Level : forall i b h cur (rest : hp -> nat -> option (K * V) -> res (hp * option (K * V))) (rest_u : nat -> hp -> nat -> option (K * V) -> res (outcome hp (option (K * V)))),
      length h + 2 <= b -> (forall b' h' cur' r, b - (length h + 2) <= b' -> length h' = length h -> came (rest h' cur' r) (rest_u b' h' cur' r)) ->
      came (let* (cur, nx) := walk_all h cur i (fun x => is_lt (cmp x k)) in let* (h, ret) := unlink h cur i nx k in rest h cur ret)
        (let* w := walk_all_u b h cur i (fun x => is_lt (cmp x k)) in
         match w with
         | None => Ok (Threw h)
         | Some (b, (cur, nx)) =>
             let* u := unlink_u b h cur i nx k in
             match u with None => Ok (Threw h) | Some (b, (h, ret)) => rest_u b h cur ret end
         end)).
    { intros i b h cur rest rest_u Hb Hr. pose proof (walk_all_returns (fun x => is_lt (cmp x k)) i h b cur ltac:(lia)) as W.
      destruct (walk_all h cur i _) as [[cur' nx]| |]; cbn [same_res] in W; [|rewrite W; reflexivity|rewrite W; reflexivity].
      destruct W as (b1 & Hb1 & W). rewrite W. cbn [bind].
      pose proof (unlink_returns h cur' i nx k b1 ltac:(lia)) as U.
      destruct (unlink h cur' i nx k) as [[h' r]| |] eqn:Eu; cbn [same_res] in U; [|rewrite U; reflexivity|rewrite U; reflexivity].
      destruct U as (b2 & Hb2 & U). rewrite U. cbn [bind]. apply Hr; [lia|]. eapply unlink_len; eauto. }
    induction i as [|i IH]; intros b h cur Hb; cbn [remove_loop remove_loop_u].
    - apply (Level 0 b h cur (fun h _ r => Ok (h, r)) (fun b h _ r => Ok (Came b h r))); [lia|]. intros. eexists. reflexivity.
    - apply (Level (S i) b h cur (fun h cur _ => remove_loop i h cur k) (fun b h cur _ => remove_loop_u i b h cur k)); [nia|].
      intros b' h' cur' r Hb' Hl. apply IH. rewrite Hl. nia.
  Qed.
  Lemma insert_returns k new t : forall i b h cur, S i * (length h + 2) <= b -> came (insert_loop i h cur new t k) (insert_loop_u i b h cur new t k).
  Proof.
    induction i as [|i IH]; intros b h cur Hb; cbn [insert_loop insert_loop_u];
      [pose proof (walk_all_returns (fun x => is_lt (cmp x k)) 0 h b cur ltac:(lia)) as W; destruct (walk_all h cur 0 _) as [[cur' nx]| |]
      |pose proof (walk_all_returns (fun x => is_lt (cmp x k)) (S i) h b cur ltac:(nia)) as W; destruct (walk_all h cur (S i) _) as [[cur' nx]| |]];
      cbn [same_res] in W; [|rewrite W; reflexivity|rewrite W; reflexivity| |rewrite W; reflexivity|rewrite W; reflexivity];
      destruct W as (b1 & Hb1 & W); rewrite W; cbn [bind].
    - pose proof (unlink_returns h cur' 0 nx k b1 ltac:(lia)) as U.
      destruct (unlink h cur' 0 nx k) as [[h' r]| |] eqn:Eu; cbn [same_res] in U; [|rewrite U; reflexivity|rewrite U; reflexivity].
      destruct U as (b2 & Hb2 & U). rewrite U. cbn [bind].
      match goal with |- came (bind ?x _) _ => destruct x as [h2| |]; cbn [bind came]; auto end. eauto.
    - pose proof (unlink_returns h cur' (S i) nx k b1 ltac:(nia)) as U.
      destruct (unlink h cur' (S i) nx k) as [[h' r]| |] eqn:Eu; cbn [same_res] in U; [|rewrite U; reflexivity|rewrite U; reflexivity].
      destruct U as (b2 & Hb2 & U). rewrite U. cbn [bind]. apply unlink_len in Eu.
      match goal with |- came (bind ?x _) _ => destruct x as [h2| |] eqn:El; cbn [bind came]; auto end.
      apply IH. assert (Hl : length h2 = length h').
      { destruct (S i <=? t); [|congruence]. destruct (get_link h' cur' (S i)) as [q| |]; try discriminate. cbn [bind] in El.
        destruct (set_link h' cur' (S i) (Some new)) as [h3| |] eqn:E3; try discriminate. cbn [bind] in El.
        apply set_link_len in E3, El. congruence. }
      rewrite Hl, Eu. nia.
  Qed.
  Definition same_some {A} (x : res A) (y : res (option A)) : Prop := y = (let* r := x in Ok (Some r)).
  Lemma find_returns h k : forall i b cur, S i * (length h + 2) <= b -> same_some (find_loop i h cur k) (find_loop_u i b h cur k).
  Proof.
    induction i as [|i IH]; intros b cur Hb; unfold same_some in *; cbn [find_loop find_loop_u];
      [pose proof (walk_all_returns (fun x => is_lt (cmp x k)) 0 h b cur ltac:(lia)) as W; destruct (walk_all h cur 0 _) as [[cur' nx]| |]
      |pose proof (walk_all_returns (fun x => is_lt (cmp x k)) (S i) h b cur ltac:(nia)) as W; destruct (walk_all h cur (S i) _) as [[cur' nx]| |]];
      cbn [same_res] in W; [|rewrite W; reflexivity|rewrite W; reflexivity| |rewrite W; reflexivity|rewrite W; reflexivity];
      destruct W as (b1 & Hb1 & W); rewrite W; cbn [bind]; (destruct nx as [y|]; cbn [bind]; [destruct b1 as [|b1]; [nia|];
        destruct (get_data h y) as [e| |]; cbn [bind]; auto; destruct (is_eq (cmp (fst e) k)); cbn [bind]; auto|]); auto; apply IH; nia.
  Qed.
  Lemma descend_returns h go : forall i b cur, S i * (length h + 2) <= b -> same_some (descend i h cur go) (descend_u i b h cur go).
  Proof.
    induction i as [|i IH]; intros b cur Hb; unfold same_some in *; cbn [descend descend_u];
      [pose proof (walk_all_returns go 0 h b cur ltac:(lia)) as W; destruct (walk_all h cur 0 _) as [[cur' nx]| |]
      |pose proof (walk_all_returns go (S i) h b cur ltac:(nia)) as W; destruct (walk_all h cur (S i) _) as [[cur' nx]| |]];
      cbn [same_res] in W; [|rewrite W; reflexivity|rewrite W; reflexivity| |rewrite W; reflexivity|rewrite W; reflexivity];
      destruct W as (b1 & Hb1 & W); rewrite W; cbn [bind]; auto. apply IH; nia.
  Qed.
  Lemma skip_returns_ok m (o : map_op K V) d b : 33 * (length (sk_heap m) + 3) <= b ->
    skip_step_u m (o, d, b) = let* (m', out) := skip_step m (o, d) in Ok (m', Some out).
  Proof.
    intros Hb. assert (Hf : forall k, skip_find_u m k b = let* r := skip_find m k in Ok (Some r)).
    { intros k. unfold skip_find_u, skip_find. apply find_returns. pose proof (starting_height_le (sk_len m)). nia. }
    assert (Hg : forall k, skip_get_u m k b = let* r := skip_get m k in Ok (Some r)).
    { intros k. unfold skip_get_u, skip_get. rewrite Hf. destruct (skip_find m k) as [[y|]| |]; cbn [bind]; auto. now destruct (get_data (sk_heap m) y). }
    assert (Hd : forall go, descend_u (starting_height (sk_len m)) b (sk_heap m) 0 go =
      let* r := descend (starting_height (sk_len m)) (sk_heap m) 0 go in Ok (Some r)).
    { intros go. apply descend_returns. pose proof (starting_height_le (sk_len m)). nia. }
    destruct o; cbn [skip_step_u skip_step]; try reflexivity.
    - unfold skip_insert_u, skip_insert, alloc, max_height. set (h0 := sk_heap m ++ _).
      assert (L0 : length h0 = S (length (sk_heap m))) by (unfold h0; rewrite app_length; cbn [length]; lia).
      pose proof (insert_returns k (length (sk_heap m)) (height_of d) 32 b h0 0) as G.
      specialize (G ltac:(rewrite L0; lia)). destruct (insert_loop 32 h0 0 _ _ k) as [[h r]| |]; cbn [came] in G; [|rewrite G; reflexivity|rewrite G; reflexivity].
      destruct G as [b' G]. rewrite G. cbn [bind]. destruct r; cbn [bind]; auto.
    - unfold skip_remove_u, skip_remove, max_height. pose proof (remove_returns k 32 b (sk_heap m) 0) as G.
      specialize (G ltac:(lia)). destruct (remove_loop 32 (sk_heap m) 0 k) as [[h r]| |]; cbn [came] in G; [|rewrite G; reflexivity|rewrite G; reflexivity].
      destruct G as [b' G]. rewrite G. cbn [bind]. destruct r; cbn [bind]; auto. now destruct (checked_pred (sk_len m)).
    - rewrite Hg. now destruct (skip_get m k).
    - unfold skip_get_mut_u, skip_get_mut. rewrite Hf. destruct (skip_find m k) as [[y|]| |]; cbn [bind]; auto.
      destruct (get_data (sk_heap m) y) as [e| |]; cbn [bind]; auto. now destruct (set_data (sk_heap m) y (fst e, v)).
    - rewrite Hg. now destruct (skip_get m k).
    - rewrite Hg. now destruct (skip_get m k) as [[?|]| |].
    - unfold skip_floor_u, skip_floor. rewrite Hd. destruct (descend _ _ _ _) as [[cur nx]| |]; cbn [bind]; auto. now destruct (key_at _ _).
    - unfold skip_ceil_u, skip_ceil. rewrite Hd. destruct (descend _ _ _ _) as [[cur nx]| |]; cbn [bind]; auto. now destruct (key_at _ _).
  Qed.
End Returns.

(** ** A panic in insert is not harmless. *)
From Verif Require Import SkipUnwindInstances.
Lemma skip_changed : ~ forall (ops : list (map_op nat nat * N * nat)) m outs, run skip_step_u skip_new ops = Ok (m, outs) ->
  unwind_trace everything [] 0 (combine (map (fun x => fst (fst x)) ops) outs).
Proof.
  intros X. destruct (run skip_step_u skip_new (firstn 5 hiding_calls)) as [[m outs]| |] eqn:E; [|vm_compute in E; discriminate..].
  specialize (X _ _ _ E). vm_compute in E. injection E as _ <-. cbn [hiding_calls firstn map fst combine unwind_trace] in X.
  destruct X as (_ & _ & l & L & _ & G & _). unfold everything in L. subst l. discriminate.
Qed.
Lemma skip_leaks : ~ forall (ops : list (map_op nat nat * N * nat)) m outs h l, run skip_step_u skip_new ops = Ok (m, outs) ->
  skip_drop m = Ok (h, l) -> live_nodes h = 0.
Proof.
  intros X. destruct (run skip_step_u skip_new (firstn 3 hiding_calls)) as [[m outs]| |] eqn:E; [|vm_compute in E; discriminate..].
  destruct (skip_drop m) as [[h l]| |] eqn:D.
  - specialize (X _ _ _ _ _ E D). vm_compute in E. injection E as <- <-. vm_compute in D. injection D as <- <-. vm_compute in X. discriminate.
  - vm_compute in E. injection E as <- <-. vm_compute in D. discriminate.
  - vm_compute in E. injection E as <- <-. vm_compute in D. discriminate.
Qed.
