(** Proofs about TreapListModel.v. *)
From Verif Require Export TreapListModel TreapProofs SeqLemmas.

Section TreapListProofs.
  Context {T : Type}.
  Notation itree := (tree (N * nat) unit T).
  Implicit Types (t l r : itree).

  Definition vals t : list T := map snd (inorder t).

  Lemma vals_length t : len_ok t -> t_len t = length (vals t).
  Proof. intros L. unfold vals. now rewrite map_length, size_inorder, len_ok_size. Qed.

  Lemma vals_node a l e r : vals (Node a l e r) = vals l ++ snd e :: vals r.
  Proof. unfold vals. simpl. now rewrite map_app. Qed.

  Lemma vals_merge l r : vals (t_merge l r) = vals l ++ vals r.
  Proof. unfold vals. now rewrite t_merge_inorder, map_app. Qed.

  Lemma checked_sub_ok a b : b <= a -> checked_sub a b = Ok (a - b).
  Proof. intros L. unfold checked_sub. apply Nat.leb_le in L. now rewrite L. Qed.

  Lemma i_split_ok t : forall n, len_ok t -> exists keep give, i_split t (S n) true = Ok (keep, give) /\
    vals keep = firstn n (vals t) /\ vals give = skipn n (vals t) /\ len_ok keep /\ len_ok give.
  Proof.
    induction t as [|[p m] l IHl e r IHr]; intros n L.
    - exists Leaf, Leaf. simpl. now rewrite firstn_nil, skipn_nil.
    - destruct L as (_ & L1 & L2). cbn [i_split]. unfold ikey. rewrite (vals_length l L1), vals_node.
      destruct ((S n <? length (vals l) + 1) || ((S n =? length (vals l) + 1) && true)) eqn:B.
      + assert (Hn : n <= length (vals l)).
        { apply Bool.orb_true_iff in B as [B|B]; [apply Nat.ltb_lt in B; lia|].
          rewrite Bool.andb_true_r in B. apply Nat.eqb_eq in B. lia. }
        destruct (IHl n L1) as (k & g & E & V1 & V2 & K1 & K2). rewrite E. cbn [bind].
        eexists _, _; split; [reflexivity|]. rewrite firstn_app_l, skipn_app_l by exact Hn.
        split; [exact V1|]. split; [|split; [exact K1 | now apply t_upd_len]].
        unfold t_upd. now rewrite vals_node, V2.
      + apply Bool.orb_false_iff in B as [B1 B2]. rewrite Bool.andb_true_r in B2.
        apply Nat.ltb_ge in B1. apply Nat.eqb_neq in B2.
        rewrite checked_sub_ok by lia. cbn [bind].
        destruct (IHr (n - length (vals l) - 1) L2) as (k & g & E & V1 & V2 & K1 & K2).
        replace (S n - (length (vals l) + 1)) with (S (n - length (vals l) - 1)) by lia.
        rewrite E. cbn [bind]. eexists _, _; split; [reflexivity|].
        replace n with (length (vals l) + S (n - length (vals l) - 1)) at 1 2 by lia.
        rewrite firstn_app_r, skipn_app_r. cbn [firstn skipn].
        split; [unfold t_upd; now rewrite vals_node, V1|].
        split; [exact V2|]. split; [now apply t_upd_len | exact K2].
  Qed.

  Lemma i_insert_ok t n v p : len_ok t ->
    (n <= length (vals t) -> exists t', i_insert t (n + 1) v p = Ok t' /\
        vals t' = insert_nth n v (vals t) /\ len_ok t') /\
    (length (vals t) < n -> i_insert t (n + 1) v p = Panic).
  Proof.
    intros L. unfold i_insert. rewrite (vals_length t L). split; intros Hn.
    - replace ((1 <=? n + 1) && (n + 1 <=? length (vals t) + 1)) with true.
      2: { symmetry. apply Bool.andb_true_iff. split; apply Nat.leb_le; lia. }
      replace (n + 1) with (S n) by lia. destruct (i_split_ok t n L) as (k & g & E & V1 & V2 & K1 & K2).
      rewrite E. cbn [bind]. eexists; split; [reflexivity|].
      rewrite !vals_merge, V1, V2. split.
      + unfold insert_nth, vals at 1. simpl. now rewrite <- app_assoc.
      + apply t_merge_len; [|exact K2]. apply t_merge_len; [exact K1 | simpl; auto].
    - replace ((1 <=? n + 1) && (n + 1 <=? length (vals t) + 1)) with false; [reflexivity|].
      symmetry. apply Bool.andb_false_iff. right. apply Nat.leb_gt. lia.
  Qed.

  Lemma i_remove_panic t n : len_ok t -> length (vals t) <= n -> i_remove t (n + 1) = Panic.
  Proof.
    intros L Hn. destruct t as [|a l e r]; [unfold i_remove; now destruct (_ && _)|].
    assert (E : (1 <=? n + 1) && (n + 1 <=? t_len (Node a l e r)) = false).
    { apply Bool.andb_false_iff. right. apply Nat.leb_gt. rewrite (vals_length _ L). lia. }
    cbn [i_remove]. now rewrite E.
  Qed.

  Lemma i_remove_ok t : forall n x, len_ok t -> nth_error (vals t) n = Some x ->
    exists t', i_remove t (n + 1) = Ok (t', x) /\ vals t' = remove_nth n (vals t) /\ len_ok t'.
  Proof.
    induction t as [|[p m] l IHl e r IHr]; intros n x L Hx; [destruct n; discriminate|].
    assert (Hb : n < length (vals (Node (p, m) l e r))) by (apply nth_error_Some; congruence).
    assert (E : (1 <=? n + 1) && (n + 1 <=? t_len (Node (p, m) l e r)) = true).
    { apply Bool.andb_true_iff. rewrite (vals_length _ L). split; apply Nat.leb_le; lia. }
    cbn [i_remove]. rewrite E. clear E. destruct L as (_ & L1 & L2). unfold ikey.
    rewrite vals_node in *. rewrite (vals_length l L1). rewrite app_length in Hb. simpl in Hb.
    destruct (Nat.compare_spec (n + 1) (length (vals l) + 1)) as [C|C|C].
    - assert (En : n = length (vals l) + 0) by lia. rewrite En in Hx.
      rewrite nth_error_app2 in Hx by lia. replace (length (vals l) + 0 - length (vals l)) with 0 in Hx by lia.
      injection Hx as <-. eexists; split; [reflexivity|]. rewrite vals_merge. split; [|now apply t_merge_len].
      unfold remove_nth. replace (S n) with (length (vals l) + 1) by lia. rewrite skipn_app_r.
      rewrite En, firstn_app_r. simpl. now rewrite app_nil_r.
    - assert (Hn : n < length (vals l)) by lia. rewrite nth_error_app1 in Hx by exact Hn.
      destruct (IHl n x L1 Hx) as (t' & E & V & L'). rewrite E. cbn [bind].
      eexists; split; [reflexivity|]. split; [|now apply t_upd_len]. unfold t_upd. rewrite vals_node, V.
      unfold remove_nth. rewrite firstn_app_l, skipn_app_l by lia. now rewrite <- app_assoc.
    - rewrite checked_sub_ok by lia. cbn [bind]. set (d := n - length (vals l) - 1).
      replace (n + 1 - (length (vals l) + 1)) with (d + 1) by (unfold d; lia).
      rewrite nth_error_app2 in Hx by lia. replace (n - length (vals l)) with (S d) in Hx by (unfold d; lia).
      simpl in Hx. destruct (IHr d x L2 Hx) as (t' & E & V & L'). rewrite E. cbn [bind].
      eexists; split; [reflexivity|]. split; [|now apply t_upd_len]. unfold t_upd. rewrite vals_node, V.
      unfold remove_nth. replace n with (length (vals l) + S d) by (unfold d; lia).
      replace (S (length (vals l) + S d)) with (length (vals l) + S (S d)) by lia.
      rewrite firstn_app_r, skipn_app_r. cbn [firstn skipn]. now rewrite <- app_assoc.
  Qed.

  Lemma i_get_ok t : forall n, len_ok t -> i_get t (n + 1) = Ok (nth_error (vals t) n).
  Proof.
    induction t as [|[p m] l IHl e r IHr]; intros n L; [destruct n; reflexivity|].
    destruct L as (_ & L1 & L2). cbn [i_get]. unfold ikey. rewrite (vals_length l L1), vals_node.
    destruct (Nat.compare_spec (n + 1) (length (vals l) + 1)) as [C|C|C].
    - rewrite nth_error_app2 by lia. now replace (n - length (vals l)) with 0 by lia.
    - rewrite nth_error_app1 by lia. auto.
    - rewrite checked_sub_ok by lia. cbn [bind]. rewrite nth_error_app2 by lia.
      replace (n - length (vals l)) with (S (n - length (vals l) - 1)) by lia. cbn [nth_error].
      replace (n + 1 - (length (vals l) + 1)) with (n - length (vals l) - 1 + 1) by lia. auto.
  Qed.

  Lemma set_nth_app_l n v (l r : list T) : n < length l -> set_nth n v (l ++ r) = set_nth n v l ++ r.
  Proof.
    intros L. unfold set_nth. rewrite app_length.
    destruct (Nat.ltb_spec n (length l + length r)); [|lia]. destruct (Nat.ltb_spec n (length l)); [|lia].
    rewrite firstn_app_l, skipn_app_l by lia. now rewrite <- app_assoc.
  Qed.
  Lemma set_nth_app_r n v (l r : list T) : set_nth (length l + n) v (l ++ r) = l ++ set_nth n v r.
  Proof.
    unfold set_nth. rewrite app_length. replace (length l + n <? length l + length r) with (n <? length r).
    2: { destruct (Nat.ltb_spec n (length r)); symmetry; [apply Nat.ltb_lt | apply Nat.ltb_ge]; lia. }
    destruct (n <? length r); [|reflexivity].
    replace (S (length l + n)) with (length l + S n) by lia. rewrite firstn_app_r, skipn_app_r.
    now rewrite <- app_assoc.
  Qed.
  Lemma set_nth_cons n v x (r : list T) : set_nth (S n) v (x :: r) = x :: set_nth n v r.
  Proof. apply (set_nth_app_r n v [x] r). Qed.

  Lemma i_get_mut_ok t : forall n v, len_ok t -> exists t',
    i_get_mut_set t (n + 1) v = Ok (t', nth_error (vals t) n) /\ vals t' = set_nth n v (vals t) /\ len_ok t'.
  Proof.
    intros n v L.
    assert (X : exists t', i_get_mut_set t (n + 1) v = Ok (t', nth_error (vals t) n) /\
                  vals t' = set_nth n v (vals t) /\ shape t = shape t').
    2: { destruct X as (t' & E & V & S). exists t'. split; [exact E|]. split; [exact V|].
         eapply len_ok_shape; eauto. }
    revert n. induction t as [|[p m] l IHl e r IHr]; intros n.
    { exists Leaf. now destruct n. }
    destruct L as (_ & L1 & L2). cbn [i_get_mut_set]. unfold ikey. rewrite (vals_length l L1), vals_node.
    destruct (Nat.compare_spec (n + 1) (length (vals l) + 1)) as [C|C|C].
    - eexists; split.
      + rewrite nth_error_app2 by lia. replace (n - length (vals l)) with 0 by lia. reflexivity.
      + split; [|reflexivity]. rewrite vals_node. replace n with (length (vals l) + 0) by lia.
        rewrite set_nth_app_r. reflexivity.
    - destruct (IHl L1 n) as (t' & E & V & S). rewrite E. cbn [bind]. eexists; split.
      + rewrite nth_error_app1 by lia. reflexivity.
      + rewrite vals_node, V, set_nth_app_l by lia. split; [reflexivity | simpl; now rewrite S].
    - rewrite checked_sub_ok by lia. cbn [bind]. set (d := n - length (vals l) - 1).
      replace (n + 1 - (length (vals l) + 1)) with (d + 1) by (unfold d; lia).
      destruct (IHr L2 d) as (t' & E & V & Sh). rewrite E. cbn [bind]. eexists; split.
      + rewrite nth_error_app2 by lia. replace (n - length (vals l)) with (S d) by (unfold d; lia). reflexivity.
      + rewrite vals_node, V. replace n with (length (vals l) + S d) by (unfold d; lia).
        rewrite set_nth_app_r, set_nth_cons. split; [reflexivity | simpl; now rewrite Sh].
  Qed.

  Lemma write_vals_seq (l : list (unit * T)) vs :
    map snd (write_vals l vs) = firstn (length l) vs ++ skipn (length vs) (map snd l).
  Proof.
    revert vs. induction l as [|[u x] l IH]; intros [|v vs]; simpl; auto.
    now rewrite IH.
  Qed.

  Definition tl_rel t (q : list T) : Prop := vals t = q /\ len_ok t.

  Lemma tl_insert_ok t (q : list T) n v p : tl_rel t q ->
    exists t', tl_insert t n v p = Ok (t', snd (seq_insert q n v)) /\ tl_rel t' (fst (seq_insert q n v)).
  Proof.
    intros [<- L]. unfold tl_insert, seq_insert. destruct (i_insert_ok t n v p L) as [A B].
    destruct (Nat.leb_spec n (length (vals t))) as [Hn|Hn].
    - destruct (A Hn) as (t' & E & V & L'). rewrite E. eexists; split; [reflexivity|]. split; auto.
    - rewrite (B Hn). eexists; split; [reflexivity|]. split; auto.
  Qed.

  Lemma tl_remove_ok t (q : list T) n : tl_rel t q ->
    exists t', tl_remove t n = Ok (t', snd (seq_remove q n)) /\ tl_rel t' (fst (seq_remove q n)).
  Proof.
    intros [<- L]. unfold tl_remove, seq_remove. destruct (nth_error (vals t) n) as [x|] eqn:E.
    - destruct (i_remove_ok t n x L E) as (t' & E' & V & L'). rewrite E'. eexists; split; [reflexivity|].
      split; auto.
    - apply nth_error_None in E. rewrite (i_remove_panic t n L E). eexists; split; [reflexivity|]. split; auto.
  Qed.

  Lemma tl_step_ok t (q : list T) (o : seq_op T) (p : N) : tl_rel t q ->
    exists t', tl_step t (o, p) = Ok (t', snd (seq_spec_step q o)) /\ tl_rel t' (fst (seq_spec_step q o)).
  Proof.
    intros HR. pose proof HR as [Hq L].
    destruct o as [i v|i|v|v| | |i|i v|i|i v| | | | |vs|]; cbn [tl_step seq_spec_step fst snd].
    - now apply tl_insert_ok.
    - now apply tl_remove_ok.
    - pose proof (tl_insert_ok t q 0 v p HR) as X. exact X.
    - pose proof (tl_insert_ok t q (t_len t) v p HR) as X. rewrite (vals_length t L), Hq in *.
      unfold seq_insert in X. rewrite Nat.leb_refl, insert_nth_length in X. exact X.
    - pose proof (tl_remove_ok t q 0 HR) as X. unfold seq_remove in X. destruct q; exact X.
    - destruct q as [|x q'] eqn:Eq.
      + rewrite (vals_length t L), Hq. cbn. eexists; split; [reflexivity|]. exact HR.
      + rewrite (vals_length t L), Hq. rewrite checked_sub_ok by (simpl; lia).
        pose proof (tl_remove_ok t (x :: q') (length (x :: q') - 1) HR) as X.
        unfold seq_remove in X. destruct (@remove_nth_last T (x :: q')) as [R1 R2]; [discriminate|].
        rewrite R2, R1 in X. destruct (last_error (x :: q')) as [y|] eqn:El; [exact X|].
        apply last_error_none in El. discriminate.
    - rewrite (i_get_ok t i L), Hq. cbn [bind]. eexists; split; [reflexivity | exact HR].
    - destruct (i_get_mut_ok t i v L) as (t' & E & V & L'). rewrite E, Hq. cbn [bind].
      eexists; split; [reflexivity|]. split; [now rewrite V, Hq | exact L'].
    - rewrite (i_get_ok t i L), Hq. cbn [bind]. eexists; split; [reflexivity | exact HR].
    - destruct (i_get_mut_ok t i v L) as (t' & E & V & L'). rewrite E, Hq. cbn [bind].
      eexists; split; [reflexivity|]. split; [now rewrite V, Hq | exact L'].
    - rewrite (vals_length t L), Hq. eexists; split; [reflexivity | exact HR].
    - eexists; split; [|exact HR]. destruct t as [|a l e r]; rewrite <- Hq; [reflexivity|].
      rewrite vals_node, app_length. simpl. now rewrite Nat.add_comm.
    - eexists; split; [reflexivity|]. split; [reflexivity | exact I].
    - rewrite iter_all_spec. cbn [bind]. fold (vals t). rewrite Hq. eexists; split; [reflexivity | exact HR].
    - destruct (itermut_run_spec t vs) as (t' & E & S & V). rewrite E. cbn [bind].
      eexists; split.
      + rewrite <- firstn_map. fold (vals t). rewrite Hq. reflexivity.
      + split; [|apply len_ok_shape with t; auto]. unfold vals at 1. rewrite V, write_vals_seq.
        fold (vals t). rewrite Hq. unfold vals in Hq. now rewrite <- Hq, map_length.
    - rewrite iter_all_spec. cbn [bind]. fold (vals t). rewrite Hq. eexists; split; [reflexivity|].
      split; [reflexivity | exact I].
  Qed.

  Definition tl_regs_rel (rs : nat -> itree) (sp : nat -> list T) : Prop := forall i, tl_rel (rs i) (sp i).

  Lemma tl_regs_update rs sp (i : nat) t (q : list T) : tl_regs_rel rs sp -> tl_rel t q ->
    tl_regs_rel (update rs i t) (update sp i q).
  Proof. intros HR Ht n. unfold update. destruct (n =? i); auto. Qed.

  Lemma tl_prog_step_ok rs sp (o : sprog_op T) p : tl_regs_rel rs sp ->
    exists rs', tl_prog_step rs (o, p) = Ok (rs', snd (sprog_spec_step sp o)) /\
                tl_regs_rel rs' (fst (sprog_spec_step sp o)).
  Proof.
    intros HR. destruct o as [i o|d i j]; cbn [tl_prog_step sprog_spec_step].
    - destruct (tl_step_ok (rs i) (sp i) o p (HR i)) as (t' & E & Ht). rewrite E. cbn [bind].
      destruct (seq_spec_step (sp i) o) as [l out]. simpl in *. eexists; split; [reflexivity|].
      now apply tl_regs_update.
    - cbv zeta. assert (L0 : tl_rel Leaf []) by (split; [reflexivity | exact I]).
      pose proof (tl_regs_update rs sp i Leaf [] HR L0) as R1.
      pose proof (tl_regs_update _ _ j Leaf [] R1 L0) as R2.
      destruct (HR i) as [Ei Li]. destruct (R1 j) as [Ej Lj].
      eexists; split; [reflexivity|]. simpl fst. apply tl_regs_update; [exact R2|].
      split; [now rewrite vals_merge, Ei, Ej | now apply t_merge_len].
  Qed.

  Lemma tl_refines (ops : list (sprog_op T * N)) :
    outputs tl_prog_step (fun _ => Leaf : itree) ops = Ok (sprog_spec_outputs (map fst ops)).
  Proof.
    assert (R0 : tl_regs_rel (fun _ => Leaf) (fun _ => [])) by (intros i; split; [reflexivity | exact I]).
    unfold outputs, sprog_spec_outputs, spec_outputs. rewrite <- spec_run_map.
    destruct (run_sim tl_prog_step (fun (s : nat -> list T) o => sprog_spec_step s (fst o)) tl_regs_rel
                (fun s a o HR => match o with (o', p) => tl_prog_step_ok s a o' p HR end) ops _ _ R0)
      as (t & E & HR). rewrite E. reflexivity.
  Qed.
End TreapListProofs.
