(** The directories of the leveled strategy *)
From Verif Require Import ListLemmas.
From Verif Require Export LsmSpaceProofs LeveledModel.

Section Leveled.
  Context {K V : Type} `{Cmp K} {Z : Sizes K V}.
  Context (cfg : lconfig).
  Notation table := (table K V).
  Notation level := (level K V).
  Notation St := (leveled (K := K) (V := V) cfg).

  Lemma bt_from {A} k (v : A) l x : In x (map snd (bt_insert k v l)) -> x = v \/ In x (map snd l).
  Proof.
    induction l as [|[k' v'] l IH]; cbn [bt_insert map snd In]; [intuition congruence|]. destruct (cmp k k'); cbn [map snd In]; [intuition congruence|intuition congruence|]. intuition.
  Qed.
  Lemma level_inserts ts : forall (l : level) x, In x (map snd (fold_left level_insert ts l)) -> In x ts \/ In x (map snd l).
  Proof.
    induction ts as [|t ts IH]; intros l x J; cbn [fold_left] in J; [now right|]. apply IH in J. cbn [In]. destruct J as [J|J]; [auto|]. apply bt_from in J. intuition congruence.
  Qed.
  Lemma pack_ids keep hint es : forall b ts id', pack cfg keep hint b es = Ok (ts, id') -> tb_id b < id' /\ forall t, In t ts -> tb_id b <= t_id t < id'.
  Proof.
    induction es as [|e es IH]; intros b ts id' E; cbn [pack] in E.
    - destruct (tb_range b).
      + destruct (tb_flush b) as [t| |] eqn:F; try discriminate. cbn [bind] in E. injection E as <- <-. apply tb_flush_fields in F. split; [lia|]. intros u [<-|[]]. lia.
      + injection E as <- <-. split; [lia|]. intros u [].
    - set (b1 := if keep e then tb_append b e else b) in *. assert (Eb : tb_id b1 = tb_id b). { unfold b1. destruct (keep e); [apply tb_append_id|reflexivity]. }
      destruct (_ <? _)%N; [|rewrite <- Eb; now apply IH]. destruct (tb_flush b1) as [t| |] eqn:F; try discriminate. cbn [bind] in E. apply tb_flush_fields in F. destruct F as [F _].
      destruct (pack _ _ _ _ es) as [[ts1 id1]| |] eqn:P; try discriminate. cbn [bind] in E. injection E as <- <-. apply IH in P. cbn [tb_new tb_id] in P. destruct P as [P1 P2].
      split; [lia|]. intros u [<-|J]; [lia|]. apply P2 in J. lia.
  Qed.
  Lemma merge_into_ids has purge hint id runs (l : level) l' id' : merge_into cfg has purge hint id runs l = Ok (l', id') ->
    id < id' /\ forall t, In t (map snd l') -> In t (map snd l) \/ id <= t_id t < id'.
  Proof.
    intros E. unfold merge_into in E. destruct (merge_tables has runs) as [es| |]; try discriminate. cbn [bind] in E. destruct (pack _ _ _ _ es) as [[ts id1]| |] eqn:P; try discriminate.
    cbn [bind] in E. injection E as <- <-. apply pack_ids in P. cbn [tb_new tb_id] in P. destruct P as [P1 P2]. split; [exact P1|]. intros t J. apply level_inserts in J. destruct J; auto.
  Qed.
  Definition from (id id' : nat) (a b : list level) : Prop := id <= id' /\ forall t, In t (level_tables b) -> In t (level_tables a) \/ id <= t_id t < id'.
  Lemma in_levels (t : table) ls : In t (level_tables ls) <-> exists l, In l ls /\ In t (map snd l).
  Proof. unfold level_tables. rewrite in_flat_map. reflexivity. Qed.
  Lemma set_in {A} (l : list A) i x y : In y (list_set l i x) -> y = x \/ In y l.
  Proof. revert i. induction l as [|a l IH]; intros [|i]; cbn [list_set In]; auto. - intuition congruence. - intros [J|J]; [auto|]. apply IH in J. intuition. Qed.
  Lemma set_levels ls i (l : level) t : In t (level_tables (list_set ls i l)) -> In t (map snd l) \/ In t (level_tables ls).
  Proof. rewrite !in_levels. intros (x & J & Jt). apply set_in in J. destruct J as [->|J]; [now left|]. right. eauto. Qed.
  Lemma level_remove_in k (l : level) t l' : level_remove k l = Some (t, l') -> forall u, u = t \/ In u (map snd l') -> In u (map snd l).
  Proof.
    revert t l'. induction l as [|[k' t'] l IH]; intros t l' E u J; cbn [level_remove] in E; [discriminate|]. cbn [map snd In]. destruct (is_eq _).
    - injection E as <- <-. intuition.
    - destruct (level_remove k l) as [[x r]|]; [|discriminate]. injection E as <- <-. cbn [map snd In] in J. destruct J as [->|[J|J]]; [right; eapply IH; eauto|auto|right; eapply IH; eauto].
  Qed.
  Lemma from_refl id ls : from id id ls ls.
  Proof. split; auto. Qed.
  Lemma from_trans a b c x y z : from a b x y -> from b c y z -> from a c x z.
  Proof. intros [L1 F1] [L2 F2]. split; [lia|]. intros t J. apply F2 in J. destruct J as [J|J]; [|right; lia]. apply F1 in J. destruct J; [auto|right; lia]. Qed.
  Lemma merge_down_from has hint id index ls ls' id' : merge_down cfg has hint id index ls = Ok (ls', id') -> from id id' ls ls'.
  Proof.
    intros E. unfold merge_down in E. destruct (nth_error ls index) as [l|] eqn:Nl; [|discriminate]. cbn [expect bind] in E. destruct (pick l) as [p|]; [|discriminate]. cbn [expect bind] in E.
    destruct (level_remove (hi p) l) as [[t l1]|] eqn:R; [|discriminate]. cbn [expect bind] in E. pose proof (level_remove_in _ _ _ _ R) as Rm.
    assert (Il : forall u, In u (map snd l) -> In u (level_tables ls)). { intros u J. apply in_levels. exists l. split; [eapply nth_error_In; eauto|exact J]. }
    assert (I1 : forall u, In u (level_tables (list_set ls index l1)) -> In u (level_tables ls)). { intros u J. apply set_levels in J. destruct J as [J|J]; [|exact J]. apply Il, Rm. auto. }
    destruct (_ =? _).
    - injection E as <- <-. split; [lia|]. intros u J. left. unfold level_tables in J. rewrite flat_map_app in J. apply in_app_iff in J. destruct J as [J|J]; [now apply I1|].
      cbn in J. destruct J as [<-|[]]. apply Il, Rm. now left.
    - destruct (nth_error (list_set ls index l1) (index + 1)) as [below|] eqn:Nb; [|discriminate]. cbn [expect bind] in E.
      destruct (partition _ below) as [old new] eqn:Pt. destruct (merge_into _ _ _ _ _ _ new) as [[bl id1]| |] eqn:M; try discriminate. cbn [bind] in E. injection E as <- <-.
      apply merge_into_ids in M. destruct M as [M1 M2]. split; [lia|]. intros u J. apply set_levels in J. destruct J as [J|J]; [|auto]. apply M2 in J. destruct J as [J|J]; [|auto].
      left. apply I1. apply in_levels. exists below. split; [eapply nth_error_In; eauto|]. apply in_map_iff in J. destruct J as (kt & <- & J). apply in_map.
      eapply elements_in_partition; [exact Pt|]. auto.
  Qed.
  Lemma inner_from f : forall has hint id index ls ls' id', inner cfg f has hint id index ls = Ok (ls', id') -> from id id' ls ls'.
  Proof.
    induction f as [|f IH]; intros has hint id index ls ls' id' E; cbn [inner] in E; destruct (should_merge cfg ls index); try discriminate; try (injection E as <- <-; apply from_refl).
    destruct (merge_down _ _ _ _ _ ls) as [[ls1 id1]| |] eqn:M; try discriminate. cbn [bind] in E. eapply from_trans; [eapply merge_down_from; eauto|eapply IH; eauto].
  Qed.
  Lemma outer_from f : forall has hint id index ls ls' id', outer cfg f has hint id index ls = Ok (ls', id') -> from id id' ls ls'.
  Proof.
    induction f as [|f IH]; intros has hint id index ls ls' id' E; cbn [outer] in E; destruct (index =? length ls); try discriminate; try (injection E as <- <-; apply from_refl).
    destruct (nth_error ls index) as [l|]; [|discriminate]. cbn [expect bind] in E. destruct (inner _ _ _ _ _ _ ls) as [[ls1 id1]| |] eqn:M; try discriminate. cbn [bind] in E.
    eapply from_trans; [eapply inner_from; eauto|eapply IH; eauto].
  Qed.
  Lemma compact_from f has id (m m' : lmeta K V) id' : lv_compact_fuel cfg f has id m = Ok (m', id') -> id <= id' /\ forall t, In t (lv_tables m') -> In t (lv_tables m) \/ id <= t_id t < id'.
  Proof.
    intros E. unfold lv_compact_fuel in E. set (ls := match lm_levels m with [] => [[]] | _ => _ end) in *. assert (Els : level_tables ls = level_tables (lm_levels m)) by (unfold ls; now destruct (lm_levels m)).
    destruct (nth_error ls 0) as [l0|] eqn:N0; [|discriminate]. cbn [expect bind] in E. destruct (merge_into _ _ _ _ _ _ []) as [[l1 id1]| |] eqn:M; try discriminate. cbn [bind] in E.
    destruct (outer _ _ _ _ _ _ _) as [[ls2 id2]| |] eqn:O; try discriminate. cbn [bind] in E. injection E as <- <-. apply merge_into_ids in M. destruct M as [M1 M2]. apply outer_from in O. destruct O as [O1 O2].
    split; [lia|]. intros t J. unfold lv_tables in J. cbn [lm_tabs lm_levels app] in J. apply O2 in J. destruct J as [J|J]; [|right; lia]. apply set_levels in J. destruct J as [J|J].
    - apply M2 in J. destruct J as [[]|J]. right. lia.
    - left. unfold lv_tables. apply in_app_iff. right. now rewrite <- Els.
  Qed.
  Lemma leveled_files : files_laws St.
  Proof.
    constructor.
    - reflexivity.
    - intros m t i. unfold ids. cbn [st_tables st_push leveled]. unfold lv_tables. cbn [lm_tabs lm_levels]. rewrite !map_app, !in_app_iff. cbn. intuition congruence.
    - intros c m i. unfold ids. cbn [st_tables st_replace leveled]. unfold lv_tables, lv_replace. cbn [lm_tabs lm_levels]. rewrite !map_app, !in_app_iff. intros [[J|J]|J]; auto.
      apply in_map_iff in J. destruct J as (t & <- & J). apply filter_In in J. left. left. apply in_map, J.
    - intros has id m m' id' E. cbn [st_compact leveled] in E. apply compact_from in E. destruct E as [L F]. split; [exact L|]. unfold ids. cbn [st_tables leveled]. intros i J.
      apply in_map_iff in J. destruct J as (t & <- & J). apply F in J. destruct J as [J|J]; [left; now apply in_map|auto].
  Qed.
End Leveled.
