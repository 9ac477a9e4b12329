(** The directories of the size-tiered strategy *)
From Verif Require Import ListLemmas OrdLemmas.
From Verif Require Export LsmSteadyProofs SizeTieredProofs.

(** *** What a merge returns comes from the tables, and a merge of something is something. *)
Section Merge.
  Context {K V : Type} `{Cmp K} {Z : Sizes K V}.
  Notation entry := (K * sval V)%type.
  Context (has : nat -> bool) (P : entry -> Prop).
  Definition d_all (d : diter K V) : Prop := match d with Closed t => Forall P (t_es t) | Opened l => Forall P l end.
  Lemma d_next_all d e d' : d_all d -> d_next has d = Ok (Some (e, d')) -> P e /\ d_all d'.
  Proof.
    intros A E. unfold d_next in E. destruct d as [t|l].
    - unfold read in E. destruct (has (t_id t)); [|discriminate]. cbn [bind] in E. cbn in A. destruct (t_es t) as [|x l]; [discriminate|]. injection E as <- <-. inversion A; subst. now split.
    - cbn [bind] in E. destruct l as [|x l]; [discriminate|]. injection E as <- <-. inversion A; subst. now split.
  Qed.
  Lemma r_next_all r : forall e r', Forall d_all r -> r_next has r = Ok (Some (e, r')) -> P e /\ Forall d_all r'.
  Proof.
    induction r as [|d r IH]; intros e r' A E; cbn [r_next] in E; [discriminate|]. inversion A as [|? ? A1 A2]; subst. destruct (d_next has d) as [x| |] eqn:D; try discriminate. cbn [bind] in E.
    destruct x as [[e1 d1]|]; [|now apply IH]. injection E as <- <-. destruct (d_next_all _ _ _ A1 D). split; auto.
  Qed.
  Definition it_all (it : miter K V) : Prop := Forall (Forall d_all) (mi_runs it) /\ Forall (fun h => P (fst h)) (mi_heap it).
  Lemma mi_fill_all runs : forall i rs h, Forall (Forall d_all) runs -> mi_fill has i runs = Ok (rs, h) -> Forall (Forall d_all) rs /\ Forall (fun h => P (fst h)) h.
  Proof.
    induction runs as [|r runs IH]; intros i rs h A E; cbn [mi_fill] in E; [injection E as <- <-; auto|]. inversion A as [|? ? A1 A2]; subst.
    destruct (r_next has r) as [x| |] eqn:R; try discriminate. cbn [bind] in E. destruct (mi_fill has (S i) runs) as [[rs1 h1]| |] eqn:F; try discriminate. cbn [bind] in E.
    destruct (IH _ _ _ A2 F) as [B1 B2]. destruct x as [[e r']|]; injection E as <- <-; [|auto]. destruct (r_next_all _ _ _ A1 R). split; constructor; auto.
  Qed.
  Lemma h_pop_all h : forall x h', Forall (fun h => P (fst h)) h -> h_pop h = Some (x, h') -> P (fst x) /\ Forall (fun h => P (fst h)) h'.
  Proof.
    induction h as [|y h IH]; intros x h' A E; cbn [h_pop] in E; [discriminate|]. inversion A as [|? ? A1 A2]; subst. destruct (h_pop h) as [[m r]|] eqn:Q; [|injection E as <- <-; auto].
    destruct (IH _ _ A2 eq_refl) as [B1 B2]. destruct (is_lt _); injection E as <- <-; auto.
  Qed.
  Lemma set_all {A} (Q : A -> Prop) l i x : Forall Q l -> Q x -> Forall Q (list_set l i x).
  Proof. intros F Qx. revert i. induction F as [|y l Fy F IH]; intros [|i]; cbn [list_set]; auto. Qed.
  Lemma mi_loop_all f : forall it o it', it_all it -> mi_loop has f it = Ok (o, it') -> it_all it' /\ forall e, o = Some e -> P e.
  Proof.
    induction f as [|f IH]; intros it o it' [A1 A2] E; cbn [mi_loop] in E; [discriminate|]. destruct (h_pop (mi_heap it)) as [[[e i] h]|] eqn:Q.
    2:{ injection E as <- <-. split; [split; auto|discriminate]. }
    destruct (h_pop_all _ _ _ A2 Q) as [B1 B2]. cbn [fst] in B1. destruct (nth_error (mi_runs it) i) as [r|] eqn:Nr; [|discriminate]. cbn [expect bind] in E.
    destruct (r_next has r) as [x| |] eqn:R; try discriminate. cbn [bind] in E. pose proof (nth_error_In _ _ Nr) as Jr. rewrite Forall_forall in A1.
    set (p := match x with Some _ => _ | None => _ end) in E. destruct p as [runs h2] eqn:Ep. subst p.
    assert (G : Forall (Forall d_all) runs /\ Forall (fun h => P (fst h)) h2).
    { destruct x as [[e' r']|]; injection Ep as <- <-.
      - destruct (r_next_all _ _ _ (A1 _ Jr) R). split; [apply set_all; [now apply Forall_forall|auto]|constructor; auto].
      - split; [apply set_all; [now apply Forall_forall|constructor]|auto]. }
    destruct (match mi_last it with Some _ => _ | None => _ end).
    - injection E as <- <-. split; [exact G|]. now intros e0 [= <-].
    - now apply IH in E.
  Qed.
  Lemma mi_all_all f : forall it l, it_all it -> mi_all has f it = Ok l -> Forall P l.
  Proof.
    induction f as [|f IH]; intros it l A E; cbn [mi_all] in E; [discriminate|]. destruct (mi_next has it) as [[o it']| |] eqn:N; try discriminate. cbn [bind] in E.
    destruct (mi_loop_all _ _ _ _ A N) as [A' Po]. destruct o as [e|]; [|injection E as <-; constructor]. destruct (mi_all has f it') as [l'| |] eqn:M; try discriminate. cbn [bind] in E. injection E as <-.
    constructor; [now apply Po|eapply IH; eauto].
  Qed.
  Lemma merge_all (runs : list (list (table K V))) es : Forall (Forall (fun t => Forall P (t_es t))) runs -> merge_tables has runs = Ok es -> Forall P es.
  Proof.
    intros A E. unfold merge_tables, mi_new in E. destruct (mi_fill has 0 _) as [[rs h]| |] eqn:F; try discriminate. cbn [bind] in E.
    apply mi_fill_all in F; [|apply Forall_map; eapply Forall_impl; [|exact A]; intros r B; apply Forall_map; exact B]. eapply mi_all_all; [|exact E]. exact F.
  Qed.
  Lemma merge_some (t : table K V) ts es : t_es t <> [] -> merge_tables has (map (fun t => [t]) (t :: ts)) = Ok es -> es <> [].
  Proof.
    intros Ne E ->. unfold merge_tables, mi_new in E. cbn [map mi_fill r_next] in E. unfold d_next, read in E. destruct (has (t_id t)); [|discriminate]. cbn [bind] in E.
    destruct (t_es t) as [|e l]; [congruence|]. cbn [bind] in E. destruct (mi_fill has 1 _) as [[rs h]| |]; try discriminate. cbn [bind] in E.
    unfold mi_collect in E. cbn [mi_all] in E. unfold mi_next in E. cbn [mi_loop mi_heap] in E. 
    destruct (h_pop ((e, 0) :: h)) as [[[e' i] h']|] eqn:Q.
    - destruct (nth_error _ i); [|discriminate]. cbn [expect bind] in E. destruct (r_next has _) as [x| |]; try discriminate. cbn [bind mi_last] in E.
      destruct x as [[? ?]|]; cbn [bind] in E; (destruct (mi_all has _ _); try discriminate; cbn [bind] in E; discriminate).
    - cbn [h_pop] in Q. destruct (h_pop h) as [[? ?]|]; [destruct (is_lt _)|]; discriminate.
  Qed.
End Merge.

Section Tiered.
  Context {K V : Type} `{Cmp K} {Z : Sizes K V}.
  Context (cfg : sconfig).
  Notation table := (table K V).
  Notation St := (size_tiered (K := K) (V := V) cfg).
  Notation data es := (Forall (fun e : K * sval V => has_data e = true) es).
  Lemma sz_insert_in (t u : table) l : In u (size_insert t l) <-> u = t \/ In u l.
  Proof. induction l as [|x l IH]; cbn [size_insert In]; [intuition congruence|]. destruct (_ <=? _)%N; cbn [In]; [intuition congruence|]. rewrite IH. tauto. Qed.
  Lemma sz_sort_in (u : table) l : In u (by_size l) <-> In u l.
  Proof. induction l as [|x l IH]; [reflexivity|]. cbn [by_size fold_right In]. rewrite sz_insert_in. fold (by_size l). rewrite IH. intuition congruence. Qed.
  Lemma sz_sort_length (l : list table) : length (by_size l) = length l.
  Proof.
    assert (X : forall (t : table) l, length (size_insert t l) = S (length l)). { intros t. induction l0 as [|x l0 IH]; cbn [size_insert length]; [reflexivity|]. destruct (_ <=? _)%N; cbn [length]; auto. }
    induction l as [|x l IH]; [reflexivity|]. cbn [by_size fold_right length]. rewrite X. f_equal. exact IH.
  Qed.
  Lemma range_nonempty (ts : list table) : forall start curr first sum a b, start <= curr -> find_range cfg start curr first sum ts = Some (a, b) -> a < b /\ b <= curr + length ts.
  Proof.
    induction ts as [|t ts IH]; intros start curr first sum a b Le E; cbn [find_range length] in *.
    - destruct (Nat.ltb_spec (sc_max_count cfg) (curr - start)); [|discriminate]. injection E as <- <-. lia.
    - destruct (_ || _).
      + apply IH in E; lia.
      + destruct (Nat.ltb_spec (sc_max_count cfg) (S curr - start)); [injection E as <- <-; lia|]. apply IH in E; lia.
  Qed.
  Lemma sz_compact_cases has id m m' id' : sz_compact cfg has id m = Ok (m', id') -> exists old rest es, old <> [] /\ (forall t, In t m <-> In t old \/ In t rest) /\
    merge_tables has (map (fun t => [t]) old) = Ok es /\ id' = S id /\
    let es' := filter (fun e => negb (purgeable old rest) || has_data e) es in
    (es' = [] /\ m' = rest \/ exists t, t_id t = id /\ t_es t = es' /\ m' = rest ++ [t]).
  Proof.
    intros E. unfold sz_compact in E. destruct (compaction_range cfg m) as [[a b]|] eqn:R; [|discriminate]. unfold compaction_range in R. apply range_nonempty in R; [|lia].
    unfold merge_range in E. cbn [fst snd] in E. set (old := firstn (b - a) (skipn a (by_size m))) in *. set (rest := firstn a (by_size m) ++ skipn b (by_size m)) in *.
    destruct (merge_tables has _) as [es| |] eqn:M; try discriminate. cbn [bind] in E. exists old, rest, es. split; [|split; [|split; [exact M|]]].
    - intros Q. apply (f_equal (@length _)) in Q. unfold old in Q. rewrite firstn_length, skipn_length in Q. cbn in Q. lia.
    - intros t. rewrite <- (sz_sort_in t m). rewrite <- (firstn_skipn a (by_size m)) at 1. rewrite <- (firstn_skipn (b - a) (skipn a (by_size m))) at 1.
      replace (skipn (b - a) (skipn a (by_size m))) with (skipn b (by_size m)) by (rewrite skipn_add; f_equal; lia). fold old. unfold rest. rewrite !in_app_iff. tauto.
    - cbv zeta. set (es' := filter _ es) in *. destruct (rep_appends es' (tb_new id (list_sum (map t_count old))) [] (rep_new _ _)) as [Rp Ri]. cbn [app] in Rp.
      destruct (tb_range _) eqn:Tr.
      + destruct (tb_flush _) as [t| |] eqn:F; try discriminate. cbn [bind] in E. injection E as <- <-. split; [reflexivity|]. right. exists t. apply tb_flush_fields in F. destruct F as [-> ->].
        split; [exact Ri|]. split; [apply Rp|reflexivity].
      + injection E as <- <-. split; [reflexivity|]. left. split; [|reflexivity]. now apply (rep_range_none _ _ Rp).
  Qed.

  Lemma tiered_files : files_laws St.
  Proof.
    constructor.
    - reflexivity.
    - intros m t i. unfold ids. cbn [st_tables st_push size_tiered]. rewrite map_app, in_app_iff. cbn. intuition congruence.
    - intros c m i. unfold ids. cbn [st_tables st_replace size_tiered]. unfold sz_replace. rewrite map_app, in_app_iff. intros [J|J]; [now right|left].
      apply in_map_iff in J. destruct J as (t & <- & J). apply filter_In in J. apply in_map, J.
    - intros has id m m' id' E. apply sz_compact_cases in E. destruct E as (old & rest & es & _ & Sp & _ & -> & C'). split; [lia|]. unfold ids. cbn [st_tables size_tiered]. intros i J.
      apply in_map_iff in J. destruct J as (t & <- & J). cbv zeta in C'. destruct C' as [[_ ->]|(u & Ei & _ & ->)].
      + left. apply in_map, Sp. auto.
      + apply in_app_iff in J. destruct J as [J|[<-|[]]]; [left; apply in_map, Sp; auto|right; lia].
  Qed.
  Definition full (m : list table) : Prop := Forall (fun t => t_es t <> [] /\ data (t_es t)) m.
  Lemma tiered_steady : steady_laws St full.
  Proof.
    constructor.
    - constructor.
    - intros m t G Ne D. apply Forall_app. split; [exact G|]. repeat constructor; auto.
    - apply (fl_push _ tiered_files).
    - intros c m Gc Gm. cbn [st_replace size_tiered]. unfold sz_replace. split.
      + apply Forall_app. split; [exact Gm|]. apply Forall_forall. intros t J. apply filter_In in J. unfold full in Gc. rewrite Forall_forall in Gc. now apply Gc.
      + intros i J. unfold ids in *. cbn [st_tables size_tiered] in *. rewrite map_app, in_app_iff. auto.
    - intros has id m m' id' G E. apply sz_compact_cases in E. destruct E as (old & rest & es & Ne & Sp & M & -> & C'). cbv zeta in C'. unfold full in G. rewrite Forall_forall in G.
      assert (Go : Forall (Forall (fun t => data (t_es t))) (map (fun t => [t]) old)).
      { apply Forall_map, Forall_forall. intros t J. constructor; [|constructor]. apply G, Sp. auto. }
      pose proof (merge_all _ _ _ _ Go M) as De.
      assert (Nz : es <> []). { destruct old as [|t old]; [congruence|]. eapply merge_some; [|exact M]. apply G, Sp. left. now left. }
      assert (Fe : filter (fun e => negb (purgeable old rest) || has_data e) es = es).
      { clear -De. induction De as [|e es D De IH]; cbn [filter]; [reflexivity|]. rewrite D, orb_true_r. now rewrite IH. }
      rewrite Fe in C'. destruct C' as [[Q _]|(u & Ei & Eu & ->)]; [congruence|]. split.
      + apply Forall_app. split; [apply Forall_forall; intros t J; apply G, Sp; auto|]. constructor; [|constructor]. now rewrite Eu.
      + intros i Le. assert (i = id) by lia. subst i. unfold ids. cbn [st_tables size_tiered]. rewrite map_app. apply in_app_iff. right. left. exact Ei.
  Qed.
End Tiered.
