(** Iterators with failing reads. *)
From Coq Require Import Permutation.
From Verif Require Import ListLemmas OrdLemmas.
From Verif Require Export LsmScanSpec LsmIoTop.

Section Scan.
  Context {K V : Type} `{CmpLaws K} (has : nat -> bool).
  Notation entry := (K * sval V)%type.
  Notation miter := (miter K V).

  (** A failing read takes the least entry and the rest of its run away. *)
  Lemma lost_ok (it : miter) e i h : minv has it -> h_pop (mi_heap it) = Some ((e, i), h) ->
    let it' := mkIter (list_set (mi_runs it) i []) h (mi_last it) in
    minv has it' /\ (forall x, In x (pending it') -> In x (pending it)) /\ length (pending it') < length (pending it) /\ length (mi_heap it) = S (length h).
  Proof.
    intros M E. pose proof (h_pop_ok (mi_heap it)) as P. rewrite E in P. destruct P as [P F]. cbv zeta.
    assert (Ie : In (e, i) (mi_heap it)) by (eapply Permutation_in; [symmetry; exact P|now left]).
    destruct (mv_heap _ _ M _ _ Ie) as (r & Er & _).
    assert (ND : NoDup (map snd ((e, i) :: h))) by (eapply Permutation_NoDup; [apply Permutation_map; exact P|apply (mv_nodup _ _ M)]).
    cbn [map snd] in ND. apply NoDup_cons_iff in ND. destruct ND as [Ni ND].
    assert (Oi : forall e' j, In (e', j) h -> j <> i) by (intros e' j J ->; apply Ni, in_map_iff; now exists (e', i)).
    assert (Ih : forall e' j, In (e', j) h -> In (e', j) (mi_heap it)) by (intros e' j J; eapply Permutation_in; [symmetry; exact P|now right]).
    assert (Oh : forall e' j, In (e', j) (mi_heap it) -> (e', j) = (e, i) \/ In (e', j) h).
    { intros e' j J. eapply Permutation_in in J; [|exact P]. destruct J as [J|J]; [left; congruence|now right]. }
    destruct (flat_map_set run_es (mi_runs it) i r [] Er) as (p & q & E1 & E2).
    assert (Sub : forall x, In x (pending (mkIter (list_set (mi_runs it) i []) h (mi_last it))) -> In x (pending it)).
    { intros x. unfold pending. cbn [mi_heap mi_runs]. rewrite E1, E2, !in_app_iff. intros [J|[J|[[]|J]]]; auto.
      left. eapply Permutation_in; [apply Permutation_map; symmetry; exact P|]. cbn [map]. now right. }
    split; [|split; [exact Sub|split]].
    - constructor; cbn [mi_runs mi_heap mi_last].
      + apply Forall_forall. intros x J. apply In_nth_error in J. destruct J as [j J]. rewrite list_set_nth in J.
        destruct (Nat.eqb_spec i j) as [Qj|Nj]; [|apply (proj1 (Forall_forall _ _) (mv_ok _ _ M)); eapply nth_error_In; eauto].
        destruct (i <? length (mi_runs it)); [|discriminate]. injection J as <-. constructor.
      + exact ND.
      + intros e' j J. rewrite list_set_nth. pose proof (not_eq_sym (Oi _ _ J)) as Nj. apply Nat.eqb_neq in Nj. rewrite Nj. apply (mv_heap _ _ M). now apply Ih.
      + intros j x J Nx. rewrite list_set_nth in J. destruct (Nat.eqb_spec i j) as [Qj|Nj].
        * destruct (i <? length (mi_runs it)); [|discriminate]. injection J as <-. now destruct Nx.
        * destruct (mv_runs _ _ M _ _ J Nx) as [y Jy]. exists y. destruct (Oh _ _ Jy) as [Q|Q]; [congruence|exact Q].
      + intros l e' Q J. apply (mv_last _ _ M _ _ Q). now apply Sub.
    - unfold pending. cbn [mi_heap mi_runs]. rewrite E1, E2, !app_length, !map_length. apply Permutation_length in P. cbn in *. unfold hentry in *. lia.
    - apply Permutation_length in P. exact P.
  Qed.

  Definition same_last (it it' : miter) : Prop := forall e, shadow it e <-> shadow it' e.
  Lemma same_last_lt (it it' : miter) (e : entry) l : minv has it -> minv has it' -> In e (pending it') -> (forall x, In x (pending it') -> In x (pending it)) -> ~ shadow it' e -> same_last it it' -> mi_last it = Some l -> cmp l (fst e) = Lt.
  Proof. intros M M' J Sub N Sl Q. apply (not_shadow_gt has it); auto. intros Sh. now apply N, Sl. Qed.
  Definition lost (it : miter) : miter := match h_pop (mi_heap it) with Some ((e, i), h) => mkIter (list_set (mi_runs it) i []) h (mi_last it) | None => it end.
  Lemma sc_loop_unfold fuel fs (it : miter) : sc_loop has (S fuel) fs it =
    match popped has it with
    | None => Ok (None, (it, fs))
    | Some x => if hd false fs then Ok (Some None, (lost it, tl fs))
                else let* (e, it') := x in if fresh_key it e then Ok (Some (Some e), (it', tl fs)) else sc_loop has fuel (tl fs) it'
    end.
  Proof.
    cbn [sc_loop]. unfold popped, lost. destruct (h_pop (mi_heap it)) as [[[e i] h]|]; [|reflexivity]. destruct (hd false fs); [reflexivity|].
    destruct (expect (nth_error (mi_runs it) i)) as [r| |]; cbn [bind]; try reflexivity.
    destruct (r_next has r) as [x| |]; cbn [bind]; try reflexivity. destruct x as [[e' r']|]; reflexivity.
  Qed.
  Lemma popped_heap (it it' : miter) e : popped has it = Some (Ok (e, it')) -> length (mi_heap it') <= length (mi_heap it).
  Proof.
    unfold popped. pose proof (h_pop_ok (mi_heap it)) as P. destruct (h_pop (mi_heap it)) as [[[e0 i] h]|]; [|discriminate]. destruct P as [P _]. apply Permutation_length in P. cbn in P.
    destruct (expect (nth_error (mi_runs it) i)) as [r| |]; cbn [bind]; try discriminate. destruct (r_next has r) as [[[e' r']|]| |]; cbn [bind]; try discriminate; intros E; injection E as _ <-; cbn; lia.
  Qed.
  Lemma popped_lost (it : miter) x : minv has it -> popped has it = Some x ->
    minv has (lost it) /\ (forall x, In x (pending (lost it)) -> In x (pending it)) /\ length (pending (lost it)) < length (pending it) /\ length (mi_heap (lost it)) < length (mi_heap it) /\ mi_last (lost it) = mi_last it.
  Proof.
    unfold popped, lost. intros M. destruct (h_pop (mi_heap it)) as [[[e i] h]|] eqn:E; [|discriminate]. intros _.
    destruct (lost_ok it e i h M E) as (M' & Sub & D & Dh). repeat (split; [assumption|]). cbn [mi_heap mi_last]. split; [lia|reflexivity].
  Qed.
  Lemma sc_loop_ok fuel : forall fs (it : miter), minv has it -> length (pending it) < fuel ->
    exists o it' fs', sc_loop has fuel fs it = Ok (o, (it', fs')) /\ minv has it' /\ (forall x, In x (pending it') -> In x (pending it)) /\ length (mi_heap it') <= length (mi_heap it) /\
      (Forall (eq false) fs -> Forall (eq false) fs' /\ o <> Some None) /\
      match o with
      | None => mi_loop has fuel it = Ok (None, it')
      | Some (Some e) => mi_loop has fuel it = Ok (Some e, it') /\ In e (pending it) /\ ~ shadow it e /\ mi_last it' = Some (fst e) /\ length (pending it') < length (pending it)
      | Some None => same_last it it' /\ length (pending it') < length (pending it) /\ length (mi_heap it') < length (mi_heap it)
      end.
  Proof.
    induction fuel as [|fuel IH]; intros fs it M L; [lia|]. rewrite mi_loop_unfold, sc_loop_unfold.
    pose proof (popped_ok has it M) as P. destruct (popped has it) as [x|] eqn:Ep.
    2:{ exists None, it, fs. split; [reflexivity|]. split; [exact M|]. split; [auto|]. split; [lia|]. split; [intros F; split; [exact F|discriminate]|reflexivity]. }
    destruct (hd false fs) eqn:Hf.
    { destruct (popped_lost it x M Ep) as (M' & Sub & D & Dh & Ll). do 3 eexists. split; [reflexivity|]. split; [exact M'|]. split; [exact Sub|]. split; [lia|]. split.
      - intros F. destruct F; cbn in Hf; congruence.
      - split; [|auto]. intros y. unfold shadow. now rewrite Ll. }
    assert (Ft : Forall (eq false) fs -> Forall (eq false) (tl fs)) by (intros F; destruct F; [constructor|assumption]).
    destruct P as (e & it1 & -> & P & M1 & L1 & Mn). cbn [bind]. pose proof (popped_heap it it1 e Ep) as Dh.
    assert (Ie : In e (pending it)) by (eapply Permutation_in; [symmetry; exact P|now left]).
    assert (Sub : forall e', In e' (pending it1) -> In e' (pending it)) by (intros e' J; eapply Permutation_in; [symmetry; exact P|now right]).
    assert (Len : length (pending it) = Datatypes.S (length (pending it1))) by (now apply Permutation_length in P).
    destruct (fresh_key it e) eqn:Fr.
    - exists (Some (Some e)), it1, (tl fs). split; [reflexivity|]. split; [exact M1|]. split; [exact Sub|]. split; [exact Dh|]. split; [intros F; split; [auto|discriminate]|].
      split; [reflexivity|]. split; [exact Ie|]. split; [intros Sh; apply fresh_shadow in Sh; congruence|]. split; [exact L1|lia].
    - apply fresh_shadow in Fr. assert (Sh : same_last it it1).
      { intros y. destruct Fr as (l & Q & Ce). unfold shadow. rewrite Q, L1. split; intros (l' & Q' & C'); injection Q' as <-; eexists; (split; [reflexivity|]).
        - eapply cmp_eq_trans; [apply cmp_eq_sym; exact Ce|exact C'].
        - eapply cmp_eq_trans; eauto. }
      destruct (IH (tl fs) it1 M1) as (o & it2 & fs2 & E2 & M2 & S2 & Dh2 & F2 & N); [lia|]. exists o, it2, fs2. split; [exact E2|]. split; [exact M2|]. split; [auto|]. split; [lia|]. split; [auto|].
      destruct o as [[e2|]|]; [| |exact N].
      + destruct N as (N1 & N2 & N3 & N4 & N5). split; [exact N1|]. split; [auto|]. split; [|split; [exact N4|lia]]. intros Q. apply N3, Sh, Q.
      + destruct N as (N1 & N2 & N3). split; [|lia]. intros y. rewrite (Sh y). apply N1.
  Qed.
  Lemma sc_next_ok fs (it : miter) : minv has it ->
    exists o it' fs', sc_next has fs it = Ok (o, (it', fs')) /\ minv has it' /\ (forall x, In x (pending it') -> In x (pending it)) /\ length (mi_heap it') <= length (mi_heap it) /\
      (Forall (eq false) fs -> Forall (eq false) fs' /\ o <> Some None) /\
      match o with
      | None => mi_next has it = Ok (None, it')
      | Some (Some e) => mi_next has it = Ok (Some e, it') /\ In e (pending it) /\ ~ shadow it e /\ mi_last it' = Some (fst e) /\ length (pending it') < length (pending it)
      | Some None => same_last it it' /\ length (pending it') < length (pending it) /\ length (mi_heap it') < length (mi_heap it)
      end.
  Proof. intros M. apply sc_loop_ok; [exact M|]. rewrite left_pending. lia. Qed.

  Lemma cut_cons {A} (x : A) l items : cut l items -> cut (x :: l) (Some x :: items).
  Proof. intros [->|(p & r & q & -> & ->)]; [now left|right]. exists (x :: p), r, q. auto. Qed.
  Lemma sc_all_ok fuel : forall fs (it : miter), minv has it -> length (pending it) < fuel ->
    exists items, sc_all has fuel fs it = Ok items /\ (forall e, In e (oks items) -> In e (pending it) /\ ~ shadow it e) /\ sorted (oks items) /\
      errors items <= length (mi_heap it) /\ (Forall (eq false) fs -> errors items = 0) /\ forall out, mi_all has fuel it = Ok out -> cut out items.
  Proof.
    induction fuel as [|fuel IH]; intros fs it M L; [lia|]. cbn [sc_all mi_all].
    destruct (sc_next_ok fs it M) as (o & it1 & fs1 & -> & M1 & S1 & Dh & Ff & N). cbn [bind]. destruct o as [[e|]|].
    - destruct N as (-> & Ie & Ns & L1 & D). cbn [bind]. destruct (IH fs1 it1 M1) as (items & -> & Q1 & Q2 & Q3 & Q4 & Q5); [lia|]. cbn [bind]. exists (Some e :: items). split; [reflexivity|].
      assert (Gt : forall e', In e' (oks items) -> cmp (fst e) (fst e') = Lt) by (intros e' J; destruct (Q1 _ J) as [J1 N1]; exact (not_shadow_gt has _ _ M1 J1 N1 _ L1)).
      split; [|split; [|split; [|split]]].
      + intros e' [<-|J]; [auto|]. destruct (Q1 _ J) as [J1 _]. split; [auto|]. intros (l & Ql & El). pose proof (not_shadow_gt has _ _ M Ie Ns _ Ql) as X.
        rewrite (cmp_lt_trans _ _ _ X (Gt _ J)) in El. discriminate.
      + change (oks (Some e :: items)) with (e :: oks items). apply sorted_cons. split; [apply Forall_forall; auto|exact Q2].
      + change (errors (Some e :: items)) with (errors items). lia.
      + intros F. apply Q4. now apply Ff.
      + intros out. destruct (mi_all has fuel it1) as [l| |]; cbn [bind]; try discriminate. intros E. injection E as <-. apply cut_cons. auto.
    - destruct N as (Sl & D & Dh'). destruct (IH fs1 it1 M1) as (items & -> & Q1 & Q2 & Q3 & Q4 & Q5); [lia|]. cbn [bind]. exists (None :: items). split; [reflexivity|].
      split; [|split; [exact Q2|split; [|split]]].
      + intros e' J. destruct (Q1 _ J) as [J1 N1]. split; [auto|]. intros Sh. now apply N1, Sl.
      + change (errors (None :: items)) with (Datatypes.S (errors items)). lia.
      + intros F. destruct (Ff F). congruence.
      + intros out _. right. exists [], out, items. auto.
    - rewrite N. cbn [bind]. exists []. split; [reflexivity|]. split; [intros e []|]. split; [apply sorted_nil|]. split; [cbn; lia|]. split; [reflexivity|]. intros out E. injection E as <-. now left.
  Qed.

  (** *** Without the tombstones *)
  Lemma filter_oks (l : list (option entry)) : oks (filter_items l) = live (oks l).
  Proof.
    unfold oks, filter_items, live. induction l as [|[[k v]|] l IH]; cbn [flat_map app]; [reflexivity| |exact IH].
    rewrite flat_map_app, IH. cbn [snd fst]. destruct (sv_data v); reflexivity.
  Qed.
  Lemma filter_errors (l : list (option entry)) : errors (filter_items l) = errors l.
  Proof.
    unfold errors, filter_items. induction l as [|[[k v]|] l IH]; cbn [flat_map app filter]; [reflexivity| |cbn [length]; congruence]. destruct (sv_data v); exact IH.
  Qed.
  Lemma filter_some (l : list entry) : filter_items (map Some l) = map Some (live l).
  Proof. unfold filter_items, live. induction l as [|[k v] l IH]; cbn [map flat_map]; [reflexivity|]. rewrite IH. cbn [snd fst]. destruct (sv_data v); reflexivity. Qed.
  Lemma filter_cut (l : list entry) items : cut l items -> cut (live l) (filter_items items).
  Proof.
    intros [->|(p & r & q & -> & ->)]; [left; apply filter_some|right]. exists (live p), (live r), (filter_items q). split; [apply flat_map_app|].
    unfold filter_items. rewrite flat_map_app. fold (filter_items (map Some p)). now rewrite filter_some.
  Qed.
  Lemma cut_whole {A} (l : list A) items : cut l items -> errors items = 0 -> items = map Some l.
  Proof.
    intros [->|(p & r & q & -> & ->)] E; [reflexivity|]. exfalso. unfold errors in E. rewrite filter_app, app_length in E. cbn in E. lia.
  Qed.
  Lemma sc_items_ok fs (it : miter) out : streams has it out ->
    exists items, sc_items has fs it = Ok items /\ cut (live out) items /\ sorted (oks items) /\ (forall k v, In (k, v) (oks items) -> exists t, In (k, mkSval (Some v) t) (pending it)) /\
      errors items <= length (mi_heap it) /\ (Forall (eq false) fs -> items = map Some (live out)).
  Proof.
    intros [M E]. destruct (sc_all_ok (Datatypes.S (mi_left it)) fs it M) as (items & Es & Q1 & Q2 & Q3 & Q4 & Q5); [rewrite left_pending; lia|].
    unfold sc_items. rewrite Es. cbn [bind]. exists (filter_items items). split; [reflexivity|]. pose proof (filter_cut _ _ (Q5 _ E)) as Cu. split; [exact Cu|]. split; [|split; [|split]].
    - rewrite filter_oks. now apply sorted_live.
    - intros k v. rewrite filter_oks. intros J. apply in_flat_map in J. destruct J as ([k' [d t]] & J & J'). cbn in J'. destruct d; [|destruct J']. destruct J' as [J'|[]]. injection J' as -> ->. exists t. now apply Q1.
    - now rewrite filter_errors.
    - intros F. apply cut_whole; [exact Cu|]. rewrite filter_errors. auto.
  Qed.
  Lemma heap_runs (it : miter) : minv has it -> length (mi_heap it) <= length (mi_runs it).
  Proof.
    intros M. replace (length (mi_heap it)) with (length (map snd (mi_heap it))) by apply map_length. rewrite <- (seq_length (length (mi_runs it)) 0). apply NoDup_incl_length; [apply (mv_nodup _ _ M)|].
    intros i J. apply in_map_iff in J. destruct J as ([e j] & <- & J). destruct (mv_heap _ _ M _ _ J) as (r & Er & _). apply in_seq. split; [lia|]. apply nth_error_Some. cbn. congruence.
  Qed.
End Scan.

(** *** From the tables *)
Section Tables.
  Context {K V : Type} `{CmpLaws K} (has : nat -> bool).
  Lemma fill_length (runs : list (list (diter K V))) : forall i rs h, mi_fill has i runs = Ok (rs, h) -> length rs = length runs.
  Proof.
    induction runs as [|r rs IH]; intros i rs' h E; cbn [mi_fill] in E; [now injection E as <- _|]. destruct (r_next has r) as [x| |]; cbn [bind] in E; try discriminate.
    destruct (mi_fill has (Datatypes.S i) rs) as [[rs1 h1]| |] eqn:Ef; cbn [bind] in E; try discriminate. apply IH in Ef. destruct x as [[e r']|]; injection E as <- _; cbn; lia.
  Qed.
  Lemma scan_tables (runs : list (list (table K V))) fs : Forall (Forall (fun t => has (t_id t) = true)) runs -> Forall (fun r => strictly_ascending (run_entries r)) runs ->
    exists it out items, mi_new has (map (map Closed) runs) = Ok it /\ merge_of (flat_map run_entries runs) out /\ sc_items has fs it = Ok items /\
      cut (live out) items /\ strictly_ascending (oks items) /\ (forall k v, In (k, v) (oks items) -> exists t, In (k, mkSval (Some v) t) (flat_map run_entries runs)) /\
      errors items <= length runs /\ (Forall (eq false) fs -> items = map Some (live out)).
  Proof.
    intros O So. destruct (iter_tables_ok has runs O So) as (it & out & E & Ec & M & Mo).
    destruct (sc_items_ok has fs it out (conj M Ec)) as (items & Ei & Cu & Sa & Ve & Er & Wh). exists it, out, items. repeat (split; [assumption|]). split; [|split; [|exact Wh]].
    - intros k v J. destruct (Ve k v J) as (t & Jt). exists t. unfold mi_new in E. destruct (mi_new_ok has (map (map Closed) runs)) as (it' & E' & _ & _ & P).
      + apply Forall_map. eapply Forall_impl; [|exact O]. intros r F. apply Forall_map. exact F.
      + apply Forall_map. eapply Forall_impl; [|exact So]. intros r. cbn beta. assert (Re : run_es (map Closed r) = run_entries r) by (unfold run_es, run_entries; induction r as [|t' r IH]; cbn; [reflexivity|now rewrite IH]). now rewrite Re.
      + unfold mi_new in E'. rewrite E' in E. injection E as <-. eapply Permutation_in in Jt; [|symmetry; exact P].
        assert (Ef : flat_map run_es (map (map Closed) runs) = flat_map run_entries runs).
        { clear. induction runs as [|r rs IH]; cbn [map flat_map]; [reflexivity|]. rewrite IH. f_equal. unfold run_es, run_entries. induction r as [|t r IH']; cbn; [reflexivity|now rewrite IH']. }
        now rewrite Ef in Jt.
    - pose proof (heap_runs has it M) as Hr. unfold mi_new in E. destruct (mi_fill has 0 (map (map Closed) runs)) as [[rs h]| |] eqn:Ef; cbn [bind] in E; try discriminate. injection E as <-. apply fill_length in Ef. rewrite map_length in Ef. cbn [mi_runs] in Hr. lia.
  Qed.
End Tables.

(** *** On the map *)
Section Maps.
  Context {K V : Type} `{CmpLaws K} {Z : Sizes K V} (St : strategy K V) (Inv : N -> st_meta St -> Prop) (Comp : st_meta St -> st_meta St -> Prop)
          (qd : K * sval V -> Prop) (lim : N -> Prop) (less : list (K * sval V) -> list (K * sval V) -> Prop) (slip : sp K V -> sp K V -> Prop).
  Context (L : laws St Inv Comp qd False lim less slip) (Ksize : forall k k' : K, cmp k k' = Eq -> ksize k = ksize k').
  Lemma scan_like fs a s : inv St Inv Comp qd a s -> jn St s -> lim (time s) ->
    exists s' l items, lsm_step St s LIter = Ok (s', OList l) /\ scan St fs s = Ok (s', items) /\ cut l items /\ (Forall (eq false) fs -> items = map Some l).
  Proof.
    intros I J Li. destruct (flush_ok St Inv Comp qd False lim less slip L a s I J Li) as [[[] _]|(s1 & E1 & a1 & _ & I1 & J1 & _)].
    destruct (disk_iter_ok St Inv Comp qd False lim less slip L _ s1 I1 J1) as [[[] _]|([s2 it] & E2 & a2 & _ & _ & _ & _ & _ & _ & _ & _ & _ & _ & out & So & _)].
    destruct (sc_items_ok (has St s2) fs it out So) as (items & Ei & Cu & _ & _ & _ & Wh). exists s2, (live out), items. split; [|split; [|auto]].
    - cbn [lsm_step]. unfold all. rewrite E1. cbn [bind]. rewrite E2. cbn [bind]. now rewrite (live_collect_ok _ it out So).
    - unfold scan. rewrite E1. cbn [bind]. rewrite E2. cbn [bind]. now rewrite Ei.
  Qed.
  Lemma scan_run ops : lim (N.of_nat (length ops)) -> well_used sp_new ops -> Forall (covered qd) ops ->
    exists s outs, run (lsm_step St) (lsm_new St) ops = Ok (s, outs) /\ forall fs, exists s' l items,
      lsm_step St s LIter = Ok (s', OList l) /\ scan St fs s = Ok (s', items) /\ cut l items /\ (Forall (eq false) fs -> items = map Some l).
  Proof.
    intros Li Wu Cv. destruct (loose_run St Inv Comp qd lim less slip L Ksize ops Li Wu Cv) as (s & outs & a & E & _ & I & J & Ti). exists s, outs. split; [exact E|]. intros fs.
    apply (scan_like fs a s I J). apply (lw_lim _ _ _ _ _ _ _ _ L _ _ Li Ti).
  Qed.
End Maps.
Section Strategies.
  Context {K V : Type} `{CmpLaws K} {Z : Sizes K V} (Ksize : forall k k' : K, cmp k k' = Eq -> ksize k = ksize k').
  Lemma leveled_scan cfg (ops : list (lsm_op K V)) : limits_positive cfg (N.of_nat (length ops)) -> well_used sp_new ops ->
    exists s outs, run (lsm_step (leveled cfg)) (lsm_new (leveled cfg)) ops = Ok (s, outs) /\ forall fs, exists s' l items,
      lsm_step (leveled cfg) s LIter = Ok (s', OList l) /\ scan (leveled cfg) fs s = Ok (s', items) /\ cut l items /\ (Forall (eq false) fs -> items = map Some l).
  Proof.
    intros Li W. apply (scan_run (leveled cfg) (vinv cfg) lcomp (fun _ => True) (llim cfg) shrink eq (leveled_laws cfg) Ksize); [now apply limits_lim|exact W|apply covered_all].
  Qed.
  Lemma tiered_scan cfg (ops : list (lsm_op K V)) : well_used sp_new ops ->
    exists s outs, run (lsm_step (size_tiered cfg)) (lsm_new (size_tiered cfg)) ops = Ok (s, outs) /\ forall fs, exists s' l items,
      lsm_step (size_tiered cfg) s LIter = Ok (s', OList l) /\ scan (size_tiered cfg) fs s = Ok (s', items) /\ cut l items /\ (Forall (eq false) fs -> items = map Some l).
  Proof.
    intros W. apply (scan_run (size_tiered cfg) zinv (fun _ _ => True) (allows (inserted ops)) (fun _ => True) loose (revived (inserted ops))); auto.
    - apply loose_laws. apply inserted_key.
    - eapply Forall_impl; [|apply inserted_all]. intros o. apply allows_covered. apply inserted_key.
  Qed.
End Strategies.

(** *** min *)
Lemma cut_min {K V : Type} (l : list (K * V)) items : cut l items -> items_min items = None \/ items_min items = Some (option_map fst (hd_error l)).
Proof. intros [->|(p & r & q & -> & ->)]; [right; destruct l; reflexivity|]. destruct p; [now left|now right]. Qed.
