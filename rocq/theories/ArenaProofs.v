(** Proofs about ArenaModel.v. *)
From Verif Require Export ArenaModel ListLemmas.

Section ArenaProofs.
  Context {T : Type}.
  Notation chunks := (list (list (block T))).
  Implicit Types (e : entry) (live : list (entry * T)) (cs : chunks) (a : arena T).

  Lemma entry_eqb_spec e1 e2 : reflect (e1 = e2) (entry_eqb e1 e2).
  Proof.
    destruct e1 as [x y], e2 as [z w]. unfold entry_eqb. simpl.
    destruct (Nat.eqb_spec x z), (Nat.eqb_spec y w); constructor; congruence.
  Qed.

  Lemma get_set cs e b e' :
    get_block (set_block cs e b) e' =
      if entry_eqb e e' then (match get_block cs e with Some _ => Some b | None => None end) else get_block cs e'.
  Proof.
    unfold get_block, set_block. destruct e as [x y], e' as [z w]; cbn [fst snd].
    destruct (nth_error cs x) as [c|] eqn:E.
    - rewrite list_set_nth. assert (Hx : x < length cs) by (apply nth_error_Some; congruence).
      apply Nat.ltb_lt in Hx. rewrite Hx. unfold entry_eqb; cbn [fst snd].
      destruct (Nat.eqb_spec x z) as [->|Hne]; cbn [andb]; [|reflexivity].
      rewrite E, list_set_nth. destruct (y =? w); [|reflexivity].
      destruct (Nat.ltb_spec y (length c)) as [L|L].
      + apply nth_error_Some in L. destruct (nth_error c y); congruence.
      + apply nth_error_None in L. now rewrite L.
    - destruct (entry_eqb_spec (x, y) (z, w)) as [Eq|Hne]; [|reflexivity]. injection Eq as <- <-. now rewrite E.
  Qed.

  Lemma valid_get a e : is_valid_entry a e = match get_block (a_chunks a) e with Some _ => true | None => false end.
  Proof.
    unfold is_valid_entry, get_block. destruct (nth_error (a_chunks a) (fst e)) as [c|] eqn:E.
    - assert (Hx : fst e < length (a_chunks a)) by (apply nth_error_Some; congruence).
      apply Nat.ltb_lt in Hx. rewrite Hx. cbn [andb].
      destruct (Nat.ltb_spec (snd e) (length c)) as [L|L].
      + apply nth_error_Some in L. destruct (nth_error c (snd e)); congruence.
      + apply nth_error_None in L. now rewrite L.
    - now rewrite Bool.andb_false_r.
  Qed.

  (** Free list. *)
  Fixpoint chain cs (h : option entry) (fl : list entry) : Prop :=
    match fl with
    | [] => h = None
    | e :: fl' => h = Some e /\ exists next, get_block cs e = Some (Vacant next) /\ chain cs next fl'
    end.

  Lemma chain_ext cs cs' h fl : (forall e, In e fl -> get_block cs' e = get_block cs e) ->
    chain cs h fl -> chain cs' h fl.
  Proof.
    revert h. induction fl as [|e fl IH]; intros h E; simpl; auto.
    intros (-> & n & G & Ch). split; auto. exists n. rewrite E by (simpl; auto). split; auto.
    apply IH; auto. intros x Hx. apply E. simpl; auto.
  Qed.
  Lemma chain_vacant cs h fl e : chain cs h fl -> In e fl -> exists n, get_block cs e = Some (Vacant n).
  Proof.
    revert h. induction fl as [|x fl IH]; intros h Ch []; destruct Ch as (-> & n & G & Ch); subst; eauto.
  Qed.

  Definition corr cs live : Prop := forall e v, get_block cs e = Some (Occupied v) <-> lookup e live = Some v.

  Definition ainv (fl : list entry) a live : Prop :=
    corr (a_chunks a) live /\ NoDup (map fst live) /\ a_size a = length live /\
    chain (a_chunks a) (a_head a) fl /\ NoDup fl /\ (a_chunks a = [] -> a_size a = a_capacity a).

  Lemma lookup_in e live : lookup e live = None <-> ~ In e (map fst live).
  Proof.
    induction live as [|[x v] l IH]; simpl; [tauto|].
    destruct (entry_eqb_spec e x) as [->|Hn]; split; intros X; try discriminate; try (exfalso; apply X; auto; fail).
    - intros [<-|Y]; [congruence|]. now apply IH.
    - apply IH. tauto.
  Qed.

  Lemma lookup_forget e e' live : lookup e' (forget e live) = if entry_eqb e e' then None else lookup e' live.
  Proof.
    induction live as [|[x v] l IH]; simpl; [now destruct (entry_eqb _ _)|].
    destruct (entry_eqb_spec e x) as [->|Hn]; simpl; rewrite IH.
    - destruct (entry_eqb_spec x e'), (entry_eqb_spec e' x); congruence.
    - destruct (entry_eqb_spec e e'), (entry_eqb_spec e' x); congruence.
  Qed.
  Lemma forget_none e live : lookup e live = None -> forget e live = live.
  Proof.
    induction live as [|[x v] l IH]; simpl; auto. destruct (entry_eqb_spec e x); simpl; [discriminate|].
    intros X. now rewrite IH.
  Qed.
  Lemma forget_fst e live : map fst (forget e live) = filter (fun x => negb (entry_eqb e x)) (map fst live).
  Proof. induction live as [|[x v] l IH]; simpl; auto. destruct (entry_eqb e x); simpl; congruence. Qed.
  Lemma forget_length e live v : NoDup (map fst live) -> lookup e live = Some v ->
    S (length (forget e live)) = length live.
  Proof.
    induction live as [|[x w] l IH]; simpl; [discriminate|]. intros ND. inversion_clear ND.
    destruct (entry_eqb_spec e x) as [->|Hn]; simpl; intros X.
    - fold (forget x l). rewrite forget_none; auto. now apply lookup_in.
    - f_equal. now apply IH.
  Qed.
  Lemma lookup_write e e' v live : lookup e' (write e v live) =
    if entry_eqb e e' then (match lookup e live with Some _ => Some v | None => None end) else lookup e' live.
  Proof.
    induction live as [|[x w] l IH]; simpl; [now destruct (entry_eqb _ _)|].
    destruct (entry_eqb_spec e x) as [->|Hn]; simpl; rewrite ?IH.
    - destruct (entry_eqb_spec x e'), (entry_eqb_spec e' x); congruence.
    - destruct (entry_eqb_spec e e'), (entry_eqb_spec e' x); congruence.
  Qed.
  Lemma write_fst e v live : map fst (write e v live) = map fst live.
  Proof.
    induction live as [|[x w] l IH]; simpl; auto. destruct (entry_eqb_spec e x); simpl; congruence.
  Qed.
  Lemma write_none e v live : lookup e live = None -> write e v live = live.
  Proof.
    induction live as [|[x w] l IH]; simpl; auto. destruct (entry_eqb_spec e x); [discriminate|].
    intros X. now rewrite IH.
  Qed.

  Lemma corr_none cs live e : corr cs live -> (forall v, get_block cs e <> Some (Occupied v)) -> lookup e live = None.
  Proof. intros C N. destruct (lookup e live) eqn:E; auto. apply C in E. now apply N in E. Qed.

  Lemma get_block_push cs e : get_block (cs ++ [[]]) e = get_block cs e.
  Proof.
    unfold get_block. destruct (Nat.lt_ge_cases (fst e) (length cs)) as [L|L].
    - now rewrite nth_error_app1.
    - rewrite nth_error_app2 by lia. rewrite (proj2 (nth_error_None cs (fst e)) L).
      destruct (fst e - length cs) as [|[|k]]; simpl; auto. now destruct (snd e).
  Qed.

  Lemma get_block_grow cs i c b e : nth_error cs i = Some c ->
    get_block (list_set cs i (c ++ [b])) e = if entry_eqb (i, length c) e then Some b else get_block cs e.
  Proof.
    intros E. unfold get_block. rewrite list_set_nth. assert (Hx : i < length cs) by (apply nth_error_Some; congruence).
    apply Nat.ltb_lt in Hx. rewrite Hx. destruct e as [x y]. unfold entry_eqb. cbn [fst snd].
    destruct (Nat.eqb_spec i x) as [->|]; cbn [andb]; [|reflexivity]. rewrite E.
    destruct (Nat.eqb_spec (length c) y) as [<-|Hn].
    - rewrite nth_error_app2, Nat.sub_diag by lia. reflexivity.
    - destruct (Nat.lt_ge_cases y (length c)).
      + now rewrite nth_error_app1.
      + rewrite (proj2 (nth_error_None c y)) by lia. apply nth_error_None. rewrite app_length. simpl. lia.
  Qed.

  (** The two ways allocate can go. *)
  Lemma arena_allocate_ok fl a live v : ainv fl a live -> exists a' e,
    arena_allocate a v = Ok (a', e) /\ lookup e live = None /\
    match fl with
    | f :: fs => e = f /\ ainv fs a' ((e, v) :: live)
    | [] => ainv [] a' ((e, v) :: live)
    end.
  Proof.
    intros (C & ND & Sz & Ch & NF & Em). unfold arena_allocate.
    set (full := a_size a =? a_capacity a).
    set (cs := if full then a_chunks a ++ [[]] else a_chunks a).
    set (cap := if full then a_capacity a + a_chunk_size a else a_capacity a).
    replace (if full then (a_chunks a ++ [[]], a_capacity a + a_chunk_size a) else (a_chunks a, a_capacity a))
      with (cs, cap) by (unfold cs, cap; now destruct full).
    assert (G : forall e, get_block cs e = get_block (a_chunks a) e).
    { intros e. unfold cs. destruct full; auto. apply get_block_push. }
    assert (NE : cs <> []).
    { unfold cs, full. destruct (Nat.eqb_spec (a_size a) (a_capacity a)) as [E|E]; [now destruct (a_chunks a)|].
      intros X. now apply E, Em. }
    destruct fl as [|f fs]; simpl in Ch.
    - rewrite Ch. unfold checked_sub. assert (L : 1 <= length cs) by (destruct cs; [congruence | simpl; lia]).
      rewrite (proj2 (Nat.leb_le _ _) L). cbn [bind].
      destruct (nth_error cs (length cs - 1)) as [c|] eqn:E; [|apply nth_error_None in E; lia].
      assert (Gn : get_block (a_chunks a) (length cs - 1, length c) = None).
      { rewrite <- G. unfold get_block. cbn [fst snd]. rewrite E. now apply nth_error_None. }
      assert (Ln : lookup (length cs - 1, length c) live = None).
      { apply (corr_none _ _ _ C). intros w. now rewrite Gn. }
      do 2 eexists. split; [reflexivity|]. split; [exact Ln|].
      split; [|split; [|split; [|split; [|split]]]]; simpl.
      + intros e w. rewrite (get_block_grow _ _ _ _ _ E). simpl.
        destruct (entry_eqb_spec (length cs - 1, length c) e) as [Eq1|Hn],
                 (entry_eqb_spec e (length cs - 1, length c)) as [Eq|Hn2]; try congruence.
        * split; congruence.
        * rewrite G. apply C.
      + constructor; auto. now apply lookup_in.
      + lia.
      + reflexivity.
      + constructor.
      + intros X. exfalso. apply (f_equal (@length _)) in X. rewrite list_set_length in X. simpl in X. lia.
    - destruct Ch as (-> & n & Gv & Ch). rewrite G, Gv.
      assert (Ln : lookup f live = None).
      { apply (corr_none _ _ _ C). intros w. now rewrite Gv. }
      do 2 eexists. split; [reflexivity|]. split; [exact Ln|]. split; [reflexivity|].
      inversion_clear NF as [|? ? NI ND'].
      split; [|split; [|split; [|split; [|split]]]]; simpl.
      + intros e w. cbn [lookup]. rewrite get_set. rewrite !G, Gv. destruct (entry_eqb_spec f e) as [Eq1|Hn],
                 (entry_eqb_spec e f) as [Eq|Hn2]; try congruence.
        * split; congruence.
        * apply C.
      + constructor; auto. now apply lookup_in.
      + lia.
      + eapply chain_ext; [|exact Ch]. intros e He. rewrite get_set. rewrite !G.
        destruct (entry_eqb_spec f e) as [<-|]; [contradiction | reflexivity].
      + exact ND'.
      + intros X. exfalso. unfold set_block in X. destruct (nth_error cs (fst f)) as [c|]; [|contradiction].
        apply (f_equal (@length _)) in X. rewrite list_set_length in X. now destruct cs.
  Qed.

  Lemma set_block_nil cs e b : set_block cs e b = [] -> cs = [].
  Proof.
    unfold set_block. destruct (nth_error cs (fst e)); auto. intros X.
    apply (f_equal (@length _)) in X. rewrite list_set_length in X. now destruct cs.
  Qed.

  Lemma arena_free_ok fl a live e : ainv fl a live -> exists a',
    arena_free a e = Ok (a', expect (lookup e live)) /\
    match lookup e live with
    | Some _ => ainv (e :: fl) a' (forget e live)
    | None => exists fl', ainv fl' a' live
    end.
  Proof.
    intros (C & ND & Sz & Ch & NF & Em). unfold arena_free. rewrite valid_get.
    destruct (get_block (a_chunks a) e) as [[v|n]|] eqn:G.
    - assert (Lv : lookup e live = Some v) by now apply C. rewrite Lv.
      pose proof (forget_length e live v ND Lv) as Lf. unfold checked_pred. rewrite Sz, <- Lf. cbn [bind].
      eexists; split; [reflexivity|].
      split; [|split; [|split; [|split; [|split]]]]; simpl.
      + intros e' w. rewrite get_set, lookup_forget, G. destruct (entry_eqb e e'); [split; discriminate | apply C].
      + rewrite forget_fst. now apply NoDup_filter.
      + reflexivity.
      + split; [reflexivity|]. exists (a_head a). rewrite get_set, G. split.
        * destruct (entry_eqb_spec e e); congruence.
        * eapply chain_ext; [|exact Ch]. intros e' He. rewrite get_set.
          destruct (entry_eqb_spec e e') as [<-|]; [|reflexivity].
          destruct (chain_vacant _ _ _ _ Ch He) as [n Gn]. congruence.
      + constructor; auto. intros He. destruct (chain_vacant _ _ _ _ Ch He) as [n Gn]. congruence.
      + intros X. apply set_block_nil in X. rewrite X in G. unfold get_block in G. now destruct (fst e).
    - assert (Lv : lookup e live = None) by (apply (corr_none _ _ _ C); intros w; now rewrite G).
      rewrite Lv. eexists; split; [reflexivity|]. exists [].
      split; [|split; [|split; [|split; [|split]]]]; simpl; auto.
      + intros e' w. rewrite get_set, G. destruct (entry_eqb_spec e e') as [<-|]; [|apply C].
        rewrite Lv. split; discriminate.
      + constructor.
      + intros X. apply set_block_nil in X. auto.
    - assert (Lv : lookup e live = None) by (apply (corr_none _ _ _ C); intros w; now rewrite G).
      rewrite Lv. eexists; split; [reflexivity|]. exists fl. repeat split; auto; apply C.
  Qed.

  Lemma arena_get_ok fl a live e : ainv fl a live -> arena_get a e = Ok (lookup e live).
  Proof.
    intros (C & _). unfold arena_get. rewrite valid_get. destruct (get_block (a_chunks a) e) as [[v|n]|] eqn:G.
    - apply C in G. now rewrite G.
    - rewrite (corr_none _ _ e C); auto. now rewrite G.
    - rewrite (corr_none _ _ e C); auto. now rewrite G.
  Qed.

  Lemma arena_get_mut_ok fl a live e v : ainv fl a live -> exists a',
    arena_get_mut_set a e v = Ok (a', lookup e live) /\ ainv fl a' (write e v live).
  Proof.
    intros (C & ND & Sz & Ch & NF & Em). unfold arena_get_mut_set. rewrite valid_get.
    destruct (get_block (a_chunks a) e) as [[x|n]|] eqn:G.
    - assert (Lv : lookup e live = Some x) by now apply C. rewrite Lv. eexists; split; [reflexivity|].
      split; [|split; [|split; [|split; [|split]]]]; simpl; auto.
      + intros e' w. rewrite get_set, lookup_write, G, Lv. destruct (entry_eqb e e'); [split; congruence | apply C].
      + now rewrite write_fst.
      + unfold write. now rewrite map_length.
      + eapply chain_ext; [|exact Ch]. intros e' He. rewrite get_set.
        destruct (entry_eqb_spec e e') as [<-|]; [|reflexivity].
        destruct (chain_vacant _ _ _ _ Ch He) as [n Gn]. congruence.
      + intros X. apply set_block_nil in X. auto.
    - rewrite (corr_none _ _ e C) by now rewrite G. eexists; split; [reflexivity|].
      rewrite write_none by (apply (corr_none _ _ e C); now rewrite G). repeat split; auto; apply C.
    - rewrite (corr_none _ _ e C) by now rewrite G. eexists; split; [reflexivity|].
      rewrite write_none by (apply (corr_none _ _ e C); now rewrite G). repeat split; auto; apply C.
  Qed.

  Lemma arena_step_ok fl a live (o : arena_op T) : ainv fl a live -> exists a' out fl' live',
    arena_step a o = Ok (a', out) /\ ainv fl' a' live' /\
    (forall tr, live_trace live' tr -> live_trace live ((o, out) :: tr)).
  Proof.
    intros I. destruct o as [v|e|e|e v|e|e v]; cbn [arena_step live_trace].
    - destruct (arena_allocate_ok fl a live v I) as (a' & e & E & Ln & M). rewrite E. cbn [bind].
      exists a', (AEntry e), (tl fl), ((e, v) :: live). split; [reflexivity|]. split; [|eauto].
      destruct fl; [exact M | apply M].
    - destruct (arena_free_ok fl a live e I) as (a' & E & M). rewrite E. cbn [bind].
      destruct (lookup e live) as [x|] eqn:El.
      + exists a', (AVal (Ok x)), (e :: fl), (forget e live). auto.
      + destruct M as [fl' M]. exists a', (AVal Panic), fl', live. split; [reflexivity|]. split; auto.
        intros tr Ht. rewrite forget_none by assumption. auto.
    - rewrite (arena_get_ok fl a live e I). cbn [bind]. do 4 eexists. split; [reflexivity|]. split; [exact I|]. auto.
    - destruct (arena_get_mut_ok fl a live e v I) as (a' & E & M). rewrite E. cbn [bind].
      do 4 eexists. split; [reflexivity|]. split; [exact M|]. auto.
    - rewrite (arena_get_ok fl a live e I). cbn [bind]. do 4 eexists. split; [reflexivity|]. split; [exact I|]. auto.
    - destruct (arena_get_mut_ok fl a live e v I) as (a' & E & M). rewrite E. cbn [bind].
      do 4 eexists. split; [reflexivity|]. split; [exact M|]. auto.
  Qed.

  Lemma ainv_new n : ainv [] (arena_new n) [].
  Proof.
    repeat split; simpl; auto; try constructor; try discriminate.
    unfold get_block. simpl. now destruct (fst e).
  Qed.

  Lemma arena_live_gen (ops : list (arena_op T)) : forall fl a live, ainv fl a live ->
    exists a' outs, run arena_step a ops = Ok (a', outs) /\ length outs = length ops /\
                    live_trace live (combine ops outs).
  Proof.
    induction ops as [|o ops IH]; intros fl a live I; simpl.
    - eauto 10.
    - destruct (arena_step_ok fl a live o I) as (a1 & out & fl1 & live1 & E & I1 & K). rewrite E. cbn [bind].
      destruct (IH _ _ _ I1) as (a2 & outs & E2 & Ln & Tr). rewrite E2. cbn [bind].
      do 2 eexists; split; [reflexivity|]. split; [simpl; auto|]. now apply K.
  Qed.

  Lemma arena_live (n : nat) (ops : list (arena_op T)) :
    exists a outs, run arena_step (arena_new n) ops = Ok (a, outs) /\ length outs = length ops /\
                   live_trace [] (combine ops outs).
  Proof. apply arena_live_gen with []. apply ainv_new. Qed.

  (** Storage: number of slots, chunk sizes. *)
  Definition slots (cs : chunks) : nat := length (concat cs).

  Lemma slots_set cs : forall i c c', nth_error cs i = Some c ->
    slots (list_set cs i c') + length c = slots cs + length c'.
  Proof.
    unfold slots. induction cs as [|d cs IH]; intros [|i] c c' E; simpl in *; try discriminate.
    - injection E as ->. rewrite !app_length. lia.
    - rewrite !app_length. specialize (IH i c c' E). lia.
  Qed.
  Lemma slots_set_block cs e b : slots (set_block cs e b) = slots cs.
  Proof.
    unfold set_block. destruct (nth_error cs (fst e)) as [c|] eqn:E; auto.
    pose proof (slots_set cs (fst e) c (list_set c (snd e) b) E) as X. rewrite list_set_length in X. lia.
  Qed.

  (** All chunks full except possibly the last one. *)
  Definition packed (n : nat) (cs : chunks) : Prop :=
    cs = [] \/ exists full last, cs = full ++ [last] /\ Forall (fun c => length c = n) full /\ length last <= n.

  Lemma packed_slots n cs full last : cs = full ++ [last] -> Forall (fun c => length c = n) full ->
    slots cs = length full * n + length last.
  Proof.
    intros -> F. unfold slots. rewrite concat_app, app_length. simpl. rewrite app_nil_r. f_equal.
    induction F; simpl; auto. rewrite app_length. lia.
  Qed.

  Lemma list_set_len_forall (P : nat -> Prop) cs : forall i c c', nth_error cs i = Some c -> length c' = length c ->
    Forall (fun c => P (length c)) cs -> Forall (fun c => P (length c)) (list_set cs i c').
  Proof.
    induction cs as [|d cs IH]; intros [|i] c c' E L F; simpl in *; try discriminate; inversion_clear F; constructor; auto.
    - injection E as ->. now rewrite L.
    - eauto.
  Qed.

  Lemma list_set_app_last {A} (l : list A) x y : list_set (l ++ [x]) (length l) y = l ++ [y].
  Proof. induction l; simpl; congruence. Qed.
  Lemma list_set_app1 {A} (l r : list A) i y : i < length l -> list_set (l ++ r) i y = list_set l i y ++ r.
  Proof. revert i. induction l; intros [|i] L; simpl in *; try lia; auto. rewrite IHl by lia. auto. Qed.

  Lemma packed_set_block n cs e b : packed n cs -> packed n (set_block cs e b).
  Proof.
    intros P. unfold set_block. destruct (nth_error cs (fst e)) as [c|] eqn:E; [|exact P].
    destruct P as [->|(full & last & -> & F & L)]; [now left|]. right.
    destruct (Nat.lt_ge_cases (fst e) (length full)) as [Hl|Hl].
    - rewrite nth_error_app1 in E by exact Hl. rewrite list_set_app1 by exact Hl.
      do 2 eexists; split; [reflexivity|]. split; [|exact L].
      apply (list_set_len_forall (fun k => k = n)) with c; auto. apply list_set_length.
    - assert (X : fst e < length (full ++ [last])) by (apply nth_error_Some; congruence).
      rewrite app_length in X. simpl in X. replace (fst e) with (length full) in * by lia.
      rewrite nth_error_app2, Nat.sub_diag in E by lia. injection E as <-.
      rewrite list_set_app_last. do 2 eexists; split; [reflexivity|]. split; [exact F|]. now rewrite list_set_length.
  Qed.

  Definition sinv (fl : list entry) a (n : nat) (peak : nat) : Prop :=
    slots (a_chunks a) = a_size a + length fl /\ a_chunk_size a = n /\ peak = slots (a_chunks a) /\
    (n <> 0 -> packed n (a_chunks a) /\ a_capacity a = length (a_chunks a) * n).

  Lemma slots_le n cs : packed n cs -> slots cs <= length cs * n.
  Proof.
    intros [->|(f & l & E & F & L)]; [simpl; auto|]. rewrite (packed_slots n cs f l E F), E, app_length. simpl. nia.
  Qed.
  Lemma slots_full n cs : packed n cs -> slots cs = length cs * n -> Forall (fun c => length c = n) cs.
  Proof.
    intros [->|(f & l & E & F & L)]; [constructor|]. rewrite (packed_slots n cs f l E F), E, app_length. simpl.
    intros X. apply Forall_app. split; [exact F|]. constructor; [|constructor]. nia.
  Qed.

  Lemma arena_allocate_storage fl a live v a' e n peak : ainv fl a live -> sinv fl a n peak ->
    arena_allocate a v = Ok (a', e) -> sinv (tl fl) a' n (Nat.max peak (S (length live))).
  Proof.
    intros I S E. pose proof I as (C & ND & Sz & Ch & NF & Em). destruct S as (S1 & S2 & S3 & S4).
    unfold arena_allocate in E.
    set (full := a_size a =? a_capacity a) in *.
    set (cs := if full then a_chunks a ++ [[]] else a_chunks a) in *.
    set (cap := if full then a_capacity a + a_chunk_size a else a_capacity a) in *.
    replace (if full then (a_chunks a ++ [[]], a_capacity a + a_chunk_size a) else (a_chunks a, a_capacity a))
      with (cs, cap) in E by (unfold cs, cap; now destruct full).
    assert (Sc : slots cs = slots (a_chunks a)).
    { unfold cs. destruct full; auto. unfold slots. rewrite concat_app. simpl. now rewrite app_nil_r. }
    assert (P : n <> 0 -> packed n cs /\ cap = length cs * n /\ (fl = [] -> slots cs < cap)).
    { intros Hn. destruct (S4 Hn) as (P & Hc). pose proof (slots_le _ _ P) as Le.
      unfold cs, cap, full. destruct (Nat.eqb_spec (a_size a) (a_capacity a)) as [Eq|Ne].
      - assert (F : Forall (fun c => length c = n) (a_chunks a)) by (apply slots_full; auto; lia).
        split; [right; do 2 eexists; split; [reflexivity|]; split; [exact F | simpl; lia]|].
        rewrite app_length. simpl. split; [lia|]. intros _. unfold slots. rewrite concat_app. simpl.
        rewrite app_nil_r. fold (slots (a_chunks a)). lia.
      - split; auto. split; auto. intros ->. simpl in S1. lia. }
    destruct fl as [|f fs]; simpl in Ch.
    - rewrite Ch in E. unfold checked_sub in E. destruct (1 <=? length cs) eqn:L1; [|discriminate]. cbn [bind] in E.
      apply Nat.leb_le in L1. destruct (nth_error cs (length cs - 1)) as [c|] eqn:En; [|discriminate].
      injection E as <- <-. unfold sinv. cbn [a_chunks a_size a_chunk_size a_capacity tl length].
      pose proof (slots_set cs _ _ (c ++ [Occupied v]) En) as X. rewrite app_length in X. simpl in X. simpl in S1.
      split; [lia|]. split; [exact S2|]. split; [lia|]. intros Hn. destruct (P Hn) as (Pk & Hc & Lt).
      rewrite list_set_length. split; [|exact Hc].
      destruct Pk as [Ek|(f & l & Ek & F & Lk)]; [rewrite Ek in L1; simpl in L1; lia|].
      right. rewrite Ek in *. replace (length (f ++ [l]) - 1) with (length f) in * by (rewrite app_length; simpl; lia).
      rewrite nth_error_app2, Nat.sub_diag in En by lia. injection En as <-.
      rewrite list_set_app_last. do 2 eexists; split; [reflexivity|]. split; [exact F|].
      specialize (Lt eq_refl). rewrite (packed_slots n _ f l eq_refl F) in Lt. rewrite app_length in Hc. simpl in Hc.
      rewrite app_length. simpl. nia.
    - destruct Ch as (Hh & _). rewrite Hh in E. destruct (get_block cs f) as [[|nx]|]; try discriminate.
      injection E as <- <-. unfold sinv. cbn [a_chunks a_size a_chunk_size a_capacity tl length].
      rewrite slots_set_block. simpl in S1. split; [lia|]. split; [exact S2|]. split; [lia|].
      intros Hn. destruct (P Hn) as (Pk & Hc & _). split; [now apply packed_set_block|].
      rewrite Hc. f_equal. unfold set_block. destruct (nth_error cs (fst f)); auto. now rewrite list_set_length.
  Qed.

  Lemma set_block_length cs e b : length (set_block cs e b) = length cs.
  Proof. unfold set_block. destruct (nth_error cs (fst e)); auto. apply list_set_length. Qed.

  Lemma arena_step_strong fl a live (o : arena_op T) n peak : ainv fl a live -> sinv fl a n peak ->
    exists a' out, arena_step a o = Ok (a', out) /\
    (match o, out with AFree _, AVal Panic => False | _, _ => True end ->
     exists fl' live' peak', ainv fl' a' live' /\ sinv fl' a' n peak' /\
      (forall tr, reuse_trace (map fst live') fl' tr -> reuse_trace (map fst live) fl ((o, out) :: tr)) /\
      (forall tr, peak_live (length live) peak ((o, out) :: tr) = peak_live (length live') peak' tr)).
  Proof.
    intros I St. destruct o as [v|e|e|e v|e|e v]; cbn [arena_step].
    - destruct (arena_allocate_ok fl a live v I) as (a' & e & E & Ln & M).
      pose proof (arena_allocate_storage fl a live v a' e n peak I St E) as St'. rewrite E. cbn [bind].
      exists a', (AEntry e). split; [reflexivity|]. intros _.
      exists (tl fl), ((e, v) :: live), (Nat.max peak (S (length live))). split; [destruct fl; [exact M | apply M]|].
      split; [exact St'|]. split.
      + intros tr. destruct fl as [|f fs]; cbn; [rewrite <- lookup_in; tauto | tauto].
      + reflexivity.
    - destruct (arena_free_ok fl a live e I) as (a' & E & M). rewrite E. cbn [bind].
      exists a', (AVal (expect (lookup e live))). split; [reflexivity|].
      destruct (lookup e live) as [x|] eqn:El; cbn [expect]; [|intros []]. intros _.
      exists (e :: fl), (forget e live), peak. split; [exact M|]. split.
      + unfold arena_free in E. rewrite valid_get in E. destruct I as (C & ND & Sz & _).
        rewrite (proj2 (C e x) El) in E.
        destruct (checked_pred (a_size a)) as [sz| |] eqn:Es; cbn [bind] in E; try discriminate.
        injection E as <-. unfold checked_pred in Es. destruct (a_size a) as [|k] eqn:Ek; [discriminate|].
        injection Es as ->. destruct St as (S1 & S2 & S3 & S4).
        unfold sinv. cbn [a_chunks a_size a_chunk_size a_capacity length]. rewrite slots_set_block, set_block_length.
        split; [lia|]. split; [exact S2|]. split; [exact S3|]. intros Hn. destruct (S4 Hn).
        split; [now apply packed_set_block | assumption].
      + split; [intros tr; cbn; now rewrite forget_fst|]. intros tr. cbn.
        destruct I as (_ & ND & _). rewrite <- (forget_length e live x ND El). simpl. now rewrite Nat.sub_0_r.
    - rewrite (arena_get_ok fl a live e I). cbn [bind]. do 2 eexists. split; [reflexivity|]. intros _.
      exists fl, live, peak. auto.
    - destruct (arena_get_mut_ok fl a live e v I) as (a' & E & M). rewrite E. cbn [bind].
      do 2 eexists. split; [reflexivity|]. intros _. exists fl, (write e v live), peak. split; [exact M|]. split.
      + unfold arena_get_mut_set in E. destruct (is_valid_entry a e); [|injection E as <- _; exact St].
        destruct (get_block (a_chunks a) e) as [[|]|]; [|injection E as <- _; exact St|discriminate].
        injection E as <- _. destruct St as (S1 & S2 & S3 & S4).
        unfold sinv. cbn [a_chunks a_size a_chunk_size a_capacity]. rewrite slots_set_block, set_block_length.
        split; [auto|]; split; [auto|]; split; [auto|]. intros Hn; destruct (S4 Hn); auto using packed_set_block.
      + split; [intros tr; cbn; now rewrite write_fst|]. intros tr. cbn. unfold write. now rewrite map_length.
    - rewrite (arena_get_ok fl a live e I). cbn [bind]. do 2 eexists. split; [reflexivity|]. intros _.
      exists fl, live, peak. auto.
    - destruct (arena_get_mut_ok fl a live e v I) as (a' & E & M). rewrite E. cbn [bind].
      do 2 eexists. split; [reflexivity|]. intros _. exists fl, (write e v live), peak. split; [exact M|]. split.
      + unfold arena_get_mut_set in E. destruct (is_valid_entry a e); [|injection E as <- _; exact St].
        destruct (get_block (a_chunks a) e) as [[|]|]; [|injection E as <- _; exact St|discriminate].
        injection E as <- _. destruct St as (S1 & S2 & S3 & S4).
        unfold sinv. cbn [a_chunks a_size a_chunk_size a_capacity]. rewrite slots_set_block, set_block_length.
        split; [auto|]; split; [auto|]; split; [auto|]. intros Hn; destruct (S4 Hn); auto using packed_set_block.
      + split; [intros tr; cbn; now rewrite write_fst|]. intros tr. cbn. unfold write. now rewrite map_length.
  Qed.

  Lemma arena_strong_gen (ops : list (arena_op T)) n : forall fl a live peak a' outs,
    ainv fl a live -> sinv fl a n peak ->
    run arena_step a ops = Ok (a', outs) -> no_bad_free (combine ops outs) ->
    reuse_trace (map fst live) fl (combine ops outs) /\
    exists fl', sinv fl' a' n (peak_live (length live) peak (combine ops outs)).
  Proof.
    induction ops as [|o ops IH]; intros fl a live peak a' outs I St R NB; simpl in R.
    - injection R as <- <-. simpl. eauto.
    - destruct (arena_step_strong fl a live o n peak I St) as (a1 & out & E & K). rewrite E in R. cbn [bind] in R.
      destruct (run arena_step a1 ops) as [[a2 outs1]| |] eqn:R1; cbn [bind] in R; try discriminate.
      injection R as <- <-. cbn [combine] in *. inversion_clear NB as [|? ? NB1 NB2].
      destruct K as (fl' & live' & peak' & I' & St' & K1 & K2); [destruct o, out as [| |[]]; auto|].
      destruct (IH fl' a1 live' peak' a2 outs1 I' St' R1 NB2) as (Rt & fl2 & S2).
      split; [now apply K1|]. exists fl2. now rewrite K2.
  Qed.

  Lemma sinv_new n : sinv [] (arena_new n : arena T) n 0.
  Proof. unfold sinv. simpl. split; auto. split; auto. split; auto. intros _. split; auto. now left. Qed.

  Lemma arena_reuse (n : nat) (ops : list (arena_op T)) a outs :
    run arena_step (arena_new n) ops = Ok (a, outs) -> no_bad_free (combine ops outs) ->
    reuse_trace [] [] (combine ops outs) /\
    length (concat (a_chunks a)) = peak_live 0 0 (combine ops outs).
  Proof.
    intros R NB. destruct (arena_strong_gen ops n [] _ [] 0 a outs (ainv_new n) (sinv_new n) R NB) as (Rt & fl & S).
    split; [exact Rt|]. destruct S as (_ & _ & S & _). symmetry. exact S.
  Qed.

  Lemma arena_chunks_bounded (n : nat) (ops : list (arena_op T)) a outs : n <> 0 ->
    run arena_step (arena_new n) ops = Ok (a, outs) -> no_bad_free (combine ops outs) ->
    Forall (fun c => length c <= n) (a_chunks a).
  Proof.
    intros Hn R NB. destruct (arena_strong_gen ops n [] _ [] 0 a outs (ainv_new n) (sinv_new n) R NB) as (_ & fl & S).
    destruct S as (_ & _ & _ & S). destruct (S Hn) as ([->|(f & l & -> & F & L)] & _); [constructor|].
    apply Forall_app. split; [|constructor; auto]. eapply Forall_impl; [|exact F]. simpl. intros. lia.
  Qed.
End ArenaProofs.

Lemma arena_reuse_refuted : exists (ops : list (arena_op nat)) a outs,
  run arena_step (arena_new 1) ops = Ok (a, outs) /\ ~ reuse_trace [] [] (combine ops outs) /\
  length (concat (a_chunks a)) > peak_live 0 0 (combine ops outs) /\
  ~ Forall (fun c => length c <= 1) (a_chunks a).
Proof.
  exists [AAlloc 1; AFree (0, 0); AFree (0, 0); AAlloc 2]. do 2 eexists. split; [vm_compute; reflexivity|].
  split; [vm_compute; intros [_ [E _]]; discriminate|]. split; [vm_compute; auto|].
  intros F. inversion F as [|c cs L _]. vm_compute in L. apply le_S_n in L. inversion L.
Qed.

Lemma arena_chunk_zero_refuted : exists (ops : list (arena_op nat)) a outs,
  run arena_step (arena_new 0) ops = Ok (a, outs) /\ no_bad_free (combine ops outs) /\
  ~ Forall (fun c => length c <= 0) (a_chunks a).
Proof.
  exists [AAlloc 1]. do 2 eexists. split; [vm_compute; reflexivity|]. split; [repeat constructor|].
  intros F. inversion F as [|c cs L _]. inversion L.
Qed.
