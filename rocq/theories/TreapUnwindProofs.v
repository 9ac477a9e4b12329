(** Proofs about TreapUnwindModel.v. *)
From Verif Require Export TreapUnwindModel TreapUnwindSpec UnwindTreapProofs.

Section TreapProgs.
  Context {K V : Type} `{CmpLaws K}.
  Notation pairs := (list (K * V)).
  Notation treap := (tree (N * nat) K V).
  Notation heap := (heap_ordered tprio).
  Notation rle := (root_le tprio).
  Notation result := (res (option (nat * treap))).
  Implicit Types (t l r lt rt : treap) (e : K * V) (k : K) (b c : nat) (s sym : bool).

  (** *** The same tree with the right lengths *)
  Fixpoint norm (t : treap) : treap :=
    match t with
    | Leaf => Leaf
    | Node (p, _) l e r => t_upd p (norm l) e (norm r)
    end.
  Lemma norm_upd p l e r : norm (t_upd p l e r) = t_upd p (norm l) e (norm r).
  Proof. reflexivity. Qed.
  Lemma norm_prio t : priority (norm t) = priority t.
  Proof. now destruct t as [|[p n] l e r]. Qed.
  Lemma norm_inorder t : inorder (norm t) = inorder t.
  Proof. induction t as [|[p n] l IHl e r IHr]; cbn [norm inorder t_upd]; congruence. Qed.
  Lemma norm_size t : size (norm t) = size t.
  Proof. now rewrite <- !size_inorder, norm_inorder. Qed.
  Lemma norm_entry t : t_entry (norm t) = t_entry t.
  Proof. now destruct t as [|[p n] l e r]. Qed.
  Lemma norm_none t : is_none (norm t) = is_none t.
  Proof. now destruct t as [|[p n] l e r]. Qed.
  Lemma norm_len t : len_ok (norm t).
  Proof. induction t as [|[p n] l IHl e r IHr]; cbn [norm]; [exact I|]. now apply t_upd_len. Qed.
  Lemma norm_rle p t : rle p (norm t) <-> rle p t.
  Proof. destruct t as [|[q n] l e r]; reflexivity. Qed.
  Lemma norm_heap t : heap (norm t) <-> heap t.
  Proof.
    induction t as [|[p n] l IHl e r IHr]; [reflexivity|]. cbn [norm t_upd heap_ordered]. rewrite IHl, IHr, !norm_rle. reflexivity.
  Qed.
  Lemma norm_inv t : sorted (inorder t) -> heap t -> tinv (norm t).
  Proof. intros S G. split; [now rewrite norm_inorder|]. split; [apply norm_len|now apply norm_heap]. Qed.

  Lemma norm_merge lt rt : norm (t_merge lt rt) = t_merge (norm lt) (norm rt).
  Proof.
    apply (t_merge_ind (fun lt rt t => norm t = t_merge (norm lt) (norm rt))).
    - intros t. rewrite (t_merge_eq (norm _)). cbn [norm]. try reflexivity; destruct (norm t) as [|[? ?] ? ? ?]; reflexivity.
    - intros t. rewrite (t_merge_eq (norm _)). cbn [norm]. try reflexivity; destruct (norm t) as [|[? ?] ? ? ?]; reflexivity.
    - intros pl nl ll le lr pr nr rl re rr G IH. apply N.ltb_lt in G. rewrite norm_upd, IH. symmetry. rewrite t_merge_eq. cbn [norm t_upd]. rewrite G. reflexivity.
    - intros pl nl ll le lr pr nr rl re rr G IH. apply N.ltb_ge in G. rewrite norm_upd, IH. symmetry. rewrite t_merge_eq. cbn [norm t_upd]. rewrite G. reflexivity.
  Qed.
  Lemma norm_split t k : t_split (norm t) k = let '(l, (d, g)) := t_split t k in (norm l, (norm d, norm g)).
  Proof.
    induction t as [|[p n] l IHl e r IHr]; [reflexivity|]. cbn [norm t_upd t_split]. destruct (cmp k (fst e)); [reflexivity| |].
    - rewrite IHl. destruct (t_split l k) as [l' [d g]]. reflexivity.
    - rewrite IHr. destruct (t_split r k) as [r' [d g]]. reflexivity.
  Qed.
  Ltac refold p n l e r :=
    unfold t_upd at 1; cbv beta iota; change (t_upd p (norm l) e (norm r)) with (norm (Node (p, n) l e r)).
  Ltac recur IH := repeat match goal with |- context [bind (rmap norm ?x) _] => destruct x as [?| |]; cbn [bind rmap]; try reflexivity end.
  Lemma norm_union fuel : forall lt rt s, t_union fuel (norm lt) (norm rt) s = rmap norm (t_union fuel lt rt s).
  Proof.
    induction fuel as [|fuel IH]; intros lt rt s; [reflexivity|]. destruct lt as [|[p n] l e r]; [reflexivity|]. destruct rt as [|[p' n'] l' e' r']; [reflexivity|].
    change (norm (Node (p, n) l e r)) with (t_upd p (norm l) e (norm r)). change (norm (Node (p', n') l' e' r')) with (t_upd p' (norm l') e' (norm r')).
    cbn [t_union t_upd priority]. destruct (p <? p')%N.
    - refold p n l e r. rewrite norm_split.
      destruct (t_split (Node (p, n) l e r) (fst e')) as [rl [d rr]]. rewrite !IH, norm_entry. recur IH.
    - refold p' n' l' e' r'. rewrite norm_split.
      destruct (t_split (Node (p', n') l' e' r') (fst e)) as [rl [d rr]]. rewrite !IH, norm_entry. recur IH.
  Qed.
  Lemma norm_inter fuel : forall lt rt s, t_inter fuel (norm lt) (norm rt) s = rmap norm (t_inter fuel lt rt s).
  Proof.
    induction fuel as [|fuel IH]; intros lt rt s; [reflexivity|]. destruct lt as [|[p n] l e r]; [reflexivity|]. destruct rt as [|[p' n'] l' e' r']; [reflexivity|].
    change (norm (Node (p, n) l e r)) with (t_upd p (norm l) e (norm r)). change (norm (Node (p', n') l' e' r')) with (t_upd p' (norm l') e' (norm r')).
    cbn [t_inter t_upd priority]. destruct (p <? p')%N.
    - refold p n l e r. rewrite norm_split.
      destruct (t_split (Node (p, n) l e r) (fst e')) as [rl [d rr]]. rewrite !IH, norm_entry. recur IH. destruct (t_entry d); [reflexivity|]. now rewrite <- norm_merge.
    - refold p' n' l' e' r'. rewrite norm_split.
      destruct (t_split (Node (p', n') l' e' r') (fst e)) as [rl [d rr]]. rewrite !IH, norm_entry. recur IH. destruct (t_entry d); [reflexivity|]. now rewrite <- norm_merge.
  Qed.
  Lemma norm_diff sym fuel : forall lt rt s, t_diff fuel (norm lt) (norm rt) s sym = rmap norm (t_diff fuel lt rt s sym).
  Proof.
    induction fuel as [|fuel IH]; intros lt rt s; [reflexivity|]. destruct lt as [|[p n] l e r].
    { destruct sym; [|now destruct s]. change (Ok (t_merge (norm Leaf) (norm rt)) = Ok (norm (t_merge Leaf rt))). now rewrite norm_merge. }
    destruct rt as [|[p' n'] l' e' r'].
    { destruct sym; [|now destruct s]. change (Ok (t_merge (norm (Node (p, n) l e r)) (norm Leaf)) = Ok (norm (t_merge (Node (p, n) l e r) Leaf))).
      now rewrite norm_merge. }
    change (norm (Node (p, n) l e r)) with (t_upd p (norm l) e (norm r)). change (norm (Node (p', n') l' e' r')) with (t_upd p' (norm l') e' (norm r')).
    cbn [t_diff t_upd priority]. destruct (p <? p')%N.
    - refold p n l e r. rewrite norm_split.
      destruct (t_split (Node (p, n) l e r) (fst e')) as [rl [d rr]]. rewrite !IH, norm_none. recur IH.
      destruct (negb (is_none d) || (negb s && negb sym)); [|reflexivity]. now rewrite <- norm_merge.
    - refold p' n' l' e' r'. rewrite norm_split.
      destruct (t_split (Node (p', n') l' e' r') (fst e)) as [rl [d rr]]. rewrite !IH, norm_none. recur IH.
      destruct (negb (is_none d) || (s && negb sym)); [|reflexivity]. now rewrite <- norm_merge.
  Qed.
  Lemma set_op_loose (s : set_op) lt rt : sorted (inorder lt) -> heap lt -> sorted (inorder rt) -> heap rt ->
    exists t, t_set_op s lt rt = Ok t /\ inorder t = spec_set s (inorder lt) (inorder rt) /\ sorted (inorder t) /\ heap t.
  Proof.
    intros S1 H1 S2 H2. destruct (t_set_op_ok s _ _ (norm_inv _ S1 H1) (norm_inv _ S2 H2)) as (t & E & Ei & (Ss & _ & Hh)).
    assert (E' : t_set_op s (norm lt) (norm rt) = rmap norm (t_set_op s lt rt)).
    { unfold t_set_op, t_fuel. rewrite !norm_size. destruct s; auto using norm_union, norm_inter, norm_diff. }
    rewrite E in E'. destruct (t_set_op s lt rt) as [t'| |]; try discriminate E'. injection E' as ->. exists t'. split; [reflexivity|].
    rewrite !norm_inorder in *. split; [exact Ei|]. split; [exact Ss|now apply norm_heap].
  Qed.

  (** *** Lengths *)
  Lemma merge_size lt rt : size (t_merge lt rt) = size lt + size rt.
  Proof. now rewrite <- !size_inorder, t_merge_inorder, app_length. Qed.
  (** [t] counts no more lost pairs than [lt] and [rt] together. *)
  Definition no_more t lt rt : Prop := len_over t /\ t_len t + size lt + size rt <= t_len lt + t_len rt + size t.
  Lemma no_more_sym t lt rt : no_more t rt lt -> no_more t lt rt.
  Proof. intros (A & B). split; [exact A|lia]. Qed.
  Lemma no_more_parts p n l e r rt k : len_over (Node (p, n) l e r) -> len_over rt ->
    let '(rl, (d, rr)) := t_split rt k in forall l' r', no_more l' l rl -> no_more r' r rr -> forall e',
    no_more (t_upd p l' e' r') (Node (p, n) l e r) rt /\ no_more (t_merge l' r') (Node (p, n) l e r) rt.
  Proof.
    intros (L & L1 & L2) Lr. pose proof (t_split_over rt k Lr) as Sp. pose proof (below_split_size rt k) as Sz.
    destruct (t_split rt k) as [rl [d rr]]. destruct Sp as (_ & Ld & _ & Lt & _). pose proof (len_over_size _ Ld).
    intros l' r' (A1 & A2) (B1 & B2) e'. unfold no_more. rewrite t_upd_tlen, merge_size. destruct (t_merge_over l' r' A1 B1) as [M1 M2].
    cbn [t_len size t_upd] in *. split; (split; [auto using len_over_upd|]); lia.
  Qed.
  Lemma split_over l rt k : len_over rt -> let '(rl, (d, rr)) := t_split rt k in len_over rl /\ len_over rr.
  Proof. intros L. pose proof (t_split_over rt k L) as Sp. destruct (t_split rt k) as [rl [d rr]]. tauto. Qed.
  Lemma union_over fuel : forall lt rt s t, t_union fuel lt rt s = Ok t -> len_over lt -> len_over rt -> no_more t lt rt.
  Proof.
    induction fuel as [|fuel IH]; intros lt rt s t; [discriminate|]. destruct lt as [|[p n] l e r], rt as [|[p' n'] l' e' r'];
      try (cbn [t_union]; intros E L1 L2; injection E as <-; split; [assumption|cbn; lia]).
    cbn [t_union priority]. intros E L1 L2. destruct (p <? p')%N.
    - pose proof (no_more_parts p' n' l' e' r' (Node (p, n) l e r) (fst e') L2 L1) as P. pose proof (split_over l (Node (p, n) l e r) (fst e') L1) as So.
      destruct (t_split (Node (p, n) l e r) (fst e')) as [rl [d rr]]. destruct So as [Lrl Lrr].
      destruct (t_union fuel l' rl (negb s)) as [a| |] eqn:Ea; try discriminate E. destruct (t_union fuel r' rr (negb s)) as [a'| |] eqn:Ea'; try discriminate E.
      cbn [bind] in E. injection E as <-. destruct L2 as (_ & L21 & L22). apply no_more_sym. eapply P; eauto.
    - pose proof (no_more_parts p n l e r (Node (p', n') l' e' r') (fst e) L1 L2) as P. pose proof (split_over l (Node (p', n') l' e' r') (fst e) L2) as So.
      destruct (t_split (Node (p', n') l' e' r') (fst e)) as [rl [d rr]]. destruct So as [Lrl Lrr].
      destruct (t_union fuel l rl s) as [a| |] eqn:Ea; try discriminate E. destruct (t_union fuel r rr s) as [a'| |] eqn:Ea'; try discriminate E.
      cbn [bind] in E. injection E as <-. destruct L1 as (_ & L11 & L12). eapply P; eauto.
  Qed.
  Lemma no_more_leaf lt rt : len_over lt -> len_over rt -> no_more Leaf lt rt.
  Proof. intros A B. apply len_over_size in A. apply len_over_size in B. split; [exact I|cbn; lia]. Qed.
  Lemma inter_over fuel : forall lt rt s t, t_inter fuel lt rt s = Ok t -> len_over lt -> len_over rt -> no_more t lt rt.
  Proof.
    induction fuel as [|fuel IH]; intros lt rt s t; [discriminate|]. destruct lt as [|[p n] l e r], rt as [|[p' n'] l' e' r'];
      try (cbn [t_inter]; intros E L1 L2; injection E as <-; now apply no_more_leaf).
    cbn [t_inter priority]. intros E L1 L2. destruct (p <? p')%N.
    - pose proof (no_more_parts p' n' l' e' r' (Node (p, n) l e r) (fst e') L2 L1) as P. pose proof (split_over l (Node (p, n) l e r) (fst e') L1) as So.
      destruct (t_split (Node (p, n) l e r) (fst e')) as [rl [d rr]]. destruct So as [Lrl Lrr].
      destruct (t_inter fuel l' rl (negb s)) as [a| |] eqn:Ea; try discriminate E. destruct (t_inter fuel r' rr (negb s)) as [a'| |] eqn:Ea'; try discriminate E.
      cbn [bind] in E. destruct L2 as (_ & L21 & L22). apply no_more_sym. destruct (t_entry d); injection E as <-.
      + eapply P; eauto.
      + apply (P a a' (IH _ _ _ _ Ea L21 Lrl) (IH _ _ _ _ Ea' L22 Lrr) e).
    - pose proof (no_more_parts p n l e r (Node (p', n') l' e' r') (fst e) L1 L2) as P. pose proof (split_over l (Node (p', n') l' e' r') (fst e) L2) as So.
      destruct (t_split (Node (p', n') l' e' r') (fst e)) as [rl [d rr]]. destruct So as [Lrl Lrr].
      destruct (t_inter fuel l rl s) as [a| |] eqn:Ea; try discriminate E. destruct (t_inter fuel r rr s) as [a'| |] eqn:Ea'; try discriminate E.
      cbn [bind] in E. destruct L1 as (_ & L11 & L12). destruct (t_entry d); injection E as <-.
      + eapply P; eauto.
      + apply (P a a' (IH _ _ _ _ Ea L11 Lrl) (IH _ _ _ _ Ea' L12 Lrr) e).
  Qed.
  Lemma no_more_merge lt rt : len_over lt -> len_over rt -> no_more (t_merge lt rt) lt rt.
  Proof. intros A B. destruct (t_merge_over lt rt A B) as [M1 M2]. split; [exact M1|]. rewrite merge_size. lia. Qed.
  Lemma no_more_l lt rt : len_over lt -> len_over rt -> no_more lt lt rt.
  Proof. intros A B. apply len_over_size in B. split; [exact A|lia]. Qed.
  Lemma no_more_r lt rt : len_over lt -> len_over rt -> no_more rt lt rt.
  Proof. intros A B. apply len_over_size in A. split; [exact B|lia]. Qed.
  Lemma diff_over sym fuel : forall lt rt s t, t_diff fuel lt rt s sym = Ok t -> len_over lt -> len_over rt -> no_more t lt rt.
  Proof.
    induction fuel as [|fuel IH]; intros lt rt s t; [discriminate|]. destruct lt as [|[p n] l e r], rt as [|[p' n'] l' e' r'];
      try (cbn [t_diff]; intros E L1 L2; injection E as <-; destruct sym; [|destruct s]; auto using no_more_merge, no_more_l, no_more_r).
    cbn [t_diff priority]. intros E L1 L2. destruct (p <? p')%N.
    - pose proof (no_more_parts p' n' l' e' r' (Node (p, n) l e r) (fst e') L2 L1) as P. pose proof (split_over l (Node (p, n) l e r) (fst e') L1) as So.
      destruct (t_split (Node (p, n) l e r) (fst e')) as [rl [d rr]]. destruct So as [Lrl Lrr].
      destruct (t_diff fuel l' rl (negb s) sym) as [a| |] eqn:Ea; try discriminate E. destruct (t_diff fuel r' rr (negb s) sym) as [a'| |] eqn:Ea'; try discriminate E.
      cbn [bind] in E. destruct L2 as (_ & L21 & L22). apply no_more_sym. destruct (P a a' (IH _ _ _ _ Ea L21 Lrl) (IH _ _ _ _ Ea' L22 Lrr) e').
      destruct (_ || _); injection E as <-; assumption.
    - pose proof (no_more_parts p n l e r (Node (p', n') l' e' r') (fst e) L1 L2) as P. pose proof (split_over l (Node (p', n') l' e' r') (fst e) L2) as So.
      destruct (t_split (Node (p', n') l' e' r') (fst e)) as [rl [d rr]]. destruct So as [Lrl Lrr].
      destruct (t_diff fuel l rl s sym) as [a| |] eqn:Ea; try discriminate E. destruct (t_diff fuel r rr s sym) as [a'| |] eqn:Ea'; try discriminate E.
      cbn [bind] in E. destruct L1 as (_ & L11 & L12). destruct (P a a' (IH _ _ _ _ Ea L11 Lrl) (IH _ _ _ _ Ea' L12 Lrr) e).
      destruct (_ || _); injection E as <-; assumption.
  Qed.
  Lemma set_op_over (s : set_op) lt rt t : t_set_op s lt rt = Ok t -> len_over lt -> len_over rt -> no_more t lt rt.
  Proof. destruct s; cbn [t_set_op]; eauto using union_over, inter_over, diff_over. Qed.

  (** *** Comparisons *)
  Lemma split_spends t k : forall b, match t_split_u b t k with
    | Some (b', x) => x = t_split t k /\ b <= b' + size t
    | None => b < size t
    end.
  Proof.
    induction t as [|[p n] l IHl e r IHr]; intros b; cbn [t_split_u t_split size]; [split; [reflexivity|lia]|].
    destruct b as [|b]; [lia|]. destruct (cmp k (fst e)); [split; [reflexivity|lia]| |].
    - specialize (IHl b). destruct (t_split_u b l k) as [[b' [l' [d g]]]|]; [|lia]. destruct IHl as [<- L]. split; [reflexivity|lia].
    - specialize (IHr b). destruct (t_split_u b r k) as [[b' [l' [d g]]]|]; [|lia]. destruct IHr as [<- L]. split; [reflexivity|lia].
  Qed.
  Definition spends (u : result) (p : res treap) b c : Prop :=
    match u with
    | Ok (Some (b', t)) => p = Ok t /\ b <= b' + c
    | Ok None => b < c
    | Panic => p = Panic
    | Timeout => p = Timeout
    end.
  Lemma spends_then u p b c f g c' : spends u p b c -> (forall b' t, spends (f b' t) (g t) b' c') ->
    spends (and_then u f) (let* t := p in g t) b (c + c').
  Proof.
    unfold and_then. destruct u as [[[b' t]|]| |]; cbn [spends bind]; [|lia|now intros ->|now intros ->].
    intros [-> L] F. cbn [bind]. specialize (F b' t). destruct (f b' t) as [[[b2 t2]|]| |]; cbn [spends] in *; [|lia|auto|auto]. destruct F. split; [assumption|lia].
  Qed.
  Lemma spends_more u p b c c' : spends u p b c -> c <= c' -> spends u p b c'.
  Proof. destruct u as [[[? ?]|]| |]; cbn [spends]; [|lia|auto|auto]. intros [-> L] M. split; [reflexivity|lia]. Qed.
  Lemma spends_ok b t c : spends (Ok (Some (b, t))) (Ok t) b c.
  Proof. split; [reflexivity|lia]. Qed.
  (** One node of a set operation. *)
  Lemma spends_node b rt k f g c : (forall b' rl d rr, size rl + size rr <= size rt -> spends (f b' rl d rr) (g rl d rr) b' (c * size rt)) ->
    spends (match t_split_u b rt k with None => Ok None | Some (b, (rl, (d, rr))) => f b rl d rr end)
      (let '(rl, (d, rr)) := t_split rt k in g rl d rr) b (S c * size rt).
  Proof.
    intros F. pose proof (split_spends rt k b) as Sp. pose proof (below_split_size rt k) as Sz.
    destruct (t_split_u b rt k) as [[b' [rl [d rr]]]|]; [|cbn [spends]; lia].
    destruct Sp as [Sp L]. destruct (t_split rt k) as [rl' [d' rr']]. injection Sp as <- <- <-. specialize (F b' rl d rr ltac:(lia)).
    destruct (f b' rl d rr) as [[[b2 t2]|]| |]; cbn [spends] in *; [|lia|auto|auto]. destruct F. split; [assumption|lia].
  Qed.
  Lemma union_spends fuel : forall b lt rt s, spends (t_union_u fuel b lt rt s) (t_union fuel lt rt s) b (size lt * size rt).
  Proof.
    induction fuel as [|fuel IH]; intros b lt rt s; [reflexivity|]. destruct lt as [|[p n] l e r], rt as [|[p' n'] l' e' r']; try apply spends_ok.
    cbn [t_union_u t_union priority]. destruct (p <? p')%N.
    - rewrite Nat.mul_comm. change (size (Node (p', n') l' e' r')) with (S (size l' + size r')).
      apply (spends_node b (Node (p, n) l e r) (fst e')
        (fun b rl d rr => and_then (t_union_u fuel b l' rl (negb s)) (fun b x => and_then (t_union_u fuel b r' rr (negb s)) (fun b y => Ok (Some (b, t_upd p' x _ y)))))
        (fun rl d rr => let* x := t_union fuel l' rl (negb s) in let* y := t_union fuel r' rr (negb s) in Ok (t_upd p' x _ y))).
      intros b' rl d rr Sz. eapply spends_more; [apply spends_then; [apply IH|]; intros b2 x; apply spends_then; [apply IH|]; intros; apply (spends_ok _ _ 0)|]. nia.
    - change (size (Node (p, n) l e r)) with (S (size l + size r)).
      apply (spends_node b (Node (p', n') l' e' r') (fst e)
        (fun b rl d rr => and_then (t_union_u fuel b l rl s) (fun b x => and_then (t_union_u fuel b r rr s) (fun b y => Ok (Some (b, t_upd p x _ y)))))
        (fun rl d rr => let* x := t_union fuel l rl s in let* y := t_union fuel r rr s in Ok (t_upd p x _ y))).
      intros b' rl d rr Sz. eapply spends_more; [apply spends_then; [apply IH|]; intros b2 x; apply spends_then; [apply IH|]; intros; apply (spends_ok _ _ 0)|]. nia.
  Qed.
  Lemma inter_spends fuel : forall b lt rt s, spends (t_inter_u fuel b lt rt s) (t_inter fuel lt rt s) b (size lt * size rt).
  Proof.
    induction fuel as [|fuel IH]; intros b lt rt s; [reflexivity|]. destruct lt as [|[p n] l e r], rt as [|[p' n'] l' e' r']; try apply spends_ok.
    cbn [t_inter_u t_inter priority]. destruct (p <? p')%N.
    - rewrite Nat.mul_comm. change (size (Node (p', n') l' e' r')) with (S (size l' + size r')).
      apply (spends_node b (Node (p, n) l e r) (fst e')
        (fun b rl d rr => and_then (t_inter_u fuel b l' rl (negb s)) (fun b x => and_then (t_inter_u fuel b r' rr (negb s)) (fun b y => _)))
        (fun rl d rr => let* x := t_inter fuel l' rl (negb s) in let* y := t_inter fuel r' rr (negb s) in _)).
      intros b' rl d rr Sz. eapply spends_more; [apply spends_then; [apply IH|]; intros b2 x; apply spends_then; [apply IH|]; intros; destruct (t_entry d); apply (spends_ok _ _ 0)|]. nia.
    - change (size (Node (p, n) l e r)) with (S (size l + size r)).
      apply (spends_node b (Node (p', n') l' e' r') (fst e)
        (fun b rl d rr => and_then (t_inter_u fuel b l rl s) (fun b x => and_then (t_inter_u fuel b r rr s) (fun b y => _)))
        (fun rl d rr => let* x := t_inter fuel l rl s in let* y := t_inter fuel r rr s in _)).
      intros b' rl d rr Sz. eapply spends_more; [apply spends_then; [apply IH|]; intros b2 x; apply spends_then; [apply IH|]; intros; destruct (t_entry d); apply (spends_ok _ _ 0)|]. nia.
  Qed.
  Lemma diff_spends sym fuel : forall b lt rt s, spends (t_diff_u fuel b lt rt s sym) (t_diff fuel lt rt s sym) b (size lt * size rt).
  Proof.
    induction fuel as [|fuel IH]; intros b lt rt s; [reflexivity|]. destruct lt as [|[p n] l e r], rt as [|[p' n'] l' e' r']; try apply spends_ok.
    cbn [t_diff_u t_diff priority]. destruct (p <? p')%N.
    - rewrite Nat.mul_comm. change (size (Node (p', n') l' e' r')) with (S (size l' + size r')).
      apply (spends_node b (Node (p, n) l e r) (fst e')
        (fun b rl d rr => and_then (t_diff_u fuel b l' rl (negb s) sym) (fun b x => and_then (t_diff_u fuel b r' rr (negb s) sym) (fun b y => _)))
        (fun rl d rr => let* x := t_diff fuel l' rl (negb s) sym in let* y := t_diff fuel r' rr (negb s) sym in _)).
      intros b' rl d rr Sz. eapply spends_more; [apply spends_then; [apply IH|]; intros b2 x; apply spends_then; [apply IH|]; intros; destruct (_ || _); apply (spends_ok _ _ 0)|]. nia.
    - change (size (Node (p, n) l e r)) with (S (size l + size r)).
      apply (spends_node b (Node (p', n') l' e' r') (fst e)
        (fun b rl d rr => and_then (t_diff_u fuel b l rl s sym) (fun b x => and_then (t_diff_u fuel b r rr s sym) (fun b y => _)))
        (fun rl d rr => let* x := t_diff fuel l rl s sym in let* y := t_diff fuel r rr s sym in _)).
      intros b' rl d rr Sz. eapply spends_more; [apply spends_then; [apply IH|]; intros b2 x; apply spends_then; [apply IH|]; intros; destruct (_ || _); apply (spends_ok _ _ 0)|]. nia.
  Qed.
  Lemma set_op_spends (s : set_op) b lt rt : spends (t_set_op_u s b lt rt) (t_set_op s lt rt) b (size lt * size rt).
  Proof. destruct s; cbn [t_set_op_u t_set_op]; auto using union_spends, inter_spends, diff_spends. Qed.

  (** *** One map *)
  Lemma insert_u_heap t k v p : forall b t', t_insert_u b t k v p = Threw t' -> heap t -> heap t' /\ forall q, rle q t -> rle q t'.
  Proof.
    induction t as [|[q n] l IHl e r IHr]; intros b t'; cbn [t_insert_u]; [discriminate|]. destruct (p <=? q)%N.
    - destruct b as [|b]; [intros E; injection E as <-; auto|]. intros E (R1 & R2 & H1 & H2). destruct (cmp k (fst e)); [discriminate| |].
      + destruct (t_insert_u b l k v p) as [? ? ?|l'] eqn:E'; [discriminate|]. injection E as <-. destruct (IHl _ _ E' H1) as [I1 I2]. cbn. auto 10.
      + destruct (t_insert_u b r k v p) as [? ? ?|r'] eqn:E'; [discriminate|]. injection E as <-. destruct (IHr _ _ E' H2) as [I1 I2]. cbn. auto 10.
    - destruct (t_split_u b (Node (q, n) l e r) k) as [[? [? [? ?]]]|]; [discriminate|]. intros E. injection E as <-. cbn. auto.
  Qed.
  Lemma step_heap t (m : pairs) n o p b t' x : trel t m n -> heap t -> treap_step_u t (o, p, b) = Ok (t', x) -> heap t'.
  Proof.
    intros (Em & Sm & Lo & _) G. subst m. destruct o; cbn [treap_step_u treap_step bind].
    - destruct (t_insert_u_ok t k v p Sm Lo b) as [[b' E]|(t2 & E & _)]; rewrite E; intros E'; injection E' as <- _.
      + now apply t_insert_heap.
      + exact (proj1 (insert_u_heap _ _ _ _ _ _ E G)).
    - destruct (t_remove_u_ok t k b) as [[b' E]|[E _]]; rewrite E; intros E'; injection E' as <- _; [now apply t_remove_heap|exact G].
    - intros E. injection E as <- _. exact G.
    - destruct (bst_get_mut_set_u_ok t k v b) as [[b' E]|[E _]]; rewrite E; intros E'; injection E' as <- _; [|exact G].
      destruct (bst_get_mut_set_spec t k v Sm) as (_ & _ & E3). apply (heap_shape t); [now symmetry|exact G].
    - intros E. injection E as <- _. exact G.
    - intros E. injection E as <- _. exact G.
    - intros E. injection E as <- _. exact G.
    - intros E. injection E as <- _. exact G.
    - intros E. injection E as <- _. exact G.
    - intros E. injection E as <- _. exact G.
    - intros E. injection E as <- _. exact G.
    - intros E. injection E as <- _. exact G.
    - intros E. injection E as <- _. exact I.
    - rewrite iter_all_spec. intros E. injection E as <- _. exact G.
    - destruct (itermut_run_spec t vs) as (t2 & E1 & E2 & _). rewrite E1. cbn [bind]. intros E. injection E as <- _. now apply (heap_shape t).
    - rewrite iter_all_spec. intros E. injection E as <- _. exact I.
  Qed.

  (** *** Several maps *)
  Definition mrel t (m : pairs) (s : nat) : Prop := trel t m (length m + s) /\ heap t.
  Definition msrel (rs : nat -> treap) (ms : nat -> pairs) (sl : nat -> nat) : Prop := forall i, mrel (rs i) (ms i) (sl i).
  Lemma msrel_update rs ms sl i t (m : pairs) (s : nat) : msrel rs ms sl -> mrel t m s -> msrel (update rs i t) (update ms i m) (update sl i s).
  Proof. intros R M j. unfold update. destruct (j =? i); auto. Qed.
  Lemma mrel_leaf : mrel Leaf [] 0.
  Proof. split; [exact trel_new|exact I]. Qed.
  Lemma update_same {A} (f : nat -> A) i x : f i = x -> forall j, update f i x j = f j.
  Proof. intros <- j. unfold update. destruct (Nat.eqb_spec j i); congruence. Qed.
  Lemma mrel_set (s : set_op) lt rt t (m m' : pairs) (c c' : nat) : t_set_op s lt rt = Ok t -> mrel lt m c -> mrel rt m' c' -> mrel t (spec_set s m m') (c + c').
  Proof.
    intros E ((Em & S1 & L1 & T1) & G1) ((Em' & S2 & L2 & T2) & G2). subst m m'. destruct (set_op_loose s lt rt S1 G1 S2 G2) as (t2 & E2 & Ei & Ss & G).
    rewrite E in E2. injection E2 as <-. destruct (set_op_over s lt rt t E L1 L2) as [Lo Ls]. rewrite <- Ei, !size_inorder in *.
    split; [|exact G]. repeat (split; [now auto|]). rewrite size_inorder. lia.
  Qed.
  Lemma mrel_split t (m : pairs) (c : nat) k (inc : bool) : mrel t m c -> let '(l, (d, g)) := t_split t k in
    let (stay, give) := if inc then (t_merge l d, g) else (l, t_merge d g) in let (ms, mg) := spec_split k inc m in mrel stay ms c /\ mrel give mg c.
  Proof.
    intros ((Em & S & L & T) & G). subst m. pose proof (t_split_over t k L) as Ov. pose proof (below_split_size t k) as Sz.
    pose proof (t_split_off_ok (norm t) k inc (norm_inv t S G)) as Sp. unfold t_split_off in Sp. rewrite norm_split, norm_inorder in Sp.
    destruct (t_split t k) as [l [d g]]. destruct Ov as (O1 & O2 & O3 & O4 & _). pose proof (len_over_size _ O1). pose proof (len_over_size _ O2). pose proof (len_over_size _ O3).
    rewrite size_inorder in T. destruct inc; rewrite <- norm_merge in Sp; destruct (spec_split k _ (inorder t)) as [ms mg]; destruct Sp as (E & (S1 & _ & G1) & (S2 & _ & G2));
      injection E as E1 E2; rewrite norm_inorder in *; apply (proj1 (norm_heap _)) in G1; apply (proj1 (norm_heap _)) in G2; subst ms mg.
    - destruct (t_merge_over l d O1 O2) as [M1 M2]. split; (split; [|assumption]); repeat (split; [now auto|]); rewrite size_inorder, ?merge_size; lia.
    - destruct (t_merge_over d g O2 O3) as [M1 M2]. split; (split; [|assumption]); repeat (split; [now auto|]); rewrite size_inorder, ?merge_size; lia.
  Qed.
  Definition enough (ms : nat -> pairs) (o : prog_op K V) : nat :=
    match o with
    | POp i _ | PSplit _ i _ _ => length (ms i)
    | PSet _ _ i j => length (ms i) * length (ms j)
    end.
  Lemma prog_unwind_step rs (ms : nat -> pairs) sl o p b : msrel rs ms sl ->
    exists rs' x, treap_prog_step_u rs (o, p, b) = Ok (rs', x) /\ (enough ms o <= b -> x <> None) /\
    match x with
    | Some out => treap_prog_step rs (o, p) = Ok (rs', out) /\
        match o with
        | POp i o' => exists y, length (ms i) <= y <= length (ms i) + sl i /\ (ms i = [] -> y = 0) /\ out = answer o' (ms i) y
        | _ => out = RUnit
        end /\ msrel rs' (fst (prog_spec_step ms o)) (slack_after o sl)
    | None =>
        match o with
        | POp i o' => exists l' : pairs, all_but_around o' (ms i) l' /\ msrel rs' (update ms i l') (update sl i (sl i + (length (ms i) - length l')))
        | PSet _ _ i j => msrel rs' (update (update ms i []) j []) (update (update sl i 0) j 0)
        | PSplit _ i _ _ => msrel rs' (update ms i []) (update sl i 0)
        end
    end.
  Proof.
    intros R. destruct o as [i o|s d i j|d i k inc]; cbn [treap_prog_step_u treap_prog_step enough].
    - destruct (R i) as [T G]. destruct (trel_step _ _ _ o p b T) as (t' & x & E & En & X). pose proof (step_heap _ _ _ _ _ _ _ _ T G E) as G'.
      rewrite E. cbn [bind]. do 2 eexists. split; [reflexivity|]. split; [exact En|]. destruct x as [out|].
      + destruct X as (E' & A & T'). rewrite E'. cbn [bind]. split; [reflexivity|]. split; [exact A|]. cbn [prog_spec_step].
        destruct (map_spec_step (ms i) o) as [m' out'] eqn:Es. cbn [fst] in *.
        assert (M : mrel t' m' (slack_after (POp i o) sl i)).
        { split; [|exact G']. destruct T' as (A1 & A2 & A3 & A4). repeat (split; [assumption|]).
          destruct o; cbn [counted slack_after] in *; rewrite ?Es in A4; cbn [fst] in A4; unfold update; rewrite ?Nat.eqb_refl; try lia.
          all: (etransitivity; [exact A4|]; lia). }
        intros q. specialize (R q). cbn [slack_after] in *. unfold update. destruct (Nat.eqb_spec q i) as [->|N]; [exact M|].
        destruct o; cbn [slack_after]; unfold update; try exact R; apply Nat.eqb_neq in N; rewrite N; exact R.
      + destruct X as (l' & A & T'). exists l'. split; [exact A|]. apply msrel_update; [exact R|]. split; [|exact G'].
        destruct T' as (A1 & A2 & A3 & A4). repeat (split; [assumption|]). etransitivity; [exact A4|].
        assert (length l' <= length (ms i)).
        { destruct o; cbn [all_but_around] in A; try (subst l'; lia). destruct A as [->|(a & m & c & E1 & E2 & _)]; [lia|]. rewrite E1, E2, !app_length. lia. }
        lia.
    - cbv zeta. pose proof (msrel_update rs ms sl i Leaf [] 0 R mrel_leaf) as R1. pose proof (msrel_update _ _ _ j Leaf [] 0 R1 mrel_leaf) as R2.
      pose proof (R i) as Mi. pose proof (R1 j) as Mj. set (x := rs i) in *. set (y := update rs i Leaf j) in *.
      pose proof (set_op_spends s b x y) as Sp. destruct (set_op_loose s x y) as (t & E & _).
      { destruct Mi as ((<- & S & _) & _). exact S. } { apply Mi. } { destruct Mj as ((<- & S & _) & _). exact S. } { apply Mj. }
      rewrite E in Sp. destruct (t_set_op_u s b x y) as [[[b' t']|]| |]; cbn [spends] in Sp; try discriminate Sp; cbn [bind].
      + destruct Sp as [Et _]. injection Et as <-. do 2 eexists. split; [reflexivity|]. split; [congruence|]. rewrite E. cbn [bind]. split; [reflexivity|].
        split; [reflexivity|]. cbn [prog_spec_step fst slack_after]. apply msrel_update; [exact R2|]. eapply mrel_set; eauto.
      + do 2 eexists. split; [reflexivity|]. split; [|exact R2]. intros L. exfalso. assert (size x * size y <= length (ms i) * length (ms j)); [|lia].
        assert (size x = length (ms i)) by (destruct Mi as ((<- & _) & _); now rewrite size_inorder).
        assert (size y <= length (ms j)); [|nia]. subst y. destruct Mj as ((E1 & _) & _). rewrite <- size_inorder, E1. unfold update. destruct (j =? i); [cbn; lia|reflexivity].
    - pose proof (R i) as M. pose proof (mrel_split _ _ _ k inc M) as Ms. pose proof (split_spends (rs i) k b) as Sp. unfold t_split_off.
      destruct (t_split_u b (rs i) k) as [[b' [l [m g]]]|].
      + destruct Sp as [Sp _]. rewrite <- Sp in Ms |- *. clear Sp. destruct (if inc then (t_merge l m, g) else (l, t_merge m g)) as [stay give] eqn:Eb. cbn [prog_spec_step].
        destruct (spec_split k inc (ms i)) as [m1 m2] eqn:Em. destruct Ms as [M1 M2]. do 2 eexists. split; [reflexivity|]. split; [congruence|]. split; [reflexivity|].
        split; [reflexivity|]. cbn [fst slack_after]. apply msrel_update; [|exact M2].
        intros q. pose proof (msrel_update _ _ _ i stay m1 (sl i) R M1 q) as Q. now rewrite (update_same sl i) in Q by reflexivity.
      + do 2 eexists. split; [reflexivity|]. split; [|apply msrel_update; [exact R|exact mrel_leaf]].
        intros L. exfalso. destruct M as ((Em & _) & _). rewrite <- Em, size_inorder in L. lia.
  Qed.
  Lemma prog_unwind_run (ops : list (prog_op K V * N * nat)) : forall rs (ms : nat -> pairs) sl, msrel rs ms sl ->
    exists rs' outs ms' sl', run treap_prog_step_u rs ops = Ok (rs', outs) /\ length outs = length ops /\ msrel rs' ms' sl' /\
      unwind_progs ms sl (combine (map (fun x => fst (fst x)) ops) outs).
  Proof.
    induction ops as [|[[o p] b] ops IH]; intros rs ms sl R; cbn [run]; [exists rs, [], ms, sl; cbn; auto|].
    destruct (prog_unwind_step rs ms sl o p b R) as (rs1 & x & E & _ & X). rewrite E. cbn [bind]. destruct x as [out|].
    - destruct X as (_ & A & R1). destruct (IH _ _ _ R1) as (rs2 & outs & ms2 & sl2 & E2 & L2 & R2 & T2). rewrite E2. cbn [bind].
      do 4 eexists. split; [reflexivity|]. split; [cbn; lia|]. split; [exact R2|]. cbn [map fst combine unwind_progs]. auto.
    - destruct o as [i o|s d i j|d i k inc].
      + destruct X as (l' & A & R1). destruct (IH _ _ _ R1) as (rs2 & outs & ms2 & sl2 & E2 & L2 & R2 & T2). rewrite E2. cbn [bind].
        do 4 eexists. split; [reflexivity|]. split; [cbn; lia|]. split; [exact R2|]. cbn [map fst combine unwind_progs]. eauto.
      + destruct (IH _ _ _ X) as (rs2 & outs & ms2 & sl2 & E2 & L2 & R2 & T2). rewrite E2. cbn [bind].
        do 4 eexists. split; [reflexivity|]. split; [cbn; lia|]. split; [exact R2|]. exact T2.
      + destruct (IH _ _ _ X) as (rs2 & outs & ms2 & sl2 & E2 & L2 & R2 & T2). rewrite E2. cbn [bind].
        do 4 eexists. split; [reflexivity|]. split; [cbn; lia|]. split; [exact R2|]. exact T2.
  Qed.
  Lemma msrel_new : msrel (fun _ => Leaf) (fun _ => []) (fun _ => 0).
  Proof. intros i. exact mrel_leaf. Qed.
  Theorem prog_unwind (ops : list (prog_op K V * N * nat)) : exists rs outs, run treap_prog_step_u (fun _ => Leaf) ops = Ok (rs, outs) /\
    length outs = length ops /\ unwind_progs (fun _ => []) (fun _ => 0) (combine (map (fun x => fst (fst x)) ops) outs).
  Proof. destruct (prog_unwind_run ops _ _ _ msrel_new) as (rs & outs & _ & _ & E & L & _ & T). eauto. Qed.
  Theorem prog_unwind_enough (ops : list (prog_op K V * N * nat)) rs outs o p b : run treap_prog_step_u (fun _ => Leaf) ops = Ok (rs, outs) ->
    match o with
    | POp i _ | PSplit _ i _ _ => length (inorder (rs i))
    | PSet _ _ i j => length (inorder (rs i)) * length (inorder (rs j))
    end <= b ->
    exists rs' out, treap_prog_step_u rs (o, p, b) = Ok (rs', Some out) /\ treap_prog_step rs (o, p) = Ok (rs', out).
  Proof.
    intros E B. destruct (prog_unwind_run ops _ _ _ msrel_new) as (rs' & outs' & ms & sl & E' & _ & R & _). rewrite E in E'. injection E' as <- <-.
    destruct (prog_unwind_step rs ms sl o p b R) as (rs1 & x & E1 & En & X).
    assert (Eq : forall i, inorder (rs i) = ms i) by (intros i; apply R). destruct x as [out|].
    - destruct X as (X & _). eauto.
    - exfalso. apply En; [|reflexivity]. destruct o; rewrite ?Eq in B; exact B.
  Qed.
End TreapProgs.
