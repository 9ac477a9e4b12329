(** Running time of [RedBlackMap] and [AvlMap] calls. *)
From Verif Require Export TreeCostModel CostSpec RbProofs AvlDepthProofs.
From Verif Require Import RunLemmas.

Local Arguments Nat.max : simpl never.

Section Search.
  Context {A K V : Type} `{CmpLaws K}.
  Notation tree := (tree A K V).

  Lemma search_depth (t : tree) (k : K) : search_steps t k <= 2 * depth t.
  Proof. induction t as [|a l IHl e r IHr]; cbn [search_steps depth]; [lia|]. destruct (cmp k (fst e)); lia. Qed.
  Lemma min_depth (t : tree) : min_steps t <= depth t.
  Proof. induction t as [|a l IHl e r IHr]; cbn [min_steps depth]; lia. Qed.
  Lemma max_depth (t : tree) : max_steps t <= depth t.
  Proof. induction t as [|a l IHl e r IHr]; cbn [max_steps depth]; lia. Qed.

  Variable t_insert : tree -> K -> V -> res (tree * option (K * V)).
  Variable t_remove : tree -> K -> res (tree * option (K * V)).
  Variable t_insert_c : tree -> K -> V -> res ((tree * option (K * V)) * nat).
  Variable t_remove_c : tree -> K -> res ((tree * option (K * V)) * nat).
  Hypothesis ins_erase : forall t k v, rmap fst (t_insert_c t k v) = t_insert t k v.
  Hypothesis rem_erase : forall t k, rmap fst (t_remove_c t k) = t_remove t k.
  Notation step := (bmap_step t_insert t_remove (fun t k v => Ok (bst_get_mut_set t k v))).

  Lemma step_erase (m : bmap A K V) o :
    bmap_step (fun t k v => rmap fst (t_insert_c t k v)) (fun t k => rmap fst (t_remove_c t k)) (fun t k v => Ok (bst_get_mut_set t k v)) m o = step m o.
  Proof.
    destruct o; cbn [bmap_step]; try reflexivity.
    - unfold bmap_insert. now rewrite ins_erase.
    - unfold bmap_remove. now rewrite rem_erase.
  Qed.
  Lemma rmap_ok {X Y} (f : X -> Y) x y : rmap f x = Ok y -> exists z, x = Ok z /\ f z = y.
  Proof. destruct x; cbn; try discriminate. intros E. injection E as <-. eauto. Qed.
  Lemma step_c_ok (m m' : bmap A K V) o out : step m o = Ok (m', out) -> exists c,
    call_steps t_insert_c t_remove_c m o = Ok c /\ bmap_step_c t_insert_c t_remove_c m o = Ok (m', (out, c)).
  Proof.
    intros E. assert (X : exists c, call_steps t_insert_c t_remove_c m o = Ok c).
    { destruct o; cbn [call_steps bmap_step] in *; eauto.
      - unfold bmap_insert in E. rewrite <- ins_erase in E. destruct (t_insert_c (bm_tree m) k v) as [[x c]| |]; try discriminate. cbn. eauto.
      - unfold bmap_remove in E. rewrite <- rem_erase in E. destruct (t_remove_c (bm_tree m) k) as [[x c]| |]; try discriminate. cbn. eauto. }
    destruct X as (c & X). exists c. split; [exact X|]. unfold bmap_step_c. rewrite step_erase, E. cbn [bind]. now rewrite X.
  Qed.

  (** Bound for one call, given by the invariant *)
  Variable P : tree -> Prop.
  Variable good : list (K * V) -> map_op K V -> Prop.
  Variable f : nat -> nat.
  Variable b : nat -> nat.
  Hypothesis P_step : forall (m : bmap A K V) x o, bmap_rel P m x -> good x o -> exists m', step m o = Ok (m', snd (map_spec_step x o)) /\ bmap_rel P m' (fst (map_spec_step x o)).
  Hypothesis P_depth : forall t, P t -> depth t <= b (size t).
  Hypothesis b_f : forall n, 2 * b n <= f n.
  Hypothesis ins_f : forall t k v x c, P t -> sorted (inorder t) -> t_insert_c t k v = Ok (x, c) -> c <= f (size t).
  Hypothesis rem_f : forall t k x c, P t -> sorted (inorder t) -> good (inorder t) (MRemove k) -> t_remove_c t k = Ok (x, c) -> c <= f (size t).

  Fixpoint all_good (x : list (K * V)) (ops : list (map_op K V)) : Prop :=
    match ops with [] => True | o :: ops' => good x o /\ all_good (fst (map_spec_step x o)) ops' end.

  Lemma call_within (m : bmap A K V) x o c : bmap_rel P m x -> good x o -> call_steps t_insert_c t_remove_c m o = Ok c -> c <= f (length x).
  Proof.
    intros (<- & S & L & HP) G E. rewrite size_inorder. pose proof (P_depth _ HP) as D. pose proof (b_f (size (bm_tree m))) as B.
    destruct o; cbn [call_steps] in E;
      try (injection E as <-; first [lia | pose proof (search_depth (bm_tree m) k); lia | pose proof (min_depth (bm_tree m)); lia | pose proof (max_depth (bm_tree m)); lia]).
    - apply rmap_ok in E as ([x' c'] & E & <-). eauto.
    - apply rmap_ok in E as ([x' c'] & E & <-). eauto.
  Qed.

  Lemma run_within ops : forall (m : bmap A K V) x, bmap_rel P m x -> all_good x ops -> exists m' cs,
    run (bmap_step_c t_insert_c t_remove_c) m ops = Ok (m', combine (snd (spec_run map_spec_step x ops)) cs) /\ length cs = length ops /\
    (forall i n c, nth_error (lengths_before x ops) i = Some n -> nth_error cs i = Some c -> c <= f n).
  Proof.
    induction ops as [|o ops IH]; intros m x R G.
    - exists m, []. split; [reflexivity|]. split; [reflexivity|]. intros [|i] n c; discriminate.
    - destruct G as (Go & G). destruct (P_step m x o R Go) as (m1 & E1 & R1). destruct (step_c_ok _ _ _ _ E1) as (c0 & Ec & Es).
      destruct (IH m1 _ R1 G) as (m2 & cs & E2 & L & B). exists m2, (c0 :: cs). split; [|split].
      + cbn [run]. rewrite Es. cbn [bind]. rewrite E2. cbn [bind]. cbn [spec_run]. destruct (map_spec_step x o) as [x1 r]. cbn [fst snd] in *.
        destruct (spec_run map_spec_step x1 ops) as [x2 rs]. reflexivity.
      + cbn. now rewrite L.
      + intros [|i] n c; cbn.
        * intros X Y. injection X as <-. injection Y as <-. eapply call_within; eauto.
        * apply B.
  Qed.
  Lemma outputs_within ops : P Leaf -> all_good [] ops -> exists cs,
    outputs (bmap_step_c t_insert_c t_remove_c) bmap_new ops = Ok (combine (map_spec_outputs ops) cs) /\ steps_within f ops cs.
  Proof.
    intros PL G. destruct (run_within ops bmap_new []) as (m' & cs & E & L & B); auto.
    { repeat split; cbn; auto using sorted_nil. }
    exists cs. split; [|split; [exact L|intros i o n c _ X Y _; eauto]]. unfold outputs. now rewrite E.
  Qed.
End Search.

Section RbCostProofs.
  Context {K V : Type} `{CmpLaws K}.
  Notation rb := (tree color K V).
  Implicit Types (t l r : rb) (e : K * V) (k : K).

  Lemma bind_rmap {X Y Z} (g : X -> Y) (x : res X) (h : Y -> res Z) : bind (rmap g x) h = bind x (fun a => h (g a)).
  Proof. now destruct x. Qed.
  Lemma rmap_bind {X Y Z} (g : Y -> Z) (x : res X) (h : X -> res Y) : rmap g (bind x h) = bind x (fun a => rmap g (h a)).
  Proof. now destruct x. Qed.
  Lemma bind_ext {X Y} (x : res X) (h h' : X -> res Y) : (forall a, h a = h' a) -> bind x h = bind x h'.
  Proof. intros E. destruct x; cbn; auto. Qed.

  Lemma remove_min_erase f : forall t, rmap fst (rb_remove_min_c f t) = rb_remove_min f t.
  Proof.
    induction f as [|f IH]; intros t; [reflexivity|]. cbn [rb_remove_min_c rb_remove_min]. destruct t as [|c l e r]; [reflexivity|].
    destruct (is_none l); [reflexivity|]. rewrite rmap_bind. apply bind_ext. intros t1. rewrite rmap_bind, <- IH, bind_rmap. apply bind_ext. intros [[l' m] n].
    rewrite rmap_bind. reflexivity.
  Qed.
  Lemma combine_erase f l r c : rmap fst (rb_combine_c f l r c) = rb_combine f l r c.
  Proof. unfold rb_combine_c, rb_combine. rewrite rmap_bind, <- remove_min_erase, bind_rmap. apply bind_ext. now intros [[r' m] n]. Qed.
  Lemma ins_erase_rb t : forall k v, rmap fst (rb_ins_c t k v) = rb_ins t k v.
  Proof.
    induction t as [|c l IHl e r IHr]; intros k v; [reflexivity|]. cbn [rb_ins_c rb_ins]. rewrite rmap_bind.
    destruct (cmp k (fst e)).
    - cbn [bind]. now rewrite rmap_bind.
    - rewrite <- IHl, !bind_rmap. destruct (rb_ins_c l k v) as [[[l' o] n]| |]; cbn [bind]; rewrite ?rmap_bind; reflexivity.
    - rewrite <- IHr, !bind_rmap. destruct (rb_ins_c r k v) as [[[l' o] n]| |]; cbn [bind]; rewrite ?rmap_bind; reflexivity.
  Qed.
  Lemma rem_erase_rb f : forall t k, rmap fst (rb_rem_c f t k) = rb_rem f t k.
  Proof.
    induction f as [|f IH]; intros t k; [reflexivity|]. cbn [rb_rem_c rb_rem]. destruct t as [|c l e r]; [reflexivity|].
    destruct (is_lt (cmp k (fst e))).
    - rewrite rmap_bind. apply bind_ext. intros t1. rewrite rmap_bind, <- IH, bind_rmap. apply bind_ext. intros [[l' o] n]. now rewrite rmap_bind.
    - rewrite rmap_bind. apply bind_ext. intros t1. destruct (key_is k t1 && is_none (right_of t1)).
      + rewrite rmap_bind. reflexivity.
      + rewrite rmap_bind. apply bind_ext. intros t2. destruct (key_is k t2).
        * destruct t2 as [|c2 l2 e2 r2]; [reflexivity|]. rewrite rmap_bind, <- combine_erase, bind_rmap. apply bind_ext. intros [t3 n]. now rewrite rmap_bind.
        * rewrite rmap_bind, <- IH, bind_rmap. apply bind_ext. intros [[r' o] n]. now rewrite rmap_bind.
  Qed.
  Lemma rb_insert_erase t k v : rmap fst (rb_insert_c t k v) = rb_insert t k v.
  Proof. unfold rb_insert_c, rb_insert. rewrite rmap_bind, <- ins_erase_rb, bind_rmap. apply bind_ext. now intros [[t' o] n]. Qed.
  Lemma rb_remove_erase t k : rmap fst (rb_remove_c t k) = rb_remove t k.
  Proof. unfold rb_remove_c, rb_remove. rewrite rmap_bind, <- rem_erase_rb, bind_rmap. apply bind_ext. now intros [[t' o] n]. Qed.

  (** More fuel changes nothing. *)
  Lemma bind_mono {X Y} (x x' : res X) (h h' : X -> res Y) y : (forall a, x = Ok a -> x' = Ok a) ->
    (forall a z, h a = Ok z -> h' a = Ok z) -> bind x h = Ok y -> bind x' h' = Ok y.
  Proof. intros A B. destruct x as [a| |]; cbn; try discriminate. intros E. rewrite (A a eq_refl). cbn. now apply B. Qed.
  Lemma remove_min_mono f : forall g t x, f <= g -> rb_remove_min_c f t = Ok x -> rb_remove_min_c g t = Ok x.
  Proof.
    induction f as [|f IH]; intros g t x L; [discriminate|]. destruct g as [|g]; [lia|]. cbn [rb_remove_min_c]. destruct t as [|c l e r]; [auto|].
    destruct (is_none l); [auto|]. apply bind_mono; [auto|]. intros t1 z. apply bind_mono; [intros a; apply IH; lia|]. auto.
  Qed.
  Lemma combine_mono f g l r c x : f <= g -> rb_combine_c f l r c = Ok x -> rb_combine_c g l r c = Ok x.
  Proof. intros L. apply bind_mono; [intros a; now apply remove_min_mono|]. auto. Qed.
  Lemma rem_mono f : forall g t k x, f <= g -> rb_rem_c f t k = Ok x -> rb_rem_c g t k = Ok x.
  Proof.
    induction f as [|f IH]; intros g t k x L; [discriminate|]. destruct g as [|g]; [lia|]. cbn [rb_rem_c]. destruct t as [|c l e r]; [auto|].
    destruct (is_lt (cmp k (fst e))).
    - apply bind_mono; [auto|]. intros t1 z. apply bind_mono; [intros a; apply IH; lia|]. auto.
    - apply bind_mono; [auto|]. intros t1 z. destruct (key_is k t1 && is_none (right_of t1)); [auto|].
      apply bind_mono; [auto|]. intros t2 z'. destruct (key_is k t2).
      + destruct t2 as [|c2 l2 e2 r2]; [auto|]. apply bind_mono; [intros a; apply combine_mono; lia|]. auto.
      + apply bind_mono; [intros a; apply IH; lia|]. auto.
  Qed.

  (** Fuel bounds the steps. *)
  Lemma remove_min_steps f : forall t x c, rb_remove_min_c f t = Ok (x, c) -> c <= f.
  Proof.
    induction f as [|f IH]; intros t x c; [discriminate|]. cbn [rb_remove_min_c]. destruct t as [|cl l e r]; [discriminate|].
    destruct (is_none l). { intros E. injection E as <- <-. lia. }
    intros E. inv_bind E. inv_bind E. destruct a0 as [[l' m] n]. inv_bind E. injection E as <- <-. apply IH in R0. lia.
  Qed.
  Lemma rem_steps f : forall t k x c, rb_rem_c f t k = Ok (x, c) -> c <= 4 * f.
  Proof.
    induction f as [|f IH]; intros t k x c; [discriminate|]. cbn [rb_rem_c]. destruct t as [|cl l e r]. { intros E. injection E as <- <-. lia. }
    destruct (is_lt (cmp k (fst e))).
    - intros E. inv_bind E. inv_bind E. destruct a0 as [[l' o] n]. inv_bind E. injection E as <- <-. apply IH in R0. lia.
    - intros E. inv_bind E. destruct (key_is k a && is_none (right_of a)).
      + inv_bind E. injection E as <- <-. lia.
      + inv_bind E. destruct (key_is k a0).
        * destruct a0 as [|c2 l2 e2 r2]; [discriminate|]. inv_bind E. destruct a0 as [t3 n]. inv_bind E. injection E as <- <-.
          unfold rb_combine_c in R1. inv_bind R1. destruct a1 as [[r' m] n']. injection R1 as <- <-. apply remove_min_steps in R3. lia.
        * inv_bind E. destruct a1 as [[r' o] n]. inv_bind E. injection E as <- <-. apply IH in R1. lia.
  Qed.
  Lemma ins_steps t : forall k v x c, rb_ins_c t k v = Ok (x, c) -> c <= 2 * depth t.
  Proof.
    induction t as [|cl l IHl e r IHr]; intros k v x c; cbn [rb_ins_c depth]. { intros E. injection E as <- <-. lia. }
    intros E. inv_bind E. destruct a as [[t1 o] n]. inv_bind E. injection E as <- <-. destruct (cmp k (fst e)).
    - injection R as <- <- <-. lia.
    - inv_bind R. destruct a0 as [[l' o'] n']. injection R as <- <- <-. apply IHl in R1. lia.
    - inv_bind R. destruct a0 as [[l' o'] n']. injection R as <- <- <-. apply IHr in R1. lia.
  Qed.

  Lemma rb_remove_steps t k x c : rb_inv t -> sorted (inorder t) -> rb_remove_c t k = Ok (x, c) -> c <= 8 * Nat.log2 (S (size t)) + 8.
  Proof.
    intros Iv So E. destruct (fix_root_ok t Iv) as (Ei & n & W & Pr). rewrite <- Ei in So. pose proof (size_of_inorder _ _ Ei) as Es.
    unfold rb_remove_c in E. inv_bind E. destruct a as [[t' o] c']. injection E as _ <-.
    destruct (rb_rem_wf (Datatypes.S (mu n (fix_root t))) (fix_root t) n k So) as (t2 & o2 & E2 & _); [lia | left; auto |].
    rewrite <- rem_erase_rb in E2. destruct (rmap_ok _ _ _ E2) as ([x2 c2] & E3 & _).
    pose proof (rem_steps _ _ _ _ _ E3) as B. apply (rem_mono _ (Datatypes.S (size (fix_root t)))) in E3.
    - rewrite R in E3. injection E3 as _ <-. apply wf_size in W. rewrite Es in W. apply Nat.log2_le_mono in W. rewrite Nat.log2_pow2 in W by lia.
      unfold mu in B. destruct (is_red (fix_root t)); lia.
    - pose proof (pre_mu _ _ W Pr). lia.
  Qed.

  Lemma rb_steps (ops : list (map_op K V)) : exists steps,
    outputs rb_step_c rb_new ops = Ok (combine (map_spec_outputs ops) steps) /\ steps_within (fun n => 8 * Nat.log2 (n + 1) + 8) ops steps.
  Proof.
    apply (outputs_within rb_insert rb_remove rb_insert_c rb_remove_c rb_insert_erase rb_remove_erase rb_inv (fun _ _ => True)
             (fun n => 8 * Nat.log2 (n + 1) + 8) (fun n => 2 * Nat.log2 (S n))).
    - intros m x o R _. revert R.
      apply (bmap_step_ok rb_insert rb_remove rb_get_mut_set rb_inv); [apply rb_inv_leaf | apply rb_inv_shape | intros t k v; apply rb_insert_ok | intros t k; apply rb_remove_ok | intros t k v; apply rb_get_mut_ok].
    - intros t Iv. now apply rb_inv_balanced.
    - intros n. rewrite Nat.add_1_r. lia.
    - intros t k v x c Iv So E. unfold rb_insert_c in E. inv_bind E. destruct a as [[t' o] n]. injection E as <- <-. apply ins_steps in R.
      destruct (rb_inv_balanced _ Iv) as (_ & D). unfold log_depth in D. rewrite Nat.add_1_r. lia.
    - intros t k x c Iv So _ E. rewrite Nat.add_1_r. eapply rb_remove_steps; eauto.
    - apply rb_inv_leaf.
    - clear. generalize (@nil (K * V)). induction ops; cbn; auto.
  Qed.
End RbCostProofs.

Section AvlCostProofs.
  Context {K V : Type} `{CmpLaws K}.
  Notation avl := (tree nat K V).
  Implicit Types (t l r : avl) (e : K * V) (k : K).

  Lemma avl_remove_min_erase t : rmap fst (avl_remove_min_c t) = avl_remove_min t.
  Proof.
    induction t as [|h l IHl e r IHr]; [reflexivity|]. cbn [avl_remove_min_c avl_remove_min]. destruct l as [|hl ll le lr]; [reflexivity|].
    rewrite rmap_bind, <- IHl, bind_rmap. apply bind_ext. now intros [[l' m] n].
  Qed.
  Lemma avl_combine_erase l r : rmap fst (avl_combine_c l r) = avl_combine l r.
  Proof. unfold avl_combine_c, avl_combine. rewrite rmap_bind, <- avl_remove_min_erase, bind_rmap. apply bind_ext. now intros [[r' [h e]] n]. Qed.
  Lemma avl_insert_erase t : forall k v, rmap fst (avl_insert_c t k v) = avl_insert t k v.
  Proof.
    induction t as [|h l IHl e r IHr]; intros k v; [reflexivity|]. cbn [avl_insert_c avl_insert]. destruct (cmp k (fst e)); [reflexivity| |].
    - rewrite rmap_bind, <- IHl, bind_rmap. apply bind_ext. intros [[l' o] n]. now rewrite rmap_bind.
    - rewrite rmap_bind, <- IHr, bind_rmap. apply bind_ext. intros [[l' o] n]. now rewrite rmap_bind.
  Qed.
  Lemma avl_remove_erase t : forall k, rmap fst (avl_remove_c t k) = avl_remove t k.
  Proof.
    induction t as [|h l IHl e r IHr]; intros k; [reflexivity|]. cbn [avl_remove_c avl_remove]. destruct (cmp k (fst e)).
    - destruct l as [|hl ll le lr] eqn:El; [|destruct r as [|hr rl re rr] eqn:Er].
      + cbn [bind]. now rewrite rmap_bind.
      + cbn [bind]. now rewrite rmap_bind.
      + rewrite <- El, <- Er, rmap_bind, <- avl_combine_erase, bind_rmap. apply bind_ext. intros [t1 n]. now rewrite rmap_bind.
    - rewrite rmap_bind, <- IHl, bind_rmap. apply bind_ext. intros [[l' o] n]. now rewrite rmap_bind.
    - rewrite rmap_bind, <- IHr, bind_rmap. apply bind_ext. intros [[l' o] n]. now rewrite rmap_bind.
  Qed.

  Lemma avl_remove_min_steps t : forall x c, avl_remove_min_c t = Ok (x, c) -> c <= depth t.
  Proof.
    induction t as [|h l IHl e r IHr]; intros x c; [discriminate|]. cbn [avl_remove_min_c depth]. destruct l as [|hl ll le lr] eqn:El.
    - intros E. injection E as <- <-. lia.
    - rewrite <- El in *. intros E. inv_bind E. destruct a as [[l' m] n]. injection E as <- <-. specialize (IHl _ _ eq_refl). lia.
  Qed.
  Lemma avl_insert_steps t : forall k v x c, avl_insert_c t k v = Ok (x, c) -> c <= 2 * depth t.
  Proof.
    induction t as [|h l IHl e r IHr]; intros k v x c; cbn [avl_insert_c depth]. { intros E. injection E as <- <-. lia. }
    destruct (cmp k (fst e)).
    - intros E. injection E as <- <-. lia.
    - intros E. inv_bind E. destruct a as [[l' o] n]. inv_bind E. injection E as <- <-. apply IHl in R. lia.
    - intros E. inv_bind E. destruct a as [[l' o] n]. inv_bind E. injection E as <- <-. apply IHr in R. lia.
  Qed.
  Lemma avl_remove_steps t : forall k x c, avl_remove_c t k = Ok (x, c) -> c <= 2 * depth t.
  Proof.
    induction t as [|h l IHl e r IHr]; intros k x c; cbn [avl_remove_c depth]. { intros E. injection E as <- <-. lia. }
    destruct (cmp k (fst e)).
    - intros E. inv_bind E. destruct a as [t1 n]. inv_bind E. injection E as <- <-.
      assert (n <= depth r); [|lia]. destruct l as [|hl ll le lr]; [injection R as <- <-; lia|]. destruct r as [|hr rl re rr] eqn:Er; [injection R as <- <-; lia|].
      rewrite <- Er in *. unfold avl_combine_c in R. inv_bind R. destruct a0 as [[r' [hm em]] n']. injection R as <- <-. now apply avl_remove_min_steps in R1.
    - intros E. inv_bind E. destruct a as [[l' o] n]. inv_bind E. injection E as <- <-. apply IHl in R. lia.
    - intros E. inv_bind E. destruct a as [[l' o] n]. inv_bind E. injection E as <- <-. apply IHr in R. lia.
  Qed.

  Lemma fib_pow n : 2 ^ n <= fib (2 * n + 2).
  Proof.
    induction n as [|n IH]; [cbn; lia|]. replace (2 * S n + 2) with (S (S (2 * n + 2))) by lia. rewrite fib_SS.
    pose proof (fib_mono (2 * n + 2) (S (2 * n + 2)) ltac:(lia)). cbn [Nat.pow]. lia.
  Qed.
  Lemma fib_log d n : fib (d + 2) <= S n -> d <= 2 * Nat.log2 (S n) + 1.
  Proof.
    intros L. pose proof (fib_pow (d / 2)) as P. pose proof (fib_mono (2 * (d / 2) + 2) (d + 2)) as M.
    pose proof (Nat.div_mod d 2 ltac:(lia)) as D. pose proof (Nat.mod_upper_bound d 2 ltac:(lia)) as U.
    assert (X : 2 ^ (d / 2) <= S n) by lia. apply Nat.log2_le_mono in X. rewrite Nat.log2_pow2 in X by lia. lia.
  Qed.

  Lemma avl_steps (ops : list (map_op K V)) : removes_ends [] ops -> exists steps,
    outputs avl_step_c avl_new ops = Ok (combine (map_spec_outputs ops) steps) /\ steps_within (fun n => 4 * Nat.log2 (n + 1) + 2) ops steps.
  Proof.
    intros D.
    apply (outputs_within avl_insert avl_remove avl_insert_c avl_remove_c (fun t => avl_insert_erase t) avl_remove_erase avl_wf
             (fun x o => forall k, o = MRemove k -> ends k x)
             (fun n => 4 * Nat.log2 (n + 1) + 2) (fun n => 2 * Nat.log2 (S n) + 1)).
    - intros m x o (E & So & L & W) G. destruct (avl_ends_step m x o) as (m' & Em & ((E' & So' & L' & _) & W')); auto.
      { split; [|exact W]. repeat split; auto. }
      exists m'. split; [exact Em|]. repeat split; auto.
    - intros t W. apply fib_log. now apply avl_balanced_fib, avl_wf_balanced.
    - intros n. rewrite (Nat.add_1_r n). lia.
    - intros t k v x c W So E. apply avl_insert_steps in E. rewrite Nat.add_1_r.
      pose proof (fib_log _ _ (avl_balanced_fib _ (avl_wf_balanced _ W))). lia.
    - intros t k x c W So _ E. apply avl_remove_steps in E. rewrite Nat.add_1_r.
      pose proof (fib_log _ _ (avl_balanced_fib _ (avl_wf_balanced _ W))). lia.
    - exact I.
    - clear -D. revert D. generalize (@nil (K * V)). induction ops as [|o ops IH]; cbn; auto. intros x (D & D'). split; [|auto].
      intros k ->. exact D.
  Qed.
End AvlCostProofs.

(** In the trees of AvlDepthProofs.v a search for a key above all keys enters [h] nodes. *)
Lemma chain_search d c k : chain d c -> (forall p, In p (inorder c) -> fst p < k) -> search_steps c k = 2 * d.
Proof.
  induction 1 as [|d e c J IH]; intros B; [reflexivity|]. cbn [search_steps]. rewrite (cmp_gt' k (fst e)) by (apply B; cbn; auto).
  rewrite IH; [lia|]. intros p X. apply B. cbn. auto.
Qed.
Lemma comb_search d c k : comb d c -> (forall p, In p (inorder c) -> fst p < k) -> search_steps c k = 2 * d.
Proof.
  intros [|d' l e c' J Hc] B; [reflexivity|]. cbn [search_steps]. rewrite (cmp_gt' k (fst e)) by (apply B; cbn; rewrite in_app_iff; cbn; auto).
  rewrite (chain_search d'); [lia|exact Hc|]. intros p X. apply B. cbn. rewrite in_app_iff. cbn. auto.
Qed.

Section Slow.
  Lemma run_c (ops : list (map_op nat unit)) : forall (m m' : avl_map) outs, run avl_step m ops = Ok (m', outs) ->
    exists cs, run avl_step_c m ops = Ok (m', combine outs cs) /\ length cs = length ops.
  Proof.
    induction ops as [|o ops IH]; intros m m' outs E.
    - injection E as <- <-. exists []. now split.
    - cbn [run] in E. inv_bind E. destruct a as [m1 r]. inv_bind E. destruct a as [m2 rs]. injection E as <- <-.
      destruct (step_c_ok avl_insert avl_remove avl_insert_c avl_remove_c (fun t => avl_insert_erase t) avl_remove_erase _ _ _ _ R) as (c & _ & Es).
      destruct (IH _ _ _ R0) as (cs & E2 & L). exists (c :: cs). cbn [run]. change (avl_step_c m o) with (bmap_step_c avl_insert_c avl_remove_c m o).
      rewrite Es. cbn [bind]. rewrite E2. cbn. now rewrite L.
  Qed.
  Lemma lengths_last (ops : list (map_op nat unit)) o : forall x,
    nth_error (lengths_before x (ops ++ [o])) (length ops) = Some (length (fst (spec_run map_spec_step x ops))).
  Proof.
    induction ops as [|o' ops IH]; intros x; [reflexivity|]. cbn [app lengths_before length nth_error]. rewrite IH. cbn [spec_run].
    destruct (map_spec_step x o') as [x1 r]. cbn [fst]. now destruct (spec_run map_spec_step x1 ops).
  Qed.
  Lemma run_rel (ops : list (map_op nat unit)) : forall (m m' : avl_map) x outs, bmap_rel (fun _ => True) m x -> run avl_step m ops = Ok (m', outs) ->
    bmap_rel (fun _ => True) m' (fst (spec_run map_spec_step x ops)) /\ outs = snd (spec_run map_spec_step x ops).
  Proof.
    induction ops as [|o ops IH]; intros m m' x outs R E.
    - injection E as <- <-. now split.
    - cbn [run spec_run] in *. destruct (avl_any_step m x o R) as (m1 & E1 & R1). rewrite E1 in E. cbn [bind] in E. inv_bind E. destruct a as [m2 rs]. injection E as <- <-.
      destruct (IH _ _ _ _ R1 R0) as (R2 & Ers). destruct (map_spec_step x o) as [x1 r]. cbn [fst snd] in *. destruct (spec_run map_spec_step x1 ops) as [x2 rs2].
      cbn [fst snd] in *. subst rs. now split.
  Qed.

  Lemma keys_bound (l : list (nat * unit)) : exists k, forall p, In p l -> fst p < k.
  Proof.
    exists (S (list_max (map fst l))). intros p J. apply in_map with (f := fst) in J. pose proof (list_max_le (map fst l) (list_max (map fst l))) as [X _].
    specialize (X (le_n _)). rewrite Forall_forall in X. specialize (X _ J). lia.
  Qed.

  Lemma avl_slow c : exists (ops : list (map_op nat unit)) steps,
    outputs avl_step_c avl_new ops = Ok (combine (map_spec_outputs ops) steps) /\ ~ steps_within (fun n => c * Nat.log2 (n + 1) + c) ops steps.
  Proof.
    destruct (avl_sparse (2 ^ (4 * c + 4))) as (ops & m & outs & E & Cm). destruct (comb_size _ _ Cm) as (Sz & D).
    destruct (keys_bound (inorder (bm_tree m))) as (k & Bk). exists (ops ++ [MGet k]).
    destruct (run_c _ _ _ _ E) as (cs & Ec & Lc).
    assert (R0 : bmap_rel (fun _ => True) (avl_new : @avl_map nat unit) []) by (now apply bmap_rel_new).
    destruct (run_rel _ _ _ _ _ R0 E) as ((Ei & _) & Eo).
    set (st := search_steps (bm_tree m) k).
    assert (E2 : run avl_step_c m [MGet k] = Ok (m, [(RVal (bmap_get m k), st)])) by reflexivity.
    assert (E2' : run avl_step m [MGet k] = Ok (m, [RVal (bmap_get m k)])) by reflexivity.
    pose proof (run_app_ok _ _ _ _ _ _ _ _ Ec E2) as E3. pose proof (run_app_ok _ _ _ _ _ _ _ _ E E2') as E3'.
    destruct (run_rel _ _ _ _ _ R0 E3') as (_ & Eo').
    assert (Lo : length outs = length ops). { clear -E. revert E. generalize (avl_new : @avl_map nat unit), outs, m. induction ops as [|o ops IH]; intros m0 outs0 m1 E; cbn in E.
      - now injection E as <- <-.
      - inv_bind E. destruct a as [mx rx]. inv_bind E. destruct a as [my ry]. injection E as <- <-. cbn. f_equal. eauto. }
    exists (cs ++ [st]). split.
    - unfold outputs. rewrite E3. cbn. f_equal. unfold map_spec_outputs, spec_outputs. rewrite <- Eo'.
      assert (forall A B (a : list A) (b : list B) x y, length a = length b -> combine (a ++ [x]) (b ++ [y]) = combine a b ++ [(x, y)]) as CA.
      { clear. induction a as [|a0 a IH]; intros [|b0 b] x y L; try discriminate L; [reflexivity|]. cbn. f_equal. apply IH. now injection L. }
      rewrite CA by congruence. reflexivity.
    - intros (_ & B). specialize (B (length ops) (MGet k) (length (inorder (bm_tree m))) st).
      assert (st <= c * Nat.log2 (length (inorder (bm_tree m)) + 1) + c).
      { apply B; [| |rewrite <- Lc|]; try reflexivity.
        - rewrite nth_error_app2, Nat.sub_diag by lia. reflexivity.
        - rewrite lengths_last, Ei. reflexivity.
        - rewrite nth_error_app2, Nat.sub_diag by lia. reflexivity. }
      clear B. unfold st in *. rewrite (comb_search _ _ k Cm Bk) in *. rewrite size_inorder, Nat.add_1_r in *.
      pose proof (pow_beats c) as Pb. set (j := 4 * c + 4) in *. pose proof (pow2_pos j).
      assert (L : Nat.log2 (S (size (bm_tree m))) <= 2 * j + 1).
      { rewrite <- (Nat.log2_pow2 (2 * j + 1)) by lia. apply Nat.log2_le_mono.
        replace (2 * j + 1) with (j + j + 1) by lia. rewrite !Nat.pow_add_r. change (2 ^ 1) with 2. nia. }
      assert (c * Nat.log2 (S (size (bm_tree m))) <= c * (2 * j + 1)) by (apply Nat.mul_le_mono_l, L). unfold j in *. nia.
  Qed.
End Slow.
