(** Proofs about the exact answer of [get_longest_prefix]: the key of the root before and after the first
    remove. *)
From Verif Require Export RadixMapProofs.

Section Prefix.
  Context {T : Type}.
  Implicit Types (t c n : rtree T) (m : radix_map T) (k s : bytes) (v : option T).

  (** After a remove the root without a value has two children; before, its key is empty. *)
  Definition root_at (removed : bool) t : Prop :=
    match t with
    | RNil => removed = true
    | RNode k v _ c => if removed then v = None -> two c else k = []
    end.
  Definition next_removed (b : bool) (o : radix_op T) : bool :=
    match o with XRemove _ => true | XClear | XIntoIter => false | _ => b end.

  Lemma insert_child_one k v c nk nv nc r : insert_child (RNode k v RNil c) nk nv nc = Ok r -> two r.
  Proof.
    cbn [insert_child]. destruct (first_byte k); try discriminate. cbn [bind].
    destruct (first_byte nk); try discriminate. cbn [bind]. destruct (Nat.ltb _ _); intros E; injection E as <-; exact I.
  Qed.
  Lemma insert_child_two t nk nv nc r : two t -> insert_child t nk nv nc = Ok r -> two r.
  Proof.
    destruct t as [|k v n c]; [contradiction|]. intros Tw. cbn [insert_child]. destruct (first_byte k); try discriminate.
    cbn [bind]. destruct (first_byte nk); try discriminate. cbn [bind].
    destruct (Nat.ltb _ _); [intros E; injection E as <-; exact I|].
    destruct n as [|k2 v2 n2 c2]; [contradiction|].
    destruct (insert_child (RNode k2 v2 n2 c2) nk nv nc) as [n'| |] eqn:E2; try discriminate. cbn [bind].
    intros E. injection E as <-. destruct n'; [|exact I]. exfalso. revert E2. cbn [insert_child].
    destruct (first_byte k2); try discriminate. cbn [bind]. destruct (first_byte nk); try discriminate. cbn [bind].
    destruct (Nat.ltb _ _); [discriminate|]. destruct (insert_child n2 nk nv nc); discriminate.
  Qed.

  Lemma insert_root b k v c s x t' old : wf c -> ncond k v c -> root_at b (RNode k v RNil c) ->
    r_insert (RNode k v RNil c) s x = Ok (t', old) -> root_at b t'.
  Proof.
    intros W NC A. cbn [r_insert].
    destruct (node_cases k s) as [(i & -> & p & a & k1 & y & s1 & -> & -> & Ny & ->)
      | (-> & [(d & s1 & -> & -> & ->) | [(d & k1 & Ek & -> & Sk & Fk) | (<- & ->)]])].
    - destruct b; [|now destruct p].
      destruct (node_split _ v c (length p)) as [[nk' c1]| |] eqn:E1; try discriminate. cbn [bind].
      destruct (insert_child c1 _ _ _) as [c2| |] eqn:E2; try discriminate. cbn [bind]. intros E. injection E as <- _.
      cbn [root_at]. intros _. unfold node_split in E1. cbn [insert_child bind] in E1. injection E1 as _ <-.
      exact (insert_child_one _ _ _ _ _ _ _ E2).
    - cbn [first_byte bind]. rewrite find_child_drop by exact W. cbn [bind].
      destruct (drop_to d c) as [|kd vd nd cd] eqn:Ed; cbn [is_rnil negb].
      + destruct (insert_child c _ _ _) as [c2| |] eqn:E2; try discriminate. cbn [bind]. intros E. injection E as <- _.
        cbn [root_at] in *. destruct b; [|exact A]. intros V. exact (insert_child_two _ _ _ _ _ (A V) E2).
      + pose proof (proj2 (r_insert_ok_all c) d) as Q. rewrite Ed in Q.
        pose proof (drop_to_wf d c W) as Wd. rewrite Ed in Wd. destruct Wd as (_ & _ & Dd & _ & Wcd).
        destruct (Q Wcd (fun _ => Dd) (d :: s1) x) as (k' & v' & c' & old' & E & _).
        rewrite <- Ed in E. rewrite (with_child_graft _ _ _ _ _ W E). cbn [bind]. intros E'. injection E' as <- _.
        cbn [root_at] in *. destruct b; [|exact A]. intros V. eapply graft_two; eauto.
    - destruct (node_split k v c (length s)) as [[nk' c1]| |] eqn:E1; try discriminate. cbn [bind]. intros E. injection E as <- _.
      destruct b; cbn [root_at] in *; [discriminate|]. subst k. now destruct s.
    - intros E. injection E as <- _. destruct b; cbn [root_at] in *; [discriminate | exact A].
  Qed.

  Lemma root_at_shape b t t' : rshape t' = rshape t -> root_at b t -> root_at b t'.
  Proof.
    destruct t as [|k v n c], t' as [|k' v' n' c']; simpl; try discriminate; auto.
    intros E. injection E as -> Ev En Ec. destruct b; auto. intros A V.
    eapply rshape_two; [symmetry; exact Ec|]. apply A. subst v'. now destruct v.
  Qed.

  Lemma root_at_step b m l dead o m' out : rrel m l dead -> root_at b (rm_root m) ->
    radix_step m o = Ok (m', out) -> root_at (next_removed b o) (rm_root m').
  Proof.
    intros (El & Ln & RO & Dd) A. destruct o as [k v|k|k|k v|k|k| | | | | | |vs| ]; cbn [radix_step next_removed].
    - destruct (rm_root m) as [|nk nv n c]; [discriminate|]. destruct RO as (-> & W & NC).
      destruct (r_insert (RNode nk nv RNil c) k v) as [[t old]| |] eqn:E; try discriminate. cbn [bind].
      apply (insert_root b nk nv c k v t old W NC A) in E. destruct old; cbn [checked_pred bind]; intros X; injection X as <- _; exact E.
    - destruct (rm_root m) as [|nk nv n c].
      + cbn [r_remove bind]. intros X. injection X as <- _. reflexivity.
      + destruct RO as (-> & W & NC).
        destruct (proj1 (r_remove_ok_all (RNode nk nv RNil c)) W NC k) as (r & old & E & G & _).
        rewrite E. cbn [bind].
        assert (G' : root_at true (rm_tree RNil r)).
        { destruct r as [[[k' v'] c']|]; [|reflexivity]. exact (proj1 (proj2 G)). }
        destruct old; [destruct (checked_pred (rm_len m)); try discriminate; cbn [bind]|]; intros X; injection X as <- _; exact G'.
    - destruct (r_get (rm_root m) k); try discriminate. cbn [bind]. intros X. now injection X as <- _.
    - destruct (rm_root m) as [|nk nv n c].
      + cbn [r_get_mut_set bind]. intros X. injection X as <- _. exact A.
      + destruct RO as (-> & W & NC).
        destruct (proj1 (r_get_mut_ok_all (RNode nk nv RNil c)) W k v) as (v' & c' & old & E & _ & Sv & Sc & _).
        rewrite E. cbn [bind]. intros X. injection X as <- _. eapply root_at_shape; [|exact A]. simpl. now rewrite Sv, Sc.
    - destruct (r_get (rm_root m) k); try discriminate. cbn [bind]. intros X. now injection X as <- _.
    - destruct (r_get (rm_root m) k); try discriminate. cbn [bind]. intros X. now injection X as <- _.
    - intros X. now injection X as <- _.
    - intros X. now injection X as <- _.
    - intros X. now injection X as <- _.
    - intros X. now injection X as <- _.
    - intros X. now injection X as <- _.
    - rewrite riter_all_ok. cbn [bind]. intros X. now injection X as <- _.
    - destruct (ritermut_run_ok (rm_root m) vs) as (t' & E & _ & S). rewrite E. cbn [bind].
      intros X. injection X as <- _. exact (root_at_shape b _ _ S A).
    - rewrite riter_all_ok. cbn [bind]. intros X. now injection X as <- _.
  Qed.

  Lemma root_at_run (ops : list (radix_op T)) : forall b m l dead m' outs, rrel m l dead -> root_at b (rm_root m) ->
    run radix_step m ops = Ok (m', outs) -> root_at (fold_left next_removed ops b) (rm_root m').
  Proof.
    induction ops as [|o ops IH]; intros b m l dead m' outs HR A; cbn [run fold_left].
    - intros X. now injection X as <- _.
    - destruct (radix_step m o) as [[m1 r]| |] eqn:E; try discriminate. cbn [bind].
      destruct (run radix_step m1 ops) as [[m2 rs]| |] eqn:E2; try discriminate. cbn [bind]. intros X. injection X as <- _.
      assert (HR' : exists l' d', rrel m1 l' d').
      { pose proof (radix_step_ok m l dead o HR) as St.
        assert (St' : exists m', radix_step m o = Ok (m', snd (map_spec_step l (radix_map_op o))) /\
                 rrel m' (fst (map_spec_step l (radix_map_op o))) (next_dead dead l o)).
        { destruct o, dead; try exact St. rewrite St in E. discriminate. }
        destruct St' as (m'' & E' & HR'). rewrite E in E'. injection E' as <- _. eauto. }
      destruct HR' as (l' & d' & HR'). exact (IH _ _ _ _ _ _ HR' (root_at_step b m l dead o m1 r HR A E) E2).
  Qed.

  Lemma radix_prefix_exact (ops : list (radix_op T)) m outs s : run radix_step radix_new ops = Ok (m, outs) ->
    radix_longest_prefix m s = Ok (longest_prefix_exact (remove_called ops) s (radix_contents ops)).
  Proof.
    intros R. pose proof (root_at_run ops false radix_new [] false m outs rrel_new eq_refl R) as A.
    change (fold_left next_removed ops false) with (remove_called ops) in A.
    destruct (radix_reachable ops m outs R) as (d & El & _ & RO & _). rewrite <- El.
    unfold radix_longest_prefix, longest_prefix_exact. destruct (rm_root m) as [|k v n c].
    - cbn [root_at] in A. rewrite A. rewrite Bool.andb_false_r. cbn [r_longest_prefix rent].
      unfold longest_prefix_answer. simpl. now destruct (_ || _).
    - destruct RO as (-> & W & NC). destruct (proj1 (lp_ok_all (RNode k v RNil c)) W NC s []) as (ks & E & _ & A1 & A2).
      rewrite map_app_nil in E. cbn [rent]. rewrite app_nil_r. fold (nent v c). rewrite E. apply (f_equal (@Ok (list bytes))).
      cbn [root_at] in A. destruct (remove_called ops); [rewrite Bool.andb_false_r; apply A1; auto|]. cbn [negb]. rewrite Bool.andb_true_r.
      destruct (Nat.eqb_spec (best_lcp s (map (pre k) (nent v c))) 0) as [B|B]; [|apply A1; left; lia]. cbn [andb].
      destruct s as [|x s]; [apply A1; auto|]. apply A2; auto. discriminate.
  Qed.
End Prefix.
