(** Proofs about the iterators and the map of RadixModel.v. *)
From Verif Require Export RadixProofs RadixShape KeySetProofs.

(** ** Iterators. *)
Section Iter.
  Context {A : Type}.
  Implicit Types (t : rtree A) (prefix : bytes) (stack : list (rtree A * nat)).

  Fixpoint stack_ok prefix stack : Prop :=
    match stack with
    | [] => True
    | (_, len) :: st => len <= length prefix /\ stack_ok (firstn (length prefix - len) prefix) st
    end.
  Fixpoint stack_rem prefix stack : list (bytes * A) :=
    match stack with
    | [] => []
    | (n, len) :: st =>
        let p := firstn (length prefix - len) prefix in map (pre p) (rent n) ++ stack_rem p st
    end.
  Definition rem (s : riter A) : list (bytes * A) :=
    map (pre (ri_prefix s)) (rent (ri_current s)) ++ stack_rem (ri_prefix s) (ri_stack s).
  Definition riter_ok (s : riter A) : Prop := stack_ok (ri_prefix s) (ri_stack s).

  Lemma firstn_minus prefix (k : bytes) : firstn (length (prefix ++ k) - length k) (prefix ++ k) = prefix.
  Proof.
    rewrite app_length. replace (length prefix + length k - length k) with (length prefix) by lia.
    rewrite firstn_app, Nat.sub_diag, firstn_all. simpl. apply app_nil_r.
  Qed.

  Lemma pre_pre {B} (p k : bytes) (l : list (bytes * B)) : map (pre p) (map (pre k) l) = map (pre (p ++ k)) l.
  Proof. rewrite map_map. apply map_ext. intros e. unfold pre. simpl. now rewrite app_assoc. Qed.

  Lemma riter_next_ok fuel : forall s, riter_ok s -> riter_fuel s <= fuel ->
    exists s', riter_next fuel s = Ok (hd_error (rem s), s') /\ riter_ok s' /\ rem s' = tl (rem s).
  Proof.
    induction fuel as [|f IH]; intros [prefix cur stack] OK Fu; [unfold riter_fuel in Fu; simpl in Fu; lia|].
    cbn [riter_next ri_current ri_prefix ri_stack]. destruct cur as [|k v n c].
    - destruct stack as [|[n len] st].
      + eexists; split; [reflexivity|]. auto.
      + destruct OK as [L OK]. cbn [ri_prefix ri_stack] in *. unfold checked_sub.
        rewrite (proj2 (Nat.leb_le _ _) L). cbn [bind].
        destruct (IH (RIter (firstn (length prefix - len) prefix) n st)) as (s' & E & O & R); [exact OK| |].
        * unfold riter_fuel in *. simpl in *. lia.
        * exists s'. split; [exact E|]. split; [exact O|]. exact R.
    - set (s1 := RIter (prefix ++ k) c ((n, length k) :: stack)).
      assert (O1 : riter_ok s1).
      { unfold riter_ok, s1. cbn [ri_prefix ri_stack stack_ok]. rewrite firstn_minus. split; [rewrite app_length; lia | exact OK]. }
      assert (Er : rem (RIter prefix (RNode k v n c) stack) = map (pre (prefix ++ k)) (own v) ++ rem s1).
      { unfold rem, s1. cbn [ri_prefix ri_stack ri_current stack_rem rent]. cbv zeta. rewrite firstn_minus.
        rewrite !map_app, !pre_pre. now rewrite <- !app_assoc. }
      rewrite Er. destruct v as [x|].
      + eexists; split; [|split; [exact O1|reflexivity]]. simpl. unfold pre. simpl. now rewrite app_nil_r.
      + destruct (IH s1 O1) as (s' & E & O & R).
        * unfold riter_fuel, s1 in *. simpl in *. lia.
        * exists s'. auto.
  Qed.

  Lemma riter_drain_ok fuel : forall s, riter_ok s -> length (rem s) < fuel -> riter_drain fuel s = Ok (rem s).
  Proof.
    induction fuel as [|f IH]; intros s O L; [lia|]. cbn [riter_drain].
    destruct (riter_next_ok (riter_fuel s) s O (le_n _)) as (s' & E & O' & R). rewrite E. cbn [bind].
    destruct (rem s) as [|e l]; [reflexivity|]. cbn [hd_error tl] in *. rewrite (IH s' O') by (rewrite R; simpl in L; lia).
    now rewrite R.
  Qed.

  Lemma rent_size t : length (rent t) <= r_size t.
  Proof.
    induction t as [|k v n IHn c IHc]; [simpl; lia|]. cbn [rent r_size].
    rewrite app_length, map_length, app_length. destruct v; simpl; lia.
  Qed.

  Lemma pre_nil (l : list (bytes * A)) : map (pre []) l = l.
  Proof. induction l as [|[k v] l IH]; simpl; [reflexivity|]. now rewrite IH. Qed.

  Lemma rem_new t : rem (riter_new t) = rent t.
  Proof. unfold rem, riter_new. simpl. now rewrite app_nil_r, pre_nil. Qed.

  Lemma riter_all_ok t : riter_all t = Ok (rent t).
  Proof.
    unfold riter_all. rewrite riter_drain_ok; [now rewrite rem_new | exact I |].
    rewrite rem_new. pose proof (rent_size t). lia.
  Qed.
End Iter.

Section IterMut.
  Context {T : Type}.
  Notation rt := (rtree T).
  Implicit Types (t n c : rt) (vs : list T).

  Fixpoint writes (l : list (list bool * T)) t : res rt :=
    match l with
    | [] => Ok t
    | (p, v) :: l' => let* t' := r_write_at p v t in writes l' t'
    end.
  Definition strip (e : bytes * (list bool * T)) : bytes * T := (fst e, snd (snd e)).
  Definition ref (e : bytes * (list bool * T)) : list bool := fst (snd e).

  Lemma itermut_writes_eq vs : forall (s : riter (list bool * T)) t t', riter_ok s ->
    writes (combine (map ref (rem s)) vs) t = Ok t' ->
    ritermut_writes s vs t = Ok (t', firstn (length vs) (map strip (rem s))).
  Proof.
    induction vs as [|v vs IH]; intros s t t' O E.
    - rewrite combine_nil in E. injection E as <-. reflexivity.
    - cbn [ritermut_writes]. destruct (riter_next_ok (riter_fuel s) s O (le_n _)) as (s' & E1 & O' & R).
      rewrite E1. cbn [bind]. destruct (rem s) as [|[k [p x]] l].
      + injection E as <-. reflexivity.
      + cbn [hd_error tl] in *. simpl in E. unfold ref in E. simpl in E. destruct (r_write_at p v t) as [t1| |]; try discriminate.
        cbn [bind] in *. rewrite <- R in E. rewrite (IH s' t1 t' O' E). cbn [bind]. rewrite R. reflexivity.
  Qed.

  Fixpoint refs t : list (list bool) :=
    match t with
    | RNil => []
    | RNode k v n c => (match v with Some _ => [[]] | None => [] end) ++ map (cons false) (refs c) ++ map (cons true) (refs n)
    end.

  Lemma tag_refs t : forall p, map ref (rent (tag p t)) = map (app p) (refs t).
  Proof.
    induction t as [|k v n IHn c IHc]; intros p; [reflexivity|]. cbn [tag rent refs].
    assert (E : forall l : list (bytes * (list bool * T)), map ref (map (pre k) l) = map ref l).
    { intros l. rewrite map_map. reflexivity. }
    rewrite map_app, E, map_app, IHn, IHc, !map_app, !map_map. rewrite <- app_assoc. f_equal.
    - destruct v; simpl; [now rewrite app_nil_r | reflexivity].
    - f_equal; apply map_ext; intros q; now rewrite <- app_assoc.
  Qed.

  Lemma tag_strip t : forall p, map strip (rent (tag p t)) = rent t.
  Proof.
    induction t as [|k v n IHn c IHc]; intros p; [reflexivity|]. cbn [tag rent].
    assert (E : forall l : list (bytes * (list bool * T)), map strip (map (pre k) l) = map (pre k) (map strip l)).
    { intros l. rewrite !map_map. reflexivity. }
    rewrite map_app, E, map_app, IHn, IHc. f_equal. f_equal. f_equal. now destruct v.
  Qed.

  Lemma combine_app_l {X Y} (a b : list X) (l : list Y) :
    combine (a ++ b) l = combine a (firstn (length a) l) ++ combine b (skipn (length a) l).
  Proof.
    revert l. induction a as [|x a IH]; intros [|y l]; simpl; auto; [now rewrite combine_nil|]. now rewrite IH.
  Qed.
  Lemma combine_map_l {X Y Z} (f : X -> Z) (a : list X) (l : list Y) :
    combine (map f a) l = map (fun p => (f (fst p), snd p)) (combine a l).
  Proof. revert l. induction a as [|x a IH]; intros [|y l]; simpl; auto. now rewrite IH. Qed.

  Lemma write_vals_app {K} (a b : list (K * T)) (l : list T) :
    write_vals (a ++ b) l = write_vals a (firstn (length a) l) ++ write_vals b (skipn (length a) l).
  Proof.
    revert l. induction a as [|[k x] a IH]; intros [|y l]; simpl; auto; [now destruct b as [|[]]|]. now rewrite IH.
  Qed.
  Lemma write_vals_pre (k : bytes) (l : list (bytes * T)) vs : write_vals (map (pre k) l) vs = map (pre k) (write_vals l vs).
  Proof. revert vs. induction l as [|[q x] l IH]; intros [|v vs]; simpl; auto. now rewrite IH. Qed.

  Lemma writes_app l1 l2 t : writes (l1 ++ l2) t = let* t' := writes l1 t in writes l2 t'.
  Proof.
    revert t. induction l1 as [|[p v] l IH]; intros t; simpl; auto. destruct (r_write_at p v t); simpl; auto.
  Qed.
  Lemma writes_child l k v n c c' : writes l c = Ok c' ->
    writes (map (fun p => (false :: fst p, snd p)) l) (RNode k v n c) = Ok (RNode k v n c').
  Proof.
    revert c. induction l as [|[p x] l IH]; intros c E; simpl in *; [congruence|].
    destruct (r_write_at p x c) as [c1| |]; try discriminate. simpl in *. auto.
  Qed.
  Lemma writes_next l k v n c n' : writes l n = Ok n' ->
    writes (map (fun p => (true :: fst p, snd p)) l) (RNode k v n c) = Ok (RNode k v n' c).
  Proof.
    revert n. induction l as [|[p x] l IH]; intros n E; simpl in *; [congruence|].
    destruct (r_write_at p x n) as [n1| |]; try discriminate. simpl in *. auto.
  Qed.

  Lemma refs_length t : length (refs t) = length (rent t).
  Proof.
    induction t as [|k v n IHn c IHc]; [reflexivity|]. cbn [refs rent].
    rewrite !app_length, !map_length, !app_length. destruct v; simpl; lia.
  Qed.

  Lemma skipn_skipn_add {X} a b (l : list X) : skipn a (skipn b l) = skipn (b + a) l.
  Proof. revert l. induction b; intros l; simpl; auto. destruct l; auto. now rewrite skipn_nil. Qed.

  Lemma writes_refs t : forall vs, exists t', writes (combine (refs t) vs) t = Ok t' /\
    rent t' = write_vals (rent t) vs /\ rshape t' = rshape t.
  Proof.
    induction t as [|k v n IHn c IHc]; intros vs.
    { exists RNil. destruct vs; auto. }
    cbn [refs]. set (lv := match v with Some _ => [[]] | None => [] end : list (list bool)).
    rewrite combine_app_l, combine_app_l, !combine_map_l, writes_app, map_length.
    set (vs1 := skipn (length lv) vs).
    assert (X : exists v', writes (combine lv (firstn (length lv) vs)) (RNode k v n c) = Ok (RNode k v' n c) /\
              own v' = write_vals (own v) (firstn (length lv) vs) /\
              option_map (fun _ => tt) v' = option_map (fun _ => tt) v /\ length lv = length (own v)).
    { unfold lv. destruct v as [y|]; [destruct vs as [|x vs]|].
      - exists (Some y). auto.
      - exists (Some x). auto.
      - exists None. auto. }
    destruct X as (v' & -> & Ev & Sv & Ll). cbn [bind]. rewrite writes_app.
    destruct (IHc (firstn (length (refs c)) vs1)) as (c' & Ec & Rc & Sc).
    rewrite (writes_child _ _ _ _ _ _ Ec). cbn [bind].
    destruct (IHn (skipn (length (refs c)) vs1)) as (n' & En & Rn & Sn).
    rewrite (writes_next _ _ _ _ _ _ En). eexists; split; [reflexivity|]. split.
    - cbn [rent]. rewrite Ev, Rc, Rn. rewrite write_vals_app, map_length, write_vals_pre, app_length.
      rewrite <- Ll, refs_length. f_equal.
      + f_equal. rewrite write_vals_app. rewrite <- Ll. f_equal.
        * f_equal. rewrite firstn_firstn. f_equal. lia.
        * f_equal. unfold vs1. rewrite firstn_skipn_comm. reflexivity.
      + f_equal. unfold vs1. now rewrite skipn_skipn_add.
    - simpl. now rewrite Sv, Sc, Sn.
  Qed.

  Lemma ritermut_run_ok t vs : exists t', ritermut_run t vs = Ok (t', firstn (length vs) (rent t)) /\
    rent t' = write_vals (rent t) vs /\ rshape t' = rshape t.
  Proof.
    destruct (writes_refs t vs) as (t' & E & R & S). exists t'. split; [|auto]. unfold ritermut_run.
    erewrite itermut_writes_eq; [|exact I|].
    - now rewrite rem_new, tag_strip.
    - rewrite rem_new, tag_refs. replace (map (app []) (refs t)) with (refs t); [exact E|].
      symmetry. apply map_id.
  Qed.
End IterMut.

(** ** The map. *)
Section RadixMapProofs.
  Context {T : Type}.
  Implicit Types (l : list (bytes * T)) (m : radix_map T) (k : bytes) (v w : T).

  Definition root_ok (t : rtree T) : Prop :=
    match t with
    | RNil => True
    | RNode k v n c => n = RNil /\ wf c /\ ncond k v c
    end.
  Definition rrel m l (dead : bool) : Prop :=
    rent (rm_root m) = l /\ rm_len m = length l /\ root_ok (rm_root m) /\
    (dead = is_rnil (rm_root m)).

  Lemma root_sorted t : root_ok t -> sorted (rent t).
  Proof.
    destruct t as [|k v n c]; [constructor|]. intros (-> & W & _). cbn [rent]. rewrite app_nil_r.
    apply sorted_pre, nent_sorted; auto. now apply rent_sorted.
  Qed.

  Lemma at_some l k w : sorted l -> hd_error (at_key k l) = Some (k, w) <-> In (k, w) l.
  Proof.
    intros S. split.
    - intros E. assert (I : In (k, w) (at_key k l)) by (destruct (at_key k l); [discriminate | injection E as ->; left; auto]).
      now apply in_at in I.
    - intros I. assert (I2 : In (k, w) (at_key k l)) by (apply in_at; split; auto; apply cmp_refl).
      destruct (at_key_cases l k S) as [E|(e & E & _)]; rewrite E in *; [destruct I2|].
      destruct I2 as [->|[]]. reflexivity.
  Qed.
  Lemma at_key_same l k e : hd_error (at_key k l) = Some e -> fst e = k.
  Proof.
    intros E. assert (I : In e (at_key k l)) by (destruct (at_key k l); [discriminate | injection E as ->; left; auto]).
    apply in_at in I as [_ C]. now apply bytes_eq_iff in C.
  Qed.
  Lemma at_val l k (o : option T) : sorted l -> (forall w, o = Some w <-> In (k, w) l) ->
    option_map snd (hd_error (at_key k l)) = o /\ hd_error (at_key k l) = option_map (fun w => (k, w)) o.
  Proof.
    intros S H. destruct (hd_error (at_key k l)) as [[k' w]|] eqn:E.
    - pose proof (at_key_same _ _ _ E) as Ek. simpl in Ek. subst k'. apply (at_some l k w S) in E. apply H in E. subst o. auto.
    - destruct o as [w|]; auto. assert (I : In (k, w) l) by (now apply H). apply (at_some l k w S) in I. congruence.
  Qed.

  Lemma spec_insert_eq l l' k v : sorted l -> sorted l' ->
    (forall q w, In (q, w) l' <-> (q = k /\ w = v) \/ (q <> k /\ In (q, w) l)) ->
    l' = below k l ++ (k, v) :: above k l.
  Proof.
    intros S S' H. apply sorted_ext; auto using sorted_insert. intros [q w]. rewrite H, in_app_iff. simpl.
    rewrite in_below, in_above. simpl. split.
    - intros [[-> ->]|[N I]]; auto. destruct (cmp q k) eqn:C; auto. apply bytes_eq_iff in C. contradiction.
    - intros [[I C]|[E|[I C]]]; [right|left; split; congruence|right].
      + split; auto. intros ->. rewrite cmp_refl in C. discriminate.
      + split; auto. intros ->. rewrite cmp_refl in C. discriminate.
  Qed.
  Lemma spec_remove_eq l l' k : sorted l -> sorted l' ->
    (forall q w, In (q, w) l' <-> q <> k /\ In (q, w) l) -> l' = below k l ++ above k l.
  Proof.
    intros S S' H. apply sorted_ext; auto using sorted_delete. intros [q w]. rewrite H, in_app_iff.
    rewrite in_below, in_above. simpl. split.
    - intros [N I]; auto. destruct (cmp q k) eqn:C; auto. apply bytes_eq_iff in C. contradiction.
    - intros [[I C]|[I C]]; split; auto; intros ->; rewrite cmp_refl in C; discriminate.
  Qed.
  Lemma spec_update_eq l l' k v : sorted l -> sorted l' ->
    (forall q w, In (q, w) l' <-> (q = k /\ w = v /\ exists w0, In (k, w0) l) \/ (q <> k /\ In (q, w) l)) ->
    l' = below k l ++ map (fun p => (fst p, v)) (at_key k l) ++ above k l.
  Proof.
    intros S S' H. apply sorted_ext; auto using sorted_update. intros [q w]. rewrite H, !in_app_iff, in_map_iff.
    rewrite in_below, in_above. simpl. split.
    - intros [(-> & -> & w0 & I)|[N I]].
      + right. left. exists (k, w0). split; auto. apply in_at. split; auto. apply cmp_refl.
      + destruct (cmp q k) eqn:C; auto. apply bytes_eq_iff in C. contradiction.
    - intros [[I C]|[(p & E & I)|[I C]]]; [right| |right].
      + split; auto. intros ->. rewrite cmp_refl in C. discriminate.
      + apply in_at in I as [I C]. apply bytes_eq_iff in C. injection E as <- <-. left. split; auto. split; auto.
        exists (snd p). destruct p; simpl in *. now subst.
      + split; auto. intros ->. rewrite cmp_refl in C. discriminate.
  Qed.

  Lemma insert_length_new l k v : sorted l -> hd_error (at_key k l) = None ->
    length (below k l ++ (k, v) :: above k l) = S (length l).
  Proof.
    intros S E. rewrite (sorted_split l k S) at 3. destruct (at_key k l); [|discriminate].
    simpl. rewrite !app_length. simpl. lia.
  Qed.
  Lemma insert_length_old l k v e : sorted l -> hd_error (at_key k l) = Some e ->
    length (below k l ++ (k, v) :: above k l) = length l.
  Proof.
    intros S E. rewrite (sorted_split l k S) at 3.
    destruct (at_key_cases l k S) as [X|(e' & X & _)]; rewrite X in *; [discriminate|].
    rewrite !app_length. simpl. lia.
  Qed.
  Lemma remove_length_none l k : sorted l -> hd_error (at_key k l) = None -> length (below k l ++ above k l) = length l.
  Proof.
    intros S E. rewrite (sorted_split l k S) at 3. destruct (at_key k l); [|discriminate]. reflexivity.
  Qed.
  Lemma remove_length_some l k e : sorted l -> hd_error (at_key k l) = Some e ->
    length l = S (length (below k l ++ above k l)).
  Proof.
    intros S E. rewrite (sorted_split l k S) at 1.
    destruct (at_key_cases l k S) as [X|(e' & X & _)]; rewrite X in *; [discriminate|].
    rewrite !app_length. simpl. lia.
  Qed.

  Lemma root_shape t t' : rshape t' = rshape t -> root_ok t -> root_ok t'.
  Proof.
    destruct t as [|k v n c], t' as [|k' v' n' c']; simpl; try discriminate; auto.
    intros E. injection E as -> Ev En Ec. intros (-> & W & NC). split; [now destruct n'|].
    split; [eapply rshape_wf; [symmetry; exact Ec | exact W]|]. intros K V. subst v'.
    eapply rshape_two; [symmetry; exact Ec|]. apply NC; auto. now destruct v.
  Qed.

  Lemma root_get t k : root_ok t -> exists o, r_get t k = Ok o /\ (forall w, o = Some w <-> In (k, w) (rent t)).
  Proof.
    destruct t as [|nk nv n c].
    - intros _. exists None. split; [reflexivity|]. intros w. split; [discriminate | intros []].
    - intros (-> & W & _). destruct (proj1 (r_get_ok_all (RNode nk nv RNil c)) W k) as (o & E & O).
      exists o. split; auto. intros w. rewrite O. cbn [rent]. now rewrite app_nil_r.
  Qed.

  Lemma root_nil_iff t : root_ok t -> rent t = [] -> t = RNil \/ exists k, t = RNode k None RNil RNil.
  Proof.
    destruct t as [|k v n c]; auto. intros (-> & W & NC) E. cbn [rent] in E. rewrite app_nil_r in E.
    apply map_eq_nil in E. destruct v; [discriminate|]. simpl in E. right. exists k. f_equal.
    destruct c; auto. exfalso. revert E. now apply rent_nonempty.
  Qed.

  (** The outcome of one call: either the specified result and the relation again, or the panic of an
      insert into a map whose root is gone. *)
  Definition next_dead (dead : bool) l (o : radix_op T) : bool :=
    match o with
    | XRemove _ => dead || match fst (map_spec_step l (radix_map_op o)) with [] => true | _ => false end
    | XInsert _ _ | XClear | XIntoIter => false
    | _ => dead
    end.

  Lemma radix_step_ok m l dead (o : radix_op T) : rrel m l dead ->
    match o, dead with
    | XInsert _ _, true => radix_step m o = Panic
    | _, _ => exists m', radix_step m o = Ok (m', snd (map_spec_step l (radix_map_op o))) /\
                rrel m' (fst (map_spec_step l (radix_map_op o))) (next_dead dead l o)
    end.
  Proof.
    intros HR. pose proof HR as (El & Ln & RO & Dd).
    pose proof (root_sorted _ RO) as Sl. rewrite El in Sl.
    assert (GT : forall o', match o' with XInsert _ _ => False | _ => True end ->
       (exists m', radix_step m o' = Ok (m', snd (map_spec_step l (radix_map_op o'))) /\
                rrel m' (fst (map_spec_step l (radix_map_op o'))) (next_dead dead l o')) ->
       match o', dead with
       | XInsert _ _, true => radix_step m o' = Panic
       | _, _ => exists m', radix_step m o' = Ok (m', snd (map_spec_step l (radix_map_op o'))) /\
                rrel m' (fst (map_spec_step l (radix_map_op o'))) (next_dead dead l o')
       end) by (intros o' H X; destruct o'; auto; contradiction).
    destruct o as [k v|k|k|k v|k|k| | | | | | |vs| ]; try (apply GT; [exact I|]);
      cbn [radix_step radix_map_op map_spec_step fst snd next_dead].
    - (* insert *)
      destruct m as [t len]. cbn [rm_root rm_len] in *. destruct t as [|nk nv n c]; cbn [is_rnil] in Dd; subst dead; [reflexivity|].
      destruct RO as (-> & W & NC).
      destruct (proj1 (r_insert_ok_all (RNode nk nv RNil c)) W NC k v) as (k' & v' & c' & old & E & R & O & W' & NC' & _).
      rewrite E. cbn [bind].
      assert (Rl : forall q w, In (q, w) (rent (RNode k' v' RNil c')) <-> (q = k /\ w = v) \/ (q <> k /\ In (q, w) l)).
      { intros q w. rewrite <- El. cbn [rent]. rewrite !app_nil_r. apply R. }
      assert (Ol : forall w, old = Some w <-> In (k, w) l).
      { intros w. rewrite O, <- El. cbn [rent]. now rewrite app_nil_r. }
      destruct (at_val l k old Sl Ol) as [_ Ea]. rewrite Ea.
      assert (RO' : root_ok (RNode k' v' RNil c')) by (split; auto).
      pose proof (spec_insert_eq l _ k v Sl (root_sorted _ RO') Rl) as El'.
      destruct old as [x|]; cbn [option_map].
      + unfold checked_pred. cbn [bind]. eexists; split; [reflexivity|]. split; [exact El'|]. split; [|auto].
        cbn [rm_len]. rewrite (insert_length_old l k v _ Sl Ea). exact Ln.
      + eexists; split; [reflexivity|]. split; [exact El'|]. split; [|auto].
        cbn [rm_len]. rewrite (insert_length_new l k v Sl Ea). now rewrite Ln.
    - (* remove *)
      destruct m as [t len]. cbn [rm_root rm_len] in *. destruct t as [|nk nv n c]; cbn [is_rnil] in Dd; subst dead.
      + cbn [r_remove bind]. simpl in El. subst l. simpl. eexists; split; [reflexivity|]. repeat split; auto.
      + destruct RO as (-> & W & NC).
        destruct (proj1 (r_remove_ok_all (RNode nk nv RNil c)) W NC k) as (r & old & E & G & Rn & O & R).
        rewrite E. cbn [bind].
        assert (Rt : rent (rm_tree RNil r) = rm_cont r).
        { destruct r as [[[k' v'] c']|]; cbn [rm_tree rm_cont rent]; [now rewrite app_nil_r | reflexivity]. }
        assert (Rl : forall q w, In (q, w) (rent (rm_tree RNil r)) <-> q <> k /\ In (q, w) l).
        { intros q w. rewrite Rt, <- El. cbn [rent]. rewrite app_nil_r. apply R. }
        assert (Ol : forall w, old = Some w <-> In (k, w) l).
        { intros w. rewrite O, <- El. cbn [rent]. now rewrite app_nil_r. }
        destruct (at_val l k old Sl Ol) as [_ Ea]. rewrite Ea.
        assert (RO' : root_ok (rm_tree RNil r)).
        { destruct r as [[[k' v'] c']|]; [|exact I]. destruct G as (G1 & G2 & _). split; [auto|]. split; [auto|].
          intros _. exact G2. }
        pose proof (spec_remove_eq l _ k Sl (root_sorted _ RO') Rl) as El'.
        assert (Dn : match below k l ++ above k l with [] => true | _ => false end = is_rnil (rm_tree RNil r)).
        { rewrite <- El'. destruct r as [[[k' v'] c']|]; cbn [rm_tree is_rnil]; [|reflexivity].
          destruct G as (G1 & G2 & _). cbn [rent]. rewrite app_nil_r. destruct v' as [y|]; [reflexivity|].
          simpl own. simpl app. specialize (G2 eq_refl).
          destruct (rent c') as [|e l'] eqn:Ec; [|reflexivity]. exfalso. apply (rent_nonempty c'); auto. now destruct c'. }
        destruct old as [x|]; cbn [option_map].
        * cbn [rm_len]. rewrite (remove_length_some l k _ Sl Ea) in Ln. rewrite Ln. cbn [checked_pred bind].
          eexists; split; [reflexivity|]. split; [exact El'|]. split; [reflexivity|]. split; [exact RO'|]. exact Dn.
        * eexists; split; [reflexivity|]. split; [exact El'|].
          split; [cbn [rm_len]; now rewrite (remove_length_none l k Sl Ea)|]. split; [exact RO' | exact Dn].
    - destruct (root_get _ k RO) as (o & E & O). rewrite El in O. rewrite E. cbn [bind].
      destruct (at_val l k o Sl O) as [-> _]. eexists; split; [reflexivity | exact HR].
    - (* get_mut *)
      destruct m as [t len]. cbn [rm_root rm_len] in *. destruct t as [|nk nv n c]; cbn [is_rnil] in Dd; subst dead.
      + cbn [r_get_mut_set bind]. simpl in El. subst l. simpl. eexists; split; [reflexivity|]. repeat split; auto.
      + destruct RO as (-> & W & NC).
        destruct (proj1 (r_get_mut_ok_all (RNode nk nv RNil c)) W k v) as (v' & c' & old & E & O & Sv & Sc & R).
        rewrite E. cbn [bind].
        assert (Ol : forall w, old = Some w <-> In (k, w) l).
        { intros w. rewrite O, <- El. cbn [rent]. now rewrite app_nil_r. }
        destruct (at_val l k old Sl Ol) as [-> _].
        assert (RO' : root_ok (RNode nk v' RNil c')).
        { apply root_shape with (RNode nk nv RNil c); [simpl; now rewrite Sv, Sc | split; auto]. }
        assert (Rl : forall q w, In (q, w) (rent (RNode nk v' RNil c')) <->
                  (q = k /\ w = v /\ exists w0, In (k, w0) l) \/ (q <> k /\ In (q, w) l)).
        { intros q w. rewrite <- El. cbn [rent]. rewrite !app_nil_r. fold (nent v' c') (nent nv c). rewrite R.
          split; intros [(-> & -> & X)|X]; auto; left; split; auto; split; auto.
          - destruct old as [w0|]; [|congruence]. exists w0. now apply O.
          - destruct X as [w0 X]. apply O in X. congruence. }
        pose proof (spec_update_eq l _ k v Sl (root_sorted _ RO') Rl) as El'.
        eexists; split; [reflexivity|]. split; [exact El'|]. split; [|auto]. cbn [rm_len].
        rewrite Ln, (sorted_split l k Sl) at 1. now rewrite !app_length, map_length.
    - destruct (root_get _ k RO) as (o & E & O). rewrite El in O. rewrite E. cbn [bind].
      destruct (at_val l k o Sl O) as [-> _]. eexists; split; [reflexivity | exact HR].
    - destruct (root_get _ k RO) as (o & E & O). rewrite El in O. rewrite E. cbn [bind].
      destruct (at_val l k o Sl O) as [_ Ea]. eexists; split; [|exact HR].
      destruct o as [x|], (at_key k l); simpl in *; try discriminate; reflexivity.
    - (* min *)
      eexists; split; [|exact HR]. rewrite <- El. destruct (rm_root m) as [|nk nv n c]; [reflexivity|].
      destruct RO as (-> & W & _). cbn [r_min rent]. rewrite app_nil_r.
      destruct nv as [y|]; cbn [is_some own app]; [simpl; now rewrite app_nil_r|].
      rewrite (r_min_ok c W). now destruct (rent c).
    - (* max *)
      eexists; split; [|exact HR]. rewrite <- El. destruct (rm_root m) as [|nk nv n c]; [reflexivity|].
      destruct RO as (-> & W & _). cbn [r_max rent]. rewrite app_nil_r.
      destruct c as [|ck cv cn cc].
      + destruct nv; simpl; now rewrite ?app_nil_r.
      + rewrite Bool.andb_false_r, (r_max_ok _ W). rewrite map_app. rewrite last_error_app2 by
          (intros X; apply map_eq_nil in X; revert X; apply rent_nonempty; [exact W | discriminate]).
        rewrite last_error_map. now destruct (last_error (rent (RNode ck cv cn cc))).
    - rewrite Ln. eexists; split; [reflexivity | exact HR].
    - rewrite Ln. eexists; split; [reflexivity | exact HR].
    - eexists; split; [reflexivity|]. repeat split; auto. intros N. now contradiction N.
    - rewrite riter_all_ok. cbn [bind]. rewrite El. eexists; split; [reflexivity | exact HR].
    - destruct (ritermut_run_ok (rm_root m) vs) as (t' & E & R & S). rewrite E. cbn [bind]. rewrite El in *.
      eexists; split; [reflexivity|]. split; [exact R|]. split; [|split].
      + cbn [rm_len]. rewrite Ln, <- (map_length fst (write_vals l vs)), write_vals_keys, map_length. reflexivity.
      + eapply root_shape; [exact S | exact RO].
      + rewrite Dd. cbn [rm_root]. destruct (rm_root m), t'; simpl in S; try discriminate; reflexivity.
    - rewrite riter_all_ok. cbn [bind]. rewrite El. eexists; split; [reflexivity|]. repeat split; auto.
      intros N. now contradiction N.
  Qed.

  Lemma rrel_new : rrel radix_new [] false.
  Proof. repeat split; auto. intros N. now contradiction N. Qed.

  Lemma radix_run_gen (ops : list (radix_op T)) : forall m l dead, rrel m l dead ->
    if inserts_safe l dead ops
    then exists m' dead', run radix_step m ops = Ok (m', snd (spec_run map_spec_step l (map radix_map_op ops))) /\
           rrel m' (fst (spec_run map_spec_step l (map radix_map_op ops))) dead'
    else run radix_step m ops = Panic.
  Proof.
    induction ops as [|o ops IH]; intros m l dead HR.
    - simpl. eauto.
    - pose proof (radix_step_ok m l dead o HR) as St.
      assert (SafeE : inserts_safe l dead (o :: ops) =
              match o, dead with XInsert _ _, true => false
              | _, _ => inserts_safe (fst (map_spec_step l (radix_map_op o))) (next_dead dead l o) ops end)
        by (destruct o, dead; reflexivity).
      rewrite SafeE. cbn [run map spec_run].
      destruct (map_spec_step l (radix_map_op o)) as [l' out] eqn:Es.
      assert (K : (exists m', radix_step m o = Ok (m', out) /\ rrel m' l' (next_dead dead l o)) ->
         if inserts_safe l' (next_dead dead l o) ops
         then exists m' dead', (let* (s1, r) := radix_step m o in let* (s2, rs) := run radix_step s1 ops in Ok (s2, r :: rs))
                   = Ok (m', snd (let '(s2, rs) := spec_run map_spec_step l' (map radix_map_op ops) in (s2, out :: rs))) /\
              rrel m' (fst (let '(s2, rs) := spec_run map_spec_step l' (map radix_map_op ops) in (s2, out :: rs))) dead'
         else (let* (s1, r) := radix_step m o in let* (s2, rs) := run radix_step s1 ops in Ok (s2, r :: rs)) = Panic).
      { intros (m' & E & HR'). rewrite E. cbn [bind]. specialize (IH m' l' _ HR').
        destruct (inserts_safe l' (next_dead dead l o) ops).
        - destruct IH as (m2 & d2 & E2 & HR2). rewrite E2. cbn [bind].
          destruct (spec_run map_spec_step l' (map radix_map_op ops)) as [l2 outs]. simpl in *. eauto.
        - now rewrite IH. }
      cbn [fst snd] in St. destruct o, dead; try (apply K; exact St). now rewrite St.
  Qed.

  Lemma radix_refines (ops : list (radix_op T)) :
    outputs radix_step radix_new ops =
      if inserts_safe [] false ops then Ok (map_spec_outputs (map radix_map_op ops)) else Panic.
  Proof.
    pose proof (radix_run_gen ops radix_new [] false rrel_new) as H. unfold outputs, map_spec_outputs, spec_outputs.
    destruct (inserts_safe [] false ops).
    - destruct H as (m & d & -> & _). reflexivity.
    - now rewrite H.
  Qed.

  (** Reachable maps. *)
  Lemma radix_reachable (ops : list (radix_op T)) m outs : run radix_step radix_new ops = Ok (m, outs) ->
    exists dead, rrel m (radix_contents ops) dead.
  Proof.
    intros R. pose proof (radix_run_gen ops radix_new [] false rrel_new) as H.
    destruct (inserts_safe [] false ops); [|congruence].
    destruct H as (m' & d & E & HR). rewrite E in R. injection R as <- _. exists d. exact HR.
  Qed.
End RadixMapProofs.

(** ** Number of nodes. *)
Section RadixSize.
  Context {T : Type}.

  Lemma wf_size (t : rtree T) : wf t -> r_size t + length (heads t) <= 2 * length (rent t).
  Proof.
    induction t as [|k v n IHn c IHc]; intros W; [simpl; lia|]. destruct W as (K & F & D & Wn & Wc).
    specialize (IHn Wn). specialize (IHc Wc). rewrite heads_node. cbn [r_size rent length].
    rewrite app_length, map_length, app_length. destruct v as [y|]; cbn [own length].
    - lia.
    - specialize (D eq_refl). assert (2 <= length (heads c)) by (destruct c as [|? ? [|? ? ? ?] ?]; simpl in *; try contradiction; lia).
      lia.
  Qed.

  Lemma radix_size (ops : list (radix_op T)) m outs : run radix_step radix_new ops = Ok (m, outs) ->
    r_size (rm_root m) <= 2 * length (radix_contents ops) + 1.
  Proof.
    intros R. destruct (radix_reachable ops m outs R) as (d & El & _ & RO & _). rewrite <- El.
    destruct (rm_root m) as [|k v n c]; [simpl; lia|]. destruct RO as (-> & W & _).
    pose proof (wf_size c W). cbn [r_size rent]. rewrite app_nil_r, map_length, app_length. lia.
  Qed.
End RadixSize.

Section RadixCompact.
  Context {T : Type}.

  Lemma heads_siblings (t : rtree T) : heads t = map (fun s => hd 0 (fst (fst s))) (siblings t).
  Proof. induction t as [|k v n IHn c IHc]; [reflexivity|]. rewrite heads_node, IHn. reflexivity. Qed.
  Lemma two_siblings (t : rtree T) : two t -> 2 <= length (siblings t).
  Proof. destruct t as [|? ? [|? ? ? ?] ?]; simpl; try contradiction. lia. Qed.

  Lemma wf_compact (t : rtree T) : wf t -> compact t.
  Proof.
    induction t as [|k v n IHn c IHc]; intros W; [constructor; simpl; try constructor; contradiction|].
    destruct W as (K & F & D & Wn & Wc). destruct (IHn Wn) as [A1 A2 A3 A4]. constructor; cbn [siblings map].
    - constructor; auto.
    - constructor; auto. now rewrite <- heads_siblings.
    - constructor; auto. intros V. apply two_siblings. auto.
    - intros s [<-|I]; [apply IHc; exact Wc | auto].
  Qed.

  Lemma radix_compact (ops : list (radix_op T)) m outs : run radix_step radix_new ops = Ok (m, outs) ->
    match rm_root m with
    | RNil => radix_contents ops = []
    | RNode _ _ n c => n = RNil /\ compact c
    end /\ node_count (rm_root m) <= 2 * length (radix_contents ops) + 1.
  Proof.
    intros R. destruct (radix_reachable ops m outs R) as (d & El & _ & RO & _). split; [|exact (radix_size ops m outs R)].
    destruct (rm_root m) as [|k v n c]; [now symmetry|]. destruct RO as (-> & W & _). split; [reflexivity | now apply wf_compact].
  Qed.
End RadixCompact.

(** ** RadixSet. *)
Lemma radix_set_refines ops : outputs radix_set_step radix_new ops =
  if inserts_safe [] false (map rset_map ops) then Ok (kset_spec_outputs (map rset_kset ops)) else Panic.
Proof.
  unfold radix_set_step. rewrite outputs_wrap, radix_refines. destruct (inserts_safe [] false (map rset_map ops)); [|reflexivity].
  simpl. rewrite kset_spec_outputs_map, !map_map. do 3 f_equal. apply map_ext. now intros [].
Qed.

(** ** Longest prefix. *)
Lemma lcp_app k a b : lcp (k ++ a) (k ++ b) = length k + lcp a b.
Proof. induction k as [|x k IH]; simpl; auto. rewrite Nat.eqb_refl. lia. Qed.
Lemma lcp_diff k z a y b : z <> y -> lcp (k ++ z :: a) (k ++ y :: b) = length k.
Proof. intros N. rewrite lcp_app. simpl. rewrite (proj2 (Nat.eqb_neq z y) N). lia. Qed.
Lemma lcp_nil_r a : lcp a [] = 0.
Proof. now destruct a. Qed.

Section Longest.
  Context {T : Type}.
  Implicit Types (l : list (bytes * T)) (t c : rtree T) (s : bytes).

  Lemma best_app s l1 l2 : best_lcp s (l1 ++ l2) = Nat.max (best_lcp s l1) (best_lcp s l2).
  Proof. induction l1 as [|e l IH]; simpl; auto. unfold best_lcp in *. simpl. rewrite IH. lia. Qed.
  Lemma best_const s l x : (forall e, In e l -> lcp (fst e) s = x) -> l <> [] -> best_lcp s l = x.
  Proof.
    induction l as [|e l IH]; [congruence|]. intros A _. unfold best_lcp in *. simpl.
    rewrite (A e (or_introl eq_refl)). destruct l as [|e' l]; [simpl; lia|].
    rewrite IH; [lia | intros; apply A; now right | discriminate].
  Qed.
  Lemma best_zero s l : (forall e, In e l -> lcp (fst e) s = 0) -> best_lcp s l = 0.
  Proof. intros A. destruct l as [|e l]; [reflexivity|]. apply best_const; [exact A | discriminate]. Qed.
  Lemma filter_all {A} (f : A -> bool) (l : list A) : (forall x, In x l -> f x = true) -> filter f l = l.
  Proof. induction l as [|x l IH]; intros H; simpl; auto. rewrite (H x (or_introl eq_refl)), IH; auto. intros; apply H; now right. Qed.
  Lemma filter_none {A} (f : A -> bool) (l : list A) : (forall x, In x l -> f x = false) -> filter f l = [].
  Proof. induction l as [|x l IH]; intros H; simpl; auto. rewrite (H x (or_introl eq_refl)). apply IH. intros; apply H; now right. Qed.

  Lemma lpk_const s l x : (forall e, In e l -> lcp (fst e) s = x) -> longest_prefix_keys s l = map fst l.
  Proof.
    intros A. destruct l as [|e0 l0]; [reflexivity|]. unfold longest_prefix_keys. f_equal. apply filter_all.
    intros e I. apply Nat.eqb_eq. rewrite (A e I). symmetry. apply best_const; [exact A | discriminate].
  Qed.

  Lemma lpk_drop s l1 l l2 : (forall e, In e (l1 ++ l2) -> lcp (fst e) s = 0) -> 0 < best_lcp s l ->
    best_lcp s (l1 ++ l ++ l2) = best_lcp s l /\ longest_prefix_keys s (l1 ++ l ++ l2) = longest_prefix_keys s l.
  Proof.
    intros A B.
    assert (E : best_lcp s (l1 ++ l ++ l2) = best_lcp s l).
    { rewrite !best_app. rewrite (best_zero s l1), (best_zero s l2); [lia| |]; intros e I; apply A, in_app_iff; auto. }
    split; [exact E|]. unfold longest_prefix_keys. rewrite E, !filter_app.
    rewrite (filter_none _ l1), (filter_none _ l2).
    - simpl. now rewrite app_nil_r.
    - intros e I. apply Nat.eqb_neq. rewrite (A e); [lia|]. apply in_app_iff; auto.
    - intros e I. apply Nat.eqb_neq. rewrite (A e); [lia|]. apply in_app_iff; auto.
  Qed.

  Lemma best_pre k s l : l <> [] -> best_lcp (k ++ s) (map (pre k) l) = length k + best_lcp s l.
  Proof.
    induction l as [|e l IH]; [congruence|]. intros _. unfold best_lcp in *. simpl. rewrite lcp_app.
    destruct l as [|e' l]; [simpl; lia|]. rewrite IH by discriminate. lia.
  Qed.
  Lemma lpk_pre k s l : l <> [] -> longest_prefix_keys (k ++ s) (map (pre k) l) = map (app k) (longest_prefix_keys s l).
  Proof.
    intros N. unfold longest_prefix_keys. rewrite (best_pre k s l N). generalize (best_lcp s l). intros b. clear N.
    induction l as [|e l IH]; simpl; auto. rewrite lcp_app.
    destruct (Nat.eqb_spec (length k + lcp (fst e) s) (length k + b)), (Nat.eqb_spec (lcp (fst e) s) b); try lia; simpl; now rewrite IH.
  Qed.

  Lemma same_next_pre k m ks : same_next (length k + m) (map (app k) ks) = same_next m ks.
  Proof.
    destruct ks as [|q ks]; [reflexivity|]. simpl.
    assert (E : forall q' : bytes, nth_error (k ++ q') (length k + m) = nth_error q' m).
    { intros q'. rewrite nth_error_app2 by lia. f_equal. lia. }
    rewrite E. induction ks as [|q' ks IH]; simpl; auto. now rewrite E, IH.
  Qed.

  Lemma answer_pre k s l : l <> [] -> longest_prefix_answer (k ++ s) (map (pre k) l) = map (app k) (longest_prefix_answer s l).
  Proof.
    intros N. unfold longest_prefix_answer. rewrite (best_pre k s l N), (lpk_pre k s l N), same_next_pre, app_length.
    replace (length k + best_lcp s l =? length k + length s) with (best_lcp s l =? length s).
    2:{ destruct (Nat.eqb_spec (best_lcp s l) (length s)), (Nat.eqb_spec (length k + best_lcp s l) (length k + length s)); auto; lia. }
    destruct (_ || _); [reflexivity|]. generalize (longest_prefix_keys s l). intros ks. induction ks as [|q ks IH]; simpl; auto.
    rewrite app_length. destruct (Nat.eqb_spec (length k + length q) (length k + best_lcp s l)), (Nat.eqb_spec (length q) (best_lcp s l)); try lia; simpl; now rewrite IH.
  Qed.

  Lemma same_next_const m ks x : (forall q, In q ks -> nth_error q m = x) -> same_next m ks = true.
  Proof.
    destruct ks as [|q ks]; [reflexivity|]. intros A. simpl. apply forallb_forall. intros q' I.
    rewrite (A q (or_introl eq_refl)), (A q' (or_intror I)). destruct x; auto. apply Nat.eqb_refl.
  Qed.
  Lemma same_next_false m ks q1 q2 : In q1 ks -> In q2 ks -> nth_error q1 m <> nth_error q2 m -> same_next m ks = false.
  Proof.
    destruct ks as [|q ks]; [intros []|]. intros I1 I2 N. destruct (same_next m (q :: ks)) eqn:E; auto. exfalso. apply N.
    simpl in E. rewrite forallb_forall in E.
    assert (A : forall q', In q' (q :: ks) -> nth_error q m = nth_error q' m).
    { intros q' [<-|I]; auto. specialize (E q' I). destruct (nth_error q m), (nth_error q' m); try discriminate; auto.
      apply Nat.eqb_eq in E. congruence. }
    rewrite <- (A q1 I1), <- (A q2 I2). reflexivity.
  Qed.

  Lemma push_all_ok t : forall curr, push_all t curr = map (fun e => curr ++ fst e) (rent t).
  Proof.
    induction t as [|k v n IHn c IHc]; intros curr; [reflexivity|]. cbn [push_all rent].
    rewrite IHn, IHc, !map_app, !map_map, <- app_assoc. f_equal.
    - destruct v; simpl; auto. now rewrite app_nil_r.
    - f_equal. apply map_ext. intros e. unfold pre. simpl. now rewrite app_assoc.
  Qed.
  Lemma here_ok (v : option T) c curr :
    (if is_some v then [curr] else []) ++ push_all c curr = map (fun e => curr ++ fst e) (nent v c).
  Proof. unfold nent. rewrite map_app, push_all_ok. f_equal. destruct v; simpl; auto. now rewrite app_nil_r. Qed.

  Definition lp_node t : Prop :=
    match t with
    | RNil => True
    | RNode k v n c => wf c -> ncond k v c -> forall s curr, exists ks,
        r_longest_prefix (RNode k v n c) s curr = Ok (map (app curr) ks) /\
        (ks = longest_prefix_keys s (map (pre k) (nent v c)) \/
         ks = filter (fun q => length q =? best_lcp s (map (pre k) (nent v c))) (longest_prefix_keys s (map (pre k) (nent v c)))) /\
        (0 < best_lcp s (map (pre k) (nent v c)) \/ s = [] \/ (v = None -> two c) ->
         ks = longest_prefix_answer s (map (pre k) (nent v c))) /\
        (k = [] -> s <> [] -> best_lcp s (map (pre k) (nent v c)) = 0 ->
         ks = filter (fun q => length q =? 0) (longest_prefix_keys s (map (pre k) (nent v c))))
    end.

  Lemma nent_nonempty k v c : wf c -> ncond k v c -> k <> [] -> nent v c <> [].
  Proof.
    intros W N K E. unfold nent in E. destruct v; [discriminate|]. specialize (N K eq_refl).
    apply (rent_nonempty c); auto. now destruct c.
  Qed.

  Lemma two_heads t : wf t -> two t -> exists x y q1 w1 q2 w2, x <> y /\ In (x :: q1, w1) (rent t) /\ In (y :: q2, w2) (rent t).
  Proof.
    destruct t as [|k v [|kn vn nn cn] c]; try contradiction. intros W _. destruct W as (K & F & D & Wn & Wc).
    pose proof Wn as (Kn & Fn & Dn & _ & Wcn).
    assert (A : nent v c <> []) by (apply (nent_nonempty k v c); auto; intros _; auto).
    assert (B : nent vn cn <> []) by (apply (nent_nonempty kn vn cn); auto; intros _; auto).
    destruct k as [|x k]; [congruence|]. destruct kn as [|y kn]; [congruence|].
    destruct (nent v c) as [|[q1 w1] l1] eqn:E1; [congruence|]. destruct (nent vn cn) as [|[q2 w2] l2] eqn:E2; [congruence|].
    exists x, y, (k ++ q1), w1, (kn ++ q2), w2. split.
    - rewrite Forall_forall in F. specialize (F y). rewrite heads_node in F. simpl in F. assert (x < y) by auto. lia.
    - cbn [rent]. fold (nent v c) (nent vn cn). rewrite E1, E2. split; simpl; auto.
      right. apply in_app_iff. right. left. reflexivity.
  Qed.

  Lemma lp_ok_all t : lp_node t /\ forall b, lp_node (drop_to b t).
  Proof.
    induction t as [|k v n IHn c IHc]; [split; [exact I | intros b; exact I]|].
    assert (P : lp_node (RNode k v n c)).
    { intros W NC s curr. cbn [r_longest_prefix].
      set (L := map (pre k) (nent v c)).
      assert (Res : (if is_some v then [curr ++ k] else []) ++ push_all c (curr ++ k) = map (app curr) (map fst L)).
      { unfold L. rewrite here_ok, !map_map. apply map_ext. intros e. unfold pre. simpl. now rewrite app_assoc. }
      assert (InL : forall e, In e L -> exists q w, e = (k ++ q, w) /\ In (q, w) (nent v c)).
      { intros e I. apply in_map_iff in I as ([q w] & <- & I). unfold pre. simpl. eauto. }
      destruct (node_cases k s) as [(i & E & p & z & a' & y & b' & E1 & E2 & N & _)|(E & [(b & s1 & E1 & Cm & Sk)|[(b & k1 & E1 & Cm & _)|(E1 & Cm)]])];
        rewrite E, ?Cm.
      - (* the query leaves inside the edge *)
        rewrite Res.
        assert (A : forall e, In e L -> lcp (fst e) s = length p).
        { intros e I. destruct (InL e I) as (q & w & -> & _). subst k s. simpl. rewrite <- app_assoc. simpl. now apply lcp_diff. }
        eexists; split; [reflexivity|]. rewrite (lpk_const s L _ A). split; [now left|].
        split; [|intros K; rewrite E1 in K; now destruct p]. intros _. unfold longest_prefix_answer.
        rewrite (lpk_const s L _ A).
        destruct L as [|e0 l0] eqn:El; [now destruct (_ || _)|]. rewrite <- El in *.
        rewrite (best_const s L (length p) A) by (rewrite El; discriminate).
        rewrite (same_next_const (length p) _ (Some z)); [now rewrite Bool.orb_true_r|].
        intros q I. apply in_map_iff in I as (e & <- & I). destruct (InL e I) as (q & w & -> & _). subst k. simpl.
        rewrite <- app_assoc. rewrite nth_error_app2, Nat.sub_diag by lia. reflexivity.
      - (* the query goes on below the node *)
        rewrite Sk. cbn [first_byte bind]. rewrite find_child_drop by exact W.
        destruct (rent_drop b c W) as (L1 & L2 & Er & Hr).
        destruct (drop_to b c) as [|k' v' n' c'] eqn:Ed.
        + cbn [is_rnil].
          assert (Hc : forall q w, In (q, w) (rent c) -> exists b' s', q = b' :: s' /\ b' <> b).
          { intros q w I. apply (Hr q w). rewrite Er in I. simpl in I. now apply in_app_iff in I. }
          assert (A : forall e, In e L -> lcp (fst e) s = length k).
          { intros e I. destruct (InL e I) as (q & w & -> & Iq). simpl. subst s. apply in_nent in Iq as [[-> _]|Iq].
            - rewrite lcp_app. simpl. lia.
            - destruct (Hc q w Iq) as (b' & s' & -> & Nb). now apply lcp_diff. }
          exists (if is_some v then [k] else []). split; [now destruct v|].
          rewrite (lpk_const s L _ A).
          assert (Fi : L <> [] -> (if is_some v then [k] else []) = filter (fun q => length q =? best_lcp s L) (map fst L)).
          { intros Ne. rewrite (best_const s L _ A Ne). unfold L, nent. rewrite map_app, map_app, filter_app.
            rewrite (filter_none _ (map fst (map (pre k) (rent c)))).
            - destruct v; simpl; auto. rewrite !app_nil_r, Nat.eqb_refl. reflexivity.
            - intros q I. rewrite map_map in I. apply in_map_iff in I as ([q' w] & <- & I). destruct (Hc q' w I) as (b' & s' & -> & _).
              unfold pre. simpl. apply Nat.eqb_neq. rewrite app_length. simpl. lia. }
          assert (Le : L = [] -> (if is_some v then [k] else []) = []).
          { unfold L, nent. intros X. apply map_eq_nil in X. now destruct v. }
          split; [destruct L as [|e0 l0] eqn:El; [left; now rewrite Le | right; apply Fi; discriminate]|].
          split.
          2:{ intros K _ B0. destruct L as [|e0 l0] eqn:El; [now rewrite Le|]. rewrite <- B0. apply Fi. discriminate. }
          intros Bp. unfold longest_prefix_answer. rewrite (lpk_const s L _ A).
          destruct L as [|e0 l0] eqn:El; [rewrite Le by reflexivity; now destruct (_ || _)|]. rewrite <- El in *.
          assert (Ne : L <> []) by (rewrite El; discriminate).
          assert (Ls : (best_lcp s L =? length s) = false).
          { apply Nat.eqb_neq. rewrite (best_const s L _ A Ne). subst s. rewrite app_length. simpl. lia. }
          rewrite Ls. cbn [orb]. rewrite <- (Fi Ne). rewrite (best_const s L _ A Ne) in *.
          assert (K : v = None -> two c).
          { destruct Bp as [Bp|[Bp|Bp]]; [|subst s; now destruct k|exact Bp]. apply NC. intros ->. simpl in Bp. lia. }
          destruct v as [x|].
          * destruct c as [|kc vc nc cc] eqn:Ec.
            -- unfold L. simpl. now rewrite app_nil_r.
            -- rewrite <- Ec in *. destruct (rent c) as [|[q w] lr] eqn:Erc; [exfalso; apply (rent_nonempty c W); [subst c; discriminate | exact Erc]|].
               destruct (Hc q w (or_introl eq_refl)) as (b' & s' & -> & _).
               rewrite (same_next_false (length k) _ k (k ++ b' :: s')); auto.
               ++ unfold L, nent. simpl. left. now rewrite app_nil_r.
               ++ apply in_map_iff. exists (k ++ b' :: s', w). split; auto. apply in_pre_app. apply in_nent. right.
                  rewrite <- Ec, Erc. now left.
               ++ rewrite nth_error_app2, Nat.sub_diag by lia. rewrite (proj2 (nth_error_None k (length k))) by lia. discriminate.
          * destruct (two_heads c W (K eq_refl)) as (x & y & q1 & w1 & q2 & w2 & Nxy & I1 & I2).
            rewrite (same_next_false (length k) _ (k ++ x :: q1) (k ++ y :: q2)); auto.
            -- apply in_map_iff. exists (k ++ x :: q1, w1). split; auto. apply in_pre_app. exact I1.
            -- apply in_map_iff. exists (k ++ y :: q2, w2). split; auto. apply in_pre_app. exact I2.
            -- rewrite !nth_error_app2, !Nat.sub_diag by lia. simpl. congruence.
        + cbn [is_rnil]. pose proof (proj2 IHc b) as Q. rewrite Ed in Q.
          pose proof (drop_to_wf b c W) as Wd. rewrite Ed in Wd. destruct Wd as (K' & _ & D' & _ & Wc').
          destruct (Q Wc' (fun _ => D') (b :: s1) (curr ++ k)) as (ks & Ek & Or & An & _).
          exists (map (app k) ks). split.
          { rewrite Ek, map_map. f_equal. apply map_ext. intros q. now rewrite app_assoc. }
          set (L' := map (pre k') (nent v' c')) in *.
          assert (NeL : L' <> []).
          { intros X. apply map_eq_nil in X. revert X. apply (nent_nonempty k'); auto. intros _; auto. }
          assert (Bp : 0 < best_lcp (b :: s1) L').
          { pose proof (drop_to_head b c _ _ _ _ Ed) as Hk. destruct k' as [|b0 k']; [congruence|]. simpl in Hk. subst b0.
            destruct (nent v' c') as [|e l0] eqn:En; [now contradiction NeL|].
            unfold L', best_lcp. try rewrite En. simpl. rewrite Nat.eqb_refl. lia. }
          specialize (An (or_introl Bp)).
          assert (Zero : forall e, In e ((own v ++ L1) ++ L2) -> lcp (fst e) (b :: s1) = 0).
          { intros [q w] I. simpl. rewrite !in_app_iff in I. destruct I as [[I|I]|I].
            - apply in_own in I as [-> _]. reflexivity.
            - destruct (Hr q w (or_introl I)) as (b' & s' & -> & Nb). simpl. now rewrite (proj2 (Nat.eqb_neq b' b) Nb).
            - destruct (Hr q w (or_intror I)) as (b' & s' & -> & Nb). simpl. now rewrite (proj2 (Nat.eqb_neq b' b) Nb). }
          assert (EN : nent v c = (own v ++ L1) ++ L' ++ L2) by (unfold nent; rewrite Er; cbn [cont]; now rewrite <- app_assoc).
          destruct (lpk_drop (b :: s1) (own v ++ L1) L' L2 Zero Bp) as [D1 D2].
          assert (NeN : nent v c <> []) by (rewrite EN; intros X; apply app_eq_nil in X as [_ X]; apply app_eq_nil in X as [X _]; auto).
          assert (B1 : best_lcp s L = length k + best_lcp (b :: s1) L') by (unfold L; rewrite E1, best_pre by exact NeN; now rewrite EN, D1).
          assert (B2 : longest_prefix_keys s L = map (app k) (longest_prefix_keys (b :: s1) L')) by (unfold L; rewrite E1, lpk_pre by exact NeN; now rewrite EN, D2).
          split; [|split; [|intros _ _; rewrite B1; lia]].
          * rewrite B1, B2. destruct Or as [->| ->]; [now left|right].
            generalize (longest_prefix_keys (b :: s1) L'). intros qs. induction qs as [|q qs IH]; simpl; auto.
            rewrite app_length. destruct (Nat.eqb_spec (length k + length q) (length k + best_lcp (b :: s1) L')), (Nat.eqb_spec (length q) (best_lcp (b :: s1) L')); try lia; simpl; now rewrite IH.
          * intros _. unfold L. rewrite E1, answer_pre by exact NeN. f_equal. rewrite An. unfold longest_prefix_answer.
            rewrite EN, D1, D2. reflexivity.
      - (* the query ends inside the edge *)
        rewrite Res.
        assert (A : forall e, In e L -> lcp (fst e) s = length s).
        { intros e I. destruct (InL e I) as (q & w & -> & _). simpl. rewrite E1, <- app_assoc.
          pose proof (lcp_app s ((b :: k1) ++ q) []) as X. rewrite app_nil_r, lcp_nil_r in X. lia. }
        eexists; split; [reflexivity|]. rewrite (lpk_const s L _ A). split; [now left|].
        split; [|intros K S0; exfalso; apply S0; rewrite K in E1; now destruct s]. intros _. unfold longest_prefix_answer.
        rewrite (lpk_const s L _ A).
        destruct L as [|e0 l0] eqn:El; [now destruct (_ || _)|]. rewrite <- El in *.
        rewrite (best_const s L (length s) A) by (rewrite El; discriminate). now rewrite Nat.eqb_refl.
      - rewrite Res.
        assert (A : forall e, In e L -> lcp (fst e) s = length s).
        { intros e I. destruct (InL e I) as (q & w & -> & _). simpl. rewrite E1.
          pose proof (lcp_app s q []) as X. rewrite app_nil_r, lcp_nil_r in X. lia. }
        eexists; split; [reflexivity|]. rewrite (lpk_const s L _ A). split; [now left|].
        split; [|intros K S0; exfalso; apply S0; rewrite K in E1; now destruct s]. intros _. unfold longest_prefix_answer.
        rewrite (lpk_const s L _ A).
        destruct L as [|e0 l0] eqn:El; [now destruct (_ || _)|]. rewrite <- El in *.
        rewrite (best_const s L (length s) A) by (rewrite El; discriminate). now rewrite Nat.eqb_refl. }
    split; [exact P|]. intros b. cbn [drop_to]. destruct (hd 0 k =? b); [exact P | apply (proj2 IHn)].
  Qed.

  Lemma map_app_nil (ks : list bytes) : map (app []) ks = ks.
  Proof. apply map_id. Qed.

  Lemma radix_longest_prefix_ok (ops : list (radix_op T)) m outs s : run radix_step radix_new ops = Ok (m, outs) ->
    exists ks, radix_longest_prefix m s = Ok ks /\
      (ks = longest_prefix_keys s (radix_contents ops) \/
       ks = filter (fun q => length q =? best_lcp s (radix_contents ops)) (longest_prefix_keys s (radix_contents ops))) /\
      (0 < best_lcp s (radix_contents ops) \/ s = [] -> ks = longest_prefix_answer s (radix_contents ops)).
  Proof.
    intros R. destruct (radix_reachable ops m outs R) as (d & El & _ & RO & _). rewrite <- El.
    unfold radix_longest_prefix. destruct (rm_root m) as [|k v n c].
    - exists []. cbn [r_longest_prefix rent]. split; [reflexivity|]. split; [now left|]. intros _.
      unfold longest_prefix_answer. simpl. now destruct (_ || _).
    - destruct RO as (-> & W & NC). destruct (proj1 (lp_ok_all (RNode k v RNil c)) W NC s []) as (ks & E & O & A & _).
      rewrite map_app_nil in E. exists ks. cbn [rent]. rewrite app_nil_r. split; [exact E|]. split; [exact O|]. tauto.
  Qed.
End Longest.

(** ** Witnesses. *)
Lemma radix_refuted : exists ops : list (radix_op nat),
  outputs radix_step radix_new ops <> Ok (map_spec_outputs (map radix_map_op ops)).
Proof. exists [XRemove [1]; XInsert [1] 8]. vm_compute; discriminate. Qed.

Lemma radix_empty_refuted : exists (ops : list (radix_op nat)) m outs k v,
  run radix_step radix_new ops = Ok (m, outs) /\ radix_contents ops = [] /\ radix_step m (XInsert k v) = Panic.
Proof. exists [XInsert [1] 7; XRemove [1]]. do 2 eexists. exists [2], 9. vm_compute; auto. Qed.

Lemma radix_empty_always {T} (ops : list (radix_op T)) k0 m outs k v :
  run radix_step radix_new (ops ++ [XRemove k0]) = Ok (m, outs) -> radix_contents (ops ++ [XRemove k0]) = [] ->
  radix_step m (XInsert k v) = Panic.
Proof.
  intros R E. destruct (radix_reachable _ m outs R) as (d & HR).
  pose proof (radix_step_ok m _ d (XInsert k v) HR) as X. simpl in X.
  assert (D : d = true); [|now subst d].
  assert (R2 : exists m1 o1, run radix_step radix_new ops = Ok (m1, o1) /\ rmap fst (radix_step m1 (XRemove k0)) = Ok m).
  { clear -R. revert outs R. generalize (@radix_new T). induction ops as [|o ops IH]; intros m0 outs R; cbn [app run] in *.
    - exists m0, []. split; auto. destruct (radix_step m0 (XRemove k0)) as [[m1 r]| |]; try discriminate. simpl in *. congruence.
    - destruct (radix_step m0 o) as [[m1 r]| |]; try discriminate. cbn [bind] in *.
      destruct (run radix_step m1 (ops ++ [XRemove k0])) as [[m2 rs]| |] eqn:E2; try discriminate. cbn [bind] in R.
      injection R as -> <-. destruct (IH m1 rs E2) as (m3 & o3 & E3 & E4). rewrite E3.
      exists m3, (r :: o3). split; [reflexivity | exact E4]. }
  destruct R2 as (m1 & o1 & R1 & E1). destruct (radix_reachable ops m1 o1 R1) as (d1 & HR1).
  destruct (radix_step_ok m1 _ d1 (XRemove k0) HR1) as (m' & E2 & HR2).
  rewrite E2 in E1. injection E1 as ->. destruct HR as (El & _ & _ & Dd). destruct HR2 as (El2 & _ & _ & Dd2).
  rewrite Dd, <- Dd2. cbn [next_dead]. rewrite El2 in El. rewrite El, E. apply Bool.orb_true_r.
Qed.

Lemma radix_longest_prefix_refuted : exists (ops : list (radix_op nat)) m outs k,
  run radix_step radix_new ops = Ok (m, outs) /\ radix_longest_prefix m k = Ok [] /\
  longest_prefix_keys k (radix_contents ops) = [[97; 98]; [97; 99]].
Proof. exists [XInsert [97; 98] 1; XInsert [97; 99] 2]. do 2 eexists. exists [97; 100]. vm_compute; auto. Qed.

(** Two histories with the same contents whose maps answer the same query differently. *)
Lemma radix_longest_prefix_history_refuted : exists (ops1 ops2 : list (radix_op nat)) m1 m2 outs1 outs2 k,
  run radix_step radix_new ops1 = Ok (m1, outs1) /\ run radix_step radix_new ops2 = Ok (m2, outs2) /\
  radix_contents ops1 = radix_contents ops2 /\ radix_longest_prefix m1 k <> radix_longest_prefix m2 k.
Proof.
  exists [XInsert [97] 1], [XInsert [97] 1; XRemove [98]]. do 4 eexists. exists [99]. vm_compute.
  repeat split; auto. discriminate.
Qed.
