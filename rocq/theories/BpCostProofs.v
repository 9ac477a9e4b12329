(** How often the calls of the on-disk B+ tree map access its file. *)
From Verif Require Import BpMapModel BpNodeSpec BpLeafProofs BpInternalProofs BpStoreProofs OrdLemmas ListLemmas MapSpec BpMapProofs.
From Verif Require Export BpCostModel.

#[local] Instance strict_file : tightness := Strict.

Section Budget.
  Context {K V : Type} `{Cmp K}.
  Notation io := (io K V).
  Notation store := (store K V).

  (** The program gets by with a budget of [b] accesses; [Q] holds for its result and what is left of the budget. *)
  Fixpoint upto {A} (c : io A) (b : nat) (Q : A -> nat -> Prop) : Prop :=
    match c with
    | Ret a => Q a b
    | Fail | Spin => True
    | GetPage _ k => 1 <= b /\ forall n, upto (k n) (b - 1) Q
    | WriteNode _ _ k => 1 <= b /\ upto k (b - 1) Q
    | AllocNode _ k => 3 <= b /\ forall p, upto (k p) (b - 3) Q
    | FreeNode _ k => 2 <= b /\ upto k (b - 2) Q
    | GetRoot k | GetLen k | PageCount k => forall p, upto (k p) b Q
    | SetRoot _ k | SetLen _ k => 1 <= b /\ upto k (b - 1) Q
    end.

  Lemma upto_bind {A B} (c : io A) (f : A -> io B) Q : forall b, upto c b (fun a b' => upto (f a) b' Q) -> upto (iobind c f) b Q.
  Proof.
    induction c as [a| | |p c IH|p n c IH|n c IH|p c IH|c IH|p c IH|c IH|n c IH|c IH]; intros b; cbn; intuition.
  Qed.
  Lemma upto_pure {A B} (r : res A) (f : A -> io B) b Q : (forall a, r = Ok a -> upto (f a) b Q) -> upto (iobind (pure r) f) b Q.
  Proof. intros F. destruct r; cbn; auto. Qed.
  Lemma upto_accesses {A} (c : io A) Q : forall b s, upto c b Q -> accesses s c <= b.
  Proof.
    induction c as [a| | |p c IH|p n c IH|n c IH|p c IH|c IH|p c IH|c IH|n c IH|c IH]; intros b s; cbn [upto accesses].
    - lia.
    - lia.
    - lia.
    - intros [L U]. destruct (get_page s p); try lia. specialize (IH a (b - 1) s (U a)). lia.
    - intros [L U]. destruct (write_node s p n); try lia. specialize (IH (b - 1) a U). lia.
    - intros [L U]. destruct (alloc_node s n) as [[s' p]| |]; try lia. specialize (IH p (b - 3) s' (U p)). lia.
    - intros [L U]. destruct (free_node s p); try lia. specialize (IH (b - 2) a U). lia.
    - intros U. now apply IH.
    - intros [L U]. specialize (IH (b - 1) (set_root s p) U). lia.
    - intros U. now apply IH.
    - intros [L U]. specialize (IH (b - 1) (set_len s n) U). lia.
    - intros U. now apply IH.
  Qed.
  Lemma accesses_bind {A B} (c : io A) (f : A -> io B) : forall s,
    accesses s (iobind c f) = accesses s c + match run_io s c with Ok (s', a) => accesses s' (f a) | _ => 0 end.
  Proof.
    induction c as [a| | |p c IH|p n c IH|n c IH|p c IH|c IH|p c IH|c IH|n c IH|c IH]; intros s; cbn [iobind accesses run_io]; auto.
    - destruct (get_page s p); cbn [bind]; auto. rewrite IH. lia.
    - destruct (write_node s p n); cbn [bind]; auto. rewrite IH. lia.
    - destruct (alloc_node s n) as [[s' p]| |]; cbn [bind]; auto. rewrite IH. lia.
    - destruct (free_node s p); cbn [bind]; auto. rewrite IH. lia.
    - rewrite IH. lia.
    - rewrite IH. lia.
  Qed.
  Lemma accesses_pure {A B} s (r : res A) (f : A -> io B) a : r = Ok a -> accesses s (iobind (pure r) f) = accesses s (f a).
  Proof. intros ->. reflexivity. Qed.

  Variables m d : nat.
  Notation frame := (@frame K).

  Lemma grow_upto : forall (stack : list frame) page sk sp (Q : unit -> nat -> Prop) b,
    (forall b', b <= b' -> Q tt b') -> upto (grow (V := V) d stack page sk sp) (4 * length stack + 4 + b) Q.
  Proof.
    induction stack as [|[[pp parent] i] stack IH]; intros page sk sp Q b HQ; cbn [grow].
    - do 3 (apply upto_pure; intros ? _). cbn [upto length]. split; [lia|]. intros p. split; [lia|]. apply HQ. lia.
    - apply upto_pure. intros [parent' [[sk' sn]|]] _; cbn [upto length].
      + split; [lia|]. intros q. split; [lia|].
        replace (4 * S (length stack) + 4 + b - 3 - 1) with (4 * length stack + 4 + b) by lia. now apply IH.
      + split; [lia|]. apply HQ. lia.
  Qed.
  Lemma insert_upto page (nd : node K V) (stack : list frame) e :
    upto (insert_at d page nd stack e) (4 * length stack + 9) (fun _ _ => True).
  Proof.
    unfold insert_at. destruct nd; try exact I. apply upto_pure. intros [l' [[sk sn|old]|]] _; cbn [upto].
    - split; [lia|]. intros q. split; [lia|]. apply upto_bind.
      replace (4 * length stack + 9 - 3 - 1) with (4 * length stack + 4 + 1) by lia. apply grow_upto.
      intros b' L. cbn. intros _. split; [lia | exact I].
    - split; [lia | exact I].
    - split; [lia|]. intros _. split; [lia | exact I].
  Qed.

  Lemma fix_leaf_upto page (l : leaf K V) pp parent i (Q : option (nat * nat * internal K) -> nat -> Prop) b :
    (forall r b', b <= b' -> Q r b') -> upto (fix_leaf m page l pp parent i) (4 + b) Q.
  Proof.
    intros HQ. unfold fix_leaf. apply upto_pure. intros sp _. cbn [upto]. split; [lia|]. intros nd.
    destruct nd as [|s|]; try exact I. cbn [expect_leaf iobind].
    destruct (lf_len s =? (m + 1) / 2).
    - destruct (_ =? i + 1); apply upto_pure; intros ? _; cbn [upto]; (split; [lia|]); (split; [lia|]); apply HQ; lia.
    - apply upto_bind. destruct (_ =? i + 1); repeat (apply upto_pure; intros ? _);
      repeat match goal with x : _ * _ |- _ => destruct x end; cbn [upto]; repeat (apply upto_pure; intros ? _);
      repeat match goal with x : _ * _ |- _ => destruct x end; cbn [upto]; repeat (split; [lia|]); apply HQ; lia.
  Qed.
  Lemma fix_internal_upto page nd pp parent i (Q : option (nat * nat * internal K) -> nat -> Prop) b :
    (forall r b', b <= b' -> Q r b') -> upto (fix_internal (V := V) d page nd pp parent i) (4 + b) Q.
  Proof.
    intros HQ. unfold fix_internal. apply upto_pure. intros sp _. cbn [upto]. split; [lia|]. intros nd'.
    destruct nd' as [s| |]; try exact I. cbn [expect_internal iobind].
    destruct (in_len s + 1 =? (d + 1) / 2).
    - destruct (_ =? i + 1); repeat (apply upto_pure; intros ? _); cbn [upto]; (split; [lia|]); (split; [lia|]); apply HQ; lia.
    - apply upto_bind. destruct (_ =? i + 1); repeat (apply upto_pure; intros ? _);
      repeat match goal with x : _ * _ |- _ => destruct x end; repeat (apply upto_pure; intros ? _);
      repeat match goal with x : _ * _ |- _ => destruct x end; cbn [upto]; repeat (split; [lia|]); apply HQ; lia.
  Qed.
  Lemma shrink_upto : forall (stack : list frame) i page nd b, upto (shrink (V := V) d stack i page nd) (4 * length stack + 3 + b) (fun _ _ => True).
  Proof.
    induction stack as [|[[pp parent] pi] stack IH]; intros i page nd b; cbn [shrink]; apply upto_pure; intros [nd' x] _.
    - destruct (_ <? _); [|cbn; split; [lia | exact I]]. destruct (_ =? 0); [|cbn; split; [lia | exact I]].
      apply upto_pure. intros r _. cbn. split; [lia|]. split; [lia | exact I].
    - destruct (_ <? _); [|cbn; split; [lia | exact I]]. apply upto_bind.
      cbn [length]. replace (4 * S (length stack) + 3 + b) with (4 + (4 * length stack + 3 + b)) by lia.
      apply fix_internal_upto. intros [[[i' page'] nd'']|] b' L; cbn; [|exact I].
      replace b' with (4 * length stack + 3 + (b' - (4 * length stack + 3))) by lia. apply IH.
  Qed.
  Lemma remove_upto page (nd : node K V) (stack : list frame) k :
    upto (remove_at m d page nd stack k) (4 * length stack + 4) (fun _ _ => True).
  Proof.
    unfold remove_at, remove_leaf. destruct nd as [|l|]; try exact I. cbn [expect_leaf iobind].
    apply upto_bind. apply upto_pure. intros [l' ret] _. destruct (lf_len l' <? (m + 1) / 2); [destruct stack as [|[[pp parent] i] stack]|].
    - destruct ret; cbn [upto]; [|exact I]. intros n. apply upto_pure. intros n' _. cbn [upto]. split; [lia|]. split; [lia | exact I].
    - apply upto_bind.
      cbn [length]. replace (4 * S (length stack) + 4) with (4 + (4 * length stack + 4)) by lia.
      apply fix_leaf_upto. intros r b' L. cbn [upto]. intros n. apply upto_pure. intros n' _. cbn [upto]. split; [lia|].
      destruct r as [[[i' page'] nd']|]; [|exact I]. apply upto_bind.
      replace (b' - 1) with (4 * length stack + 3 + (b' - 1 - (4 * length stack + 3))) by lia. 
      generalize (shrink_upto stack i' page' nd' (b' - 1 - (4 * length stack + 3))).
      generalize (4 * length stack + 3 + (b' - 1 - (4 * length stack + 3))). intros b0 U. exact U.
    - destruct ret; cbn [upto]; [|exact I]. intros n. apply upto_pure. intros n' _. cbn [upto]. split; [lia|]. split; [lia | exact I].
  Qed.

  Lemma search_loop_accesses k : forall fuel page (nd : node K V) st s s' q nd' fr,
    run_io s (search_loop fuel k page nd st) = Ok (s', (q, nd', fr)) ->
    accesses s (search_loop fuel k page nd st) + length st = length fr.
  Proof.
    induction fuel as [|fuel IH]; intros page nd st s s' q nd' fr; cbn [search_loop]; [discriminate|].
    destruct nd as [i|l|f]; try (intros E; injection E as <- <- <- <-; reflexivity).
    destruct (internal_search i k) as [next| |]; try discriminate. cbn [pure iobind].
    destruct (cell (in_ptrs i) next) as [p| |]; try discriminate. cbn [pure iobind run_io accesses].
    destruct (get_page s p) as [n| |]; try discriminate. cbn [bind]. intros E. apply IH in E. cbn [length] in E. lia.
  Qed.
  Lemma search_accesses k (s : store) s' q nd fr : run_io s (search_node k) = Ok (s', (q, nd, fr)) ->
    accesses s (search_node k) = 1 + length fr.
  Proof.
    unfold search_node. cbn [run_io accesses]. destruct (get_page s _) as [n| |]; try discriminate. cbn [bind].
    intros E. apply search_loop_accesses in E. cbn [length] in E. lia.
  Qed.
End Budget.

Section TreeCost.
  Context {K V : Type} `{CmpLaws K}.
  Variables m d : nat.
  Hypothesis Hm : 1 <= m.
  Hypothesis Hd : 3 <= d.
  Notation entry := (K * V)%type.
  Notation node := (node K V).
  Notation store := (store K V).
  Notation frame := (@frame K).
  Notation bt := (@bt K V).
  Notation kid := (option K * bt)%type.
  Notation flat := (flat m d).
  Notation flat_kids := (flat_kids m d).
  Notation inode := (inode d).
  Notation ok := (ok m d).
  Notation kids_ok := (kids_ok m d).
  Notation node_at := (node_at m d).
  Notation inv := (inv m d).
  Notation bound := (bound m d).
  Implicit Types (t c : bt) (kids L R M A B : list kid) (l lo hi : option K) (nxt : option nat) (es : list entry) (e : entry) (s : store).
  Notation hm := ((m + 1) / 2).
  Notation hd := ((d + 1) / 2).

  (** *** A tree of many levels has many entries. *)
  Lemma chain_size (P : option K -> option K -> bt -> Prop) x : (forall lo hi c, P lo hi c -> x <= length (contents c)) ->
    forall kids hi, chain P kids hi -> length kids * x <= length (kcontents kids).
  Proof.
    intros HP. induction kids as [|[l c] kids IH]; intros hi Ch; [cbn; lia|]. destruct Ch as [C0 Ch].
    apply HP in C0. apply IH in Ch. rewrite kcontents_cons, app_length. cbn [length]. lia.
  Qed.
  Lemma ok_size : forall n lo hi t, ok n false lo hi t -> hm * hd ^ n <= length (contents t).
  Proof.
    induction n as [|n IH]; intros lo hi [p es|p kids] O; try contradiction.
    - destruct O as (_ & _ & O). specialize (O eq_refl). cbn [Nat.pow contents]. lia.
    - destruct O as ((_ & _ & Ch) & _ & O). specialize (O eq_refl). change (contents (BNode p kids)) with (kcontents kids).
      pose proof (chain_size _ _ IH kids hi Ch) as Q. cbn [Nat.pow].
      enough (hd * (hm * hd ^ n) <= length kids * (hm * hd ^ n)) by (rewrite (Nat.mul_comm hd (hd ^ n)); nia).
      now apply Nat.mul_le_mono_r.
  Qed.
  Lemma root_size n lo hi t : ok (S n) true lo hi t -> m * hd ^ n <= length (contents t).
  Proof.
    destruct t as [p es|p kids]; [contradiction|]. intros ((_ & _ & Ch) & Len & _).
    change (contents (BNode p kids)) with (kcontents kids). pose proof (chain_size _ _ (ok_size n) kids hi Ch) as Q.
    assert (2 * (hm * hd ^ n) <= length kids * (hm * hd ^ n)) by (apply Nat.mul_le_mono_r; lia).
    pose proof (half_up m). pose proof (half_le m).
    assert (m * hd ^ n <= 2 * hm * hd ^ n) by (apply Nat.mul_le_mono_r; lia). lia.
  Qed.
  Lemma depth_of n lo hi t j : ok n true lo hi t -> length (contents t) < m * hd ^ j -> n <= j.
  Proof.
    intros O L. destruct n as [|n]; [lia|]. apply root_size in O.
    assert (hd ^ n < hd ^ j) by nia.
    destruct (le_lt_dec (S n) j) as [|G]; [assumption|].
    assert (hd ^ j <= hd ^ n); [|lia]. apply Nat.pow_le_mono_r; [|lia].
    pose proof (half_up d). pose proof (half_le d). lia.
  Qed.

  Lemma descend_depth k hi t nxt q es nx fr : descend d k hi t nxt q es nx fr -> forall n root lo, ok n root lo hi t -> length fr = n.
  Proof.
    induction 1 as [hi p es nxt|hi p L l c R nxt q es nx fr B F0 X IH]; intros n root lo O.
    - now destruct n.
    - destruct n as [|n]; [contradiction|]. destruct O as ((_ & _ & Ch) & _). apply chain_app in Ch as [_ [Ch _]].
      rewrite app_length, (IH n false l Ch). cbn. lia.
  Qed.

  Lemma search_depth k n t s fl ln : ok n true None None t -> rep s (flat t None ++ []) fl (root_of t) ln ->
    exists q nd fr, run_io s (search_node k) = Ok (s, (q, nd, fr)) /\ length fr = n /\ accesses s (search_node k) = 1 + n.
  Proof.
    intros O Rp. assert (Bd : in_b None None k) by (split; exact Logic.I).
    destruct (search_ok m d k n true None None t None s [] fl _ Hm ltac:(lia) O Bd Rp) as (q & es & nx & fr & X & E).
    pose proof (descend_depth _ _ _ _ _ _ _ _ X n true None O) as L.
    exists q, (Leaf (mk_leaf m es nx)), fr. split; [exact E|]. split; [exact L|]. rewrite (search_accesses k s s _ _ _ E). now rewrite L.
  Qed.

  Lemma descend_accesses (pick : internal K -> nat) s :
    (forall kids, kids <> [] -> keyed (tl kids) -> exists L l c R, kids = L ++ (l, c) :: R /\ pick (inode kids) = length L) ->
    forall n root lo hi t nxt fuel, ok n root lo hi t -> bound s t nxt -> n < fuel ->
    accesses s (descend_loop pick fuel (node_at t nxt)) = n.
  Proof.
    intros HP. induction n as [|n IH]; intros root lo hi [p es|p kids] nxt fuel O B Lt; try contradiction.
    - destruct fuel; [lia|]. reflexivity.
    - destruct O as (Ok' & _). pose proof Ok' as (Fl & Dk & Ch). apply (bound_kids m d) in B as [_ B].
      destruct (HP kids (first_low_ne _ _ Fl) Dk) as (L & l & c & R & -> & E).
      destruct fuel as [|fuel]; [lia|]. cbn [node_at descend_loop]. rewrite E.
      rewrite (accesses_pure _ _ _ _ (ptr_at m d Hm Hd L l c R Dk)). cbn [accesses].
      rewrite (B (root_of c) (node_at c (nxt_of R nxt))).
      2: { rewrite flat_kids_app. apply in_or_app. right. rewrite flat_kids_cons. apply in_or_app. left. apply flat_head. }
      apply chain_app in Ch as [_ [Oc _]].
      rewrite (IH false l (low_of R hi) c (nxt_of R nxt) fuel Oc); [reflexivity| |lia].
      intros q x I. apply B. rewrite flat_kids_app. apply in_or_app. right. rewrite flat_kids_cons. apply in_or_app. now left.
  Qed.
  Lemma edge_accesses (pick : internal K -> nat) n t s fl ln :
    (forall kids, kids <> [] -> keyed (tl kids) -> exists L l c R, kids = L ++ (l, c) :: R /\ pick (inode kids) = length L) ->
    ok n true None None t -> rep s (flat t None ++ []) fl (root_of t) ln -> n < S (md_pages (st_mem s)) ->
    accesses s (edge_leaf (V := V) pick) <= 1 + n.
  Proof.
    intros HP O Rp Fu. unfold edge_leaf. cbn [accesses]. rewrite (rep_root _ _ _ _ _ Rp).
    erewrite rep_get; [|exact Rp|apply in_or_app; left; apply flat_head]. rewrite accesses_bind.
    rewrite (descend_accesses pick s HP n true None None t None _ O (rep_bound m d _ _ _ _ _ _ Rp) Fu).
    destruct (run_io s _) as [[s' [|l|]]| |]; cbn; lia.
  Qed.
  Lemma pick_first kids : kids <> [] -> keyed (tl kids) -> exists L l c R, kids = L ++ (l, c) :: R /\ (fun _ : internal K => 0) (inode kids) = length L.
  Proof. destruct kids as [|[l c] kids]; [congruence|]. intros _ _. now exists [], l, c, kids. Qed.
  Lemma pick_last kids : kids <> [] -> keyed (tl kids) -> exists L l c R, kids = L ++ (l, c) :: R /\ in_len (inode kids) = length L.
  Proof.
    intros Ne D. pose proof (inode_len m d Hm Hd kids Ne D) as Q. destruct (exists_last Ne) as (L & [l c] & ->).
    exists L, l, c, []. split; [reflexivity|]. rewrite app_length in Q. cbn [length] in Q. lia.
  Qed.

  (** *** Iteration reads each leaf once. *)
  Inductive dense s : option nat -> nat -> nat -> Prop :=
  | Dense_nil : dense s None 0 0
  | Dense_cons p es nx n r : get_page s p = Ok (Leaf (mk_leaf m es nx)) -> hm <= length es <= m ->
      dense s nx n r -> dense s (Some p) (S n) (length es + r).
  Lemma dense_size s nx n r : dense s nx n r -> n * hm <= r.
  Proof. induction 1; lia. Qed.

  Lemma iter_dense s : forall fuel ents nx n r len i, dense s nx n r -> length ents = m ->
    accesses s (iter_loop (K := K) (V := V) fuel (mkLeaf len ents nx) i) <= n.
  Proof.
    induction fuel as [|fuel IH]; intros ents nx n r len i D Le; cbn [iter_loop lf_len lf_next lf_entries accesses]; [lia|].
    assert (St : forall ents nx n r len i, dense s nx n r -> length ents = m -> accesses s
      (let? x := cell ents i in match x with None => Ret [] | Some e =>
         let! y := iter_loop fuel (mkLeaf len (list_set ents i None) nx) (i + 1) in Ret (e :: y) end) <= n).
    { clear - IH. intros ents nx n r len i D Le. destruct (cell ents i) as [[e|]| |]; cbn [pure iobind accesses]; try lia.
      rewrite accesses_bind. specialize (IH (list_set ents i None) nx n r len (i + 1) D).
      rewrite list_set_length in IH. specialize (IH Le). destruct (run_io s _) as [[s' a]| |]; cbn [accesses]; lia. }
    destruct (len <=? i).
    - destruct D as [|p es nx' n r Gp Lm D]; [cbn; lia|]. cbn [accesses]. rewrite Gp. cbn [expect_leaf iobind].
      specialize (St (lf_entries (mk_leaf m es nx')) nx' n r (lf_len (mk_leaf m es nx')) 0 D).
      cbn [mk_leaf lf_entries lf_len lf_next] in *. rewrite pad_length in St by lia. specialize (St eq_refl). lia.
    - now apply (St ents nx n r).
  Qed.

  Lemma tree_dense s : forall n lo hi t nxt cnt r, ok n false lo hi t -> bound s t nxt -> dense s nxt cnt r ->
    exists cnt', dense s (Some (first_leaf t)) cnt' (length (contents t) + r).
  Proof.
    induction n as [|n IH]; intros lo hi [p es|p kids] nxt cnt r O B Lc; try contradiction.
    - destruct O as (_ & Lm & Hf). cbn [first_leaf contents]. specialize (Hf eq_refl). exists (S cnt).
      apply Dense_cons with nxt; auto. apply B. now left.
    - destruct O as ((Fl & _ & Ch) & _). apply (bound_kids m d) in B as [_ B].
      assert (G : forall kids, chain (ok n false) kids hi -> (forall q x, In (q, x) (flat_kids kids nxt) -> get_page s q = Ok x) ->
        exists cnt', dense s (nxt_of kids nxt) cnt' (length (kcontents kids) + r)).
      { clear kids Fl Ch B. induction kids as [|[l c] kids IHk]; intros Ch B; [now exists cnt|].
        destruct Ch as [Oc Ch]. rewrite kcontents_cons, app_length, <- Nat.add_assoc. cbn [nxt_of].
        destruct (IHk Ch) as (cnt' & D'). { intros q x I. apply B. rewrite flat_kids_cons. apply in_or_app. now right. }
        apply (IH l (low_of kids hi) c (nxt_of kids nxt) cnt'); [exact Oc| |exact D'].
        intros q x I. apply B. rewrite flat_kids_cons. apply in_or_app. now left. }
      specialize (G kids Ch B). destruct kids as [|[l c] kids]; [contradiction|]. exact G.
  Qed.
  Lemma edge_dense s : forall n root lo hi t nxt cnt r, ok n root lo hi t -> bound s t nxt -> dense s nxt cnt r ->
    exists es nx cnt' r', length es <= m /\ dense s nx cnt' r' /\ length (contents t) + r = length es + r' /\
      (root = false -> hm <= length es) /\ (hm <= length es \/ cnt' = cnt) /\
      forall fuel, n < fuel -> run_io s (descend_loop (fun _ => 0) fuel (node_at t nxt)) = Ok (s, Leaf (mk_leaf m es nx)).
  Proof.
    induction n as [|n IH]; intros root lo hi [p es|p kids] nxt cnt r O B D; try contradiction.
    - destruct O as (_ & Lm & Hf). exists es, nxt, cnt, r. do 4 (split; [now auto|]). split; [now right|]. intros [|fuel] Lt; [lia|]. reflexivity.
    - destruct O as (Ok' & _). pose proof Ok' as (Fl & Dk & Ch). apply (bound_kids m d) in B as [_ B].
      destruct kids as [|[l c] kids]; [contradiction|]. destruct Ch as [Oc Ch].
      assert (Lk : exists cnt', dense s (nxt_of kids nxt) cnt' (length (kcontents kids) + r)).
      { clear Fl Dk Oc Ok'. assert (B' : forall q x, In (q, x) (flat_kids kids nxt) -> get_page s q = Ok x).
        { intros q x I. apply B. rewrite flat_kids_cons. apply in_or_app. now right. }
        clear B. induction kids as [|[l' c'] kids IHk]; [now exists cnt|]. destruct Ch as [Oc Ch].
        rewrite kcontents_cons, app_length, <- Nat.add_assoc. cbn [nxt_of].
        destruct (IHk Ch) as (cnt' & D'). { intros q x I. apply B'. rewrite flat_kids_cons. apply in_or_app. now right. }
        apply (tree_dense s n l' (low_of kids hi) c' (nxt_of kids nxt) cnt'); [exact Oc| |exact D'].
        intros q x I. apply B'. rewrite flat_kids_cons. apply in_or_app. now left. }
      destruct Lk as (cnt1 & D1).
      destruct (fun X => IH false l (low_of kids hi) c (nxt_of kids nxt) cnt1 _ Oc X D1) as (es & nx & cnt' & r' & E1 & E2 & E3 & E4 & _ & E5).
      { intros q x I. apply B. rewrite flat_kids_cons. apply in_or_app. now left. }
      exists es, nx, cnt', r'. split; [exact E1|]. split; [exact E2|]. split.
      { change (contents (BNode p ((l, c) :: kids))) with (kcontents ((l, c) :: kids)). rewrite kcontents_cons, app_length. lia. }
      split; [intros _; now apply E4|]. split; [left; now apply E4|]. intros [|fuel] Lt; [lia|].
      cbn [descend_loop node_at]. rewrite (run_pure _ _ _ _ (ptr_at m d Hm Hd [] l c kids Dk)). cbn [run_io].
      rewrite (B (root_of c) (node_at c (nxt_of kids nxt))) by (rewrite flat_kids_cons; apply in_or_app; left; apply flat_head).
      cbn [bind]. apply E5. lia.
  Qed.

  Lemma iter_accesses n t s fl ln : ok n true None None t -> rep s (flat t None ++ []) fl (root_of t) ln -> n < S (md_pages (st_mem s)) ->
    accesses s (iter_prog (K := K) (V := V)) <= 1 + n + length (contents t) / hm.
  Proof.
    intros O Rp Fu. unfold iter_prog. rewrite accesses_bind.
    pose proof (edge_accesses (fun _ => 0) n t s fl ln pick_first O Rp Fu) as E.
    destruct (edge_dense s n true None None t None 0 0 O (rep_bound m d _ _ _ _ _ _ Rp) (Dense_nil s)) as (es & nx & cnt & r & E1 & E2 & E3 & _ & _ & E5).
    assert (R : run_io s (edge_leaf (V := V) (fun _ => 0)) = Ok (s, mk_leaf m es nx)).
    { unfold edge_leaf. cbn [run_io]. rewrite (rep_root _ _ _ _ _ Rp).
      erewrite rep_get; [|exact Rp|apply in_or_app; left; apply flat_head]. cbn [bind]. rewrite run_bind, E5 by exact Fu. reflexivity. }
    rewrite R. cbn [accesses mk_leaf lf_entries].
    match goal with |- _ + ?x <= _ => assert (X : x <= cnt) end.
    { eapply iter_dense; [exact E2|]. now apply pad_length. }
    apply dense_size in E2. assert (cnt <= length (contents t) / hm); [|lia].
    pose proof (half_up m). pose proof (half_le m). apply Nat.div_le_lower_bound; lia.
  Qed.

  (** *** Single calls *)
  Variables (ksize : K -> N) (vsize : V -> N) (cfg : config).
  Hypothesis Cm : leaf_degree cfg = m.
  Hypothesis Cd : internal_degree cfg = d.

  Lemma call_bound s ml j o : inv s ml -> length ml < m * hd ^ j ->
    call_accesses ksize vsize cfg s o <= match o with
      | BGet _ | BContains _ | BMin | BMax => j + 1
      | BInsert _ _ => 5 * j + 10
      | BRemove _ => 5 * j + 5
      | BIter => j + 1 + length ml / hm
      | BLen | BIsEmpty => 0
      | BClear => 3
      | BReopen => 1
      end.
  Proof.
    intros I L. destruct (inv_open m d Hm Hd s ml I) as (n & t & fl & O & Rp & <- & Fu & _).
    pose proof (depth_of n None None t j O L) as D.
    unfold call_accesses. rewrite Cm, Cd. destruct o; try lia.
    - destruct (valid _ _ _ _ _); [|lia]. destruct (search_depth k n t s fl _ O Rp) as (q & nd & fr & E & Lf & A).
      unfold insert_prog. rewrite accesses_bind. cbn [fst]. rewrite A, E.
      pose proof (upto_accesses _ _ _ s (insert_upto d q nd fr (k, v))) as U. lia.
    - destruct (search_depth k n t s fl _ O Rp) as (q & nd & fr & E & Lf & A).
      unfold remove_prog. rewrite accesses_bind, A, E.
      pose proof (upto_accesses _ _ _ s (remove_upto m d q nd fr k)) as U. lia.
    - destruct (search_depth k n t s fl _ O Rp) as (q & nd & fr & E & Lf & A).
      unfold get_prog. rewrite accesses_bind, A, E. destruct nd as [|l|]; cbn; try lia.
      destruct (leaf_search l k) as [[i|]| |]; cbn; try lia. destruct (cell _ _); cbn; lia.
    - destruct (search_depth k n t s fl _ O Rp) as (q & nd & fr & E & Lf & A).
      unfold get_prog. rewrite accesses_bind, A, E. destruct nd as [|l|]; cbn; try lia.
      destruct (leaf_search l k) as [[i|]| |]; cbn; try lia. destruct (cell _ _); cbn; lia.
    - unfold min_prog. rewrite accesses_bind. pose proof (edge_accesses (fun _ => 0) n t s fl _ pick_first O Rp Fu) as X. revert X. generalize (accesses s (edge_leaf (V := V) (fun _ => 0))). intros x X.
      destruct (run_io s _) as [[s' l]| |]; try lia. destruct (cell _ _); cbn; lia.
    - unfold max_prog. rewrite accesses_bind. pose proof (edge_accesses (fun i => in_len i) n t s fl _ pick_last O Rp Fu) as X. revert X. generalize (accesses s (edge_leaf (V := V) (fun i => in_len i))). intros x X.
      destruct (run_io s _) as [[s' l]| |]; try lia. destruct (_ =? 0); [cbn; lia|]. destruct (cell _ _); cbn; lia.
    - pose proof (iter_accesses n t s fl _ O Rp Fu). lia.
  Qed.
End TreeCost.

Section FinalCost.
  Context {K V : Type} `{CmpLaws K}.
  Variables (ksize : K -> N) (vsize : V -> N) (cfg : config).
  Notation m := (leaf_degree cfg).
  Notation d := (internal_degree cfg).
  Notation fits := (valid ksize vsize cfg).

  Lemma bp_accesses ops s outs j o : 1 <= m -> 3 <= d -> never_harmful ksize vsize cfg ops ->
    run (bp_step ksize vsize cfg) (new_store m) ops = Ok (s, outs) ->
    length (bp_spec_state fits ops) < m * ((d + 1) / 2) ^ j ->
    call_accesses ksize vsize cfg s o <= match o with
      | BGet _ | BContains _ | BMin | BMax => j + 1
      | BInsert _ _ => 5 * j + 10
      | BRemove _ => 5 * j + 5
      | BIter => j + 1 + length (bp_spec_state fits ops) / ((m + 1) / 2)
      | BLen | BIsEmpty => 0
      | BClear => 3
      | BReopen => 1
      end.
  Proof.
    intros Hm Hd Ov E L. destruct (bp_run_inv m d Hm Hd ksize vsize cfg eq_refl eq_refl ops Ov) as (s' & E' & I).
    rewrite E in E'. injection E' as <- _. now apply (call_bound m d Hm Hd ksize vsize cfg eq_refl eq_refl s (bp_spec_state fits ops) j o).
  Qed.
End FinalCost.
