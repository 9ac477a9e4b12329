(** Amortised analysis of [SplayMap].  The potential of a tree is the sum of the logarithms of the sizes of its subtrees. *)
From Verif Require Export SplayCostModel CostSpec SplayProofs KeyInstances.
From Verif Require Import RunLemmas.
From Coq Require Import Lia.

Definition lg (n : nat) : nat := Nat.log2 n.
Lemma lg_mono a b : a <= b -> lg a <= lg b.
Proof. apply Nat.log2_le_mono. Qed.
Lemma lg_split a b s : 0 < a -> 0 < b -> a + b <= s -> lg a + lg b + 1 <= 2 * lg s.
Proof.
  intros A B X. pose proof (lg_mono a s ltac:(lia)). pose proof (lg_mono b s ltac:(lia)).
  destruct (Nat.eq_dec (lg a) (lg s)) as [Ea|]; [|lia]. destruct (Nat.eq_dec (lg b) (lg s)) as [Eb|]; [|lia]. exfalso. unfold lg in *.
  destruct (Nat.log2_spec a A) as [La _]. destruct (Nat.log2_spec b B) as [Lb _]. destruct (Nat.log2_spec s ltac:(lia)) as [_ Ls].
  rewrite Ea in La. rewrite Eb in Lb. cbn in Ls. lia.
Qed.

Section Amortised.
  Context {K V : Type} `{CmpLaws K}.
  Notation sp := (tree unit K V).
  Notation N l e r := (Node tt l e r).
  Implicit Types (t l r : sp) (e : K * V) (k : K).

  (** *** The counts as functions of their own *)
  Fixpoint splay_loop_cmps (fuel : nat) (k : K) (l : sp) (e : K * V) (r : sp) : nat :=
    match fuel with
    | O => 0
    | S f =>
        match cmp k (fst e) with
        | Lt =>
            match l with
            | Leaf => 1
            | Node _ cl ce cr =>
                2 + match (if is_lt (cmp k (fst ce)) then cl else l) with
                    | Leaf => 0
                    | Node _ ll le lr => splay_loop_cmps f k ll le lr
                    end
            end
        | Gt =>
            match r with
            | Leaf => 1
            | Node _ cl ce cr =>
                2 + match (if is_gt (cmp k (fst ce)) then cr else r) with
                    | Leaf => 0
                    | Node _ rl re rr => splay_loop_cmps f k rl re rr
                    end
            end
        | Eq => 1
        end
    end.
  Definition splay_cmps (t : sp) (k : K) : nat :=
    match t with
    | Leaf => 0
    | Node _ l e r => splay_loop_cmps (size t) k l e r
    end.

  Definition splay_insert_cmps (t : sp) (k : K) : nat :=
    match t with Leaf => 0 | _ => splay_cmps t k + 1 end.
  Definition splay_remove_cmps (t : sp) (k : K) : nat :=
    match t with
    | Leaf => 0
    | _ => splay_cmps t k + 1 +
        match splay t k with
        | Ok (Node _ l e _) => if is_eq (cmp k (fst e)) then splay_cmps l k else 0
        | _ => 0
        end
    end.
  Definition splay_get_mut_cmps (t : sp) (k : K) : nat :=
    match t with Leaf => 0 | _ => splay_cmps t k + 1 end.

  Definition call_cmps (m : splay_map) (o : map_op K V) : nat :=
    match o with
    | MInsert k _ => splay_insert_cmps (bm_tree m) k
    | MRemove k => splay_remove_cmps (bm_tree m) k
    | MGetMut k _ => splay_get_mut_cmps (bm_tree m) k
    | MGet k | MIndex k | MContains k | MFloor k | MCeil k => search_c (bm_tree m) k
    | _ => 0
    end.
  Lemma loop_count fuel : forall k l e r zl zr, splay_loop_c fuel k l e r zl zr = rmap (fun t => (t, splay_loop_cmps fuel k l e r)) (splay_loop fuel k l e r zl zr).
  Proof.
    induction fuel as [|f IH]; intros k l e r zl zr; [reflexivity|]. cbn [splay_loop_c splay_loop splay_loop_cmps]. destruct (cmp k (fst e)); [reflexivity| |].
    - destruct l as [|a cl ce cr]; [reflexivity|]. destruct (is_lt (cmp k (fst ce))); [destruct cl as [|a' ll le lr]; [reflexivity|]|]; rewrite IH;
        match goal with |- context [splay_loop f k ?x ?y ?z ?p ?q] => destruct (splay_loop f k x y z p q) end; reflexivity.
    - destruct r as [|a cl ce cr]; [reflexivity|]. destruct (is_gt (cmp k (fst ce))); [destruct cr as [|a' ll le lr]; [reflexivity|]|]; rewrite IH;
        match goal with |- context [splay_loop f k ?x ?y ?z ?p ?q] => destruct (splay_loop f k x y z p q) end; reflexivity.
  Qed.
  Lemma splay_count t k : splay_c t k = rmap (fun t' => (t', splay_cmps t k)) (splay t k).
  Proof. destruct t; [reflexivity|]. apply loop_count. Qed.
  Lemma insert_count t k v : splay_insert_c t k v = rmap (fun x => (x, splay_insert_cmps t k)) (splay_insert t k v).
  Proof.
    unfold splay_insert_c, splay_insert, splay_insert_cmps. destruct t as [|a l0 e0 r0] eqn:Et; [reflexivity|]. rewrite <- Et, splay_count.
    destruct (splay t k) as [[|b l e r]| |]; try reflexivity. cbn [bind rmap]. destruct (cmp k (fst e)); reflexivity.
  Qed.
  Lemma remove_count t k : splay_remove_c t k = rmap (fun x => (x, splay_remove_cmps t k)) (splay_remove t k).
  Proof.
    unfold splay_remove_c, splay_remove, splay_remove_cmps. destruct t as [|a l0 e0 r0] eqn:Et; [reflexivity|]. rewrite <- Et, splay_count.
    destruct (splay t k) as [[|b l e r]| |]; try reflexivity. unfold rmap. cbn [bind]. destruct (is_eq (cmp k (fst e))); [|cbn [bind]; now rewrite Nat.add_0_r].
    destruct l as [|a' l1 e1 r1] eqn:El; [cbn; now rewrite Nat.add_0_r|]. rewrite <- El, splay_count. destruct (splay l k) as [[|b' l' e' r']| |]; reflexivity.
  Qed.
  Lemma get_mut_count t k v : splay_get_mut_set_c t k v = rmap (fun x => (x, splay_get_mut_cmps t k)) (splay_get_mut_set t k v).
  Proof.
    unfold splay_get_mut_set_c, splay_get_mut_set, splay_get_mut_cmps. destruct t as [|a l0 e0 r0] eqn:Et; [reflexivity|]. rewrite <- Et, splay_count.
    destruct (splay t k) as [[|b l e r]| |]; try reflexivity. unfold rmap. cbn [bind]. destruct (is_eq (cmp k (fst e))); reflexivity.
  Qed.
  Lemma rmap_pair {A} (n : nat) (x : res A) : rmap fst (rmap (fun a => (a, n)) x) = x.
  Proof. now destruct x. Qed.
  Lemma step_count (m : splay_map) (o : map_op K V) : splay_step_c m o = (let* (m', out) := splay_step m o in Ok (m', (out, call_cmps m o))).
  Proof.
    assert (E : bmap_step (fun t k v => rmap fst (splay_insert_c t k v)) (fun t k => rmap fst (splay_remove_c t k)) (fun t k v => rmap fst (splay_get_mut_set_c t k v)) m o = splay_step m o).
    { unfold splay_step. destruct o; cbn [bmap_step]; try reflexivity.
      - unfold bmap_insert. now rewrite insert_count, rmap_pair.
      - unfold bmap_remove. now rewrite remove_count, rmap_pair.
      - unfold bmap_get_mut_set. now rewrite get_mut_count, rmap_pair. }
    unfold splay_step_c. rewrite E. unfold splay_step. destruct o; cbn [bmap_step call_c call_cmps]; try reflexivity.
    - unfold bmap_insert. rewrite insert_count. destruct (splay_insert (bm_tree m) k v) as [[t old]| |]; [|reflexivity..]. reflexivity.
    - unfold bmap_remove. rewrite remove_count. destruct (splay_remove (bm_tree m) k) as [[t old]| |]; [|reflexivity..]. reflexivity.
    - unfold bmap_get_mut_set. rewrite get_mut_count. destruct (splay_get_mut_set (bm_tree m) k v) as [[t old]| |]; [|reflexivity..]. reflexivity.
  Qed.

  Fixpoint pot (t : sp) : nat :=
    match t with
    | Leaf => 0
    | Node _ l e r => lg (size t) + pot l + pot r
    end.

  (** The loop with two trees already under construction *)
  Definition within (zl : list (sp * (K * V))) (zr : list ((K * V) * sp)) (t : res sp) : res sp :=
    match t with
    | Ok (Node _ l e r) => Ok (N (plug_left zl l) e (plug_right zr r))
    | x => x
    end.
  Lemma plug_left_app (z z' : list (sp * (K * V))) t : plug_left (z ++ z') t = plug_left z' (plug_left z t).
  Proof. revert t. induction z as [|[l e] z IH]; intros t; cbn; auto. Qed.
  Lemma plug_right_app (z z' : list ((K * V) * sp)) t : plug_right (z ++ z') t = plug_right z' (plug_right z t).
  Proof. revert t. induction z as [|[e r] z IH]; intros t; cbn; auto. Qed.
  Lemma loop_app fuel : forall k l e r zl zr zl' zr', splay_loop fuel k l e r (zl ++ zl') (zr ++ zr') = within zl' zr' (splay_loop fuel k l e r zl zr).
  Proof.
    induction fuel as [|f IH]; intros k l e r zl zr zl' zr'; [reflexivity|]. cbn [splay_loop].
    assert (Fin : forall l e r, Ok (splay_finish (zl ++ zl') (zr ++ zr') l e r) = within zl' zr' (Ok (splay_finish zl zr l e r))).
    { intros l0 e0 r0. cbn. unfold splay_finish. now rewrite plug_left_app, plug_right_app. }
    destruct (cmp k (fst e)); [apply Fin| |].
    - destruct l as [|a cl ce cr]; [apply Fin|]. destruct (is_lt (cmp k (fst ce))); [destruct cl as [|a' ll le lr]; [apply Fin|]|]; rewrite app_comm_cons; apply IH.
    - destruct r as [|a cl ce cr]; [apply Fin|]. destruct (is_gt (cmp k (fst ce))); [destruct cr as [|a' ll le lr]; [apply Fin|]|]; rewrite app_comm_cons; apply IH.
  Qed.
  Lemma loop_within fuel k l e r zl zr : splay_loop fuel k l e r zl zr = within zl zr (splay_loop fuel k l e r [] []).
  Proof. exact (loop_app fuel k l e r [] [] zl zr). Qed.

  (** Splaying costs as much as the potential drops, plus a logarithm. *)
  Definition paid (c : nat) (t : sp) (t' : res sp) : Prop :=
    exists l' e' r', t' = Ok (N l' e' r') /\ size l' + size r' + 1 = size t /\ c + 4 * pot (N l' e' r') <= 4 * pot t + 12 * lg (size t) + 4.
  Ltac norm := cbn [size pot plug_left plug_right] in *.
  Lemma loop_paid fuel : forall k l e r, size l + size r < fuel -> paid (splay_loop_cmps fuel k l e r) (N l e r) (splay_loop fuel k l e r [] []).
  Proof.
    induction fuel as [fuel IH] using lt_wf_ind. intros k l e r Hf. destruct fuel as [|f]; [lia|]. cbn [splay_loop splay_loop_cmps].
    destruct (cmp k (fst e)) eqn:C1.
    - exists l, e, r. split; [reflexivity|]. norm. lia.
    - destruct l as [|[] cl ce cr]; [exists Leaf, e, r; split; [reflexivity|]; norm; lia|].
      destruct (is_lt (cmp k (fst ce))) eqn:C2.
      + destruct cl as [|[] ll le lr].
        * exists Leaf, ce, (N cr e r). split; [reflexivity|]. norm. split; [lia|].
          pose proof (lg_mono (S (size cr + size r)) (S (S (0 + size cr) + size r)) ltac:(lia)).
          replace (0 + S (size cr + size r)) with (S (0 + size cr) + size r) by lia. lia.
        * destruct (IH f ltac:(lia) k ll le lr) as (A & x & B & E & S1 & P); [norm; lia|]. rewrite loop_within, E.
          exists A, x, (N B ce (N cr e r)). split; [reflexivity|]. norm.
          set (g := S (size ll + size lr)) in *. set (s := S (S (g + size cr) + size r)) in *.
          replace (S (size A + S (size B + S (size cr + size r)))) with s by lia. replace (S (size A + size B)) with g in P by lia. split; [lia|].
          pose proof (lg_split (S (size cr + size r)) g s ltac:(lia) ltac:(lia) ltac:(lia)). pose proof (lg_mono (S (size B + S (size cr + size r))) s ltac:(lia)).
          pose proof (lg_mono g (S (g + size cr)) ltac:(lia)). lia.
      + destruct f as [|f]; [norm; lia|]. rewrite loop_within. cbn [splay_loop splay_loop_cmps]. destruct (cmp k (fst ce)) eqn:C3; [|discriminate C2|]; clear C2.
        * exists cl, ce, (N cr e r). split; [reflexivity|]. norm. set (s := S (S (size cl + size cr) + size r)).
          replace (S (size cl + S (size cr + size r))) with s by lia. split; [lia|]. pose proof (lg_mono (S (size cr + size r)) s ltac:(lia)). lia.
        * destruct cr as [|[] gl ge gr].
          -- exists cl, ce, (N Leaf e r). split; [reflexivity|]. norm. set (s := S (S (size cl + 0) + size r)).
             replace (S (size cl + S (0 + size r))) with s by lia. split; [lia|]. pose proof (lg_mono (S (0 + size r)) s ltac:(lia)). lia.
          -- destruct (is_gt (cmp k (fst ge))) eqn:C4.
             ++ destruct gr as [|[] hl he hr].
                ** exists (N cl ce gl), ge, (N Leaf e r). split; [reflexivity|]. norm. set (s := S (S (size cl + S (size gl + 0)) + size r)).
                   replace (S (S (size cl + size gl) + S (0 + size r))) with s by lia. split; [lia|].
                   pose proof (lg_mono (S (0 + size r)) s ltac:(lia)). pose proof (lg_mono (S (size cl + size gl)) (S (size cl + S (size gl + 0))) ltac:(lia)). lia.
                ** destruct (IH f ltac:(lia) k hl he hr) as (A & x & B & E & S1 & P); [norm; lia|]. rewrite loop_within, E.
                   exists (N (N cl ce gl) ge A), x, (N B e r). split; [reflexivity|]. norm.
                   set (h := S (size hl + size hr)) in *. set (s := S (S (size cl + S (size gl + h)) + size r)) in *. replace (S (size A + size B)) with h in P by lia.
                   replace (S (S (S (size cl + size gl) + size A) + S (size B + size r))) with s by lia. split; [lia|].
                   pose proof (lg_split (S (S (size cl + size gl) + size A)) (S (size B + size r)) s ltac:(lia) ltac:(lia) ltac:(lia)).
                   pose proof (lg_mono (S (size cl + size gl)) (S (size cl + S (size gl + h))) ltac:(lia)). pose proof (lg_mono h (S (size gl + h)) ltac:(lia)). pose proof (lg_mono h s ltac:(lia)). lia.
             ++ destruct (IH f ltac:(lia) k gl ge gr) as (A & x & B & E & S1 & P); [norm; lia|]. rewrite loop_within, E.
                exists (N cl ce A), x, (N B e r). split; [reflexivity|]. norm.
                set (g := S (size gl + size gr)) in *. set (s := S (S (size cl + g) + size r)) in *. replace (S (size A + size B)) with g in P by lia.
                replace (S (S (size cl + size A) + S (size B + size r))) with s by lia. split; [lia|].
                pose proof (lg_split (S (size cl + size A)) (S (size B + size r)) s ltac:(lia) ltac:(lia) ltac:(lia)).
                pose proof (lg_mono g (S (size cl + g)) ltac:(lia)). pose proof (lg_mono g s ltac:(lia)). lia.
    - destruct r as [|[] cl ce cr]; [exists l, e, Leaf; split; [reflexivity|]; norm; lia|].
      destruct (is_gt (cmp k (fst ce))) eqn:C2.
      + destruct cr as [|[] rl re rr].
        * exists (N l e cl), ce, Leaf. split; [reflexivity|]. norm. split; [lia|]. set (s := S (size l + S (size cl + 0))).
          pose proof (lg_mono (S (size l + size cl)) s ltac:(lia)). replace (S (S (size l + size cl) + 0)) with s by lia. lia.
        * destruct (IH f ltac:(lia) k rl re rr) as (A & x & B & E & S1 & P); [norm; lia|]. rewrite loop_within, E.
          exists (N (N l e cl) ce A), x, B. split; [reflexivity|]. norm.
          set (g := S (size rl + size rr)) in *. set (s := S (size l + S (size cl + g))) in *.
          replace (S (S (S (size l + size cl) + size A) + size B)) with s by lia. replace (S (size A + size B)) with g in P by lia. split; [lia|].
          pose proof (lg_split (S (size l + size cl)) g s ltac:(lia) ltac:(lia) ltac:(lia)). pose proof (lg_mono (S (S (size l + size cl) + size A)) s ltac:(lia)).
          pose proof (lg_mono g (S (size cl + g)) ltac:(lia)). lia.
      + destruct f as [|f]; [norm; lia|]. rewrite loop_within. cbn [splay_loop splay_loop_cmps]. destruct (cmp k (fst ce)) eqn:C3; [| |discriminate C2]; clear C2.
        * exists (N l e cl), ce, cr. split; [reflexivity|]. norm. set (s := S (size l + S (size cl + size cr))).
          replace (S (S (size l + size cl) + size cr)) with s by lia. split; [lia|]. pose proof (lg_mono (S (size l + size cl)) s ltac:(lia)). lia.
        * destruct cl as [|[] gl ge gr].
          -- exists (N l e Leaf), ce, cr. split; [reflexivity|]. norm. set (s := S (size l + S (0 + size cr))).
             replace (S (S (size l + 0) + size cr)) with s by lia. split; [lia|]. pose proof (lg_mono (S (size l + 0)) s ltac:(lia)). lia.
          -- destruct (is_lt (cmp k (fst ge))) eqn:C4.
             ++ destruct gl as [|[] hl he hr].
                ** exists (N l e Leaf), ge, (N gr ce cr). split; [reflexivity|]. norm. set (s := S (size l + S (S (0 + size gr) + size cr))).
                   replace (S (S (size l + 0) + S (size gr + size cr))) with s by lia. split; [lia|].
                   pose proof (lg_mono (S (size l + 0)) s ltac:(lia)). pose proof (lg_mono (S (size gr + size cr)) (S (S (0 + size gr) + size cr)) ltac:(lia)). lia.
                ** destruct (IH f ltac:(lia) k hl he hr) as (A & x & B & E & S1 & P); [norm; lia|]. rewrite loop_within, E.
                   exists (N l e A), x, (N B ge (N gr ce cr)). split; [reflexivity|]. norm.
                   set (h := S (size hl + size hr)) in *. set (s := S (size l + S (S (h + size gr) + size cr))) in *. replace (S (size A + size B)) with h in P by lia.
                   replace (S (S (size l + size A) + S (size B + S (size gr + size cr)))) with s by lia. split; [lia|].
                   pose proof (lg_split (S (size l + size A)) (S (size B + S (size gr + size cr))) s ltac:(lia) ltac:(lia) ltac:(lia)).
                   pose proof (lg_mono (S (size gr + size cr)) (S (S (h + size gr) + size cr)) ltac:(lia)). pose proof (lg_mono h (S (h + size gr)) ltac:(lia)). pose proof (lg_mono h s ltac:(lia)). lia.
             ++ destruct (IH f ltac:(lia) k gl ge gr) as (A & x & B & E & S1 & P); [norm; lia|]. rewrite loop_within, E.
                exists (N l e A), x, (N B ce cr). split; [reflexivity|]. norm.
                set (g := S (size gl + size gr)) in *. set (s := S (size l + S (g + size cr))) in *. replace (S (size A + size B)) with g in P by lia.
                replace (S (S (size l + size A) + S (size B + size cr))) with s by lia. split; [lia|].
                pose proof (lg_split (S (size l + size A)) (S (size B + size cr)) s ltac:(lia) ltac:(lia) ltac:(lia)).
                pose proof (lg_mono g (S (g + size cr)) ltac:(lia)). pose proof (lg_mono g s ltac:(lia)). lia.
  Qed.
  Lemma splay_paid t k : t <> Leaf -> paid (splay_cmps t k) t (splay t k).
  Proof. destruct t as [|[] l e r]; [congruence|]. intros _. apply loop_paid. cbn. lia. Qed.

  (** *** Calls *)
  Definition budget (n : nat) : nat := 24 * lg (n + 1) + 9.
  Lemma insert_paid t k v t' o : splay_insert t k v = Ok (t', o) -> splay_insert_cmps t k + 4 * pot t' <= 4 * pot t + budget (size t).
  Proof.
    unfold splay_insert, splay_insert_cmps, budget. destruct t as [|a l0 e0 r0] eqn:Et; [intros E; injection E as <- <-; cbn; lia|]. rewrite <- Et.
    destruct (splay_paid t k) as (l & e & r & -> & S1 & P); [congruence|]. clear a l0 e0 r0 Et. cbn [bind]. norm. replace (S (size l + size r)) with (size t) in P by lia.
    pose proof (lg_mono (size t) (size t + 1) ltac:(lia)).
    destruct (cmp k (fst e)); intros E; injection E as <- <-; norm.
    - replace (S (size l + size r)) with (size t) by lia. lia.
    - replace (S (size l + S (0 + size r))) with (size t + 1) by lia. pose proof (lg_mono (S (0 + size r)) (size t + 1) ltac:(lia)). lia.
    - replace (S (S (size l + 0) + size r)) with (size t + 1) by lia. pose proof (lg_mono (S (size l + 0)) (size t + 1) ltac:(lia)). lia.
  Qed.
  Lemma remove_paid t k t' o : splay_remove t k = Ok (t', o) -> splay_remove_cmps t k + 4 * pot t' <= 4 * pot t + budget (size t).
  Proof.
    unfold splay_remove, splay_remove_cmps, budget. destruct t as [|a l0 e0 r0] eqn:Et; [intros E; injection E as <- <-; cbn; lia|]. rewrite <- Et.
    destruct (splay_paid t k) as (l & e & r & -> & S1 & P); [congruence|]. clear a l0 e0 r0 Et. cbn [bind]. norm. replace (S (size l + size r)) with (size t) in P by lia.
    pose proof (lg_mono (size t) (size t + 1) ltac:(lia)).
    destruct (is_eq (cmp k (fst e))); [|intros E; injection E as <- <-; norm; replace (S (size l + size r)) with (size t) by lia; lia].
    destruct l as [|a l0 e0 r0] eqn:El; [intros E; injection E as <- <-; norm; cbn [splay_cmps]; lia|]. rewrite <- El in *.
    destruct (splay_paid l k) as (ll & le & lr & -> & S2 & P2); [congruence|]. clear a l0 e0 r0 El. cbn [bind]. intros E. injection E as <- <-. norm.
    replace (S (size ll + size lr)) with (size l) in P2 by lia. pose proof (lg_mono (size l) (size t + 1) ltac:(lia)).
    pose proof (lg_mono (S (size ll + size r)) (size t) ltac:(lia)). lia.
  Qed.
  Lemma get_mut_paid t k v t' o : splay_get_mut_set t k v = Ok (t', o) -> splay_get_mut_cmps t k + 4 * pot t' <= 4 * pot t + budget (size t).
  Proof.
    unfold splay_get_mut_set, splay_get_mut_cmps, budget. destruct t as [|a l0 e0 r0] eqn:Et; [intros E; injection E as <- <-; cbn; lia|]. rewrite <- Et.
    destruct (splay_paid t k) as (l & e & r & -> & S1 & P); [congruence|]. clear a l0 e0 r0 Et. cbn [bind]. norm. replace (S (size l + size r)) with (size t) in P by lia.
    pose proof (lg_mono (size t) (size t + 1) ltac:(lia)).
    destruct (is_eq (cmp k (fst e))); intros E; injection E as <- <-; norm; replace (S (size l + size r)) with (size t) by lia; lia.
  Qed.
  (** The other calls do not change the shape, or empty the map. *)
  Lemma write_at_pot p v : forall t t', write_at p v t = Ok t' -> pot t' = pot t /\ size t' = size t.
  Proof.
    induction p as [|[] p IH]; intros [|a l e r] t' E; cbn [write_at] in E; try discriminate.
    - injection E as <-. auto.
    - destruct (write_at p v r) as [r'| |] eqn:E'; cbn in E; try discriminate. injection E as <-. destruct (IH _ _ E') as [X Y]. cbn. now rewrite X, Y.
    - destruct (write_at p v l) as [l'| |] eqn:E'; cbn in E; try discriminate. injection E as <-. destruct (IH _ _ E') as [X Y]. cbn. now rewrite X, Y.
  Qed.
  Lemma writes_pot vs : forall s t t' es, itermut_writes s vs t = Ok (t', es) -> pot t' = pot t.
  Proof.
    induction vs as [|v vs IH]; intros s t t' es E; cbn [itermut_writes] in E; [now injection E as <- _|].
    destruct (itermut_next s) as [[[p e]|] s']; [|now injection E as <- _]. destruct (write_at (rev p) v t) as [t1| |] eqn:E1; cbn in E; try discriminate.
    destruct (itermut_writes s' vs t1) as [[t2 es']| |] eqn:E2; cbn in E; try discriminate. injection E as <- _. rewrite (IH _ _ _ _ E2). now apply (write_at_pot _ _ _ _ E1).
  Qed.
  Lemma step_paid (m m' : splay_map) (o : map_op K V) (x : map_out K V) : splay_step m o = Ok (m', x) ->
    (if adjusting o then call_cmps m o else 0) + 4 * pot (bm_tree m') <= 4 * pot (bm_tree m) + (if adjusting o then budget (size (bm_tree m)) else 0).
  Proof.
    unfold splay_step. destruct o; cbn [bmap_step adjusting call_cmps]; intros E.
    - unfold bmap_insert in E. destruct (splay_insert (bm_tree m) k v) as [[t old]| |] eqn:E1; cbn [bind] in E; try discriminate.
      apply insert_paid in E1. destruct old; [destruct (checked_pred _); cbn [bind] in E; try discriminate|]; injection E as <- _; exact E1.
    - unfold bmap_remove in E. destruct (splay_remove (bm_tree m) k) as [[t old]| |] eqn:E1; cbn [bind] in E; try discriminate.
      apply remove_paid in E1. destruct old; [destruct (checked_pred _); cbn [bind] in E; try discriminate|]; injection E as <- _; exact E1.
    - injection E as <- _. lia.
    - unfold bmap_get_mut_set in E. destruct (splay_get_mut_set (bm_tree m) k v) as [[t old]| |] eqn:E1; cbn [bind] in E; try discriminate.
      apply get_mut_paid in E1. injection E as <- _. exact E1.
    - injection E as <- _. lia.
    - injection E as <- _. lia.
    - injection E as <- _. lia.
    - injection E as <- _. lia.
    - injection E as <- _. lia.
    - injection E as <- _. lia.
    - injection E as <- _. lia.
    - injection E as <- _. lia.
    - injection E as <- _. cbn. lia.
    - destruct (iter_all (bm_tree m)); cbn [bind] in E; try discriminate. injection E as <- _. lia.
    - unfold itermut_run in E. destruct (itermut_writes _ vs (bm_tree m)) as [[t es]| |] eqn:E1; cbn [bind] in E; try discriminate. injection E as <- _. cbn [bm_tree]. rewrite (writes_pot _ _ _ _ _ E1). lia.
    - destruct (iter_all (bm_tree m)); cbn [bind] in E; try discriminate. injection E as <- _. cbn. lia.
  Qed.

  Definition splay_rel (m : splay_map) (l : list (K * V)) : Prop := bmap_rel (fun _ => True) m l.
  Lemma splay_step_ok (m : splay_map) (l : list (K * V)) o : splay_rel m l -> exists m', splay_step m o = Ok (m', snd (map_spec_step l o)) /\ splay_rel m' (fst (map_spec_step l o)).
  Proof.
    apply bmap_step_ok; auto.
    - intros t k v _ S. destruct (splay_insert_ok t k v S) as (t' & E1 & E2 & _). eauto.
    - intros t k _ S. destruct (splay_remove_ok t k S) as (t' & E1 & E2). eauto.
    - intros t k v _ S. destruct (splay_get_mut_ok t k v S) as (t' & E1 & E2 & _). eauto.
  Qed.
  Lemma run_paid ops : forall (m : splay_map) (l : list (K * V)), splay_rel m l -> exists cs, outputs splay_step_c m ops = Ok (combine (spec_outputs map_spec_step l ops) cs) /\ length cs = length ops /\
    adjusting_sum ops cs <= 4 * pot (bm_tree m) + adjusting_sum ops (map (fun n => 24 * Nat.log2 (n + 1) + 9) (lengths_before l ops)).
  Proof.
    unfold outputs, spec_outputs. induction ops as [|o ops IH]; intros m l R; [exists []; cbn; split; [reflexivity|lia]|].
    destruct (splay_step_ok m l o R) as (m' & E & R'). destruct (IH _ _ R') as (cs & Ec & Lc & B). pose proof (step_paid _ _ _ _ E) as P.
    exists (call_cmps m o :: cs). cbn [run spec_run lengths_before adjusting_sum map]. rewrite step_count, E. cbn [bind]. destruct (map_spec_step l o) as [l' r]. cbn [fst snd] in *.
    destruct (spec_run map_spec_step l' ops) as [l2 rs2]. cbn [fst snd combine] in *.
    destruct (run splay_step_c m' ops) as [[s rs]| |]; cbn in Ec; try discriminate. injection Ec as ->. split; [reflexivity|]. split; [cbn; now rewrite Lc|].
    assert (Sz : size (bm_tree m) = length l) by (destruct R as (X & _); rewrite <- X; symmetry; apply size_inorder).
    rewrite Sz in P. unfold budget, lg in P. destruct (adjusting o); lia.
  Qed.
  Lemma splay_amortised (ops : list (map_op K V)) : exists cs, outputs splay_step_c splay_new ops = Ok (combine (map_spec_outputs ops) cs) /\ length cs = length ops /\
    adjusting_sum ops cs <= adjusting_sum ops (map (fun n => 24 * Nat.log2 (n + 1) + 9) (lengths_before [] ops)).
  Proof. destruct (run_paid ops splay_new []) as (cs & E & L & B); [apply bmap_rel_new; auto|]. exists cs. auto. Qed.
End Amortised.

(** *** Ascending insertions leave a list, and [get] leaves it as it is. *)
Section Chain.
  Context {V : Type} (v : V).
  Notation sp := (tree unit nat V).
  Fixpoint chain (n : nat) : sp := match n with 0 => Leaf | S n => Node tt (chain n) (n, v) Leaf end.
  Lemma chain_size n : size (chain n) = n.
  Proof. induction n as [|n IH]; cbn; [reflexivity|]. rewrite IH. lia. Qed.
  Lemma chain_insert n : splay_insert (chain n) n v = Ok (chain (S n), None).
  Proof.
    destruct n as [|n]; [reflexivity|]. unfold splay_insert, splay. cbn [chain]. set (x := chain n). cbn [size splay_loop fst].
    assert (E : cmp (Datatypes.S n) n = Gt) by (apply Nat.compare_gt_iff; lia). rewrite E. cbn [bind splay_finish plug_left plug_right fst]. unfold splay_finish. cbn [bind plug_left plug_right fst]. rewrite E. reflexivity.
  Qed.
  Lemma chain_get n : search_c (chain (S n)) 0 = S n.
  Proof. induction n as [|n IH]; [reflexivity|]. change (chain (S (S n))) with (Node tt (chain (S n)) (S n, v) Leaf). cbn [search_c fst]. rewrite IH. reflexivity. Qed.
  Definition ascending (n : nat) : list (map_op nat V) := map (fun k => MInsert k v) (seq 0 n).
  Lemma chain_run j n : forall outs, run splay_step_c {| bm_tree := chain j; bm_len := j |} (map (fun k => MInsert k v) (seq j n)) = Ok outs ->
    fst outs = {| bm_tree := chain (j + n); bm_len := j + n |}.
  Proof.
    revert j. induction n as [|n IH]; intros j outs E; cbn [seq map run] in E; [injection E as <-; now rewrite Nat.add_0_r|].
    rewrite step_count in E. unfold splay_step in E. cbn [bmap_step] in E. unfold bmap_insert in E. cbn [bm_tree bm_len] in E. rewrite chain_insert in E. cbn [bind] in E.
    destruct (run splay_step_c _ (map (fun k => MInsert k v) (seq (S j) n))) as [[s rs]| |] eqn:E2; cbn [bind] in E; try discriminate. injection E as <-.
    cbn [fst]. rewrite <- (Nat.add_succ_comm j n). exact (IH _ _ E2).
  Qed.
  Lemma chain_find n : bst_get (chain (S n)) 0 = Some (0, v).
  Proof. induction n as [|n IH]; [reflexivity|]. change (chain (S (S n))) with (Node tt (chain (S n)) (S n, v) Leaf). cbn [bst_get fst]. exact IH. Qed.
  Lemma chain_gets n m : outputs splay_step_c {| bm_tree := chain (S n); bm_len := S n |} (repeat (MGet 0) m) = Ok (repeat (RVal (Some v), S n) m).
  Proof.
    unfold outputs. set (s := {| bm_tree := chain (S n); bm_len := S n |}). assert (X : run splay_step_c s (repeat (MGet 0) m) = Ok (s, repeat (RVal (Some v), S n) m)); [|now rewrite X].
    assert (Y : splay_step_c s (MGet 0) = Ok (s, (RVal (Some v), S n))).
    { rewrite step_count. unfold splay_step. cbn [bmap_step bind call_cmps]. unfold bmap_get. cbn [s bm_tree]. now rewrite chain_get, chain_find. }
    induction m as [|m IH]; [reflexivity|]. cbn [repeat run]. rewrite Y. cbn [bind]. rewrite IH. reflexivity.
  Qed.
End Chain.
Lemma splay_get_linear n m : exists outs, outputs splay_step_c splay_new (map (fun k => MInsert k tt) (seq 0 (S n)) ++ repeat (MGet 0) m) = Ok (outs ++ repeat (RVal (Some tt), S n) m) /\ length outs = S n.
Proof.
  destruct (splay_amortised (map (fun k => MInsert k tt) (seq 0 (S n)))) as (cs & E & L & _). unfold outputs in E.
  destruct (run splay_step_c splay_new (map (fun k => MInsert k tt) (seq 0 (S n)))) as [[s rs]| |] eqn:E1; cbn in E; try discriminate. injection E as ->.
  pose proof (chain_run tt 0 (S n) _ E1) as X. cbn [fst] in X. subst s. eexists. split; [eapply outputs_app; [exact E1|apply chain_gets]|].
  assert (Ln : forall A B (step : A -> map_op nat unit -> A * B) ops a, length (spec_outputs step a ops) = length ops).
  { clear. intros A B step ops. unfold spec_outputs. induction ops as [|o ops IH]; intros a; [reflexivity|]. cbn [spec_run]. specialize (IH (fst (step a o))).
    destruct (step a o) as [a1 r]. cbn [fst] in IH. destruct (spec_run step a1 ops). cbn in *. congruence. }
  rewrite combine_length, L. unfold map_spec_outputs. rewrite Ln. cbn [length]. rewrite !map_length, !seq_length. apply Nat.min_id.
Qed.
