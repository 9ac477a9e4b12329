(** Properties of TreiberStack.  Statements only; proofs are in StackProofs.v.  [exec stack_new ls] runs
    any schedule [ls] of any number of threads; see StackModel.v for the labels. *)
From Coq Require Import Permutation.
From Verif Require Import StackSpec StackModel StackProofs StackCountProofs.

(** ** C22: no schedule makes a thread touch a destroyed node ... *)
Theorem C22_stack_safe : forall (T : Type) (ls : list (label T)), exists s tr, exec stack_new ls = Ok (s, tr).
Proof. exact @stack_safe. Qed.
Print Assumptions C22_stack_safe.

(** ... every history of calls and returns is that of an atomic LIFO stack (real-time order is respected
    because the effect of a call lies between its call and its return) ... *)
Theorem C22_stack_linearizable : forall (T : Type) (ls : list (label T)) s tr,
  exec stack_new ls = Ok (s, tr) -> linearizable (history tr).
Proof. exact @stack_linearizable. Qed.
Print Assumptions C22_stack_linearizable.

(** ... no value is popped that was not pushed, nor more often than it was pushed ... *)
Theorem C22_stack_no_invention : forall (T : Type) (ls : list (label T)) s tr,
  exec stack_new ls = Ok (s, tr) -> exists rest, Permutation (pushed tr) (popped tr ++ rest).
Proof. exact @stack_no_invention. Qed.
Print Assumptions C22_stack_no_invention.

(** ... and none is lost: once no call is in progress, popping until the stack is empty returns exactly
    the values pushed and not popped so far. *)
Theorem C22_stack_drain : forall (T : Type) (ls : list (label T)) s tr t,
  exec stack_new ls = Ok (s, tr) -> quiescent tr ->
  exists rest s', Permutation (pushed tr) (popped tr ++ rest) /\
    exec s (flat_map (fun _ => solo_pop t) rest ++ solo_pop t) =
    Ok (s', flat_map (fun v => [EInv t CPop; ERet t (OPop (Some v))]) rest ++ [EInv t CPop; ERet t (OPop None)]).
Proof. exact @stack_drain. Qed.
Print Assumptions C22_stack_drain.

(** Two pushers race (thread 1's compare-and-set fails once), then thread 2 pops, the node is destroyed
    and its address is allocated again while thread 3 still holds a pointer to another node. *)
Definition C22_ls : list (label nat) :=
  [LCall 0 (CPush 10); LCall 1 (CPush 11); LStep 0 0; LStep 1 1; LStep 0 0; LStep 1 0; LStep 1 0; LStep 0 0; LStep 0 0; LStep 1 0;
   LStep 0 0; LStep 0 0; LStep 1 0; LStep 1 0; LStep 1 0; LStep 1 0; LStep 1 0] ++
  solo_pop 2 ++ [LFree 1; LCall 3 CPop; LStep 3 0; LStep 3 0; LCall 0 (CPush 12); LStep 0 1; LStep 0 0; LStep 0 0; LStep 0 0;
   LStep 3 0; LStep 3 0; LStep 3 0; LStep 3 0; LStep 3 0; LStep 3 0; LStep 3 0; LStep 3 0; LStep 3 0; LStep 0 0; LStep 0 0].
Example C22_example : exists s, exec stack_new C22_ls =
  Ok (s, [EInv 0 (CPush 10); EInv 1 (CPush 11); ERet 0 OUnit; ERet 1 OUnit; EInv 2 CPop; ERet 2 (OPop (Some 11)); EDrop 11;
          EInv 3 CPop; EInv 0 (CPush 12); ERet 3 (OPop (Some 12)); ERet 0 OUnit]).
Proof. eexists. vm_compute. reflexivity. Qed.
Example C22_example_quiescent :
  quiescent [EInv 0 (CPush 10); EInv 1 (CPush 11); ERet 0 OUnit; ERet 1 OUnit; EInv 2 CPop; ERet 2 (OPop (Some 11)); EDrop 11;
          EInv 3 CPop; EInv 0 (CPush 12); ERet 3 (OPop (Some 12)); ERet 0 OUnit].
Proof. intros [|[|[|[|t]]]]; reflexivity. Qed.

(** ** C23: when no call is in progress, len() is the number of pushes minus the number of successful
    pops, modulo 2^64 ... *)
Theorem C23_stack_len_partial : forall (T : Type) (ls : list (label T)) s tr t,
  exec stack_new ls = Ok (s, tr) -> quiescent tr ->
  exists s' n, exec s (solo_len t) = Ok (s', [EInv t CLen; ERet t (OLen n)]) /\
    ((N.of_nat (length (popped tr)) + n) mod two64 = N.of_nat (length (pushed tr)) mod two64)%N /\ (n < two64)%N.
Proof. exact @stack_len_quiescent. Qed.
Print Assumptions C23_stack_len_partial.

Example C23_example : exists s, exec stack_new (C22_ls ++ solo_len 5) =
  Ok (s, [EInv 0 (CPush 10); EInv 1 (CPush 11); ERet 0 OUnit; ERet 1 OUnit; EInv 2 CPop; ERet 2 (OPop (Some 11)); EDrop 11;
          EInv 3 CPop; EInv 0 (CPush 12); ERet 3 (OPop (Some 12)); ERet 0 OUnit; EInv 5 CLen; ERet 5 (OLen 1)]).
Proof. eexists. vm_compute. reflexivity. Qed.

(** ... but while calls are in progress it can be 2^64 - 1 although only one value was ever pushed. *)
Theorem C23_stack_len_refuted : exists (ls : list (label nat)) s tr, exec stack_new ls = Ok (s, tr) /\
  pushed tr = [7] /\ In (ERet 2 (OLen (two64 - 1))) tr.
Proof. exact stack_len_wraps_proof. Qed.
Print Assumptions C23_stack_len_refuted.

(** What it returns then is the number of values on the stack, up to pushes and pops that have taken effect and not
    yet returned. *)
Theorem C23_stack_len_near : forall (T : Type) (ls : list (label T)) s tr,
  exec stack_new ls = Ok (s, tr) -> linearizable_near (history tr).
Proof. exact @stack_linearizable_near. Qed.
Print Assumptions C23_stack_len_near.

Example C23_near_example : near_len [5; 6] (update (update (fun _ => AIdle) 1 (ADone OUnit)) 2 (ADone (OPop (Some 7)))) 1 /\
  near_len [5; 6] (update (update (fun _ => AIdle) 1 (ADone OUnit)) 2 (ADone (OPop (Some 7)))) 3 /\
  ~ near_len (T := nat) [5; 6] (fun _ => AIdle) 1.
Proof.
  split; [|split].
  - exists [1], []. repeat split; try (repeat constructor; simpl; tauto); try contradiction. intros t [<-|[]]. reflexivity.
  - exists [], [2]. repeat split; try (repeat constructor; simpl; tauto); try contradiction. intros t [<-|[]]. exists 7. reflexivity.
  - intros (a & b & _ & _ & A & B & _ & X). destruct a as [|t a]; [|discriminate (A t (or_introl eq_refl))].
    destruct b as [|t b]; [discriminate X|]. destruct (B t (or_introl eq_refl)) as (v & Q). discriminate Q.
Qed.

(** The histories of the stack are exactly those of an atomic stack together with an atomic counter that each push
    and successful pop updates some time after its effect on the stack and before it returns. *)
Theorem C23_stack_counted : forall (T : Type) (ls : list (label T)) s tr,
  exec stack_new ls = Ok (s, tr) -> counted (history tr).
Proof. exact @stack_counted. Qed.
Print Assumptions C23_stack_counted.

Theorem C23_stack_counted_all : forall (T : Type) (h : list (stack_event T)),
  counted h -> exists ls s, exec stack_new ls = Ok (s, h).
Proof. exact @stack_counted_all. Qed.
Print Assumptions C23_stack_counted_all.

(** Thread 1 pops what thread 0 pushes before thread 0 has counted it; thread 2 sees 2^64 - 1. *)
Example C23_counted_example : counted [EInv 0 (CPush 7); EInv 1 CPop; ERet 1 (OPop (Some 7)); EInv 2 CLen;
  ERet 2 (OLen (2 ^ 64 - 1)); ERet 0 OUnit].
Proof.
  do 3 eexists. apply k_call; [reflexivity|]. apply k_push with 0 7; [reflexivity|]. apply k_call; [reflexivity|].
  apply k_pop with 1; [reflexivity|]. apply k_sub with 1 7; [reflexivity|]. apply k_return; [reflexivity|].
  apply k_call; [reflexivity|]. apply k_len with 2; [reflexivity|]. apply k_return; [reflexivity|].
  apply k_add with 0; [reflexivity|]. apply k_return; [reflexivity|]. apply k_end.
Qed.

(** ** C24 (stack): a value returned by try_pop is dropped again by the stack's memory reclamation. *)
Theorem C24_stack_double_drop_refuted : exists (ls : list (label nat)) s tr, exec stack_new ls = Ok (s, tr) /\
  pushed tr = [7] /\ popped tr = [7] /\ dropped tr = [7].
Proof. exact stack_double_drop_proof. Qed.
Print Assumptions C24_stack_double_drop_refuted.

(** ** C48: lock freedom.  Once a thread is past its allocation, within six of its own steps it returns or
    some call changed the stack. *)
Theorem C48_stack_lock_free : forall (T : Type) (ls0 : list (label T)) s tr0 t ls s' tr,
  exec stack_new ls0 = Ok (s, tr0) ->
  (forall v, st_threads s t <> PushNew v) -> st_threads s t <> Idle ->
  6 <= length (filter (fun lb => match lb with LStep u _ => Nat.eqb u t | _ => false end) ls) ->
  exec s ls = Ok (s', tr) ->
  (exists o, In (ERet t o) tr) \/
  exists ls1 ls2 s1 tr1, ls = ls1 ++ ls2 /\ exec s ls1 = Ok (s1, tr1) /\ st_head s1 <> st_head s.
Proof. exact @stack_lock_free. Qed.
Print Assumptions C48_stack_lock_free.

Example C48_example : exists s tr0 s' tr,
  exec stack_new [LCall 0 (CPush 10); LStep 0 0] = Ok (s, tr0) /\ (forall v, st_threads s 0 <> PushNew v) /\ st_threads s 0 <> Idle /\
  exec s (repeat (LStep 0 0) 6) = Ok (s', tr) /\ tr = [ERet 0 OUnit].
Proof. do 4 eexists. split; [vm_compute; reflexivity|]. split; [discriminate|]. split; [discriminate|]. split; vm_compute; reflexivity. Qed.
