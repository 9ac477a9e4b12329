(** Properties of TreiberStack on memory with the orderings that the code asks for.  Statements only; proofs are in
    StackWeakStepProofs.v and StackWeakCountProofs.v.  [wexec wstack_new ls] runs any schedule [ls] of any number of
    threads; see StackWeakModel.v for the labels. *)
From Verif Require Import StackWeakSpec StackWeakModel StackWeakInstances StackWeakStepProofs StackWeakCountProofs.

(** ** C57: no thread reads a destroyed node or one whose initialisation it has not seen ... *)
Theorem C57_weak_safe : forall (T : Type) (ls : list (label T)), exists s tr, wexec wstack_new ls = Ok (s, tr).
Proof. exact @exec_safe. Qed.
Print Assumptions C57_weak_safe.

(** ... the results of the calls are those of a sequential stack, in one order for all threads that respects the order
    of each thread and what threads know of each other; [len] counts at least the calls that happened before it ... *)
Theorem C57_weak_explained : forall (T : Type) (ls : list (label T)) s tr, wexec wstack_new ls = Ok (s, tr) -> explained tr.
Proof. exact @exec_explained. Qed.
Print Assumptions C57_weak_explained.

Definition C57_tr : list (wevent nat) :=
  [WCall 0 (CPush 10); WCall 1 (CPush 11); WRet 0 OUnit; WRet 1 OUnit; WCall 2 CPop; WRet 2 (OPop (Some 11)); WCall 3 CPop;
   WCall 0 (CPush 12); WRet 0 OUnit; WRet 3 (OPop (Some 12)); WSync 0 4; WSync 1 4; WSync 2 4; WSync 3 4; WCall 4 CLen; WRet 4 (OLen 1)].
Example C57_example : exists s, wexec wstack_new busy_ls = Ok (s, C57_tr).
Proof. eexists. vm_compute. reflexivity. Qed.
Example C57_example_calls : map c_after (o_calls (observed C57_tr)) = [[]; []; []; []; [0]; [3; 2; 1; 4; 0]].
Proof. reflexivity. Qed.

(** ... and [len] is exact for a thread that knows of all calls, all of which have returned. *)
Theorem C57_weak_len : forall (T : Type) (ls : list (label T)) s tr i c o, wexec wstack_new ls = Ok (s, tr) -> let calls := o_calls (observed tr) in
  nth_error calls i = Some c -> is_len c = true -> c_out c = Some o -> knows_all calls c ->
  exists n, o = OLen n /\
    (n < 2 ^ 64 /\ (n + N.of_nat (length (filter was_popped calls))) mod 2 ^ 64 = N.of_nat (length (filter was_push calls)) mod 2 ^ 64)%N.
Proof. exact @len_exact. Qed.
Print Assumptions C57_weak_len.

Example C57_example_len : let calls := o_calls (observed C57_tr) in
  exists c, nth_error calls 5 = Some c /\ is_len c = true /\ c_out c = Some (OLen 1) /\ knows_all calls c /\
    length (filter was_popped calls) = 2 /\ length (filter was_push calls) = 3.
Proof.
  eexists. split; [reflexivity|]. split; [reflexivity|]. split; [reflexivity|]. split; [|split; reflexivity].
  intros [|[|[|[|[|[|[|]]]]]]] d E; try discriminate E; injection E as <-; cbn; intros L; try discriminate L; (split; [tauto|discriminate]).
Qed.

(** Real time is not respected where threads do not know of each other: after a push has returned, a try_pop of another
    thread can still find the stack empty.  (With sequentially consistent memory it is: C22_stack_linearizable.) *)
Theorem C57_real_time_refuted : exists (ls : list (label nat)) s tr, wexec wstack_new ls = Ok (s, tr) /\ ~ linearizable (wcalls tr).
Proof. exact real_time_refuted. Qed.
Print Assumptions C57_real_time_refuted.
