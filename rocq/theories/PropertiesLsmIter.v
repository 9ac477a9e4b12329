(** Properties of the merging iterators of the log-structured merge tree. *)
From Verif Require Import LsmTableSpec LsmIterProofs LsmInstances.

(** ** C35: merging any number of runs of tables, the entries of each run in strictly ascending order, yields
    each key of the runs exactly once, in ascending order, with its newest version. *)
Theorem C35_merge : forall (K V : Type) (C : Cmp K) (_ : CmpLaws K) (has : nat -> bool) (runs : list (list (table K V))),
  Forall (Forall (fun t => has (t_id t) = true)) runs -> Forall (fun r => strictly_ascending (run_entries r)) runs ->
  exists out, merge_tables has runs = Ok out /\ merge_of (flat_map run_entries runs) out.
Proof. exact @merge_tables_ok. Qed.
Print Assumptions C35_merge.

(** The iterators handed to the user leave out the deleted keys. *)
Theorem C35_user_iterator : forall (K V : Type) (C : Cmp K) (_ : CmpLaws K) (has : nat -> bool) (runs : list (list (table K V))),
  Forall (Forall (fun t => has (t_id t) = true)) runs -> Forall (fun r => strictly_ascending (run_entries r)) runs ->
  exists it out, mi_new has (map (map Closed) runs) = Ok it /\ live_collect has it = Ok (live out) /\
    merge_of (flat_map run_entries runs) out.
Proof. exact @user_iter_ok. Qed.
Print Assumptions C35_user_iterator.

(** Two overlapping tables and a level of two tables; key 2 was deleted, key 4 overwritten. *)
Example C35_example : exists a b c d : table nat nat,
  tb_build 0 3 [(1, put 10 5); (2, del 6); (4, put 11 7)] = Ok a /\
  tb_build 1 3 [(2, put 12 3); (4, put 13 4)] = Ok b /\
  tb_build 2 3 [(0, put 14 0); (2, put 15 1)] = Ok c /\ tb_build 3 3 [(4, del 2); (9, put 16 2)] = Ok d /\
  Forall (fun r => strictly_ascending (run_entries r)) [[a]; [b]; [c; d]] /\
  merge_tables (fun _ => true) [[a]; [b]; [c; d]] = Ok [(0, put 14 0); (1, put 10 5); (2, del 6); (4, put 11 7); (9, put 16 2)].
Proof.
  do 4 eexists. do 4 (split; [vm_compute; reflexivity|]). split; [|vm_compute; reflexivity].
  unfold strictly_ascending, run_entries. repeat constructor.
Qed.
