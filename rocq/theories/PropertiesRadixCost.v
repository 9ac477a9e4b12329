(** Running time of [RadixMap]: C64.  [radix_step_c] is the map that returns, with the result of each call, how many steps it took
    (nodes entered, children looked at, bytes compared); see RadixCostModel.v. *)
From Verif Require Import RadixCostModel RadixCostSpec RadixCostProofs.

(** ** C64: the time of a call depends on the length of the key (of the key returned, for [min] and [max]) and not on what the map
    contains.  As in C18, an insert into a map that a remove left empty panics. *)
Theorem C64_radix_steps : forall (T : Type) (ops : list (radix_op T)),
  inserts_bytes ops -> inserts_safe [] false ops = true -> exists steps,
  outputs radix_step_c radix_new ops = Ok (combine (map_spec_outputs (map radix_map_op ops)) steps) /\
  radix_steps_within (fun n => 514 * (n + 1)) ops (map_spec_outputs (map radix_map_op ops)) steps.
Proof. exact @radix_cost. Qed.
Print Assumptions C64_radix_steps.

(** [get_longest_prefix] takes in addition time for the keys that it returns. *)
Theorem C64_longest_prefix_steps : forall (T : Type) (ops : list (radix_op T)) m outs k,
  inserts_bytes ops -> run radix_step radix_new ops = Ok (m, outs) ->
  exists ks n, radix_longest_prefix m k = Ok ks /\ radix_longest_prefix_c m k = Ok (ks, n) /\ n <= 258 * (length k + 1) + 2 * length ks.
Proof. exact @longest_prefix_steps. Qed.
Print Assumptions C64_longest_prefix_steps.

(** The functions with counts return what the functions of the model return. *)
Theorem C64_counted_results : forall (T : Type) (t : rtree T) k v curr,
  rmap fst (r_insert_c t k v) = r_insert t k v /\ rmap fst (r_remove_c t k) = r_remove t k /\
  rmap fst (r_get_c t k) = r_get t k /\ rmap fst (r_get_mut_set_c t k v) = r_get_mut_set t k v /\
  rmap fst (r_longest_prefix_c t k curr) = r_longest_prefix t k curr /\
  fst (r_min_c t curr) = r_min t curr /\ fst (r_max_c t curr) = r_max t curr.
Proof. exact @radix_erase. Qed.
Print Assumptions C64_counted_results.

Definition C64_ops : list (radix_op nat) :=
  map (fun b => XInsert [b; 7; 7] b) (seq 0 40) ++
  [XInsert [39; 7; 8] 0; XGet [39; 7; 8]; XGet [0; 7; 7]; XRemove [20; 7; 7]; XMin; XMax; XContains [50]; XGetMut [39; 7] 3; XLen].
Example C64_example : inserts_bytes C64_ops /\ inserts_safe [] false C64_ops = true /\
  rmap (fun outs => skipn 38 (map snd outs)) (outputs radix_step_c radix_new C64_ops) = Ok [77; 79; 86; 48; 6; 26; 2; 44; 40; 43; 0] /\
  (exists m outs, run radix_step radix_new C64_ops = Ok (m, outs) /\
     radix_longest_prefix_c m [39; 7] = Ok ([[39; 7; 7]; [39; 7; 8]], 45)).
Proof.
  split; [|split; [|split]]; [|vm_compute; reflexivity..|do 2 eexists; vm_compute; split; reflexivity].
  apply Forall_app. split; [|repeat constructor].
  apply Forall_forall. intros o I. apply in_map_iff in I as (b & <- & I). apply in_seq in I.
  repeat (apply Forall_cons; [lia|]). apply Forall_nil.
Qed.
