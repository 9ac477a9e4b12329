(** C80: what programs over several TreapMaps do after a comparison of keys panicked and the panic was caught. *)
From Verif Require Import TreapUnwindProofs TreapUnwindInstances TreapUnwindRefuted.

(** No call fails by itself.  A set operation that panicked has emptied both maps, a split_off that panicked its map, and neither has assigned its result; calls that return are
    right about the pairs that are left.  The length of a map counts each pair that is left and may count, once, pairs that a panicking insert lost. *)
Theorem C80_programs : forall (K V : Type) (C : Cmp K), CmpLaws K -> forall ops : list (prog_op K V * N * nat),
  exists rs outs, run treap_prog_step_u (fun _ => Leaf) ops = Ok (rs, outs) /\ length outs = length ops /\
    unwind_progs (fun _ => []) (fun _ => 0) (combine (map (fun x => fst (fst x)) ops) outs).
Proof. exact @prog_unwind. Qed.
Print Assumptions C80_programs.
(** With so many comparisons a call returns, as the call of the other theorems. *)
Theorem C80_returns : forall (K V : Type) (C : Cmp K), CmpLaws K -> forall (ops : list (prog_op K V * N * nat)) rs outs o p b,
  run treap_prog_step_u (fun _ => Leaf) ops = Ok (rs, outs) ->
  match o with
  | POp i _ | PSplit _ i _ _ => length (inorder (rs i))
  | PSet _ _ i j => length (inorder (rs i)) * length (inorder (rs j))
  end <= b ->
  exists rs' out, treap_prog_step_u rs (o, p, b) = Ok (rs', Some out) /\ treap_prog_step rs (o, p) = Ok (rs', out).
Proof. exact @prog_unwind_enough. Qed.
Print Assumptions C80_returns.
(** A split_off that panicked is to leave its map as it was: it does not. *)
Theorem C80_split_refuted : ~ (forall (ops : list (prog_op nat nat * N * nat)) rs outs, run treap_prog_step_u (fun _ => Leaf) ops = Ok (rs, outs) ->
  splits_kept (fun _ => []) (combine (map (fun x => fst (fst x)) ops) outs)).
Proof. exact split_empties. Qed.
Print Assumptions C80_split_refuted.

Example C80_split : outputs treap_prog_step_u (fun _ => Leaf) split_calls =
  Ok (repeat (Some (RPair None)) 5 ++ [None; Some (RList []); Some (RNat 0); Some (RList [])]).
Proof. vm_compute. reflexivity. Qed.
Example C80_union : outputs treap_prog_step_u (fun _ => Leaf) union_calls =
  Ok (repeat (Some (RPair None)) 5 ++ [None; Some (RNat 0); Some (RNat 0); Some (RNat 0)]).
Proof. vm_compute. reflexivity. Qed.
Example C80_counted : outputs treap_prog_step_u (fun _ => Leaf) counted_calls =
  Ok (repeat (Some (RPair None)) 5 ++ [None; Some (RList [(3, 30); (5, 50)]); Some (RNat 3); Some RUnit; Some (RNat 3); Some RUnit; Some (RNat 3);
      Some (RList [(3, 30); (4, 40); (5, 50)])]).
Proof. vm_compute. reflexivity. Qed.
