(** Model of /repo/src/{avl_tree,red_black_tree,splay_tree,treap,skiplist}/set.rs: every set type is a
    map with values [()], and every method forwards to one method of the map. *)
From Verif Require Export KeySetSpec MapSpec.

(** A machine that forwards each call to another machine. *)
Definition wrap_step {S O O' R R'} (call : O' -> O) (ret : R -> R')
    (step : S -> O -> res (S * R)) (s : S) (o : O') : res (S * R') :=
  let* (s', r) := step s (call o) in Ok (s', ret r).

Section KeySet.
  Context {K : Type}.

  (** The map call made by a set method: avl_tree/set.rs:57-275 (red_black_tree/set.rs:59-277,
      splay_tree/set.rs:60-278, treap/set.rs:63-423 and skiplist/set.rs:64-397 are the same text). *)
  Definition kset_call (o : kset_op K) : map_op K unit :=
    match o with
    | KInsert k => MInsert k tt
    | KRemove k => MRemove k
    | KContains k => MContains k
    | KFloor k => MFloor k
    | KCeil k => MCeil k
    | KMin => MMin
    | KMax => MMax
    | KLen => MLen
    | KIsEmpty => MIsEmpty
    | KClear => MClear
    | KIter => MIter
    | KIntoIter => MIntoIter
    end.

  (** What the method returns: [.map(|pair| pair.0)] on pairs, the iterators likewise
      (avl_tree/set.rs:279-307). *)
  Definition kset_ret (r : map_out K unit) : kset_out K :=
    match r with
    | RPair p => KKey (option_map fst p)
    | RKey k => KKey k
    | RBool b => KBool b
    | RNat n => KNat n
    | RList l => KList (map fst l)
    | RVal _ | RIndex _ | RUnit => KUnit
    end.

  (** Programs over several TreapSets / SkipSets: treap/set.rs:255-376, 463-484,
      skiplist/set.rs:257-350, 438-459 ([+] is union, [-] is difference). *)
  Definition kprog_call (o : kprog_op K) : prog_op K unit :=
    match o with
    | KPOp i o => POp i (kset_call o)
    | KPSet s d i j => PSet s d i j
    | KPSplit d i k inc => PSplit d i k inc
    end.
End KeySet.
