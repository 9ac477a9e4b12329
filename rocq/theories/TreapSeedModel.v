(** The numbers that the maps and lists of a program draw.  Every TreapMap and TreapList has a generator of its own, and [new] starts each of
    them at the same constant state (rand::XorShiftRng::new_unseeded).  [f 0], [f 1], ... are the numbers such a generator returns; a
    generator is the number of draws made from it.  Simplified: the generator itself is not modelled, [f] is arbitrary. *)
From Verif Require Export TreapCostModel.

(** The generators after a call.
    - an insertion draws one number: treap/map.rs:81
    - split_off returns a map with a new generator: treap/map.rs:334, 340
    - the set operations keep the generator of the left map: treap/map.rs:374-381, 411-417, 448-454, 484-493
    - a map that is consumed is replaced by [new]: treap/map.rs:52-57 *)
Definition map_generators {K V} (g : nat -> nat) (o : prog_op K V) : nat -> nat :=
  match o with
  | POp i (MInsert _ _) => update g i (S (g i))
  | POp i MIntoIter => update g i 0
  | POp _ _ => g
  | PSet _ d i j => update (update (update g i 0) j 0) d (g i)
  | PSplit d _ _ _ => update g d 0
  end.
(** - an insertion draws one number: treap/list.rs:78, before the range assertion (treap/implicit_tree.rs:51)
    - [+] keeps the generator of the left list: treap/list.rs:438-441
    - a list that is consumed is replaced by [new]: treap/list.rs:52-57 *)
Definition list_generators {T} (g : nat -> nat) (o : sprog_op T) : nat -> nat :=
  match o with
  | QPOp i (QInsert _ _ | QPushFront _ | QPushBack _) => update g i (S (g i))
  | QPOp i QIntoIter => update g i 0
  | QPOp _ _ => g
  | QPAdd d i j => update (update (update g i 0) j 0) d (g i)
  end.

Section Seeded.
  Variable f : nat -> N.

  Definition map_seeded_step {K V} `{Cmp K} (s : (nat -> tree (N * nat) K V) * (nat -> nat)) (o : prog_op K V) :
      res (((nat -> tree (N * nat) K V) * (nat -> nat)) * (map_out K V * nat)) :=
    let (rs, g) := s in
    let p := match o with POp i _ => f (g i) | _ => 0%N end in
    let* (rs', out) := treap_prog_step_c rs (o, p) in Ok ((rs', map_generators g o), out).
  Definition list_seeded_step {T} (s : (nat -> tree (N * nat) unit T) * (nat -> nat)) (o : sprog_op T) :
      res (((nat -> tree (N * nat) unit T) * (nat -> nat)) * (seq_out T * nat)) :=
    let (rs, g) := s in
    let p := match o with QPOp i _ => f (g i) | _ => 0%N end in
    let* (rs', out) := tl_prog_step_c rs (o, p) in Ok ((rs', list_generators g o), out).
End Seeded.
Definition map_seeded {K V} : (nat -> tree (N * nat) K V) * (nat -> nat) := (fun _ => Leaf, fun _ => 0).
Definition list_seeded {T} : (nat -> tree (N * nat) unit T) * (nat -> nat) := (fun _ => Leaf, fun _ => 0).
