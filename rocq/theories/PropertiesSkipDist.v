(** The distances that a SkipList stores in its links: C88. *)
From Verif Require Import SeqSpec SkipDistSpec SkipListModel SkipDistProofs.

(** ** C88: distances need no more room than the list.  Full statement: a list stores no distance above its length plus one. *)
Definition near_length {T} (m : skip_list T) : Prop :=
  forall l a i k, slist_iter m = Ok l -> get_link (sl_heap m) a i = Ok k -> snd k <= S (length l).

(** Violated: pushing and popping one value [n] times leaves an empty list whose head stores the distance [n]; [remove] does not reduce the
    distances past the end that [insert] has raised.  In a [usize] of 32 bits the addition overflows after 2^32 such pairs. *)
Theorem C88_distance_refuted : forall (T : Type) (v : T) (n : nat), exists m outs,
  run slist_step slist_new (concat (repeat [(QPushBack v, 4294967295%N); (QPopBack, 4294967295%N)] n)) = Ok (m, outs) /\
  slist_iter m = Ok [] /\ get_link (sl_heap m) 0 1 = Ok (None, n).
Proof. exact @distance_stays. Qed.
Print Assumptions C88_distance_refuted.
Example C88_not_near :
  match run slist_step slist_new (concat (repeat [(QPushBack 7, 4294967295%N); (QPopBack, 4294967295%N)] 2)) with
  | Ok (m, outs) => outs = [QDone (Ok tt); QVal (Ok 7); QDone (Ok tt); QVal (Ok 7)] /\ ~ near_length m
  | _ => False
  end.
Proof.
  vm_compute. split; [reflexivity|]. intros N. specialize (N [] 0 1 (None, 2) eq_refl eq_refl). cbn in N. lia.
Qed.

(** What holds: after every history, every distance in memory is at most the number of insertions so far. *)
Theorem C88_distance_partial : forall (T : Type) (ops : list (seq_op T * N)) m outs,
  run slist_step slist_new ops = Ok (m, outs) -> forall a i k, get_link (sl_heap m) a i = Ok k -> snd k <= insertions (map fst ops).
Proof. exact @distances_bounded. Qed.
Print Assumptions C88_distance_partial.
(** The bound is met: five insertions, three elements, distance 5. *)
Example C88_met :
  let ops := map (fun o => (o, 4294967295%N)) [QPushBack 1; QPushBack 2; QPopBack; QPushFront 3; QInsert 1 4; QGetMut 0 9; QRemove 1; QPushBack 5] in
  insertions (map fst ops) = 5 /\
  match run slist_step slist_new ops with Ok (m, _) => slist_iter m = Ok [9; 1; 5] /\ get_link (sl_heap m) 0 1 = Ok (None, 5) | _ => False end.
Proof. vm_compute. repeat split. Qed.
