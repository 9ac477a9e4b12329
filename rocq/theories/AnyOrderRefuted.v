(** Concrete runs that violate C69. *)
From Verif Require Import AnyOrderInstances AnyOrderModel.

Lemma skip_changing_refuted : exists (ops : list (Cmp nat * (map_op nat nat * N))) m outs m' e,
  run skip_any_step skip_new ops = Ok (m, outs) /\ skip_remove_by changing m 1 = Ok (m', Some e) /\
  skip_any_step m' (nat_cmp, (MInsert 5 50, 4294967295%N)) = Panic.
Proof.
  exists (with_draws uneven [(nat_cmp, MLen); (nat_cmp, MInsert 1 10); (nat_cmp, MInsert 2 20)]).
  do 4 eexists. split; [vm_compute; reflexivity|]. split; vm_compute; reflexivity.
Qed.

Lemma red_black_returns_refuted : exists (c : Cmp nat) (ops : list (map_op nat nat)),
  run rb_any_step bmap_new (map (fun o => (c, o)) ops) = Panic.
Proof.
  exists table, [MInsert 2 20; MInsert 1 10; MInsert 1 11; MInsert 1 12; MRemove 0; MRemove 0]. vm_compute; reflexivity.
Qed.

Lemma splay_remove_refuted : exists (c : Cmp nat) (ops : list (map_op nat nat)) m outs l,
  run splay_any_step bmap_new (map (fun o => (c, o)) (ops ++ [MRemove 9])) = Ok (m, outs) /\
  ~ In (MRemove 9) ops /\ spec_run (@map_spec_step nat nat c) [] ops = (l, firstn (length ops) outs) /\
  length l = 5 /\ length (inorder (bm_tree m)) = 3 /\ bm_len m = 4.
Proof.
  exists wildcard, [MInsert 1 10; MInsert 2 20; MInsert 4 40; MInsert 0 0; MInsert 3 30]. do 3 eexists.
  split; [vm_compute; reflexivity|]. split; [intros [E|[E|[E|[E|[E|[]]]]]]; discriminate E|]. vm_compute. auto.
Qed.
