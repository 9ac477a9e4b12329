(** The maps with a comparison chosen anew for every call, and [SkipMap::remove] with a comparison that may
    change from one level to the next.

    Rust lets a key type implement [Ord] in any way, and a key with interior mutability may compare
    differently later.  The models of the maps take the comparison as an argument, so here it becomes a
    part of the call.  A key type whose [<] and [==] disagree is covered for SkipMap: its loops ask [==]
    only of a key for which [<] was false (skiplist/map.rs:154-159, 214-219, 286-291), so the two answers
    make one comparison. *)
From Verif Require Export AvlModel RbModel SplayModel TreapModel SkipMapModel.

Section AnyOrder.
  Context {K V : Type}.

  Definition avl_any_step (m : bmap nat K V) (op : Cmp K * map_op K V) : res (bmap nat K V * map_out K V) :=
    let '(c, o) := op in @avl_step K V c m o.
  Definition rb_any_step (m : bmap color K V) (op : Cmp K * map_op K V) : res (bmap color K V * map_out K V) :=
    let '(c, o) := op in @rb_step K V c m o.
  Definition splay_any_step (m : bmap unit K V) (op : Cmp K * map_op K V) : res (bmap unit K V * map_out K V) :=
    let '(c, o) := op in @splay_step K V c m o.
  (** With the priority drawn: treap/map.rs:73-85. *)
  Definition treap_any_step (t : tree (N * nat) K V) (op : Cmp K * (map_op K V * N))
    : res (tree (N * nat) K V * map_out K V) :=
    let '(c, o) := op in @treap_step K V c t o.
  (** With the random number drawn for the height: skiplist/map.rs:141-185. *)
  Definition skip_any_step (m : @skip_map K V) (op : Cmp K * (map_op K V * N)) : res (@skip_map K V * map_out K V) :=
    let '(c, o) := op in @skip_step K V c m o.

  (** [SkipMap::remove] (skiplist/map.rs:202-241) when the comparisons made at level [i] are [cs i]. *)
  Fixpoint remove_loop_by (cs : nat -> Cmp K) (i : nat) (h : heap (K * V) (option nat)) (cur : nat) (k : K)
    : res (heap (K * V) (option nat) * option (K * V)) :=
    let* (cur, nx) := walk_all h cur i (fun x => is_lt (cs i x k)) in
    let* (h, ret) := @unlink K V (cs i) h cur i nx k in
    match i with
    | O => Ok (h, ret)
    | S j => remove_loop_by cs j h cur k
    end.
  Definition skip_remove_by (cs : nat -> Cmp K) (m : @skip_map K V) (k : K) : res (@skip_map K V * option (K * V)) :=
    let* (h, ret) := remove_loop_by cs max_height (sk_heap m) 0 k in
    let* len := match ret with Some _ => checked_pred (sk_len m) | None => Ok (sk_len m) end in
    Ok (SkipMap h len, ret).
End AnyOrder.
