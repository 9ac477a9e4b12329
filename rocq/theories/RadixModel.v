(** Model of /repo/src/radix/{node,tree,map}.rs.
    Simplifications: a pair (key, index) of the source is the slice [key[index..]]; the accumulated
    prefix [curr_key] is kept.  Allocation is not modelled. *)
From Verif Require Export RadixSpec KeySetModel.

Section Radix.
  Context {T : Type}.

  (** Node / Tree: radix/node.rs:4-9, tree.rs:5.  First child, next sibling. *)
  Inductive rtree (T : Type) : Type :=
  | RNil
  | RNode (key : bytes) (value : option T) (next child : rtree T).
  Arguments RNil {T}.
  Arguments RNode {T}.

  Definition is_rnil {T} (t : rtree T) : bool := match t with RNil => true | _ => false end.
  Definition is_some {A} (o : option A) : bool := match o with Some _ => true | None => false end.

  (** [a.iter().zip(b.iter()).position(|p| p.0 != p.1)] *)
  Fixpoint mismatch (a b : bytes) : option nat :=
    match a, b with
    | x :: a', y :: b' => if Nat.eqb x y then option_map S (mismatch a' b') else Some 0
    | _, _ => None
    end.

  (** [k[0]] *)
  Definition first_byte (k : bytes) : res nat := match k with [] => Panic | b :: _ => Ok b end.

  (** Node::get: node.rs:25-33.  [find_child f b child] applies [f] to the sub-list that starts at the
      child whose key starts with [b], or to the empty tree. *)
  Definition find_child {A} (f : rtree T -> res A) (b : nat) : rtree T -> res A :=
    fix go (t : rtree T) : res A :=
      match t with
      | RNil => f t
      | RNode key _ next _ =>
          let* k0 := first_byte key in
          if Nat.eqb k0 b then f t else go next
      end.

  (** Node::get_mut: node.rs:35-51.  The mutable reference returned is used by one caller [f], which
      replaces the tree behind it. *)
  Definition with_child {A} (f : rtree T -> res (rtree T * A)) (b : nat) : rtree T -> res (rtree T * A) :=
    fix go (t : rtree T) : res (rtree T * A) :=
      match t with
      | RNil => f t
      | RNode key value next child =>
          let* k0 := first_byte key in
          if Nat.eqb k0 b then f t
          else let* (next', a) := go next in Ok (RNode key value next' child, a)
      end.

  (** Node::insert_child: node.rs:61-76; the new node is (key, value, no sibling, child). *)
  Fixpoint insert_child (t : rtree T) (nk : bytes) (nv : option T) (nc : rtree T) : res (rtree T) :=
    match t with
    | RNil => Ok (RNode nk nv RNil nc)
    | RNode key value next child =>
        let* k0 := first_byte key in
        let* n0 := first_byte nk in
        if Nat.ltb n0 k0 then Ok (RNode nk nv t nc)
        else let* next' := insert_child next nk nv nc in Ok (RNode key value next' child)
    end.

  (** Node::split: node.rs:53-59.  Returns the new (key, child); the value becomes [None]. *)
  Definition node_split (key : bytes) (value : option T) (child : rtree T) (i : nat) : res (bytes * rtree T) :=
    let* child' := insert_child RNil (skipn i key) value child in
    Ok (firstn i key, child').

  (** Node::merge: node.rs:78-88, on (key, value, child). *)
  Definition node_merge (key : bytes) (value : option T) (child : rtree T) : bytes * option T * rtree T :=
    match child with
    | RNil => (key, value, child)
    | RNode ck cv cn cc =>
        if negb (is_some value) && is_rnil cn then (key ++ ck, cv, cc) else (key, value, child)
    end.

  (** insert: tree.rs:7-40.  Returns the replaced value. *)
  Fixpoint r_insert (t : rtree T) (key : bytes) (v : T) : res (rtree T * option T) :=
    match t with
    | RNil => Panic
    | RNode nk nv next child =>
        match mismatch nk key with
        | Some i =>
            let* (nk', child1) := node_split nk nv child i in
            let* child2 := insert_child child1 (skipn i key) (Some v) RNil in
            Ok (RNode nk' None next child2, None)
        | None =>
            match Nat.compare (length nk) (length key) with
            | Lt =>
                let key' := skipn (length nk) key in
                let* b := first_byte key' in
                let* found := find_child (fun c => Ok (negb (is_rnil c))) b child in
                if found then
                  let* (child', old) := with_child (fun c => r_insert c key' v) b child in
                  Ok (RNode nk nv next child', old)
                else
                  let* child' := insert_child child key' (Some v) RNil in
                  Ok (RNode nk nv next child', None)
            | Gt =>
                let* (nk', child') := node_split nk nv child (length key) in
                Ok (RNode nk' (Some v) next child', None)
            | Eq => Ok (RNode nk (Some v) next child, nv)
            end
        end
    end.

  (** remove: tree.rs:43-83.  Returns the removed value (the source pairs it with a copy of the key). *)
  Fixpoint r_remove (t : rtree T) (key : bytes) : res (rtree T * option T) :=
    match t with
    | RNil => Ok (RNil, None)
    | RNode nk nv next child =>
        (* merge, then drop the node if it is an empty leaf: tree.rs:64-67, 71-74, 79-81 *)
        let finish (value : option T) (child : rtree T) : rtree T :=
          let '(k', v', c') := node_merge nk value child in
          if negb (is_some v') && is_rnil c' then next else RNode k' v' next c' in
        match mismatch nk key with
        | Some _ => Ok (t, None)
        | None =>
            match Nat.compare (length nk) (length key) with
            | Lt =>
                let key' := skipn (length nk) key in
                let* b := first_byte key' in
                let* (child', ret) := with_child (fun c => r_remove c key') b child in
                Ok (finish nv child', ret)
            | Gt => Ok (t, None)
            | Eq => Ok (finish None child, nv)
            end
        end
    end.

  (** get: tree.rs:85-106. *)
  Fixpoint r_get (t : rtree T) (key : bytes) : res (option T) :=
    match t with
    | RNil => Ok None
    | RNode nk nv next child =>
        match mismatch nk key with
        | Some _ => Ok None
        | None =>
            match Nat.compare (length nk) (length key) with
            | Lt =>
                let key' := skipn (length nk) key in
                let* b := first_byte key' in
                find_child (fun c => r_get c key') b child
            | Gt => Ok None
            | Eq => Ok nv
            end
        end
    end.

  (** get_mut followed by a write of [v]: tree.rs:108-129.  Returns the old value. *)
  Fixpoint r_get_mut_set (t : rtree T) (key : bytes) (v : T) : res (rtree T * option T) :=
    match t with
    | RNil => Ok (RNil, None)
    | RNode nk nv next child =>
        match mismatch nk key with
        | Some _ => Ok (t, None)
        | None =>
            match Nat.compare (length nk) (length key) with
            | Lt =>
                let key' := skipn (length nk) key in
                let* b := first_byte key' in
                let* (child', old) := with_child (fun c => r_get_mut_set c key' v) b child in
                Ok (RNode nk nv next child', old)
            | Gt => Ok (t, None)
            | Eq => Ok (RNode nk (option_map (fun _ => v) nv) next child, nv)
            end
        end
    end.

  (** Node::push_all_children: node.rs:99-118; [push_all t curr] for a sibling list [t]. *)
  Fixpoint push_all (t : rtree T) (curr : bytes) : list bytes :=
    match t with
    | RNil => []
    | RNode key value next child =>
        (if is_some value then [curr ++ key] else []) ++ push_all child (curr ++ key) ++ push_all next curr
    end.

  (** get_longest_prefix: tree.rs:131-176. *)
  Fixpoint r_longest_prefix (t : rtree T) (key curr : bytes) : res (list bytes) :=
    match t with
    | RNil => Ok []
    | RNode nk nv next child =>
        let curr' := curr ++ nk in
        let here := if is_some nv then [curr'] else [] in
        match mismatch nk key with
        | Some _ => Ok (here ++ push_all child curr')
        | None =>
            match Nat.compare (length nk) (length key) with
            | Lt =>
                let key' := skipn (length nk) key in
                let* b := first_byte key' in
                find_child (fun c => if is_rnil c then Ok here else r_longest_prefix c key' curr') b child
            | _ => Ok (here ++ push_all child curr')
            end
        end
    end.

  (** min: tree.rs:178-191; Node::min (node.rs:120-122) is the first child. *)
  Fixpoint r_min (t : rtree T) (curr : bytes) : option bytes :=
    match t with
    | RNil => None
    | RNode nk nv _ child => if is_some nv then Some (curr ++ nk) else r_min child (curr ++ nk)
    end.

  (** Node::max (node.rs:124-133): the last child. *)
  Definition last_child {A} (f : rtree T -> A) : rtree T -> A :=
    fix go (t : rtree T) : A :=
      match t with
      | RNil => f t
      | RNode _ _ next _ => match next with RNil => f t | _ => go next end
      end.

  (** max: tree.rs:193-206. *)
  Fixpoint r_max (t : rtree T) (curr : bytes) : option bytes :=
    match t with
    | RNil => None
    | RNode nk nv _ child =>
        if is_some nv && is_rnil child then Some (curr ++ nk)
        else last_child (fun c => r_max c (curr ++ nk)) child
    end.

  Fixpoint r_size {T} (t : rtree T) : nat :=
    match t with RNil => 0 | RNode _ _ n c => S (r_size n + r_size c) end.
End Radix.
Arguments RNil {T}.
Arguments RNode {T}.

(** ** Iterators: map.rs:367-404 (into_iter), 410-449 (iter), 455-495 (iter_mut).  The three [next]
    functions are the same text up to ownership. *)
Section RadixIter.
  Context {T : Type}.

  Record riter := RIter { ri_prefix : bytes; ri_current : rtree T; ri_stack : list (rtree T * nat) }.
  Definition riter_new (t : rtree T) : riter := RIter [] t [].

  (** One call of [next]; one unit of fuel per node entered or stack entry popped. *)
  Fixpoint riter_next (fuel : nat) (s : riter) : res (option (bytes * T) * riter) :=
    match fuel with
    | O => Timeout
    | S f =>
        match ri_current s with
        | RNode key value next child =>
            let prefix := ri_prefix s ++ key in
            let s' := RIter prefix child ((next, length key) :: ri_stack s) in
            match value with
            | Some v => Ok (Some (prefix, v), s')
            | None => riter_next f s'
            end
        | RNil =>
            match ri_stack s with
            | [] => Ok (None, s)
            | (next, key_len) :: stack =>
                let* new_len := checked_sub (length (ri_prefix s)) key_len in
                riter_next f (RIter (firstn new_len (ri_prefix s)) next stack)
            end
        end
    end.

  (** Enough fuel for one call: every node is entered once and popped once. *)
  Definition riter_fuel (s : riter) : nat :=
    S (2 * r_size (ri_current s) + list_sum (map (fun p => S (2 * r_size (fst p))) (ri_stack s))).

  (** [next()] until [None]. *)
  Fixpoint riter_drain (fuel : nat) (s : riter) : res (list (bytes * T)) :=
    match fuel with
    | O => Timeout
    | S f =>
        let* (o, s') := riter_next (riter_fuel s) s in
        match o with
        | None => Ok []
        | Some e => let* l := riter_drain f s' in Ok (e :: l)
        end
    end.
  Definition riter_all (t : rtree T) : res (list (bytes * T)) := riter_drain (S (r_size t)) (riter_new t).
End RadixIter.
Arguments riter : clear implicits.

Section RadixMap.
  Context {T : Type}.

  (** iter_mut: the reference to the value of a node is the path of the node ([true] = next, [false] =
      child), so the iterator runs on the tree whose values are tagged with their paths. *)
  Fixpoint tag (p : list bool) (t : rtree T) : rtree (list bool * T) :=
    match t with
    | RNil => RNil
    | RNode key value next child =>
        RNode key (option_map (fun v => (p, v)) value) (tag (p ++ [true]) next) (tag (p ++ [false]) child)
    end.

  (** Write through a reference. *)
  Fixpoint r_write_at (p : list bool) (v : T) (t : rtree T) : res (rtree T) :=
    match t, p with
    | RNil, _ => Panic
    | RNode key value next child, [] =>
        match value with Some _ => Ok (RNode key (Some v) next child) | None => Panic end
    | RNode key value next child, true :: p' =>
        let* next' := r_write_at p' v next in Ok (RNode key value next' child)
    | RNode key value next child, false :: p' =>
        let* child' := r_write_at p' v child in Ok (RNode key value next child')
    end.

  (** Call [next()] once per element of [vs], writing the element through the reference obtained. *)
  Fixpoint ritermut_writes (s : riter (list bool * T)) (vs : list T) (t : rtree T) : res (rtree T * list (bytes * T)) :=
    match vs with
    | [] => Ok (t, [])
    | v :: vs' =>
        let* (o, s') := riter_next (riter_fuel s) s in
        match o with
        | None => Ok (t, [])
        | Some (k, (p, x)) =>
            let* t' := r_write_at p v t in
            let* (t'', es) := ritermut_writes s' vs' t' in
            Ok (t'', (k, x) :: es)
        end
    end.
  Definition ritermut_run (t : rtree T) (vs : list T) : res (rtree T * list (bytes * T)) :=
    ritermut_writes (riter_new (tag [] t)) vs t.

  (** RadixMap: map.rs:41-44; new: 56-61. *)
  Record radix_map := RMap { rm_root : rtree T; rm_len : nat }.
  Definition radix_new : radix_map := RMap (RNode [] None RNil RNil) 0.

  (** get_longest_prefix: map.rs:222-226. *)
  Definition radix_longest_prefix (m : radix_map) (k : bytes) : res (list bytes) := r_longest_prefix (rm_root m) k [].

  (** One API call.  map.rs: insert 80, remove 105, contains_key 124, get 141, get_mut 158, len 173,
      is_empty 187, clear 204, min 240, max 256, iter 283, iter_mut 318, into_iter 331, Index 506. *)
  Definition radix_step (m : radix_map) (o : radix_op T) : res (radix_map * map_out bytes T) :=
    match o with
    | XInsert k v =>
        let len1 := S (rm_len m) in
        let* (t, old) := r_insert (rm_root m) k v in
        match old with
        | None => Ok (RMap t len1, RPair None)
        | Some x => let* len2 := checked_pred len1 in Ok (RMap t len2, RPair (Some (k, x)))
        end
    | XRemove k =>
        let* (t, old) := r_remove (rm_root m) k in
        match old with
        | None => Ok (RMap t (rm_len m), RPair None)
        | Some x => let* len2 := checked_pred (rm_len m) in Ok (RMap t len2, RPair (Some (k, x)))
        end
    | XGet k => let* x := r_get (rm_root m) k in Ok (m, RVal x)
    | XGetMut k v => let* (t, x) := r_get_mut_set (rm_root m) k v in Ok (RMap t (rm_len m), RVal x)
    | XIndex k => let* x := r_get (rm_root m) k in Ok (m, RIndex (expect x))
    | XContains k => let* x := r_get (rm_root m) k in Ok (m, RBool (is_some x))
    | XMin => Ok (m, RKey (r_min (rm_root m) []))
    | XMax => Ok (m, RKey (r_max (rm_root m) []))
    | XLen => Ok (m, RNat (rm_len m))
    | XIsEmpty => Ok (m, RBool (Nat.eqb (rm_len m) 0))
    | XClear => Ok (radix_new, RUnit)
    | XIter => let* l := riter_all (rm_root m) in Ok (m, RList l)
    | XIterMut vs => let* (t, es) := ritermut_run (rm_root m) vs in Ok (RMap t (rm_len m), RList es)
    | XIntoIter => let* l := riter_all (rm_root m) in Ok (radix_new, RList l)
    end.
End RadixMap.
Arguments radix_map : clear implicits.

(** RadixSet forwards every method to RadixMap<()>: radix/set.rs:66-270. *)
Definition radix_set_step : radix_map unit -> rset_op -> res (radix_map unit * kset_out bytes) :=
  wrap_step rset_map kset_ret radix_step.
