(** The functions of /repo/src/radix/{node,tree}.rs with a count of their steps: one for each node entered, each child looked at in
    a list of children, and each pair of bytes compared.  The results are those of RadixModel.v (RadixCostProofs.v).  Copying bytes
    (of the key of a new node, or of a node that is split or merged) is not counted. *)
From Verif Require Export RadixModel.

(** [a.iter().zip(b.iter()).position(|p| p.0 != p.1)]: the pairs compared *)
Fixpoint mismatch_steps (a b : bytes) : nat :=
  match a, b with
  | x :: a', y :: b' => 1 + if Nat.eqb x y then mismatch_steps a' b' else 0
  | _, _ => 0
  end.

(** Add [n] steps. *)
Definition tick {A} (n : nat) (r : res (A * nat)) : res (A * nat) := rmap (fun p => (fst p, n + snd p)) r.

Section RadixCost.
  Context {T : Type}.

  (** Node::get: node.rs:25-33 *)
  Definition find_child_c {A} (f : rtree T -> res (A * nat)) (b : nat) : rtree T -> res (A * nat) :=
    fix go (t : rtree T) : res (A * nat) :=
      match t with
      | RNil => f t
      | RNode key _ next _ =>
          let* k0 := first_byte key in
          tick 1 (if Nat.eqb k0 b then f t else go next)
      end.
  (** Node::get_mut: node.rs:35-51 *)
  Definition with_child_c {A} (f : rtree T -> res ((rtree T * A) * nat)) (b : nat) : rtree T -> res ((rtree T * A) * nat) :=
    fix go (t : rtree T) : res ((rtree T * A) * nat) :=
      match t with
      | RNil => f t
      | RNode key value next child =>
          let* k0 := first_byte key in
          tick 1 (if Nat.eqb k0 b then f t
                  else let* ((next', a), n) := go next in Ok ((RNode key value next' child, a), n))
      end.
  (** Node::insert_child: node.rs:61-76 *)
  Fixpoint insert_child_c (t : rtree T) (nk : bytes) (nv : option T) (nc : rtree T) : res (rtree T * nat) :=
    match t with
    | RNil => Ok (RNode nk nv RNil nc, 0)
    | RNode key value next child =>
        let* k0 := first_byte key in
        let* n0 := first_byte nk in
        if Nat.ltb n0 k0 then Ok (RNode nk nv t nc, 1)
        else let* (next', n) := insert_child_c next nk nv nc in Ok (RNode key value next' child, 1 + n)
    end.

  (** insert: tree.rs:7-40.  [split] (node.rs:53-59) looks at no child. *)
  Fixpoint r_insert_c (t : rtree T) (key : bytes) (v : T) : res ((rtree T * option T) * nat) :=
    match t with
    | RNil => Panic
    | RNode nk nv next child =>
        tick (1 + mismatch_steps nk key)
        match mismatch nk key with
        | Some i =>
            let* (nk', child1) := node_split nk nv child i in
            let* (child2, n) := insert_child_c child1 (skipn i key) (Some v) RNil in
            Ok ((RNode nk' None next child2, None), n)
        | None =>
            match Nat.compare (length nk) (length key) with
            | Lt =>
                let key' := skipn (length nk) key in
                let* b := first_byte key' in
                let* (found, n1) := find_child_c (fun c => Ok (negb (is_rnil c), 0)) b child in
                if found then
                  let* ((child', old), n2) := with_child_c (fun c => r_insert_c c key' v) b child in
                  Ok ((RNode nk nv next child', old), n1 + n2)
                else
                  let* (child', n2) := insert_child_c child key' (Some v) RNil in
                  Ok ((RNode nk nv next child', None), n1 + n2)
            | Gt =>
                let* (nk', child') := node_split nk nv child (length key) in
                Ok ((RNode nk' (Some v) next child', None), 0)
            | Eq => Ok ((RNode nk (Some v) next child, nv), 0)
            end
        end
    end.

  (** remove: tree.rs:43-83 *)
  Fixpoint r_remove_c (t : rtree T) (key : bytes) : res ((rtree T * option T) * nat) :=
    match t with
    | RNil => Ok ((RNil, None), 0)
    | RNode nk nv next child =>
        let finish (value : option T) (child : rtree T) : rtree T :=
          let '(k', v', c') := node_merge nk value child in
          if negb (is_some v') && is_rnil c' then next else RNode k' v' next c' in
        tick (1 + mismatch_steps nk key)
        match mismatch nk key with
        | Some _ => Ok ((t, None), 0)
        | None =>
            match Nat.compare (length nk) (length key) with
            | Lt =>
                let key' := skipn (length nk) key in
                let* b := first_byte key' in
                let* ((child', ret), n) := with_child_c (fun c => r_remove_c c key') b child in
                Ok ((finish nv child', ret), n)
            | Gt => Ok ((t, None), 0)
            | Eq => Ok ((finish None child, nv), 0)
            end
        end
    end.

  (** get: tree.rs:85-106 *)
  Fixpoint r_get_c (t : rtree T) (key : bytes) : res (option T * nat) :=
    match t with
    | RNil => Ok (None, 0)
    | RNode nk nv next child =>
        tick (1 + mismatch_steps nk key)
        match mismatch nk key with
        | Some _ => Ok (None, 0)
        | None =>
            match Nat.compare (length nk) (length key) with
            | Lt =>
                let key' := skipn (length nk) key in
                let* b := first_byte key' in
                find_child_c (fun c => r_get_c c key') b child
            | Gt => Ok (None, 0)
            | Eq => Ok (nv, 0)
            end
        end
    end.

  (** get_mut followed by a write: tree.rs:108-129 *)
  Fixpoint r_get_mut_set_c (t : rtree T) (key : bytes) (v : T) : res ((rtree T * option T) * nat) :=
    match t with
    | RNil => Ok ((RNil, None), 0)
    | RNode nk nv next child =>
        tick (1 + mismatch_steps nk key)
        match mismatch nk key with
        | Some _ => Ok ((t, None), 0)
        | None =>
            match Nat.compare (length nk) (length key) with
            | Lt =>
                let key' := skipn (length nk) key in
                let* b := first_byte key' in
                let* ((child', old), n) := with_child_c (fun c => r_get_mut_set_c c key' v) b child in
                Ok ((RNode nk nv next child', old), n)
            | Gt => Ok ((t, None), 0)
            | Eq => Ok ((RNode nk (option_map (fun _ => v) nv) next child, nv), 0)
            end
        end
    end.

  (** push_all_children: node.rs:99-118 *)
  Fixpoint push_all_c (t : rtree T) (curr : bytes) : list bytes * nat :=
    match t with
    | RNil => ([], 0)
    | RNode key value next child =>
        let '(l1, n1) := push_all_c child (curr ++ key) in
        let '(l2, n2) := push_all_c next curr in
        ((if is_some value then [curr ++ key] else []) ++ l1 ++ l2, 1 + n1 + n2)
    end.
  (** get_longest_prefix: tree.rs:131-176 *)
  Fixpoint r_longest_prefix_c (t : rtree T) (key curr : bytes) : res (list bytes * nat) :=
    match t with
    | RNil => Ok ([], 0)
    | RNode nk nv next child =>
        let curr' := curr ++ nk in
        let here := if is_some nv then [curr'] else [] in
        let all := let '(l, n) := push_all_c child curr' in Ok (here ++ l, n) in
        tick (1 + mismatch_steps nk key)
        match mismatch nk key with
        | Some _ => all
        | None =>
            match Nat.compare (length nk) (length key) with
            | Lt =>
                let key' := skipn (length nk) key in
                let* b := first_byte key' in
                find_child_c (fun c => if is_rnil c then Ok (here, 0) else r_longest_prefix_c c key' curr') b child
            | _ => all
            end
        end
    end.

  (** min: tree.rs:178-191 *)
  Fixpoint r_min_c (t : rtree T) (curr : bytes) : option bytes * nat :=
    match t with
    | RNil => (None, 0)
    | RNode nk nv _ child =>
        if is_some nv then (Some (curr ++ nk), 1) else let '(r, n) := r_min_c child (curr ++ nk) in (r, 1 + n)
    end.
  (** Node::max: node.rs:124-133 *)
  Definition last_child_c {A} (f : rtree T -> A * nat) : rtree T -> A * nat :=
    fix go (t : rtree T) : A * nat :=
      match t with
      | RNil => f t
      | RNode _ _ next _ => let '(r, n) := match next with RNil => f t | _ => go next end in (r, 1 + n)
      end.
  (** max: tree.rs:193-206 *)
  Fixpoint r_max_c (t : rtree T) (curr : bytes) : option bytes * nat :=
    match t with
    | RNil => (None, 0)
    | RNode nk nv _ child =>
        if is_some nv && is_rnil child then (Some (curr ++ nk), 1)
        else let '(r, n) := last_child_c (fun c => r_max_c c (curr ++ nk)) child in (r, 1 + n)
    end.

  (** The steps of one call of the map: map.rs (see [radix_step]); 0 for the calls that do not look for a single key *)
  Definition radix_steps (m : radix_map T) (o : radix_op T) : res nat :=
    match o with
    | XInsert k v => rmap snd (r_insert_c (rm_root m) k v)
    | XRemove k => rmap snd (r_remove_c (rm_root m) k)
    | XGet k | XIndex k | XContains k => rmap snd (r_get_c (rm_root m) k)
    | XGetMut k v => rmap snd (r_get_mut_set_c (rm_root m) k v)
    | XMin => Ok (snd (r_min_c (rm_root m) []))
    | XMax => Ok (snd (r_max_c (rm_root m) []))
    | _ => Ok 0
    end.
  (** A call with its steps *)
  Definition radix_step_c (m : radix_map T) (o : radix_op T) : res (radix_map T * (map_out bytes T * nat)) :=
    let* (m', out) := radix_step m o in
    let* n := radix_steps m o in
    Ok (m', (out, n)).
  (** get_longest_prefix: map.rs:222-226 *)
  Definition radix_longest_prefix_c (m : radix_map T) (k : bytes) : res (list bytes * nat) := r_longest_prefix_c (rm_root m) k [].
End RadixCost.
