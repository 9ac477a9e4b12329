(** Model of the nodes of the on-disk B+ tree: [/repo/src/bp_tree/node.rs].

    The boxed slices of the code are lists of the same length; cells that hold [None] are [None].
    Every index into a slice is checked: outside the slice the result is [Panic].
    Simplifications: the source of a [merge] is not returned (both callers drop it right after,
    map.rs:326-336 and 408-421); [Entry] is a pair; [==] and [<=] on entries compare keys only
    (entry.rs:10-37). *)
From Verif Require Export Base.

Section BpNode.
  Context {K V : Type} `{Cmp K}.
  Notation entry := (K * V)%type.

  (** node.rs:178-183 *)
  Record leaf : Type := mkLeaf { lf_len : nat; lf_entries : list (option entry); lf_next : option nat }.
  (** node.rs:12-18 *)
  Record internal : Type := mkInternal { in_len : nat; in_keys : list (option K); in_ptrs : list nat }.
  (** node.rs:359-364 *)
  Inductive node : Type :=
  | Internal (i : internal)
  | Leaf (l : leaf)
  | Free (next : option nat).
  (** node.rs:185-191 *)
  Inductive insert_case : Type :=
  | ISplit (split_key : K) (split_node : leaf)
  | IEntry (e : entry).

  (** [l[i]] and [l[i] = x] *)
  Definition cell {A} (l : list A) (i : nat) : res A := expect (nth_error l i).
  Definition set_cell {A} (l : list A) (i : nat) (x : A) : res (list A) :=
    let* _ := cell l i in Ok (list_set l i x).
  (** [l.swap(i, j)] *)
  Definition swap {A} (l : list A) (i j : nat) : res (list A) :=
    let* x := cell l i in
    let* y := cell l j in
    Ok (list_set (list_set l i y) j x).
  (** [for index in i..i+n { l.swap(index, index + 1) }] *)
  Fixpoint swap_up {A} (l : list A) (i n : nat) : res (list A) :=
    match n with
    | 0 => Ok l
    | S n' => let* l' := swap l i (S i) in swap_up l' (S i) n'
    end.

  (** node.rs:219-225 *)
  Definition leaf_new (m : nat) : leaf := mkLeaf 0 (repeat None m) None.
  (** node.rs:46-53 *)
  Definition internal_new (d : nat) : internal := mkInternal 0 (repeat None d) (repeat 0 (d + 1)).

  (** *** Leaves *)

  (** The loop of node.rs:234-246: walk over the occupied cells, swapping the carried entry into
      place.  [Some old] is the early return of line 239. *)
  Fixpoint leaf_place (es : list (option entry)) (e : entry) : res (list (option entry) * option entry) :=
    match es with
    | [] => Panic
    | None :: r => Ok (Some e :: r, None)
    | Some x :: r =>
        match cmp (fst e) (fst x) with
        | Gt => let* (r', o) := leaf_place r e in Ok (Some x :: r', o)
        | Eq => Ok (Some e :: r, Some x)
        | Lt => let* (r', o) := leaf_place r x in Ok (Some e :: r', o)
        end
    end.

  Inductive shift_out : Type :=
  | Shifted (es split : list (option entry)) (carried : entry)
  | Replaced (es : list (option entry)) (old : entry).
  Definition shift_cons (c : option entry) (o : shift_out) : shift_out :=
    match o with
    | Shifted es split e => Shifted (c :: es) split e
    | Replaced es old => Replaced (c :: es) old
    end.

  (** The loop of node.rs:251-266, from index [i] on; [half] is [leaf_degree / 2].  [Replaced] is the
      early return of line 256, which drops [split]. *)
  Fixpoint leaf_shift (half i : nat) (es split : list (option entry)) (e : entry) : res shift_out :=
    match es with
    | [] => Ok (Shifted [] split e)
    | c :: r =>
        let continue (c' : option entry) (e' : entry) :=
          if half <? i then
            let* x := cell split (i - half - 1) in
            let* o := leaf_shift half (S i) r (list_set split (i - half - 1) c') e' in
            Ok (shift_cons x o)
          else
            let* o := leaf_shift half (S i) r split e' in
            Ok (shift_cons c' o) in
        match c with
        | None => continue None e
        | Some x =>
            match cmp (fst e) (fst x) with
            | Gt => continue (Some x) e
            | Eq => Ok (Replaced (Some e :: r) x)
            | Lt => continue (Some e) x
            end
        end
    end.

  (** node.rs:227-283 *)
  Definition leaf_insert (l : leaf) (e : entry) : res (leaf * option insert_case) :=
    let m := length (lf_entries l) in
    if lf_len l <? m then
      let* (es, o) := leaf_place (lf_entries l) e in
      match o with
      | Some old => Ok (mkLeaf (lf_len l) es (lf_next l), Some (IEntry old))
      | None => Ok (mkLeaf (lf_len l + 1) es (lf_next l), None)
      end
    else
      let* o := leaf_shift (m / 2) 0 (lf_entries l) (repeat None m) e in
      match o with
      | Replaced es old => Ok (mkLeaf (lf_len l) es (lf_next l), Some (IEntry old))
      | Shifted es split carried =>
          let* i := checked_pred m in
          let* split := set_cell split (i / 2) (Some carried) in
          let* c := cell split 0 in
          let* first := expect c in
          Ok (mkLeaf ((lf_len l + 2) / 2) es (lf_next l),
              Some (ISplit (fst first) (mkLeaf ((lf_len l + 1) / 2) split (lf_next l))))
      end.

  (** node.rs:285-292 *)
  Definition leaf_remove_at (l : leaf) (i : nat) : res (leaf * entry) :=
    let* _ := assert (i <? lf_len l) in
    let n := lf_len l - 1 in
    let* es := swap_up (lf_entries l) i (n - i) in
    let* c := cell es n in
    let* e := expect c in
    Ok (mkLeaf n (list_set es n None) (lf_next l), e).

  (** The loop of node.rs:300-317, [n] iterations from index [i] on. *)
  Fixpoint leaf_remove_loop (key : K) (len n i : nat) (es : list (option entry)) (removed : bool)
    : res (list (option entry) * bool) :=
    match n with
    | 0 => Ok (es, removed)
    | S n' =>
        let* c := cell es i in
        match c with
        | Some e =>
            if is_eq (cmp key (fst e)) then
              if i + 1 <? len then
                let* es' := swap es i (i + 1) in leaf_remove_loop key len n' (S i) es' true
              else leaf_remove_loop key len n' (S i) es true
            else leaf_remove_loop key len n' (S i) es removed
        | None => leaf_remove_loop key len n' (S i) es removed
        end
    end.

  (** node.rs:294-325 *)
  Definition leaf_remove (l : leaf) (key : K) : res (leaf * option entry) :=
    let* (es, removed) := leaf_remove_loop key (lf_len l) (lf_len l) 0 (lf_entries l) false in
    if removed then
      let* n := checked_pred (lf_len l) in
      let* c := cell es n in
      Ok (mkLeaf n (list_set es n None) (lf_next l), c)
    else Ok (mkLeaf (lf_len l) es (lf_next l), None).

  (** The loop of node.rs:334-344.  [hi] is one more than the [hi] of the code, which is signed. *)
  Fixpoint leaf_search_loop (fuel : nat) (es : list (option entry)) (key : K) (lo hi : nat)
    : res (option nat) :=
    match fuel with
    | 0 => Timeout
    | S f =>
        if lo <? hi then
          let mid := lo + (hi - 1 - lo) / 2 in
          let* c := cell es mid in
          match c with
          | None => leaf_search_loop f es key lo mid
          | Some e =>
              match cmp (fst e) key with
              | Lt => leaf_search_loop f es key (mid + 1) hi
              | Gt => leaf_search_loop f es key lo mid
              | Eq => Ok (Some mid)
              end
          end
        else Ok None
    end.

  (** node.rs:327-346; [entries.len() - 1] underflows for degree 0. *)
  Definition leaf_search (l : leaf) (key : K) : res (option nat) :=
    let m := length (lf_entries l) in
    let* _ := checked_pred m in
    leaf_search_loop (S m) (lf_entries l) key 0 m.

  (** [for index in 0..n { dst[at + index] = src[index] }] starting with index [i] *)
  Fixpoint copy_cells {A} (dst src : list A) (at_ n i : nat) : res (list A) :=
    match n with
    | 0 => Ok dst
    | S n' =>
        let* x := cell src i in
        let* dst' := set_cell dst (at_ + i) x in
        copy_cells dst' src at_ n' (S i)
    end.

  (** node.rs:348-356 *)
  Definition leaf_merge (l r : leaf) : res leaf :=
    let* _ := assert (lf_len l + lf_len r <=? length (lf_entries l)) in
    let* es := copy_cells (lf_entries l) (lf_entries r) (lf_len l) (lf_len r) 0 in
    Ok (mkLeaf (lf_len l + lf_len r) es (lf_next r)).

  (** *** Internal nodes *)

  (** node.rs:69-77: the loop over the occupied cells from index [i] on, and the final swap.
      Returns the index of the last swap and the pointer swapped out there. *)
  Fixpoint internal_place (off i : nat) (todo : list (option K)) (keys : list (option K)) (ptrs : list nat)
    (k : K) (p : nat) : res (list (option K) * list nat * nat * nat) :=
    match todo with
    | Some x :: todo' =>
        if is_lt (cmp k x) then
          let* q := cell ptrs (i + off) in
          internal_place off (S i) todo' (list_set keys i (Some k)) (list_set ptrs (i + off) p) x q
        else internal_place off (S i) todo' keys ptrs k p
    | _ =>
        let* keys := set_cell keys i (Some k) in
        let* q := cell ptrs (i + off) in
        Ok (keys, list_set ptrs (i + off) p, i, q)
    end.

  (** Body of the loop of node.rs:88-106 at index [i]; [half] is [(internal_degree + 1) / 2]. *)
  Record shifting : Type := mkShifting {
    sh_keys : list (option K); sh_ptrs : list nat;
    sh_skeys : list (option K); sh_sptrs : list nat; sh_k : K; sh_p : nat }.
  Definition internal_shift_body (off half i : nat) (s : shifting) : res shifting :=
    let* c := cell (sh_keys s) i in
    let* s :=
      match c with
      | Some x =>
          if is_lt (cmp (sh_k s) x) then
            let* q := cell (sh_ptrs s) (i + off) in
            Ok (mkShifting (list_set (sh_keys s) i (Some (sh_k s))) (list_set (sh_ptrs s) (i + off) (sh_p s))
                  (sh_skeys s) (sh_sptrs s) x q)
          else Ok s
      | None => Ok s
      end in
    if half <? i then
      let* a := cell (sh_keys s) i in
      let* b := cell (sh_skeys s) (i - half - 1) in
      let* p := cell (sh_ptrs s) (i + off) in
      let* q := cell (sh_sptrs s) (i - half - (1 - off)) in
      Ok (mkShifting (list_set (sh_keys s) i b) (list_set (sh_ptrs s) (i + off) q)
            (list_set (sh_skeys s) (i - half - 1) a) (list_set (sh_sptrs s) (i - half - (1 - off)) p)
            (sh_k s) (sh_p s))
    else Ok s.
  Fixpoint internal_shift (off half n i : nat) (s : shifting) : res shifting :=
    match n with
    | 0 => Ok s
    | S n' => let* s' := internal_shift_body off half i s in internal_shift off half n' (S i) s'
    end.

  (** node.rs:55-120 *)
  Definition internal_insert (nd : internal) (k : K) (p : nat) (is_right : bool)
    : res (internal * option (K * internal)) :=
    let d := length (in_keys nd) in
    let off := if is_right then 1 else 0 in
    if in_len nd <? d then
      let* (keys, ptrs, i, q) := internal_place off 0 (in_keys nd) (in_keys nd) (in_ptrs nd) k p in
      let* ptrs := if is_right then Ok ptrs else set_cell ptrs (i + 1) q in
      Ok (mkInternal (in_len nd + 1) keys ptrs, None)
    else
      let half := (d + 1) / 2 in
      let* s := internal_shift off half d 0
                  (mkShifting (in_keys nd) (in_ptrs nd) (repeat None d) (repeat 0 (d + 1)) k p) in
      let* at_ := checked_sub d 2 in
      let* skeys := set_cell (sh_skeys s) (at_ / 2) (Some (sh_k s)) in
      let* sptrs := set_cell (sh_sptrs s) (at_ / 2 + off) (sh_p s) in
      let* c := cell (sh_keys s) half in
      let* split_key := expect c in
      let* a := cell (sh_ptrs s) (half + 1) in
      let* b := cell sptrs (1 - off) in
      Ok (mkInternal half (list_set (sh_keys s) half None) (list_set (sh_ptrs s) (half + 1) b),
          Some (split_key, mkInternal (d / 2) skeys (list_set sptrs (1 - off) a))).

  (** node.rs:122-140 *)
  Definition internal_remove_at (nd : internal) (i : nat) (is_right : bool) : res (internal * (K * nat)) :=
    let* _ := assert (i <? in_len nd) in
    let off := if is_right then 1 else 0 in
    let n := in_len nd - 1 in
    let* keys := swap_up (in_keys nd) i (n - i) in
    let* ptrs := swap_up (in_ptrs nd) (i + off) (n - i) in
    let* ptrs := if is_right then Ok ptrs else swap ptrs n (n + 1) in
    let* q := cell ptrs (n + 1) in
    let* c := cell keys n in
    let* k := expect c in
    Ok (mkInternal n (list_set keys n None) (list_set ptrs (n + 1) 0), (k, q)).

  (** The loop of node.rs:149-161; [hi] is one more than the [hi] of the code, which is signed. *)
  Fixpoint internal_search_loop (fuel : nat) (keys : list (option K)) (key : K) (lo hi : nat) : res nat :=
    match fuel with
    | 0 => Timeout
    | S f =>
        if lo <? hi then
          let mid := lo + (hi - 1 - lo) / 2 in
          let* c := cell keys mid in
          match c with
          | None => internal_search_loop f keys key lo mid
          | Some x =>
              if is_gt (cmp x key) then internal_search_loop f keys key lo mid
              else internal_search_loop f keys key (mid + 1) hi
          end
        else Ok lo
    end.

  (** node.rs:142-163 *)
  Definition internal_search (nd : internal) (key : K) : res nat :=
    let d := length (in_keys nd) in
    let* _ := checked_pred d in
    internal_search_loop (S d) (in_keys nd) key 0 d.

  (** node.rs:165-175 *)
  Definition internal_merge (nd : internal) (split_key : K) (r : internal) : res internal :=
    let* _ := assert (in_len nd + in_len r <? length (in_keys nd)) in
    let* keys := set_cell (in_keys nd) (in_len nd) (Some split_key) in
    let* keys := copy_cells keys (in_keys r) (in_len nd + 1) (in_len r) 0 in
    let* ptrs := copy_cells (in_ptrs nd) (in_ptrs r) (in_len nd + 1) (in_len r) 0 in
    let* q := cell (in_ptrs r) (in_len r) in
    let* ptrs := set_cell ptrs (in_len nd + in_len r + 1) q in
    Ok (mkInternal (in_len nd + in_len r + 1) keys ptrs).
End BpNode.

Arguments leaf : clear implicits.
Arguments internal : clear implicits.
Arguments node : clear implicits.
Arguments insert_case : clear implicits.
