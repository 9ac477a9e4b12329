(** Specification vocabulary for the radix tree types: byte strings and their order, the calls, common
    prefixes.  Nothing here refers to the model. *)
From Verif Require Export MapSpec KeySetSpec.

(** A key is a string of bytes; a byte is a number (the bound 255 is never used). *)
Definition bytes : Type := list nat.

(** Lexicographic order ([Ord] on slices). *)
Fixpoint bytes_compare (a b : bytes) : comparison :=
  match a, b with
  | [], [] => Eq
  | [], _ :: _ => Lt
  | _ :: _, [] => Gt
  | x :: a', y :: b' => match Nat.compare x y with Eq => bytes_compare a' b' | c => c end
  end.
#[export] Instance bytes_cmp : Cmp bytes := bytes_compare.

(** API calls of RadixMap (there is no floor / ceil). *)
Inductive radix_op (T : Type) : Type :=
| XInsert (k : bytes) (v : T) | XRemove (k : bytes) | XGet (k : bytes) | XGetMut (k : bytes) (v : T)
| XIndex (k : bytes) | XContains (k : bytes) | XMin | XMax | XLen | XIsEmpty | XClear
| XIter | XIterMut (vs : list T) | XIntoIter.
Arguments XInsert {T}. Arguments XRemove {T}. Arguments XGet {T}. Arguments XGetMut {T}. Arguments XIndex {T}.
Arguments XContains {T}. Arguments XMin {T}. Arguments XMax {T}. Arguments XLen {T}. Arguments XIsEmpty {T}.
Arguments XClear {T}. Arguments XIter {T}. Arguments XIterMut {T}. Arguments XIntoIter {T}.

Section RadixSpec.
  Context {T : Type}.

  (** The same call on a plain ordered map. *)
  Definition radix_map_op (o : radix_op T) : map_op bytes T :=
    match o with
    | XInsert k v => MInsert k v
    | XRemove k => MRemove k
    | XGet k => MGet k
    | XGetMut k v => MGetMut k v
    | XIndex k => MIndex k
    | XContains k => MContains k
    | XMin => MMin
    | XMax => MMax
    | XLen => MLen
    | XIsEmpty => MIsEmpty
    | XClear => MClear
    | XIter => MIter
    | XIterMut vs => MIterMut vs
    | XIntoIter => MIntoIter
    end.

  (** The pairs stored after the calls [ops]. *)
  Definition radix_contents (ops : list (radix_op T)) : list (bytes * T) :=
    fst (spec_run map_spec_step [] (map radix_map_op ops)).

  (** [ops] has no insert that comes after a remove that left the map empty, unless the map was cleared or
      consumed in between.  [l]: pairs stored now; [dead]: such a remove has happened. *)
  Fixpoint inserts_safe (l : list (bytes * T)) (dead : bool) (ops : list (radix_op T)) : bool :=
    match ops with
    | [] => true
    | o :: ops' =>
        let l' := fst (map_spec_step l (radix_map_op o)) in
        match o with
        | XInsert _ _ => if dead then false else inserts_safe l' false ops'
        | XRemove _ => inserts_safe l' (dead || match l' with [] => true | _ => false end) ops'
        | XClear | XIntoIter => inserts_safe l' false ops'
        | _ => inserts_safe l' dead ops'
        end
    end.
End RadixSpec.

(** Length of the longest common prefix of two strings. *)
Fixpoint lcp (a b : bytes) : nat :=
  match a, b with
  | x :: a', y :: b' => if Nat.eqb x y then S (lcp a' b') else 0
  | _, _ => 0
  end.

(** Length of the longest common prefix that [k] has with a key of [l]. *)
Definition best_lcp {T} (k : bytes) (l : list (bytes * T)) : nat :=
  fold_right Nat.max 0 (map (fun p => lcp (fst p) k) l).

(** The keys of [l] whose common prefix with [k] is longest, in the order of [l]. *)
Definition longest_prefix_keys {T} (k : bytes) (l : list (bytes * T)) : list bytes :=
  map fst (filter (fun p => Nat.eqb (lcp (fst p) k) (best_lcp k l)) l).

(** All strings of [ks] have the same byte at position [m], or all end before it. *)
Definition same_next (m : nat) (ks : list bytes) : bool :=
  match ks with
  | [] => true
  | q :: ks' =>
      forallb (fun q' => match nth_error q m, nth_error q' m with
                         | Some x, Some y => Nat.eqb x y
                         | None, None => true
                         | _, _ => false
                         end) ks'
  end.

(** What [get_longest_prefix] actually answers: all best keys if [k] is used up or the best keys do not
    branch right after the common prefix, otherwise only the common prefix itself, if it is a key. *)
Definition longest_prefix_answer {T} (k : bytes) (l : list (bytes * T)) : list bytes :=
  let best := longest_prefix_keys k l in
  let m := best_lcp k l in
  if Nat.eqb m (length k) || same_next m best then best
  else filter (fun q => Nat.eqb (length q) m) best.

(** A remove has been called since the map was made, cleared or consumed; removing an absent key counts. *)
Definition remove_called {T} (ops : list (radix_op T)) : bool :=
  fold_left (fun b o => match o with XRemove _ => true | XClear | XIntoIter => false | _ => b end) ops false.

(** What [get_longest_prefix] answers for every query: as above, except that a non-empty query that shares
    no byte with any key finds at most the empty key until a remove has been called. *)
Definition longest_prefix_exact {T} (removed : bool) (k : bytes) (l : list (bytes * T)) : list bytes :=
  if Nat.eqb (best_lcp k l) 0 && negb (Nat.eqb (length k) 0) && negb removed
  then filter (fun q => Nat.eqb (length q) 0) (longest_prefix_keys k l)
  else longest_prefix_answer k l.

(** RadixSet calls (no floor / ceil). *)
Inductive rset_op : Type :=
| YInsert (k : bytes) | YRemove (k : bytes) | YContains (k : bytes) | YMin | YMax | YLen | YIsEmpty | YClear
| YIter | YIntoIter.

(** The same call on an ordered set, and on a map with values [()]. *)
Definition rset_kset (o : rset_op) : kset_op bytes :=
  match o with
  | YInsert k => KInsert k
  | YRemove k => KRemove k
  | YContains k => KContains k
  | YMin => KMin
  | YMax => KMax
  | YLen => KLen
  | YIsEmpty => KIsEmpty
  | YClear => KClear
  | YIter => KIter
  | YIntoIter => KIntoIter
  end.
Definition rset_map (o : rset_op) : radix_op unit :=
  match o with
  | YInsert k => XInsert k tt
  | YRemove k => XRemove k
  | YContains k => XContains k
  | YMin => XMin
  | YMax => XMax
  | YLen => XLen
  | YIsEmpty => XIsEmpty
  | YClear => XClear
  | YIter => XIter
  | YIntoIter => XIntoIter
  end.
