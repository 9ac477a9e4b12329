(** What a map must still do when the comparison of its keys is arbitrary: not an order, not symmetric, and
    not even the same from one call to the next (keys with interior mutability, a wrong [Ord]).  The map is
    then only a list of pairs in some order, and a call may find any pair that compares equal, or none.  But
    pairs are neither lost nor invented, and every call returns.  Nothing here refers to any model. *)
From Verif Require Export MapSpec.

Section AnyOrderSpec.
  Context {K V : Type}.
  Implicit Types (l : list (K * V)) (c : Cmp K).

  (** The keys compare equal, in one of the two directions. *)
  Definition says_equal c (a b : K) : Prop := c a b = Eq \/ c b a = Eq.

  (** No pair, or one pair whose key compares equal to [k]. *)
  Definition found c (k : K) l : Prop :=
    match l with [] => True | [p] => says_equal c (fst p) k | _ => False end.

  (** A call [o] under comparison [c] takes the pairs [l] to [l'] and returns [r]. *)
  Inductive loose_step c : list (K * V) -> map_op K V -> list (K * V) -> map_out K V -> Prop :=
  | loose_insert P M Q k v : found c k M ->
      loose_step c (P ++ M ++ Q) (MInsert k v) (P ++ (k, v) :: Q) (RPair (hd_error M))
  | loose_remove P M Q k : found c k M ->
      loose_step c (P ++ M ++ Q) (MRemove k) (P ++ Q) (RPair (hd_error M))
  | loose_get P M Q k : found c k M ->
      loose_step c (P ++ M ++ Q) (MGet k) (P ++ M ++ Q) (RVal (option_map snd (hd_error M)))
  | loose_get_mut P M Q k v : found c k M ->
      loose_step c (P ++ M ++ Q) (MGetMut k v) (P ++ map (fun p => (fst p, v)) M ++ Q)
        (RVal (option_map snd (hd_error M)))
  | loose_index P M Q k : found c k M ->
      loose_step c (P ++ M ++ Q) (MIndex k) (P ++ M ++ Q) (RIndex (expect (option_map snd (hd_error M))))
  | loose_contains P M Q k : found c k M ->
      loose_step c (P ++ M ++ Q) (MContains k) (P ++ M ++ Q) (RBool (match M with [] => false | _ => true end))
  | loose_floor l k x : (forall a, x = Some a -> In a (map fst l)) -> loose_step c l (MFloor k) l (RKey x)
  | loose_ceil l k x : (forall a, x = Some a -> In a (map fst l)) -> loose_step c l (MCeil k) l (RKey x)
  | loose_min l : loose_step c l MMin l (RKey (option_map fst (hd_error l)))
  | loose_max l : loose_step c l MMax l (RKey (option_map fst (last_error l)))
  | loose_len l : loose_step c l MLen l (RNat (length l))
  | loose_is_empty l : loose_step c l MIsEmpty l (RBool (Nat.eqb (length l) 0))
  | loose_clear l : loose_step c l MClear [] RUnit
  | loose_iter l : loose_step c l MIter l (RList l)
  | loose_iter_mut l vs : loose_step c l (MIterMut vs) (write_vals l vs) (RList (firstn (length vs) l))
  | loose_into_iter l : loose_step c l MIntoIter [] (RList l).

  (** A sequence of calls, each under a comparison of its own. *)
  Inductive loose_run : list (K * V) -> list (Cmp K * map_op K V) -> list (map_out K V) -> list (K * V) -> Prop :=
  | loose_nil l : loose_run l [] [] l
  | loose_cons l c o l1 r ops rs l2 :
      loose_step c l o l1 r -> loose_run l1 ops rs l2 -> loose_run l ((c, o) :: ops) (r :: rs) l2.

  (** The pairs given to the map, and the pairs it gave back, in a sequence of calls without writes in
      place.  ([clear] drops what [iter] would have shown.) *)
  Definition handed_in (o : map_op K V) : list (K * V) := match o with MInsert k v => [(k, v)] | _ => [] end.
  Definition handed_out (o : map_op K V) (r : map_out K V) : list (K * V) :=
    match o, r with
    | MInsert _ _, RPair (Some p) | MRemove _, RPair (Some p) => [p]
    | MIntoIter, RList l => l
    | _, _ => []
    end.
  Fixpoint given_back (ops : list (map_op K V)) (rs : list (map_out K V)) : list (K * V) :=
    match ops, rs with o :: ops, r :: rs => handed_out o r ++ given_back ops rs | _, _ => [] end.
  Definition in_place (o : map_op K V) : bool := match o with MGetMut _ _ | MIterMut _ | MClear => true | _ => false end.
End AnyOrderSpec.
