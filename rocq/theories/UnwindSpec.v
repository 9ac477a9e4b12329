(** What the tree maps do when comparisons panic: the pairs and the reported length are kept apart.
    Nothing here refers to a model. *)
From Verif Require Export MapSpec.

Section UnwindSpec.
  Context {K V : Type} `{Cmp K}.
  Notation pairs := (list (K * V)).

  Definition before (k : K) (l : pairs) : Prop := Forall (fun p => cmp (fst p) k = Lt) l.
  Definition after (k : K) (l : pairs) : Prop := Forall (fun p => cmp (fst p) k = Gt) l.

  (** What a call that panicked may leave of the pairs [l]. *)
  (** AvlMap, RedBlackMap: nothing after remove, everything after any other call *)
  Definition all_or_none (o : map_op K V) (l l' : pairs) : Prop :=
    match o with MRemove _ => l' = [] | _ => l' = l end.
  (** SplayMap: some pairs around the key, if the call reorders the tree; possibly nothing after remove of a key that is there *)
  Definition around_key (k : K) (l l' : pairs) : Prop := exists a b, l = a ++ l' ++ b /\ before k a /\ after k b.
  Definition around_or_none (o : map_op K V) (l l' : pairs) : Prop :=
    match o with
    | MInsert k _ | MGetMut k _ => around_key k l l'
    | MRemove k => around_key k l l' \/ at_key k l <> [] /\ l' = []
    | _ => l' = l
    end.
  (** TreapMap: possibly some pairs around the key are lost by insert. *)
  Definition all_but_around (o : map_op K V) (l l' : pairs) : Prop :=
    match o with
    | MInsert k _ => l' = l \/ exists a m b, l = a ++ m ++ b /\ l' = a ++ b /\ before k a /\ after k b
    | _ => l' = l
    end.

  (** What a user expects: a call that panicked changed nothing. *)
  Definition everything (o : map_op K V) (l l' : pairs) : Prop := l' = l.

  (** The length that is reported after a call that returned: it changes as the number of pairs does. *)
  Definition counted (o : map_op K V) (l : pairs) (n : nat) : nat :=
    match o with
    | MClear | MIntoIter => 0
    | _ => n + length (fst (map_spec_step l o)) - length l
    end.
  Definition answer (o : map_op K V) (l : pairs) (n : nat) : map_out K V :=
    match o with
    | MLen => RNat n
    | MIsEmpty => RBool (Nat.eqb n 0)
    | _ => snd (map_spec_step l o)
    end.

  (** AvlMap, RedBlackMap, SplayMap: [n] is the reported length; [None] is a call that panicked.  An insert that panicked is counted. *)
  Fixpoint unwind_trace (leaves : map_op K V -> pairs -> pairs -> Prop) (l : pairs) (n : nat)
      (tr : list (map_op K V * option (map_out K V))) : Prop :=
    match tr with
    | [] => True
    | (o, Some out) :: tr' => out = answer o l n /\ unwind_trace leaves (fst (map_spec_step l o)) (counted o l n) tr'
    | (o, None) :: tr' => exists l', leaves o l l' /\
        unwind_trace leaves l' (match o with MInsert _ _ => S n | _ => n end) tr'
    end.

  (** TreapMap: the reported length is between the number of pairs and [n], the same with the lost ones; it is 0 if there are no pairs. *)
  Fixpoint unwind_trace_within (leaves : map_op K V -> pairs -> pairs -> Prop) (l : pairs) (n : nat)
      (tr : list (map_op K V * option (map_out K V))) : Prop :=
    match tr with
    | [] => True
    | (o, Some out) :: tr' => (exists x, length l <= x <= n /\ (l = [] -> x = 0) /\ out = answer o l x) /\
        unwind_trace_within leaves (fst (map_spec_step l o)) (counted o l n) tr'
    | (o, None) :: tr' => exists l', leaves o l l' /\ unwind_trace_within leaves l' n tr'
    end.
End UnwindSpec.
