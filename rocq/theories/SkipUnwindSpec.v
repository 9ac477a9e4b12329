(** What a SkipMap does when comparisons panic.  [shown] is what iteration yields; an insert that panicked puts its pair [aside]: it is
    never dropped, and later calls may meet it, and what they put aside, instead of the pairs shown.  Nothing here refers to a model. *)
From Coq Require Export Permutation.
From Verif Require Export MapSpec.

Section SkipUnwindSpec.
  Context {K V : Type} `{Cmp K}.
  Notation pairs := (list (K * V)).

  (** A call that returned and answered from the pairs shown, as an ordered map does; the length counts the pairs set aside. *)
  Inductive plain (o : map_op K V) (shown aside : pairs) : map_out K V -> pairs -> pairs -> Prop :=
  | plain_len : o = MLen -> plain o shown aside (RNat (length shown + length aside)) shown aside
  | plain_is_empty : o = MIsEmpty -> plain o shown aside (RBool (Nat.eqb (length shown + length aside) 0)) shown aside
  | plain_all : o = MClear \/ o = MIntoIter -> plain o shown aside (snd (map_spec_step shown o)) [] []
  | plain_other : o <> MLen -> o <> MIsEmpty -> o <> MClear -> o <> MIntoIter ->
      plain o shown aside (snd (map_spec_step shown o)) (fst (map_spec_step shown o)) aside.

  (** A call that returned and answered from the pairs set aside; the pairs shown do not change. *)
  Inductive astray (aside : pairs) : map_op K V -> map_out K V -> pairs -> Prop :=
  | astray_insert k v : astray aside (MInsert k v) (RPair None) ((k, v) :: aside)
  | astray_replace k v e r : cmp (fst e) k = Eq -> Permutation aside (e :: r) -> astray aside (MInsert k v) (RPair (Some e)) ((k, v) :: r)
  | astray_remove k e r : cmp (fst e) k = Eq -> Permutation aside (e :: r) -> astray aside (MRemove k) (RPair (Some e)) r
  | astray_no_remove k : astray aside (MRemove k) (RPair None) aside
  | astray_get k e : cmp (fst e) k = Eq -> In e aside -> astray aside (MGet k) (RVal (Some (snd e))) aside
  | astray_no_get k : astray aside (MGet k) (RVal None) aside
  | astray_get_mut k v e r : cmp (fst e) k = Eq -> Permutation aside (e :: r) ->
      astray aside (MGetMut k v) (RVal (Some (snd e))) ((fst e, v) :: r)
  | astray_no_get_mut k v : astray aside (MGetMut k v) (RVal None) aside
  | astray_index k e : cmp (fst e) k = Eq -> In e aside -> astray aside (MIndex k) (RIndex (Ok (snd e))) aside
  | astray_no_index k : astray aside (MIndex k) (RIndex Panic) aside
  | astray_contains k e : cmp (fst e) k = Eq -> In e aside -> astray aside (MContains k) (RBool true) aside
  | astray_no_contains k : astray aside (MContains k) (RBool false) aside
  | astray_floor k e : cmp (fst e) k <> Gt -> In e aside -> astray aside (MFloor k) (RKey (Some (fst e))) aside
  | astray_ceil k e : cmp (fst e) k <> Lt -> In e aside -> astray aside (MCeil k) (RKey (Some (fst e))) aside
  | astray_no_ceil k : astray aside (MCeil k) (RKey None) aside
  | astray_max e : In e aside -> astray aside MMax (RKey (Some (fst e))) aside.

  (** A call that panicked: an insert puts its pair aside, no other call changes anything. *)
  Definition put_aside (o : map_op K V) (aside : pairs) : pairs :=
    match o with MInsert k v => (k, v) :: aside | _ => aside end.

  (** [None] is a call that panicked; [lost] counts the pairs that were aside when the map was cleared. *)
  Inductive skip_call (shown aside : pairs) (lost : nat) (o : map_op K V) : option (map_out K V) -> pairs -> pairs -> nat -> Prop :=
  | call_plain out shown' aside' : plain o shown aside out shown' aside' ->
      skip_call shown aside lost o (Some out) shown' aside'
        (match o with MClear => lost + length aside | MIntoIter => 0 | _ => lost end)
  | call_astray out aside' : aside <> [] -> astray aside o out aside' -> skip_call shown aside lost o (Some out) shown aside' lost
  | call_panic : skip_call shown aside lost o None shown (put_aside o aside) lost.
  Inductive skip_history (shown aside : pairs) (lost : nat) : list (map_op K V * option (map_out K V)) -> pairs -> pairs -> nat -> Prop :=
  | history_nil : skip_history shown aside lost [] shown aside lost
  | history_cons o x shown1 aside1 lost1 tr shown2 aside2 lost2 : skip_call shown aside lost o x shown1 aside1 lost1 ->
      skip_history shown1 aside1 lost1 tr shown2 aside2 lost2 -> skip_history shown aside lost ((o, x) :: tr) shown2 aside2 lost2.

  (** No insert panicked. *)
  Definition no_insert_panicked (tr : list (map_op K V * option (map_out K V))) : Prop :=
    Forall (fun p => match p with (MInsert _ _, None) => False | _ => True end) tr.
End SkipUnwindSpec.
