(** Vocabulary for running times. *)
From Verif Require Export MapSpec SeqSpec SetAlgSpec.

Section CostSpec.
  Context {K V : Type} `{Cmp K}.

  (** The calls that take the map by [&mut self] and look for a key *)
  Definition adjusting (o : map_op K V) : bool :=
    match o with MInsert _ _ | MRemove _ | MGetMut _ _ => true | _ => false end.

  (** How many keys are in the map when each of the calls is made *)
  Fixpoint lengths_before (l : list (K * V)) (ops : list (map_op K V)) : list nat :=
    match ops with
    | [] => []
    | o :: ops' => length l :: lengths_before (fst (map_spec_step l o)) ops'
    end.

  (** The calls that look for a single key *)
  Definition looks_up (o : map_op K V) : bool :=
    match o with
    | MInsert _ _ | MRemove _ | MGet _ | MGetMut _ _ | MIndex _ | MContains _ | MFloor _ | MCeil _ | MMin | MMax => true
    | _ => false
    end.

  Definition insert_or_remove (o : map_op K V) : bool := match o with MInsert _ _ | MRemove _ => true | _ => false end.

  (** Every call that looks for a single key took at most [f n] steps, where [n] is the number of keys in the map before it. *)
  Definition steps_within (f : nat -> nat) (ops : list (map_op K V)) (steps : list nat) : Prop :=
    length steps = length ops /\
    forall i o n c, nth_error ops i = Some o -> nth_error (lengths_before [] ops) i = Some n -> nth_error steps i = Some c ->
      looks_up o = true -> c <= f n.

  (** How many times each key that is present was inserted since it was last absent; [insertions]: these numbers added up *)
  Definition insertions_step (l : list (K * nat)) (o : map_op K V) : list (K * nat) :=
    match o with
    | MInsert k _ => below k l ++ (k, S (match at_key k l with (_, n) :: _ => n | [] => 0 end)) :: above k l
    | MRemove k => below k l ++ above k l
    | MClear | MIntoIter => []
    | _ => l
    end.
  Definition insertions (ops : list (map_op K V)) : nat := list_sum (map snd (fold_left insertions_step ops [])).

  (** No key is inserted while it is present. *)
  Fixpoint inserts_absent (l : list (K * V)) (ops : list (map_op K V)) : Prop :=
    match ops with
    | [] => True
    | o :: ops' => match o with MInsert k _ => at_key k l = [] | _ => True end /\ inserts_absent (fst (map_spec_step l o)) ops'
    end.

  (** The sum of the numbers that belong to adjusting calls *)
  Fixpoint adjusting_sum (ops : list (map_op K V)) (ns : list nat) : nat :=
    match ops, ns with
    | o :: ops', n :: ns' => (if adjusting o then n else 0) + adjusting_sum ops' ns'
    | _, _ => 0
    end.
End CostSpec.

(** Programs over several maps. *)
Section SetWith.
  Context {K W : Type} `{Cmp K}.
  (** The set operations on maps, except that the value of a key that is in both is made of both values. *)
  Definition joined (c : W -> W -> W) (b : list (K * W)) (x : K * W) : K * W :=
    (fst x, match at_key (fst x) b with (_, w) :: _ => c (snd x) w | [] => snd x end).
  Definition set_with (c : W -> W -> W) (s : set_op) (a b : list (K * W)) : list (K * W) :=
    match s with
    | SUnion => spec_union (map (joined c b) a) b
    | SInter => map (joined c b) (spec_inter a b)
    | SDiff => spec_diff a b
    | SSymDiff => spec_symdiff a b
    end.
End SetWith.

Section ProgCost.
  Context {K V : Type} `{Cmp K}.
  (** How many times each key that is present was inserted, in this map or one it was made of, since it was last absent *)
  Definition counts_step (rs : nat -> list (K * nat)) (o : prog_op K V) : nat -> list (K * nat) :=
    match o with
    | POp i o => update rs i (insertions_step (rs i) o)
    | PSet s d i j =>
        let a := rs i in let rs1 := update rs i [] in
        let b := rs1 j in let rs2 := update rs1 j [] in
        update rs2 d (set_with Nat.add s a b)
    | PSplit d i k inc =>
        let (stay, give) := spec_split k inc (rs i) in update (update rs i stay) d give
    end.
  Definition counts (ops : list (prog_op K V)) : nat -> list (K * nat) := fold_left counts_step ops (fun _ => []).
End ProgCost.
(** These numbers added up *)
Definition inserted {K} (l : list (K * nat)) : nat := list_sum (map snd l).

(** The calls of a sequence that look for a single index, and how long the sequence is when each call is made *)
Definition seeks {T} (o : seq_op T) : bool :=
  match o with
  | QInsert _ _ | QRemove _ | QPushFront _ | QPushBack _ | QPopFront | QPopBack | QGet _ | QGetMut _ _ | QIndex _ | QIndexMut _ _ => true
  | _ => false
  end.
Fixpoint seq_lengths_before {T} (l : list T) (ops : list (seq_op T)) : list nat :=
  match ops with
  | [] => []
  | o :: ops' => length l :: seq_lengths_before (fst (seq_spec_step l o)) ops'
  end.
