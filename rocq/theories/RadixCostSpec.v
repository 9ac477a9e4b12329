(** Vocabulary for the running time of the radix tree types. *)
From Verif Require Export RadixSpec.

(** The keys inserted are strings of bytes. *)
Definition inserts_bytes {T} (ops : list (radix_op T)) : Prop :=
  Forall (fun o => match o with XInsert k _ => Forall (fun b => b < 256) k | _ => True end) ops.

(** The length of the key that a call is given, or, for [min] and [max], that it returns *)
Definition key_length {T} (o : radix_op T) (out : map_out bytes T) : option nat :=
  match o with
  | XInsert k _ | XRemove k | XGet k | XGetMut k _ | XIndex k | XContains k => Some (length k)
  | XMin | XMax => match out with RKey (Some k) => Some (length k) | _ => Some 0 end
  | _ => None
  end.

(** Every call that looks for a single key took at most [f n] steps, where [n] is the length of the key. *)
Definition radix_steps_within {T} (f : nat -> nat) (ops : list (radix_op T)) (outs : list (map_out bytes T)) (steps : list nat) : Prop :=
  length steps = length ops /\
  forall i o out n c, nth_error ops i = Some o -> nth_error outs i = Some out -> nth_error steps i = Some c ->
    key_length o out = Some n -> c <= f n.
