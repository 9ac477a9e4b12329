(** Vocabulary for what a lookup in a sorted string table reads. *)
From Verif Require Export SsReadModel SsSpec.

(** [part] and then the elements of [l], in groups of [n]; the last group may be smaller.  With [n = 0] there is one group. *)
Fixpoint cut {A} (n : nat) (part l : list A) : list (list A) :=
  match l with
  | [] => match part with [] => [] | _ => [part] end
  | x :: r => if length (part ++ [x]) =? n then (part ++ [x]) :: cut n [] r else cut n (part ++ [x]) r
  end.

Section SsReadSpec.
  Context {K V : Type} `{Cmp K} {CK : Codec K} {CV : Codec V}.
  Notation entry := (K * sval V)%type.
  (** The key is before the first or after the last key of the entries. *)
  Definition outside_of (es : list entry) (k : K) : bool :=
    match hd_error es, last_error es with
    | Some a, Some b => is_lt (cmp k (fst a)) || is_gt (cmp k (fst b))
    | _, _ => true
    end.
  (** The last group that begins with the key or before it *)
  Definition home (groups : list (list K)) (k : K) : option (list K) :=
    last_error (filter (fun g => match g with a :: _ => negb (is_gt (cmp a k)) | [] => false end) groups).
  (** The index entries of the group, with their number and length in bytes before them *)
  Definition index_bytes (g : list K) : nat := 16 + list_sum (map (fun k => length (enc k) + 8) g).
  Definition entry_bytes (e : entry) : nat := 8 + length (enc (fst e)) + length (enc_sval (snd e)).
  (** What a lookup reads; [maybe] is the answer of the Bloom filter. *)
  Definition reads_of (n : nat) (maybe : bool) (es : list entry) (k : K) : list (file_name * nat) :=
    if outside_of es k || negb maybe then []
    else match home (cut n [] (map fst es)) k with
         | None => []
         | Some g => (IndexFile, index_bytes g) :: map (fun e => (DataFile, entry_bytes e)) (at_key k es)
         end.
End SsReadSpec.
