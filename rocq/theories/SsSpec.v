(** Vocabulary for the properties of sorted string tables. *)
From Verif Require Export SsModel MapSpec BincodeSpec.

(** A Bloom filter: no false negatives; equal keys are treated alike; it survives being written and read. *)
Class BloomLaws (K : Type) {C : Cmp K} {B : Bloom K} : Prop := {
  bl_insert_same : forall (f : bloom) (k k' : K), cmp k k' = Eq -> bl_contains (bl_insert f k) k' = true;
  bl_insert_other : forall (f : bloom) (k k' : K), bl_contains f k' = true -> bl_contains (bl_insert f k) k' = true;
  bl_codec_laws : CodecLaws bloom
}.
#[export] Existing Instance bl_codec_laws.

Section SsSpec.
  Context {K V : Type} `{Cmp K}.
  Notation entry := (K * sval V)%type.
  (** The version stored for a key, tombstone or not *)
  Definition version_of (es : list entry) (k : K) : option (sval V) := option_map snd (hd_error (at_key k es)).
  Definition tombstones (es : list entry) : list entry :=
    filter (fun e => match sv_data (snd e) with None => true | Some _ => false end) es.
  (** The least and the greatest logical time of the entries *)
  Definition time_range (es : list entry) (r : N * N) : Prop :=
    let times := map (fun e => sv_time (snd e)) es in
    (In (fst r) times /\ In (snd r) times) /\ Forall (fun t => (fst r <= t <= snd r)%N) times.
  (** Logical times fit into 64 bits. *)
  Definition small_times (es : list entry) : Prop := Forall (fun e => (sv_time (snd e) < 2 ^ 64)%N) es.
End SsSpec.

(** The files of a table are shorter than 2^64 bytes. *)
Definition small_files (f : files) : Prop := small (length (f_data f) + length (f_index f)).
