(** Vocabulary for the properties of the directory of an [LsmMap]. *)
From Verif Require Export LsmMetaModel LsmBytesSpec LsmSpec LeveledSpec.

(** Numbers of the configuration fit into 64 bits. *)
Definition small_lconfig (c : lconfig) : Prop :=
  (lc_max_mem c < 2 ^ 64)%N /\ small (lc_max_count c) /\ (lc_max_size c < 2 ^ 64)%N /\ (lc_initial c < 2 ^ 64)%N /\ (lc_growth c < 2 ^ 64)%N.
Definition small_bconfig (c : bconfig) : Prop :=
  (bc_max_mem c < 2 ^ 64)%N /\ small (bc_max_count c) /\ (bc_min_size c < 2 ^ 64)%N /\ (bc_low c < 2 ^ 64)%N /\ (bc_high c < 2 ^ 64)%N.

Section LsmMetaSpec.
  Context {K V : Type} `{Cmp K} {CK : Codec K} {CV : Codec V} {B : Bloom K}.
  (** The path of a table *)
  Context (name : nat -> path).
  Definition path_of (t : table K V) : path := name (t_id t).

  (** What is written for metadata *)
  Definition paths (m : lmeta K V) : tabs K path :=
    mkTabs (map path_of (lm_tabs m)) (map (map (fun kt => (fst kt, path_of (snd kt)))) (lm_levels m)).
  (** Fewer than 2^64 tables and levels, and names of fewer than 2^64 bytes *)
  Definition small_tables (l : list (table K V)) : Prop := small (length l) /\ Forall (fun t => small (length (path_of t))) l.
  Definition small_meta (m : lmeta K V) : Prop :=
    small_tables (lm_tabs m) /\ small (length (lm_levels m)) /\ Forall (fun l => small_tables (map snd l)) (lm_levels m).

  (** The directory of [t] holds the files that the builder of [t] writes. *)
  Definition stored (dirs : path -> option files) (t : table K V) : Prop :=
    exists hint f, dirs (path_of t) = Some f /\ build hint (t_es t) = Ok f /\ small_files f /\
      tb_build (Z := encoded_sizes) (t_id t) hint (t_es t) = Ok t.

  (** What is opened for [t] shows [t]. *)
  Definition opened (t : table K V) (x : path * sstable (K := K)) : Prop := fst x = path_of t /\ shows t (snd x).
  Definition opened_at (kt : K * table K V) (x : K * (path * sstable (K := K))) : Prop := fst x = fst kt /\ opened (snd kt) (snd x).
End LsmMetaSpec.
