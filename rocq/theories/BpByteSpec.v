(** Vocabulary for the properties of the file of the on-disk B+ tree. *)
From Verif Require Export BpByteModel BincodeSpec.

Section BpByteSpec.
  Context {K V : Type}.
  Notation node := (node K V).
  (** All numbers in the node fit in 64 bits. *)
  Definition small_node (n : node) : Prop :=
    match n with
    | Internal i => small (in_len i) /\ small (length (in_keys i)) /\ small (length (in_ptrs i)) /\ Forall small (in_ptrs i)
    | Leaf l => small (lf_len l) /\ small (length (lf_entries l)) /\ small_opt (lf_next l)
    | Free nx => small_opt nx
    end.

  Context {CK : Codec K} {CV : Codec V}.
  (** Nodes of the configured degrees with keys and values of the configured sizes. *)
  Definition within (cfg : config) (n : node) : Prop :=
    match n with
    | Leaf l => length (lf_entries l) = leaf_degree cfg /\
        Forall (fun o => match o with Some e => valid esize esize cfg (fst e) (snd e) = true | None => True end) (lf_entries l)
    | Internal i => length (in_keys i) = internal_degree cfg /\ length (in_ptrs i) = internal_degree cfg + 1 /\
        Forall (fun o => match o with Some k => (esize k <= key_size cfg)%N | None => True end) (in_keys i)
    | Free _ => True
    end.
End BpByteSpec.

Definition small_meta (mt : meta) : Prop :=
  small (md_pages mt) /\ small (md_len mt) /\ small (md_root mt) /\ small_opt (md_free mt).
Definition small_config (c : config) : Prop :=
  (key_size c < 2 ^ 64)%N /\ (value_size c < 2 ^ 64)%N /\ small (leaf_degree c) /\ small (internal_degree c).

(** The largest leaf and the largest internal node fit into a page (theorem C31_fits_iff). *)
Definition fits_page (ly : layout) (cfg : config) : Prop :=
  (29 + N.of_nat (leaf_degree cfg) * (1 + key_size cfg + value_size cfg) <= N.of_nat (page_size ly cfg) /\
   36 + N.of_nat (internal_degree cfg) * (9 + key_size cfg) <= N.of_nat (page_size ly cfg))%N.
