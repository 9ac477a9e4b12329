(** Vocabulary that ties the tables of LsmTableModel.v, which hold entries, to those of SsModel.v, which hold bytes. *)
From Verif Require Export SsSpec LsmTableSpec LsmMapModel.

Section LsmBytesSpec.
  Context {K V : Type} `{Cmp K} {CK : Codec K} {CV : Codec V} {B : Bloom K}.

  (** [serialized_size]: the number of bytes of the encoding *)
  Definition encoded_sizes : Sizes K V :=
    {| ksize k := N.of_nat (length (enc k)); vsize v := N.of_nat (length (enc_sval v)) |}.

  (** The opened table [b] shows what the table [t] of the other model shows: the summary, the entries in their order,
      and the version of every key. *)
  Record shows (t : table K V) (b : sstable (K := K)) : Prop := mkShows {
    sh_count : su_count (st_summary b) = t_count t;
    sh_tombs : su_tombs (st_summary b) = t_tombs t;
    sh_size : su_size (st_summary b) = t_size t;
    sh_range : su_range (st_summary b) = t_range t;
    sh_times : su_times (st_summary b) = t_times t;
    sh_iter : data_iter b = Ok (t_es t);
    sh_get : forall k, SsModel.st_get b k = tab_get (fun _ => true) t k }.

  (** Files were built from the entries of [t] with some entry count hint, and if they are not too large for 64-bit
      offsets, they open to a table that shows [t]. *)
  Definition on_disk (t : table K V) : Prop :=
    exists hint f, build hint (t_es t) = Ok f /\ (small_files f -> exists b, SsModel.st_new f = Ok b /\ shows t b).

  (** The metadata that a state refers to: the current and the next one, that of the compaction thread, and the one in
      metadata.dat *)
  Definition refers {M} (s : lsm K V M) (m : M) : Prop :=
    m = cur s \/ nxt s = Some m \/ thr s = TRun m \/ d_meta (disk_of (log s)) = Some m.
End LsmBytesSpec.
