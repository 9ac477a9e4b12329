(** Round trips of the encodings used by the on-disk B+ tree. *)
From Verif Require Import ListLemmas.
From Verif Require Export BpByteSpec BincodeProofs.

Section Node.
  Context {K V : Type} {CK : Codec K} {CV : Codec V} {LK : CodecLaws K} {LV : CodecLaws V}.
  Notation node := (node K V).

  Lemma dec_entry_enc (e : K * V) r : dec_entry (enc_entry e ++ r) = Some (e, r).
  Proof.
    destruct e as [k v]. unfold dec_entry, enc_entry, pbind, pret. cbn [fst snd]. rewrite <- app_assoc.
    now rewrite !dec_enc.
  Qed.
  Lemma all_true {A} (l : list A) : Forall (fun _ => True) l.
  Proof. induction l; auto. Qed.

  Lemma dec_node_enc (n : node) r : small_node n -> dec_node (enc_node n ++ r) = Some (n, r).
  Proof.
    intros S. unfold dec_node, enc_node. destruct n as [[n ks ps]|[n es nx]|nx]; cbn in S; unfold pbind; rewrite <- ?app_assoc.
    - destruct S as (S1 & S2 & S3 & S4). cbn [in_len in_keys in_ptrs]. rewrite dec_u32_enc by reflexivity.
      rewrite dec_usize_enc by exact S1.
      rewrite (dec_slice_enc _ _ (fun _ => True)); auto using enc_opt_pos, all_true.
      + rewrite (dec_slice_enc _ _ small); auto using dec_usize_enc, enc_usize_pos.
      + intros o r' _. apply (dec_opt_enc _ _ (fun _ => True)); [intros; apply dec_enc|]. destruct o; exact I.
    - destruct S as (S1 & S2 & S3). cbn [lf_len lf_entries lf_next]. rewrite dec_u32_enc by reflexivity.
      rewrite dec_usize_enc by exact S1.
      rewrite (dec_slice_enc _ _ (fun _ => True)); auto using enc_opt_pos, all_true.
      + rewrite (dec_opt_enc _ _ small); auto using dec_usize_enc.
      + intros o r' _. apply (dec_opt_enc _ _ (fun _ => True)); [intros; apply dec_entry_enc|]. destruct o; exact I.
    - rewrite dec_u32_enc by reflexivity. rewrite (dec_opt_enc _ _ small); auto using dec_usize_enc.
  Qed.
End Node.

Lemma dec_meta_enc c mt r : small_config c -> small_meta mt -> dec_meta (enc_meta c mt ++ r) = Some ((c, mt), r).
Proof.
  intros (C1 & C2 & C3 & C4) (M1 & M2 & M3 & M4). unfold dec_meta, enc_meta, pbind. rewrite <- !app_assoc.
  rewrite !dec_usize_enc by assumption. rewrite !dec_u64_enc by assumption. rewrite !dec_usize_enc by assumption.
  rewrite (dec_opt_enc _ _ small); auto using dec_usize_enc. unfold pret. now destruct c, mt.
Qed.

(** Metadata always fits into its place. *)
Lemma enc_meta_length c mt : length (enc_meta c mt) <= header_size.
Proof.
  unfold enc_meta, header_size. rewrite !app_length, !enc_usize_length. unfold enc_u64. rewrite !le_length.
  destruct (md_free mt); cbn [enc_opt length]; rewrite ?enc_usize_length; lia.
Qed.
