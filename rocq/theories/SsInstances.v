(** A Bloom filter of eight bits on keys of one byte, used in the examples. *)
From Verif Require Export SsSpec CodecInstances.
From Coq Require Import Strings.Byte.

Definition bit (k : byte) : N := (byte_val k mod 8)%N.
#[export] Instance bits8 : Bloom byte := {|
  bloom := byte;
  bl_new _ := x00;
  bl_insert f k := byte_of (N.setbit (byte_val f) (bit k));
  bl_contains f k := N.testbit (byte_val f) (bit k);
  bl_codec := byte_codec |}.

Lemma byte_val_lt b : (byte_val b < 256)%N.
Proof. unfold byte_val. pose proof (Byte.to_N_bounded b). lia. Qed.
Lemma testbit_insert f k j : (j < 8)%N ->
  N.testbit (byte_val (byte_of (N.setbit (byte_val f) (bit k)))) j = (bit k =? j)%N || N.testbit (byte_val f) j.
Proof.
  intros L. unfold byte_of. destruct (Byte.of_N (N.setbit (byte_val f) (bit k) mod 256)) as [b|] eqn:E.
  - unfold byte_val at 1. rewrite (Byte.to_of_N _ E). change 256%N with (2 ^ 8)%N. rewrite N.mod_pow2_bits_low by exact L.
    now rewrite N.setbit_eqb.
  - apply Byte.of_N_None_iff in E. pose proof (N.mod_upper_bound (N.setbit (byte_val f) (bit k)) 256). lia.
Qed.
Lemma bit_lt k : (bit k < 8)%N.
Proof. unfold bit. apply N.mod_upper_bound. lia. Qed.
#[export] Instance bits8_laws : BloomLaws byte.
Proof.
  constructor; cbn [bloom bl_insert bl_contains bl_codec bits8].
  - intros f k k' E. rewrite testbit_insert by apply bit_lt.
    unfold cmp, byte_cmp in E. apply N.compare_eq in E. unfold bit, byte_val. now rewrite E, N.eqb_refl.
  - intros f k k' E. rewrite testbit_insert by apply bit_lt. rewrite E. apply orb_true_r.
  - apply byte_codec_laws.
Qed.
