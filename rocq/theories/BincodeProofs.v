(** Round trips of the encodings of BincodeModel.v. *)
From Verif Require Import ListLemmas.
From Verif Require Export BincodeSpec.

Lemma byte_of_val n : byte_val (byte_of n) = (n mod 256)%N.
Proof.
  unfold byte_of, byte_val. destruct (Byte.of_N (n mod 256)) as [b|] eqn:E.
  - now apply Byte.to_of_N.
  - apply Byte.of_N_None_iff in E. pose proof (N.mod_upper_bound n 256). lia.
Qed.
Lemma le_length k : forall n, length (le k n) = k.
Proof. induction k as [|k IH]; intros n; cbn; auto. Qed.
Lemma unle_le k : forall n, unle (le k n) = (n mod 256 ^ N.of_nat k)%N.
Proof.
  induction k as [|k IH]; intros n.
  - cbn. now rewrite N.mod_1_r.
  - cbn [le unle]. rewrite byte_of_val, IH. rewrite Nat2N.inj_succ, N.pow_succ_r'.
    rewrite N.mod_mul_r by (try apply N.pow_nonzero; lia). reflexivity.
Qed.
Lemma take_app k a r : length a = k -> take k (a ++ r) = Some (a, r).
Proof.
  intros E. unfold take. rewrite app_length, E. rewrite (proj2 (Nat.leb_le k (k + length r))) by lia.
  rewrite firstn_app, skipn_app, E, Nat.sub_diag, <- E, firstn_all, skipn_all. cbn. now rewrite app_nil_r.
Qed.

Lemma dec_u64_enc n r : (n < 2 ^ 64)%N -> dec_u64 (enc_u64 n ++ r) = Some (n, r).
Proof.
  intros B. unfold dec_u64, enc_u64, pbind, pret. rewrite take_app by apply le_length. rewrite unle_le.
  change (256 ^ N.of_nat 8)%N with (2 ^ 64)%N. now rewrite N.mod_small.
Qed.
Lemma dec_usize_enc n r : small n -> dec_usize (enc_usize n ++ r) = Some (n, r).
Proof.
  intros B. unfold dec_usize, enc_usize, pbind, pret. rewrite dec_u64_enc by exact B. now rewrite Nat2N.id.
Qed.
Lemma dec_u32_enc n r : (n < 2 ^ 32)%N -> dec_u32 (enc_u32 n ++ r) = Some (n, r).
Proof.
  intros B. unfold dec_u32, enc_u32, pbind, pret. rewrite take_app by apply le_length. rewrite unle_le.
  change (256 ^ N.of_nat 4)%N with (2 ^ 32)%N. now rewrite N.mod_small.
Qed.

Section Containers.
  Context {A : Type} (ea : A -> list byte) (da : parser A) (ok : A -> Prop).
  Hypothesis rt : forall a r, ok a -> da (ea a ++ r) = Some (a, r).

  Definition ok_opt (o : option A) : Prop := match o with None => True | Some a => ok a end.
  Lemma dec_opt_enc o r : ok_opt o -> dec_opt da (enc_opt ea o ++ r) = Some (o, r).
  Proof. destruct o as [a|]; cbn; [|reflexivity]. intros B. now rewrite rt. Qed.

  Hypothesis pos : forall a, ea a <> [].
  Lemma items_length l : length l <= length (flat_map ea l).
  Proof.
    induction l as [|a l IH]; cbn; [lia|]. rewrite app_length. specialize (pos a). destruct (ea a); [congruence|].
    cbn. lia.
  Qed.
  Lemma dec_items_enc l r : Forall ok l -> forall fuel, length l <= fuel ->
    dec_items da fuel (N.of_nat (length l)) (flat_map ea l ++ r) = Some (l, r).
  Proof.
    induction 1 as [|a l O F IH]; intros fuel E; cbn [length flat_map].
    - destruct fuel; reflexivity.
    - destruct fuel as [|fuel]; [cbn [length] in E; lia|]. cbn [dec_items].
      destruct (N.eqb_spec (N.of_nat (S (length l))) 0) as [Q|Q]; [lia|]. unfold pbind at 1.
      rewrite <- app_assoc, rt by exact O. replace (N.of_nat (S (length l)) - 1)%N with (N.of_nat (length l)) by lia.
      unfold pbind. rewrite IH by (cbn [length] in E; lia). reflexivity.
  Qed.
  Lemma dec_slice_enc l r : small (length l) -> Forall ok l -> dec_slice da (enc_slice ea l ++ r) = Some (l, r).
  Proof.
    intros B F. unfold dec_slice, enc_slice, pbind. rewrite <- app_assoc. unfold enc_usize. rewrite dec_u64_enc by exact B.
    apply dec_items_enc; [exact F|]. rewrite app_length. pose proof (items_length l). lia.
  Qed.
End Containers.

Lemma enc_opt_pos {A} (ea : A -> list byte) o : enc_opt ea o <> [].
Proof. destruct o; discriminate. Qed.
Lemma enc_usize_pos n : enc_usize n <> [].
Proof. discriminate. Qed.
Lemma enc_usize_length n : length (enc_usize n) = 8.
Proof. apply le_length. Qed.
