(** Concrete key and value types with their encodings, used in the examples. *)
From Verif Require Export BincodeModel KeyInstances.
From Coq Require Import Strings.Byte.

(** [u8] as a byte: all laws hold. *)
#[export] Instance byte_codec : Codec byte := {| enc b := [b]; dec bs := match bs with b :: r => Some (b, r) | [] => None end |}.
#[export] Instance byte_codec_laws : CodecLaws byte.
Proof. now intros a r. Qed.
#[export] Instance byte_cmp : Cmp byte := fun a b => N.compare (Byte.to_N a) (Byte.to_N b).
#[export] Instance byte_cmp_laws : CmpLaws byte.
Proof.
  constructor; unfold cmp, byte_cmp.
  - intros x y. apply N.compare_antisym.
  - intros x y z. rewrite !N.compare_lt_iff. lia.
  - intros x y z E. apply N.compare_eq in E. now rewrite E.
Qed.
(** [(A, B)] and [u32] as four bytes *)
#[export] Instance pair_codec {A B} {X : Codec A} {Y : Codec B} : Codec (A * B) :=
  {| enc p := enc (fst p) ++ enc (snd p); dec := do a <- dec ;; do b <- dec ;; pret (a, b) |}.
#[export] Instance pair_codec_laws {A B} {X : Codec A} {Y : Codec B} {_ : CodecLaws A} {_ : CodecLaws B} : CodecLaws (A * B).
Proof. intros [a b] r. cbn. unfold pbind, pret. rewrite <- app_assoc. now rewrite !dec_enc. Qed.
(** [String], [Vec<u8>] *)
#[export] Instance string_codec : Codec (list byte) := {| enc := enc_slice (fun b => [b]); dec := dec_slice dec |}.


(** [u32] *)
Definition u32 : Type := ((byte * byte) * (byte * byte))%type.
#[export] Instance u32_cmp : Cmp u32 := fun a b => N.compare (unle (enc a)) (unle (enc b)).
#[export] Instance u32_laws : CmpLaws u32.
Proof.
  constructor; unfold cmp, u32_cmp.
  - intros x y. apply N.compare_antisym.
  - intros x y z. rewrite !N.compare_lt_iff. lia.
  - intros x y z E. apply N.compare_eq in E. now rewrite E.
Qed.
Definition u32_of (n : nat) : u32 :=
  match le 4 (N.of_nat n) with [a; b; c; d] => ((a, b), (c, d)) | _ => ((x00, x00), (x00, x00)) end.
