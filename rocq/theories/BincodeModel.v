(** Encodings and files of bytes shared by the models of the on-disk collections.

    The encoding is that of bincode 1.x with its default configuration, as used by
    [/repo/src/bp_tree/pager.rs:2] and [/repo/src/lsm_tree/sstable.rs:3]: integers little endian of fixed
    width ([usize] as [u64]), enum variants as a [u32] index, [Option] as one byte, boxed slices, vectors
    and strings as a [u64] length and the items, structs and tuples as their fields, [PhantomData] as
    nothing; [deserialize] ignores what follows the value.  An error of bincode is [None]; reading past the
    end of a file is [Panic]. *)
From Verif Require Export Base.
From Coq Require Export Init.Byte NArith.
From Coq Require Strings.Byte.
Open Scope list_scope.

(** *** Encodings *)

Definition byte_of (n : N) : byte := match Byte.of_N (n mod 256) with Some b => b | None => x00 end.
Definition byte_val (b : byte) : N := Byte.to_N b.
(** [k] bytes, little endian *)
Fixpoint le (k : nat) (n : N) : list byte :=
  match k with 0 => [] | S k' => byte_of n :: le k' (n / 256)%N end.
Fixpoint unle (bs : list byte) : N :=
  match bs with [] => 0%N | b :: r => (byte_val b + 256 * unle r)%N end.

(** A parser consumes a prefix of the bytes; [None] is a bincode error. *)
Definition parser (A : Type) : Type := list byte -> option (A * list byte).
Definition pbind {A B} (p : parser A) (f : A -> parser B) : parser B :=
  fun bs => match p bs with Some (a, r) => f a r | None => None end.
Definition pret {A} (a : A) : parser A := fun bs => Some (a, bs).
Definition pfail {A} : parser A := fun _ => None.
Notation "'do' x <- e1 ;; e2" := (pbind e1 (fun x => e2))
  (at level 200, x pattern, e1 at level 100, e2 at level 200, right associativity).
(** [k] raw bytes *)
Definition take (k : nat) : parser (list byte) :=
  fun bs => if k <=? length bs then Some (firstn k bs, skipn k bs) else None.

(** [u64] and [usize]; [u32] *)
Definition enc_u64 (n : N) : list byte := le 8 n.
Definition dec_u64 : parser N := do bs <- take 8 ;; pret (unle bs).
Definition enc_usize (n : nat) : list byte := enc_u64 (N.of_nat n).
Definition dec_usize : parser nat := do n <- dec_u64 ;; pret (N.to_nat n).
Definition enc_u32 (n : N) : list byte := le 4 n.
Definition dec_u32 : parser N := do bs <- take 4 ;; pret (unle bs).

Section Containers.
  Context {A : Type} (ea : A -> list byte) (da : parser A).
  (** [Option<A>] *)
  Definition enc_opt (o : option A) : list byte := match o with None => [x00] | Some a => x01 :: ea a end.
  Definition dec_opt : parser (option A) :=
    fun bs => match bs with
              | x00 :: r => Some (None, r)
              | x01 :: r => match da r with Some (a, r') => Some (Some a, r') | None => None end
              | _ => None
              end.
  (** [Box<[A]>].  Every item of the slices used here takes at least one byte, so the number of bytes
      bounds the number of items that can be read. *)
  Definition enc_slice (l : list A) : list byte := enc_usize (length l) ++ flat_map ea l.
  Fixpoint dec_items (fuel : nat) (n : N) : parser (list A) :=
    if (n =? 0)%N then pret []
    else match fuel with
         | 0 => pfail
         | S f => do a <- da ;; do l <- dec_items f (n - 1)%N ;; pret (a :: l)
         end.
  Definition dec_slice : parser (list A) := do n <- dec_u64 ;; fun bs => dec_items (length bs) n bs.
End Containers.

(** How keys and values are serialized. *)
Class Codec (A : Type) := { enc : A -> list byte; dec : parser A }.
Class CodecLaws (A : Type) {X : Codec A} : Prop := dec_enc : forall (a : A) r, dec (enc a ++ r) = Some (a, r).

(** *** Files *)

Section Files.
  (** [set_len] *)
  Definition file_resize (f : list byte) (n : nat) : list byte := firstn n f ++ repeat x00 (n - length f).
  (** [seek] and [write_all] *)
  Definition file_write (f : list byte) (off : nat) (data : list byte) : list byte :=
    firstn off (f ++ repeat x00 (off - length f)) ++ data ++ skipn (off + length data) f.
  (** [seek] and [read_exact] *)
  Definition file_read (f : list byte) (off n : nat) : res (list byte) :=
    if off + n <=? length f then Ok (firstn n (skipn off f)) else Panic.
End Files.

Definition parse {A} (p : parser A) (bs : list byte) : res A :=
  match p bs with Some (a, _) => Ok a | None => Panic end.

(** [serialized_size] *)
Definition esize {A} `{Codec A} (a : A) : N := N.of_nat (length (enc a)).
