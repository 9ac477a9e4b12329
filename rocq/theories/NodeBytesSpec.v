(** Nodes of the skip lists as the models of the collections see them, as a machine: the operations of SkipHeap.v.  A client refers to a
    node by the number of its allocation (0 for the first). *)
From Verif Require Export SkipHeap.

Inductive node_op (D L : Type) : Type :=
| NNew (d : option D) (links_len : nat)
| NLink (a i : nat)
| NSetLink (a i : nat) (l : L)
| NEntry (a : nat)
| NSetEntry (a : nat) (d : D)
| NLen (a : nat)
| NZero (a : nat)
| NFree (a : nat).
Arguments NNew {D L}. Arguments NLink {D L}. Arguments NSetLink {D L}. Arguments NEntry {D L}. Arguments NSetEntry {D L}.
Arguments NLen {D L}. Arguments NZero {D L}. Arguments NFree {D L}.

Inductive node_out (D L : Type) : Type :=
| ONode (a : nat) | OLink (l : L) | OEntry (d : D) | ONat (n : nat) | ODone.
Arguments ONode {D L}. Arguments OLink {D L}. Arguments OEntry {D L}. Arguments ONat {D L}. Arguments ODone {D L}.

(** What a link consists of: a pointer and further numbers *)
Definition words_of (L : Type) : Type := L -> option nat * list nat.
Definition map_link : words_of (option nat) := fun p => (p, []).
Definition list_link : words_of (option nat * nat) := fun l => (fst l, [snd l]).

Definition target_ok {D L} (lw : words_of L) (h : heap D L) (l : L) : bool :=
  match fst (lw l) with Some j => j <? length h | None => true end.

(** [z] is the link of zeros. *)
Definition node_step {D L} (lw : words_of L) (z : L) (h : heap D L) (op : node_op D L) : res (heap D L * node_out D L) :=
  match op with
  | NNew d n => let (h, a) := alloc h d n z in Ok (h, ONode a)
  | NLink a i => let* l := get_link h a i in Ok (h, OLink l)
  | NSetLink a i l => if target_ok lw h l then let* h := set_link h a i l in Ok (h, ODone) else Panic
  | NEntry a => let* d := get_data h a in Ok (h, OEntry d)
  | NSetEntry a d => let* h := set_data h a d in Ok (h, ODone)
  | NLen a => let* n := read h a in Ok (h, ONat (length (sn_links n)))
  | NZero a => let* h := zero_links h a z in Ok (h, ODone)
  | NFree a => let* h := dealloc h a in Ok (h, ODone)
  end.

(** Numbers that [n] bytes can hold *)
Fixpoint fits (n v : nat) : bool := match n with 0 => v =? 0 | S n' => fits n' (v / 256) end.

(** What an allocator does: given the blocks in use (address and size) and a size, it returns an address or fails. *)
Definition allocator : Type := list (nat * nat) -> nat -> option nat.
Definition apart (a n b m : nat) : Prop := a + n <= b \/ b + m <= a.
(** A block it returns is aligned, not at address 0, within the address space and apart from all others. *)
Definition lawful (align word : nat) (new : allocator) : Prop := forall live n p, new live n = Some p ->
  0 < p /\ Nat.divide align p /\ fits word (p + n) = true /\ forall b, In b live -> apart p n (fst b) (snd b).
Definition power_of_two (n : nat) : Prop := exists k, n = 2 ^ k.
(** The links that are written have the right number of words, and each number fits in a word. *)
Definition op_fits {D L} (w k : nat) (lw : words_of L) (op : node_op D L) : Prop :=
  match op with NSetLink _ _ l => S (length (snd (lw l))) = k /\ Forall (fun v => fits w v = true) (snd (lw l)) | _ => True end.
