(** Raw nodes of the skip lists: /repo/src/skiplist/map.rs:10-63 and list.rs:7-68.  A node holds its data
    (absent in the head node, whose entry is never initialised) and its links; [links_len] is the length
    of the link list.  Memory is a list of cells, a pointer is an index, [None] in a cell is freed memory.
    Addresses are not reused.  Touching freed memory, a link beyond [links_len] or the entry of the head
    is undefined behaviour in the code and [Panic] here.  Bytes, addresses and
    alignments are in NodeBytesModel.v. *)
From Coq Require Export NArith.
From Verif Require Export Base.

(** MAX_HEIGHT: map.rs:17, list.rs:21. *)
Definition max_height : nat := 32.
Definition two32 : N := 4294967296.

(** [x.leading_zeros()] on u32, as a height: map.rs:123-125, list.rs:125-127.  [d] is the drawn number. *)
Definition height_of (d : N) : nat := max_height - N.to_nat (N.size (d mod two32)).

Section SkipHeap.
  Context {D L : Type}.

  Record snode := SN { sn_data : option D; sn_links : list L }.
  Definition heap := list (option snode).

  Definition read (h : heap) (a : nat) : res snode :=
    match nth_error h a with Some (Some n) => Ok n | _ => Panic end.

  (** get_pointer: map.rs:28-30, list.rs:32-34. *)
  Definition get_link (h : heap) (a i : nat) : res L := let* n := read h a in expect (nth_error (sn_links n) i).
  (** [*get_pointer_mut(i) = l]: map.rs:32-34, list.rs:36-38. *)
  Definition set_link (h : heap) (a i : nat) (l : L) : res heap :=
    let* n := read h a in
    if i <? length (sn_links n) then Ok (list_set h a (Some (SN (sn_data n) (list_set (sn_links n) i l)))) else Panic.

  Definition get_data (h : heap) (a : nat) : res D := let* n := read h a in expect (sn_data n).
  Definition set_data (h : heap) (a : nat) (d : D) : res heap :=
    let* n := read h a in
    let* _ := expect (sn_data n) in
    Ok (list_set h a (Some (SN (Some d) (sn_links n)))).

  (** allocate (and the write of the entry in [new]): map.rs:20-26, 44-52; list.rs:24-30, 48-56.  The links
      are zeroed to [z]. *)
  Definition alloc (h : heap) (d : option D) (links_len : nat) (z : L) : heap * nat :=
    (h ++ [Some (SN d (repeat z links_len))], length h).

  (** deallocate: map.rs:54-58, list.rs:58-62. *)
  Definition dealloc (h : heap) (a : nat) : res heap :=
    let* _ := read h a in Ok (list_set h a None).

  (** [ptr::write_bytes(links, 0, n)] on all the links of a node. *)
  Definition zero_links (h : heap) (a : nat) (z : L) : res heap :=
    let* n := read h a in Ok (list_set h a (Some (SN (sn_data n) (repeat z (length (sn_links n)))))).

  (** Number of nodes in memory. *)
  Definition live_nodes (h : heap) : nat := length (filter (fun c => match c with Some _ => true | None => false end) h).
End SkipHeap.
Arguments snode : clear implicits.
Arguments heap : clear implicits.
