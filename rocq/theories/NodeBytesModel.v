(** The nodes of the skip lists as bytes in memory: /repo/src/skiplist/map.rs:10-63 and list.rs:7-68.  [Node] is laid out by the rules of
    [repr(C)]; it lives in a buffer of [Vec<u64>], longer than the struct by the links.  A byte is a number below 256, an address a number.
    Every access through a pointer to a node is checked: the pointer is a multiple of the alignment of [Node], and the struct and the
    accessed bytes lie in a block that is in use.  A failed check, and a release of a block with another size than it was requested with,
    is undefined behaviour in the code and [Panic] here.  [Vec::with_capacity(n)] is taken to request exactly [n] numbers (the code relies
    on this when it rebuilds the [Vec] from the length).  Entries are written and read as a whole; whatever bytes represent an entry are
    given by [enc].  A failing allocation ends the process ([handle_alloc_error]). *)
From Verif Require Export NodeBytesSpec.

(** Sizes and alignments: of [usize] and pointers ([word], both), of [u64] (8 bytes, aligned to [u64_align]), of the entry (map.rs:13,
    list.rs:17); [link_words]: a link is a pointer (map.rs:14) or a pointer and a distance (list.rs:9-12). *)
Record layout := Layout { word : nat; u64_align : nat; entry_size : nat; entry_align : nat; link_words : nat }.

Definition round_up (n a : nat) : nat := (n + a - 1) / a * a.

Section Layout.
  Variable ly : layout.
  (** [repr(C)]: fields in order, each at the next multiple of its alignment: map.rs:10-15, list.rs:14-19 *)
  Definition entry_off : nat := round_up (word ly) (entry_align ly).
  Definition links_off : nat := round_up (entry_off + entry_size ly) (word ly).
  Definition node_align : nat := Nat.max (word ly) (entry_align ly).
  Definition node_size : nat := round_up links_off node_align.
  Definition link_size : nat := link_words ly * word ly.
  (** get_size_in_u64s: map.rs:36-42, list.rs:40-46 *)
  Definition size_in_u64s (links_len : nat) : nat := (node_size + link_size * links_len + 8 - 1) / 8.
  Definition block_size (links_len : nat) : nat := 8 * size_in_u64s links_len.
End Layout.

(** Numbers as bytes, the lowest first *)
Fixpoint le (n v : nat) : list nat := match n with 0 => [] | S n' => v mod 256 :: le n' (v / 256) end.
Fixpoint of_le (bs : list nat) : nat := match bs with [] => 0 | b :: bs' => b + 256 * of_le bs' end.
Fixpoint split_words (w n : nat) (bs : list nat) : list nat :=
  match n with 0 => [] | S n' => of_le (firstn w bs) :: split_words w n' (skipn w bs) end.

Definition memory : Type := nat -> nat.
Definition peek (m : memory) (a n : nat) : list nat := map m (seq a n).
Definition poke (m : memory) (a : nat) (bs : list nat) : memory :=
  fun x => if (a <=? x) && (x <? a + length bs) then nth (x - a) bs 0 else m x.

(** Memory, the blocks in use (address and size), and the pointers the client got from [new] and [allocate], in order *)
Record bytes := Bytes { by_mem : memory; by_live : list (nat * nat); by_ptrs : list nat }.

Inductive byte_out : Type :=
| BNode (p : nat) | BLink (ws : list nat) | BEntry (bs : list nat) | BNat (n : nat) | BDone | BAborted.

Section Bytes.
  Context {D L : Type}.
  Variables (ly : layout) (new : allocator) (enc : D -> list nat) (lw : words_of L).

  Definition inside (live : list (nat * nat)) (a n : nat) : bool := existsb (fun b => (fst b <=? a) && (a + n <=? fst b + snd b)) live.
  (** [*ptr] as a place of type [Node] *)
  Definition deref (s : bytes) (p : nat) : res unit :=
    if (p mod node_align ly =? 0) && inside (by_live s) p (node_size ly) then Ok tt else Panic.
  Definition load (s : bytes) (p off n align : nat) : res (list nat) :=
    let* _ := deref s p in
    if ((p + off) mod align =? 0) && inside (by_live s) (p + off) n then Ok (peek (by_mem s) (p + off) n) else Panic.
  Definition store (s : bytes) (p off align : nat) (bs : list nat) : res bytes :=
    let* _ := deref s p in
    if ((p + off) mod align =? 0) && inside (by_live s) (p + off) (length bs) then Ok (Bytes (poke (by_mem s) (p + off) bs) (by_live s) (by_ptrs s)) else Panic.

  Definition load_len (s : bytes) (p : nat) : res nat := let* bs := load s p 0 (word ly) (word ly) in Ok (of_le bs).
  (** [write_bytes(links.get_unchecked_mut(0), 0, n)]: map.rs:50, 588-589; list.rs:54 *)
  Definition clear_links (s : bytes) (p n : nat) : res bytes := store s p (links_off ly) (word ly) (repeat 0 (n * link_size ly)).

  (** A link as bytes; [0] is the null pointer. *)
  Definition address (ptrs : list nat) (t : option nat) : nat := match t with Some j => nth j ptrs 0 | None => 0 end.
  Definition link_words_of (ptrs : list nat) (l : L) : list nat := address ptrs (fst (lw l)) :: snd (lw l).
  Definition link_bytes (ptrs : list nat) (l : L) : list nat := flat_map (le (word ly)) (link_words_of ptrs l).

  (** The client uses only pointers it got. *)
  Definition pointer (s : bytes) (a : nat) : res nat := expect (nth_error (by_ptrs s) a).

  Definition byte_op (s : bytes) (op : node_op D L) : res (option bytes * byte_out) :=
    match op with
    | NNew d n =>                                                                    (* map.rs:20-26, 44-52; list.rs:24-30, 48-56 *)
        match new (by_live s) (block_size ly n) with
        | None => Ok (None, BAborted)
        | Some p =>
            let s := Bytes (by_mem s) (by_live s ++ [(p, block_size ly n)]) (by_ptrs s ++ [p]) in
            let* s := store s p 0 (word ly) (le (word ly) n) in
            let* s := clear_links s p n in
            let* s := match d with Some d => store s p (entry_off ly) (entry_align ly) (enc d) | None => Ok s end in
            Ok (Some s, BNode p)
        end
    | NLink a i =>                                                                   (* map.rs:28-30, list.rs:32-34 *)
        let* p := pointer s a in
        let* bs := load s p (links_off ly + i * link_size ly) (link_size ly) (word ly) in
        Ok (Some s, BLink (split_words (word ly) (link_words ly) bs))
    | NSetLink a i l =>                                                              (* map.rs:32-34, list.rs:36-38 *)
        let* p := pointer s a in
        let* s := store s p (links_off ly + i * link_size ly) (word ly) (link_bytes (by_ptrs s) l) in
        Ok (Some s, BDone)
    | NEntry a =>
        let* p := pointer s a in
        let* bs := load s p (entry_off ly) (entry_size ly) (entry_align ly) in
        Ok (Some s, BEntry bs)
    | NSetEntry a d =>
        let* p := pointer s a in
        let* s := store s p (entry_off ly) (entry_align ly) (enc d) in
        Ok (Some s, BDone)
    | NLen a =>
        let* p := pointer s a in
        let* n := load_len s p in
        Ok (Some s, BNat n)
    | NZero a =>
        let* p := pointer s a in
        let* n := load_len s p in
        let* s := clear_links s p n in
        Ok (Some s, BDone)
    | NFree a =>                                                                     (* map.rs:54-58, list.rs:58-62 *)
        let* p := pointer s a in
        let* n := load_len s p in
        if existsb (fun b => (fst b =? p) && (snd b =? block_size ly n)) (by_live s)
        then Ok (Some (Bytes (by_mem s) (filter (fun b => negb (fst b =? p)) (by_live s)) (by_ptrs s)), BDone)
        else Panic
    end.
  (** After a failed allocation there is no process any more. *)
  Definition byte_step (s : option bytes) (op : node_op D L) : res (option bytes * byte_out) :=
    match s with None => Ok (None, BAborted) | Some s => byte_op s op end.
End Bytes.

(** What the client sees of a result, given its pointers *)
Definition shown {D L} (enc : D -> list nat) (lw : words_of L) (ptrs : list nat) (o : node_out D L) : byte_out :=
  match o with
  | ONode a => BNode (nth a ptrs 0)
  | OLink l => BLink (link_words_of lw ptrs l)
  | OEntry d => BEntry (enc d)
  | ONat n => BNat n
  | ODone => BDone
  end.
(** The blocks of the nodes in memory *)
Definition blocks {D L} (ly : layout) (h : heap D L) (ptrs : list nat) : list (nat * nat) :=
  flat_map (fun c => match fst c with Some n => [(snd c, block_size ly (length (sn_links n)))] | None => [] end) (combine h ptrs).

(** A layout that Rust may choose, on any platform, for links of at least a word: [u64] is aligned at least like a pointer. *)
Definition layout_ok (ly : layout) : Prop :=
  power_of_two (word ly) /\ power_of_two (u64_align ly) /\ power_of_two (entry_align ly) /\ word ly <= u64_align ly /\ 0 < link_words ly.
(** [outs'] are the results [outs] as bytes; the blocks in use are the [other] ones and those of the nodes in memory, at distinct addresses;
    no pointer is null; what was in the other blocks ([m]) is still there.  If an allocation failed, the results so far. *)
Definition agrees {D L} (ly : layout) (enc : D -> list nat) (lw : words_of L) (other : list (nat * nat)) (m : memory) (h : heap D L) (outs : list (node_out D L))
    (st : option bytes) (outs' : list byte_out) : Prop :=
  match st with
  | Some s => outs' = map (shown enc lw (by_ptrs s)) outs /\ by_live s = other ++ blocks ly h (by_ptrs s) /\ NoDup (map fst (blocks ly h (by_ptrs s))) /\ Forall (lt 0) (by_ptrs s) /\
              forall b x, In b other -> fst b <= x < fst b + snd b -> by_mem s x = m x
  | None => exists ptrs k, outs' = map (shown enc lw ptrs) (firstn k outs) ++ repeat BAborted (length outs - k)
  end.
(** The machine on bytes does what the machine on nodes does, without undefined behaviour, from any contents of memory, whatever other blocks
    are in use. *)
Definition nodes_as_bytes {D L} (ly : layout) (new : allocator) (enc : D -> list nat) (lw : words_of L) (z : L) : Prop :=
  forall (m : memory) (other : list (nat * nat)) (ops : list (node_op D L)) h outs, Forall (fun b => 0 < snd b) other ->
  Forall (op_fits (word ly) (link_words ly) lw) ops ->
  run (node_step lw z) [] ops = Ok (h, outs) ->
  exists st outs', run (byte_step ly new enc lw) (Some (Bytes m other [])) ops = Ok (st, outs') /\ agrees ly enc lw other m h outs st outs'.
(** How many bytes the nodes in memory take *)
Definition heap_bytes {D L} (ly : layout) (h : heap D L) : nat :=
  list_sum (map (fun c => match c with Some n => block_size ly (length (sn_links n)) | None => 0 end) h).
