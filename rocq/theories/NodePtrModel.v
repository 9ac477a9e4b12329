(** The operations on nodes of NodeBytesModel.v for code that holds addresses: /repo/src/skiplist/map.rs:10-63 and list.rs:7-68.  [dec] reads
    an entry from its bytes; bytes that are no entry are [Panic].  Running the destructors of entries is not modelled. *)
From Verif Require Export NodeBytesModel.

Section NodePtr.
  Context {D : Type}.
  Variables (ly : layout) (new : allocator) (enc : D -> list nat) (dec : list nat -> option D).

  (** get_pointer, and a write through get_pointer_mut: map.rs:28-34, list.rs:32-38.  The words of the link. *)
  Definition link_off (i : nat) : nat := links_off ly + i * link_size ly.
  Definition p_link (s : bytes) (p i : nat) : res (list nat) :=
    let* bs := load ly s p (link_off i) (link_size ly) (word ly) in Ok (split_words (word ly) (link_words ly) bs).
  Definition p_set_link (s : bytes) (p i : nat) (ws : list nat) : res bytes :=
    store ly s p (link_off i) (word ly) (flat_map (le (word ly)) ws).
  Definition p_entry (s : bytes) (p : nat) : res D :=
    let* bs := load ly s p (entry_off ly) (entry_size ly) (entry_align ly) in expect (dec bs).
  Definition p_set_entry (s : bytes) (p : nat) (e : D) : res bytes := store ly s p (entry_off ly) (entry_align ly) (enc e).
  (** [write_bytes(links.get_unchecked_mut(0), 0, n)]: e.g. map.rs:399, list.rs:441 *)
  Definition p_zero (s : bytes) (p n : nat) : res bytes := clear_links ly s p n.
  (** new, allocate: map.rs:20-26, 44-52; list.rs:24-30, 48-56.  No result: the allocation failed. *)
  Definition p_new (s : bytes) (e : option D) (links_len : nat) : res (option (bytes * nat)) :=
    match new (by_live s) (block_size ly links_len) with
    | None => Ok None
    | Some p =>
        let s := Bytes (by_mem s) (by_live s ++ [(p, block_size ly links_len)]) (by_ptrs s ++ [p]) in
        let* s := store ly s p 0 (word ly) (le (word ly) links_len) in
        let* s := clear_links ly s p links_len in
        let* s := match e with Some e => p_set_entry s p e | None => Ok s end in
        Ok (Some (s, p))
    end.
  (** deallocate: map.rs:54-58, list.rs:58-62 *)
  Definition p_free (s : bytes) (p : nat) : res bytes :=
    let* n := load_len ly s p in
    if existsb (fun b => (fst b =? p) && (snd b =? block_size ly n)) (by_live s)
    then Ok (Bytes (by_mem s) (filter (fun b => negb (fst b =? p)) (by_live s)) (by_ptrs s))
    else Panic.
End NodePtr.
