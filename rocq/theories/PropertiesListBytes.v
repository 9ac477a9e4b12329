(** SkipList on bytes: C89.  [blist_step] (ListBytesModel.v) is the code of SkipList with nodes as bytes, pointers as addresses, blocks from an
    allocator and other blocks in the same memory; undefined behaviour and overflow of a length or distance are [Panic], a failed allocation
    ends the process. *)
From Verif Require Import SeqSpec SkipBytesSpec SkipDistSpec ListBytesModel ListBytesInstances ListBytesProofs NodeBytesProofs.

(** ** C89: for every layout, every allocator that keeps its contract, every encoding of the elements, every content of memory, every set of blocks
    that others use, and all draws: a SkipList returns what a sequence returns, until an allocation fails; no access is undefined
    behaviour, no sum overflows and no loop runs on; it uses one block per element and one for the head; it leaves the bytes of others
    alone; when it is dropped, exactly the blocks of others are in use.  Full statement: without [entry_align ly <= u64_align ly], see
    [C85_align_refuted], and without the bound on the insertions, see [C89_overflow_refuted]. *)
Theorem C89_list_partial : forall (T : Type) (ly : layout) (new : allocator) (enc : T -> list nat) (dec : list nat -> option T)
    (other : list (nat * nat)) (m : memory),
  layout_ok ly -> link_words ly = 2 -> entry_align ly <= u64_align ly -> (forall e, length (enc e) = entry_size ly) -> (forall e, dec (enc e) = Some e) ->
  lawful (u64_align ly) (word ly) new -> Forall (fun b => 0 < snd b) other ->
  forall ops : list (seq_op T * N), fits (word ly) (2 * insertions (map fst ops)) = true -> let spec := spec_run seq_spec_step [] (map fst ops) in
  exists st outs, blist_run ly new enc dec (Bytes m other []) ops = Ok (st, outs) /\
    match st with
    | Some b => all_of (snd spec) outs /\
        (exists own, by_live (bl_bytes b) = other ++ own /\ length own = S (length (fst spec)) /\ untouched other m (by_mem (bl_bytes b))) /\
        exists s, blist_drop ly dec b = Ok s /\ by_live s = other /\ untouched other m (by_mem s)
    | None => some_of (snd spec) outs
    end.
Proof. exact @list_bytes_ok. Qed.
Print Assumptions C89_list_partial.

(** A [SkipList<u64>] on a 64-bit machine, with an allocator that reuses what is free; somebody uses 32 bytes at address 16. *)
Definition some_calls : list (seq_op nat * N) :=
  combine [QPushBack 3; QPushFront 1; QInsert 1 2; QInsert 9 9; QGet 1; QGetMut 0 11; QIndex 2; QIndex 3; QLen; QIter; QIterMut [7; 8]; QRemove 1; QIter; QPopBack; QPopFront; QPopFront; QPushBack 4; QPushBack 5;
           QIntoIter; QIsEmpty; QPushBack 6; QClear; QPushBack 300]
    (map (fun i => (4294967295 / 2 ^ N.of_nat (i mod 3))%N) (seq 0 23)).
Definition word_back (bs : list nat) : option nat := Some (of_le bs).
Definition shows {T} (r : res (option byte_list * list (option (seq_out T)))) (P : byte_list -> list (option (seq_out T)) -> Prop) : Prop :=
  match r with Ok (Some b, outs) => P b outs | _ => False end.
Definition ends {T} (r : res (option byte_list * list (option (seq_out T)))) (P : list (option (seq_out T)) -> Prop) : Prop := match r with Ok (None, outs) => P outs | _ => False end.
Definition drops (r : res bytes) (P : bytes -> Prop) : Prop := match r with Ok s => P s | _ => False end.
Example C89_example : let ly := Layout 8 8 8 8 2 in
  layout_ok ly /\ lawful 8 8 (bump 8 8) /\ fits 8 (2 * insertions (map fst some_calls)) = true /\
  shows (blist_run ly (bump 8 8) (le 8) word_back (Bytes (fun x => x mod 256) [(16, 32)] []) some_calls) (fun b outs =>
      outs = map Some (snd (spec_run seq_spec_step [] (map fst some_calls))) /\
      firstn 8 outs = map Some [QDone (Ok tt); QDone (Ok tt); QDone (Ok tt); QDone Panic; QOpt (Some 2); QOpt (Some 1); QVal (Ok 3); QVal Panic] /\
      nth 12 outs None = Some (QList [7; 3]) /\
      by_live (bl_bytes b) = [(16, 32); (56, 544); (608, 48)] /\ peek (by_mem (bl_bytes b)) (608 + 8) 8 = le 8 300 /\
      drops (blist_drop ly word_back b) (fun s => by_live s = [(16, 32)] /\ peek (by_mem s) 16 32 = seq 16 32)).
Proof. cbv zeta. split; [repeat split; cbn; try lia; now exists 3|]. split; [apply bump_lawful; lia|]. split; [vm_compute; reflexivity|]. vm_compute. repeat split. Qed.
(** The theorem applied: elements that are booleans *)
Example C89_flags : (forall e, length (flag_bytes e) = 1) /\ (forall e, flag_back (flag_bytes e) = Some e) /\ layout_ok (Layout 4 4 1 1 2).
Proof. split; [reflexivity|]. split; [now intros []|]. repeat split; cbn; try lia; (now exists 2) || now exists 0. Qed.

(** ** The bound cannot be dropped: with words of one byte, 256 times [push_back] and [pop_back] on a list that never has two elements
    overflows a distance (the same holds for [usize] of 32 bits after 2^32 insertions, by C88).  Each prefix with fewer calls is fine. *)
Theorem C89_overflow_refuted : exists ly : layout, layout_ok ly /\ link_words ly = 2 /\ entry_align ly <= u64_align ly /\ lawful (u64_align ly) (word ly) (bump 1 1) /\
  Forall (fun o => inserts (fst o) = true \/ fst o = QPopBack) (push_pop 256) /\
  (exists st outs, blist_run ly (bump 1 1) flag_bytes flag_back (Bytes (fun _ => 0) [] []) (push_pop 255) = Ok (st, outs)) /\
  blist_run ly (bump 1 1) flag_bytes flag_back (Bytes (fun _ => 0) [] []) (push_pop 256) = Panic.
Proof. exact one_byte_words. Qed.
Print Assumptions C89_overflow_refuted.

(** An allocator that has room for the head and two nodes: the third insertion ends the process. *)
Definition small (live : list (nat * nat)) (n : nat) : option nat := if length live <? 3 then bump 8 8 live n else None.
Example C89_full : lawful 8 8 small /\
  ends (blist_run (Layout 8 8 8 8 2) small (le 8) word_back (Bytes (fun _ => 0) [] []) (combine [QPushBack 1; QPushBack 2; QRemove 0; QPushFront 3; QPushFront 4; QGet 0] (repeat 4294967295%N 6)))
    (fun outs => outs = [Some (QDone (Ok tt)); Some (QDone (Ok tt)); Some (QVal (Ok 1)); Some (QDone (Ok tt)); None; None]).
Proof.
  split; [|vm_compute; reflexivity]. intros live n p E. unfold small in E. destruct (length live <? 3); [|discriminate]. exact (bump_lawful 8 8 ltac:(lia) live n p E).
Qed.
