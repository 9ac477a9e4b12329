(** SkipMap on bytes: C87.  [bmap_step] (SkipBytesModel.v) is the code of SkipMap with nodes as bytes, pointers as addresses, blocks from an
    allocator and other blocks in the same memory; undefined behaviour is [Panic], a failed allocation ends the process. *)
From Verif Require Import MapSpec KeyInstances SkipBytesSpec SkipBytesModel SkipBytesProofs NodeBytesProofs.

(** ** C87: for every layout, every allocator that keeps its contract, every encoding of the entries, every content of memory, every set of blocks
    that others use, and all draws: a SkipMap returns what an ordered map returns, until an allocation fails; no access is undefined
    behaviour and no loop runs on; it uses one block per key and one for the head; it leaves the bytes of others alone; when it is dropped,
    exactly the blocks of others are in use.  Full statement: without [entry_align ly <= u64_align ly]; see [C85_align_refuted]. *)
Theorem C87_map_partial : forall (K V : Type) (C : Cmp K) (L : CmpLaws K) (ly : layout) (new : allocator) (enc : K * V -> list nat) (dec : list nat -> option (K * V))
    (other : list (nat * nat)) (m : memory),
  layout_ok ly -> link_words ly = 1 -> entry_align ly <= u64_align ly -> (forall e, length (enc e) = entry_size ly) -> (forall e, dec (enc e) = Some e) ->
  lawful (u64_align ly) (word ly) new -> Forall (fun b => 0 < snd b) other ->
  forall ops : list (map_op K V * N), let spec := spec_run map_spec_step [] (map fst ops) in
  exists st outs, bmap_run ly new enc dec (Bytes m other []) ops = Ok (st, outs) /\
    match st with
    | Some b => all_of (snd spec) outs /\
        (exists own, by_live (bm_bytes b) = other ++ own /\ length own = S (length (fst spec)) /\ untouched other m (by_mem (bm_bytes b))) /\
        exists s, bmap_drop ly dec b = Ok s /\ by_live s = other /\ untouched other m (by_mem s)
    | None => some_of (snd spec) outs
    end.
Proof. exact @bytes_ok. Qed.
Print Assumptions C87_map_partial.

(** A [SkipMap<u32, u64>] on a 64-bit machine, with an allocator that reuses what is free; somebody uses 32 bytes at address 16.  The node of a
    key that is overwritten is released after the new one is taken. *)
Definition entry_bytes (e : nat * nat) : list nat := le 4 (fst e) ++ repeat 0 4 ++ le 8 (snd e).
Definition entry_back (bs : list nat) : option (nat * nat) := Some (of_le (firstn 4 bs), of_le (skipn 8 bs)).
Definition some_calls : list (map_op nat nat * N) :=
  combine [MInsert 3 30; MInsert 1 10; MInsert 2 20; MInsert 3 31; MGet 3; MGetMut 1 11; MFloor 5; MCeil 0; MMin; MMax; MLen; MIter; MIterMut [7; 8]; MRemove 2; MIter; MFloor 0; MIntoIter;
           MIsEmpty; MInsert 4 44; MClear; MInsert 5 55]
    (map (fun i => (4294967295 / 2 ^ N.of_nat (i mod 3))%N) (seq 0 21)).
Example C87_example : let ly := Layout 8 8 16 8 1 in
  layout_ok ly /\ lawful 8 8 (bump 8 8) /\
  map entry_back (map entry_bytes [(1, 10); (300, 70)]) = [Some (1, 10); Some (300, 70)] /\
  match bmap_run ly (bump 8 8) entry_bytes entry_back (Bytes (fun x => x mod 256) [(16, 32)] []) some_calls with
  | Ok (Some b, outs) =>
      outs = map Some [RPair None; RPair None; RPair None; RPair (Some (3, 30)); RVal (Some 31); RVal (Some 10); RKey (Some 3); RKey (Some 1); RKey (Some 1); RKey (Some 3); RNat 3;
        RList [(1, 11); (2, 20); (3, 31)]; RList [(1, 11); (2, 20)]; RPair (Some (2, 8)); RList [(1, 7); (3, 31)]; RKey None; RList [(1, 7); (3, 31)]; RBool true; RPair None; RUnit; RPair None] /\
      by_live (bm_bytes b) = [(16, 32); (56, 288); (352, 48)] /\ peek (by_mem (bm_bytes b)) (352 + 8) 16 = entry_bytes (5, 55) /\
      match bmap_drop ly entry_back b with Ok s => by_live s = [(16, 32)] /\ peek (by_mem s) 16 32 = seq 16 32 | _ => False end
  | _ => False
  end.
Proof. cbv zeta. split; [repeat split; cbn; try lia; now exists 3|]. split; [apply bump_lawful; lia|]. vm_compute. repeat split. Qed.
(** Numbers below 2^32 and 2^64 are encoded faithfully; for these keys and values the theorem applies with a type of such numbers.  Here for
    entries that are two booleans. *)
Definition flag_bytes (e : bool * bool) : list nat := [if fst e then 1 else 0; if snd e then 1 else 0].
Definition flag_back (bs : list nat) : option (bool * bool) := match bs with [a; b] => Some (a =? 1, b =? 1) | _ => None end.
Example C87_flags : (forall e, length (flag_bytes e) = 2) /\ (forall e, flag_back (flag_bytes e) = Some e) /\ layout_ok (Layout 4 4 2 1 1).
Proof. split; [reflexivity|]. split; [now intros [[] []]|]. repeat split; cbn; try lia; (now exists 2) || now exists 0. Qed.
(** An allocator that has room for the head and two nodes: the third insertion ends the process. *)
Definition small (live : list (nat * nat)) (n : nat) : option nat := if length live <? 3 then bump 8 8 live n else None.
Example C87_full : lawful 8 8 small /\
  match bmap_run (Layout 8 8 16 8 1) small entry_bytes entry_back (Bytes (fun _ => 0) [] []) [(MInsert 1 1, 0%N); (MInsert 2 2, 5%N); (MRemove 1, 0%N); (MInsert 3 3, 0%N); (MInsert 4 4, 0%N); (MGet 2, 0%N)] with
  | Ok (None, outs) => outs = [Some (RPair None); Some (RPair None); Some (RPair (Some (1, 1))); Some (RPair None); None; None]
  | _ => False
  end.
Proof.
  split; [|vm_compute; reflexivity]. intros live n p E. unfold small in E. destruct (length live <? 3); [|discriminate]. exact (bump_lawful 8 8 ltac:(lia) live n p E).
Qed.
