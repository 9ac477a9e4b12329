(** Model of what a lookup in a sorted string table reads: [/repo/src/lsm_tree/sstable.rs:262-326], as in SsModel.v, with the
    number of comparisons of the search in the index of the summary and, for every frame that is read, the file and the number of bytes.
    Comparisons of [binary_search_by_key] inside of a block are not counted, nor is what opening the table reads. *)
From Verif Require Export SsModel.

Inductive file_name : Type := IndexFile | DataFile.

Section SsRead.
  Context {K V : Type} `{Cmp K} {CK : Codec K} {CV : Codec V} {B : Bloom K}.
  Notation sval := (sval V).

  (** sstable.rs:262-283 *)
  Fixpoint floor_loop_c (fuel : nat) (ix : list (K * N)) (k : K) (lo hi : Z) : res (Z * nat) :=
    match fuel with
    | 0 => Timeout
    | S fuel =>
        if (lo <=? hi)%Z then
          let mid := ((lo + hi) / 2)%Z in
          let* e := expect (nth_error ix (Z.to_nat mid)) in
          let* (h, c) := if is_gt (cmp (fst e) k) then floor_loop_c fuel ix k lo (mid - 1) else floor_loop_c fuel ix k (mid + 1) hi in
          Ok (h, S c)
        else Ok (hi, 0)
    end.
  Definition floor_offset_c (ix : list (K * N)) (k : K) : res (option nat * nat) :=
    let* (hi, c) := floor_loop_c (S (length ix)) ix k 0 (Z.of_nat (length ix) - 1) in
    Ok (if (hi =? -1)%Z then None else Some (Z.to_nat hi), c).

  (** sstable.rs:285-326: the value, the comparisons, the reads *)
  Definition st_get_c (t : sstable) (k : K) : res (option sval * nat * list (file_name * nat)) :=
    let r := su_range (st_summary t) in
    if is_lt (cmp k (fst r)) || is_gt (cmp k (snd r)) then Ok (None, 0, [])
    else if negb (bl_contains (st_filter t) k) then Ok (None, 0, [])
    else
      let* (i, c) := floor_offset_c (su_index (st_summary t)) k in
      match i with
      | None => Ok (None, c, [])
      | Some i =>
          let* e := expect (nth_error (su_index (st_summary t)) i) in
          let* bs := read_frame (f_index (st_files t)) (N.to_nat (snd e)) in
          let first := (IndexFile, 8 + length bs) in
          let* block := parse dec_block bs in
          match find_key block k with
          | None => Ok (None, c, [first])
          | Some off =>
              let* bs := read_frame (f_data (st_files t)) (N.to_nat off) in
              let* e := parse (dec_kv (K := K)) bs in
              Ok (Some (snd e), c, [first; (DataFile, 8 + length bs)])
          end
      end.
End SsRead.
