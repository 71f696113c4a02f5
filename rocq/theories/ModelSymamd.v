(** Model of [symamd]: /repo/colamd_rs/src/colamd.rs 160-352 and lib.rs 206-242, the
    ordering of a symmetric matrix through a column ordering of a matrix [M] with
    the pattern of [M^T M] that of the given matrix.

    Simplifications: those of ModelColamd.v; of the notices written into [stats]
    before the call of [colamd] (lines 232-235) only whether there was one is kept,
    because [colamd] writes [stats] anew (it begins by clearing it, as lines 181-187
    do here) and only the branch at line 287 reads them in between. *)
From Coq Require Import List Arith ZArith Bool.
From Coq Require Import Floats.SpecFloat.
From Verif Require Import Num Outcome ModelSparse ModelColamd.
Import ListNotations.
Local Open Scope Z_scope.

(** What the first pass keeps: [count], [mark], was an unsorted or repeated index
    seen, and [last_row] *)
Record counting := Counting { ct_count : list Z; ct_mark : list Z; ct_jumbled : bool; ct_last : Z }.

(** 219-246, one entry *)
Definition count_entry (n : Z) (a : list Z) (j : Z) (st : colamd_error + counting) (pp : Z)
  : outcome (colamd_error + counting) :=
  match st with
  | inl e => Done (inl e)
  | inr s =>
      let! i := zget a pp in
      if (i <? 0) || (n <=? i) then Done (inl (RowIndexOutOfBounds j i n)) else
      let! m := zget (ct_mark s) i in
      let jumbled := if (i <=? ct_last s) || (m =? j) then true else ct_jumbled s in
      let! count := if (j <? i) && negb (m =? j)
                    then let! c := zupdate (ct_count s) i (fun x => x + 1) in zupdate c j (fun x => x + 1)
                    else Done (ct_count s) in
      let! mark := zset (ct_mark s) i j in
      Done (inr (Counting count mark jumbled i))
  end.
(** 207-248, one column *)
Definition count_column (n : Z) (a p : list Z) (st : colamd_error + counting) (j : Z)
  : outcome (colamd_error + counting) :=
  match st with
  | inl e => Done (inl e)
  | inr s =>
      let! start := zget p j in
      let! stop := zget p (j + 1) in
      if stop - start <? 0 then Done (inl (ColumnWithNegativeEntries j (stop - start))) else
      ofold (count_entry n a j) (zrange start stop) (inr (Counting (ct_count s) (ct_mark s) (ct_jumbled s) (-1)))
  end.

(** 253-258 *)
Definition pointers_of (n : Z) (count perm : list Z) : outcome (list Z) :=
  let! perm := zset perm 0 0 in
  ofold (fun perm j =>
      let! x := zget perm (j - 1) in
      let! c := zget count (j - 1) in
      zset perm j (x + c)) (zrange 1 (n + 1)) perm.
(** 259-263 *)
Definition starts_of (n : Z) (count perm : list Z) : outcome (list Z) :=
  ofold (fun count j => let! x := zget perm j in zset count j x) (zrange 0 n) count.

(** [M], [count] and [k] *)
Definition filling : Type := list Z * list Z * Z.
(** 296-300 and 318-322: row [k] of [M] holds the columns [i] and [j] *)
Definition put_pair (st : filling) (ij : Z * Z) : outcome filling :=
  let '(m, count, k) := st in
  let '(i, j) := ij in
  let! x := zget count i in
  let! m := zset m x k in
  let! count := zset count i (x + 1) in
  let! y := zget count j in
  let! m := zset m y k in
  let! count := zset count j (y + 1) in
  Done (m, count, k + 1).
(** 289-305: no index is repeated *)
Definition fill_sorted (n : Z) (a p : list Z) (st : filling) : outcome filling :=
  ofold (fun st j =>
      let! start := zget p j in
      let! stop := zget p (j + 1) in
      ofold (fun st pp =>
          let! i := zget a pp in
          if j <? i then put_pair st (i, j) else Done st) (zrange start stop) st) (zrange 0 n) st.
(** 307-328 *)
Definition fill_jumbled (n : Z) (a p mark : list Z) (st : filling) : outcome filling :=
  let! mark := ofold (fun mark i => zset mark i (-1)) (zrange 0 n) mark in
  let! (st, _) := ofold (fun (sm : filling * list Z) j =>
      let! start := zget p j in
      let! stop := zget p (j + 1) in
      ofold (fun (sm : filling * list Z) pp =>
          let '(st, mark) := sm in
          let! i := zget a pp in
          let! m := zget mark i in
          if (j <? i) && negb (m =? j) then
            let! st := put_pair st (i, j) in
            let! mark := zset mark i j in
            Done (st, mark)
          else Done (st, mark)) (zrange start stop) sm) (zrange 0 n) (st, mark) in
  Done st.

(** 188-352: the error, or [perm] afterwards and the statistics.  The result of
    [colamd] is ignored by the code, but an error is left in [stats], so that it is
    the result all the same. *)
Definition symamd_core (n : Z) (a p perm : list Z) (o : colamd_options)
  : outcome (colamd_error + list Z * statistics) :=
  if n <? 0 then Done (inl NegativeColumns) else
  let! nnz := zget p n in
  if nnz <? 0 then Done (inl NegativeEntries) else
  let! p0 := zget p 0 in
  if negb (p0 =? 0) then Done (inl (BadStartPointer p0)) else
  let zeros := repeat 0 (Z.to_nat (n + 1)) in
  let! mark := ofold (fun mark i => zset mark i (-1)) (zrange 0 n) zeros in
  let! r := ofold (count_column n a p) (zrange 0 n) (inr (Counting zeros mark false (-1))) in
  match r with
  | inl e => Done (inl e)
  | inr s =>
      let! perm := pointers_of n (ct_count s) perm in
      let! count := starts_of n (ct_count s) perm in
      let! mnz := zget perm n in
      let n_row := mnz / 2 in
      let! m_len := ounwrap (colamd_recommended mnz n_row n) in
      let m := repeat 0 (Z.to_nat m_len) in
      let! (m, _, _) := if ct_jumbled s then fill_jumbled n a p (ct_mark s) (m, count, 0)
                        else fill_sorted n a p (m, count, 0) in
      let o := ColamdOptions (lit (-1)) (dense_row_control o) (aggressive_row_absorption o) in
      let! r := colamd_core n_row n m perm o in
      match r with
      | inl e => Done (inl e)
      | inr (perm, st) =>
          Done (inr (perm, Statistics (st_jumble st) (st_ignored_columns st) (st_ignored_columns st)
                             (st_garbage_collections st)))
      end
  end.

(** lib.rs 206-242.  Errors -3 to -5 are unreachable in status.rs 115. *)
Definition symamd (n : Z) (row_indices column_pointers permutation : list Z) (o : option colamd_options)
  : outcome (colamd_error + list Z * statistics) :=
  let! _ := oassert ((0 <=? n + 1) && (Z.of_nat (length column_pointers) =? n + 1)) in
  let! _ := oassert (length column_pointers =? length permutation)%nat in
  let! r := symamd_core n row_indices column_pointers permutation
              (match o with Some o => o | None => colamd_default end) in
  match r with
  | inl NegativeRows | inl NegativeColumns | inl NegativeEntries => Panic
  | r => Done r
  end.
