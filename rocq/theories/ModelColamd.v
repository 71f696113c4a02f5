(** Model of /repo/colamd_rs/src/colamd.rs: the column approximate minimum degree
    ordering, and of the part of qr.rs that calls it.

    The code is C transpiled to Rust.  Its arrays are reached through raw
    pointers; here an access out of bounds is [Panic].  Its [union] fields are one
    field each, named [shared1] to [shared4] as in the code, with what they hold
    at the time said where they are used.

    Simplifications: [i32] is [Z] (no overflow; with fewer than 2^29 entries, rows
    and columns none of the numbers leaves the range); the tables of rows and
    columns start as zeros rather than as whatever the end of the workspace
    held (every field is written before it is read). *)
From Coq Require Import List Arith ZArith Bool.
From Coq Require Import Floats.SpecFloat.
From Verif Require Import Num Outcome ModelSparse.
Import ListNotations.
Local Open Scope Z_scope.

(** Accesses by an [i32] *)
Definition zget {A} (l : list A) (i : Z) : outcome A := if i <? 0 then Panic else oget l (Z.to_nat i).
Definition zset {A} (l : list A) (i : Z) (x : A) : outcome (list A) :=
  if i <? 0 then Panic else oset l (Z.to_nat i) x.
(** [a..b] *)
Definition zrange (a b : Z) : list Z := map (fun i => a + Z.of_nat i) (seq 0 (Z.to_nat (b - a))).

(** 33-40; [shared1]: degree, p; [shared2]: mark, first_column *)
Record crow := CRow { rw_start : Z; rw_length : Z; rw_shared1 : Z; rw_shared2 : Z }.
(** 58-67; [shared1]: thickness, parent; [shared2]: score, order; [shared3]:
    headhash, hash, prev; [shared4]: degree_next, hash_next *)
Record ccol := CCol { cl_start : Z; cl_length : Z; cl_shared1 : Z; cl_shared2 : Z; cl_shared3 : Z; cl_shared4 : Z }.

Definition rw_set_start (v : Z) (r : crow) := CRow v (rw_length r) (rw_shared1 r) (rw_shared2 r).
Definition rw_set_length (v : Z) (r : crow) := CRow (rw_start r) v (rw_shared1 r) (rw_shared2 r).
Definition rw_set_shared1 (v : Z) (r : crow) := CRow (rw_start r) (rw_length r) v (rw_shared2 r).
Definition rw_set_shared2 (v : Z) (r : crow) := CRow (rw_start r) (rw_length r) (rw_shared1 r) v.
Definition cl_set_start (v : Z) (c : ccol) :=
  CCol v (cl_length c) (cl_shared1 c) (cl_shared2 c) (cl_shared3 c) (cl_shared4 c).
Definition cl_set_length (v : Z) (c : ccol) :=
  CCol (cl_start c) v (cl_shared1 c) (cl_shared2 c) (cl_shared3 c) (cl_shared4 c).
Definition cl_set_shared1 (v : Z) (c : ccol) :=
  CCol (cl_start c) (cl_length c) v (cl_shared2 c) (cl_shared3 c) (cl_shared4 c).
Definition cl_set_shared2 (v : Z) (c : ccol) :=
  CCol (cl_start c) (cl_length c) (cl_shared1 c) v (cl_shared3 c) (cl_shared4 c).
Definition cl_set_shared3 (v : Z) (c : ccol) :=
  CCol (cl_start c) (cl_length c) (cl_shared1 c) (cl_shared2 c) v (cl_shared4 c).
Definition cl_set_shared4 (v : Z) (c : ccol) :=
  CCol (cl_start c) (cl_length c) (cl_shared1 c) (cl_shared2 c) (cl_shared3 c) v.

(** [Row[r].field = v] *)
Definition zupdate {A} (l : list A) (i : Z) (f : A -> A) : outcome (list A) :=
  let! x := zget l i in zset l i (f x).

(** 125-129 *)
Definition empty_link : Z := -1.
Definition dead : Z := -1.
Definition dead_principal : Z := -1.
Definition dead_non_principal : Z := -2.
Definition alive (v : Z) : bool := 0 <=? v.

(* ----- sizes ----- *)

(** [usize::MAX]: 64-bit *)
Definition usize_max : Z := 2 ^ 64 - 1.
(** [usize::checked_add], [usize::checked_mul] *)
Definition checked (x : Z) : option Z := if x <=? usize_max then Some x else None.
Definition obnd {A B} (m : option A) (k : A -> option B) : option B :=
  match m with Some a => k a | None => None end.
Notation "'let?' x ':=' m 'in' k" := (obnd m (fun x => k)) (at level 200, x pattern, right associativity).

(** [size_of::<Colamd_Col>()] and [size_of::<Colamd_Row>()]: six and four words *)
Definition size_of_col : Z := 24.
Definition size_of_row : Z := 16.
(** 142-145, 411-414 and 146-149, 415-418 *)
Definition col_words (n_col : Z) : option Z :=
  let? n := checked (n_col + 1) in let? m := checked (n * size_of_col) in Some (m / 4).
Definition row_words (n_row : Z) : option Z :=
  let? n := checked (n_row + 1) in let? m := checked (n * size_of_row) in Some (m / 4).
(** [usize::try_from(i32).ok()] *)
Definition to_usize (x : Z) : option Z := if x <? 0 then None else Some x.

(** 137-157 *)
Definition colamd_recommended (nnz n_row n_col : Z) : option Z :=
  let? nnz := to_usize nnz in
  let? n_row := to_usize n_row in
  let? n_col := to_usize n_col in
  let? c := col_words n_col in
  let? r := row_words n_row in
  let? x := checked (nnz * 2) in
  let? x := checked (x + c) in
  let? x := checked (x + r) in
  let? x := checked (x + n_col) in
  checked (x + nnz / 5).

(** 410-427 *)
Definition calculate_sizes (n_col n_row nnz : Z) : option (Z * Z * Z) :=
  let? col_size := col_words n_col in
  let? row_size := row_words n_row in
  let? x := checked (nnz * 2) in
  let? x := checked (x + n_col) in
  let? x := checked (x + col_size) in
  let? need := checked (x + row_size) in
  Some (col_size, row_size, need).

(* ----- the state ----- *)

(** The tables, the workspace [A], and [p], which is called [head] once it holds
    the heads of the lists of columns of equal score *)
Record work := Work { wk_rows : list crow; wk_cols : list ccol; wk_A : list Z; wk_head : list Z }.

Definition row_at (w : work) (r : Z) : outcome crow := zget (wk_rows w) r.
Definition col_at (w : work) (c : Z) : outcome ccol := zget (wk_cols w) c.
Definition mem_at (w : work) (i : Z) : outcome Z := zget (wk_A w) i.
Definition head_at (w : work) (i : Z) : outcome Z := zget (wk_head w) i.
Definition set_row (w : work) (r : Z) (f : crow -> crow) : outcome work :=
  let! rows := zupdate (wk_rows w) r f in Done (Work rows (wk_cols w) (wk_A w) (wk_head w)).
Definition set_col (w : work) (c : Z) (f : ccol -> ccol) : outcome work :=
  let! cols := zupdate (wk_cols w) c f in Done (Work (wk_rows w) cols (wk_A w) (wk_head w)).
Definition set_mem (w : work) (i : Z) (v : Z) : outcome work :=
  let! a := zset (wk_A w) i v in Done (Work (wk_rows w) (wk_cols w) a (wk_head w)).
Definition set_head (w : work) (i : Z) (v : Z) : outcome work :=
  let! h := zset (wk_head w) i v in Done (Work (wk_rows w) (wk_cols w) (wk_A w) h).

(* ----- init_rows_cols ----- *)

(** status.rs 50-84, as 1 of [stats] says it (392-407, 429-443, 525-530, 551-557) *)
Inductive colamd_error :=
| NegativeRows | NegativeColumns | NegativeEntries
| BadStartPointer (got : Z)
| ATooSmall (required actual : Z)
| ColumnWithNegativeEntries (column entries : Z)
| RowIndexOutOfBounds (column row num_rows : Z).

(** 522-535: the first column whose length is negative *)
Fixpoint negative_column (p : list Z) (cols : list Z) : outcome (option colamd_error) :=
  match cols with
  | [] => Done None
  | col :: cols =>
      let! a := zget p col in
      let! b := zget p (col + 1) in
      if b - a <? 0 then Done (Some (ColumnWithNegativeEntries col (b - a))) else negative_column p cols
  end.
(** 547-557: the first row index out of range *)
Definition bad_row (n_row col : Z) (rows : list Z) : option colamd_error :=
  match find (fun row => (row <? 0) || (n_row <=? row)) rows with
  | Some row => Some (RowIndexOutOfBounds col row n_row)
  | None => None
  end.
(** 549 [&A[p[col]..p[col + 1]]]; casting a negative [i32] to [usize] gives a number out of bounds *)
Definition column_slice (a p : list Z) (col : Z) : outcome (list Z) :=
  let! start := zget p col in
  let! stop := zget p (col + 1) in
  if (start <? 0) || (stop <? start) || (Z.of_nat (length a) <? stop) then Panic
  else Done (firstn (Z.to_nat (stop - start)) (skipn (Z.to_nat start) a)).
Fixpoint bad_entry (a p : list Z) (n_row : Z) (cols : list Z) : outcome (option colamd_error) :=
  match cols with
  | [] => Done None
  | col :: cols =>
      let! rows := column_slice a p col in
      match bad_row n_row col rows with
      | Some e => Done (Some e)
      | None => bad_entry a p n_row cols
      end
  end.

(** 556-564 of [stats]: was an unsorted or repeated index seen; [highest_jumbled_column],
    [last_seen_jumbled_row], [jumbled_rows] *)
Record jumble := Jumble { j_seen : bool; j_col : Z; j_row : Z; j_count : Z }.

(** 522-535 (the columns are all of nonnegative length) *)
Definition init_col (w : work) (col : Z) : outcome work :=
  let! a := head_at w col in
  let! b := head_at w (col + 1) in
  set_col w col (fun _ => CCol a (b - a) 1 0 empty_link empty_link).

(** 558-574, one index *)
Definition scan_entry (col : Z) (st : work * jumble * Z) (row : Z) : outcome (work * jumble * Z) :=
  let '(w, j, last_row) := st in
  let! r := row_at w row in
  let j := if (row <=? last_row) || (rw_shared2 r =? col) then Jumble true col row (j_count j + 1) else j in
  let! w := if negb (rw_shared2 r =? col) then set_row w row (fun r => rw_set_length (rw_length r + 1) r)
            else set_col w col (fun c => cl_set_length (cl_length c - 1) c) in
  let! w := set_row w row (rw_set_shared2 col) in
  Done (w, j, row).
(** 547-576, one column *)
Definition scan_column (st : work * jumble) (col : Z) : outcome (work * jumble) :=
  let '(w, j) := st in
  let! rows := column_slice (wk_A w) (wk_head w) col in
  let! (w, j, _) := ofold (scan_entry col) rows (w, j, -1) in
  Done (w, j).

(** 584-588 *)
Definition row_pointer (w : work) (row : Z) : outcome work :=
  let! r := row_at w (row - 1) in
  let start := rw_start r + rw_length r in
  set_row w row (fun r => CRow start (rw_length r) start (-1)).

(** 596-601 and 608-610, one entry *)
Definition row_entry (jumbled : bool) (col : Z) (w : work) (cp : Z) : outcome work :=
  let! row := mem_at w cp in
  let! r := row_at w row in
  if jumbled && (rw_shared2 r =? col) then Done w else
  let! w := set_mem w (rw_shared1 r) col in
  let! w := set_row w row (rw_set_shared1 (rw_shared1 r + 1)) in
  if jumbled then set_row w row (rw_set_shared2 col) else Done w.
(** 594-603 and 606-612, one column *)
Definition row_form (jumbled : bool) (w : work) (col : Z) : outcome work :=
  let! a := head_at w col in
  let! b := head_at w (col + 1) in
  ofold (row_entry jumbled col) (zrange a b) w.

(** 633-639 *)
Definition col_pointer (w : work) (col : Z) : outcome work :=
  let! c := col_at w (col - 1) in
  let start := cl_start c + cl_length c in
  let! w := set_col w col (cl_set_start start) in
  set_head w col start.
(** 643-649: the bounds of the range are entries of [A], not positions in it *)
Definition col_form (w : work) (row : Z) : outcome work :=
  let! r := row_at w row in
  let! first := mem_at w (rw_start r) in
  ofold (fun w rp =>
      let! q := head_at w rp in
      let! w := set_mem w q row in
      set_head w rp (q + 1)) (zrange first (first + rw_length r)) w.

(** 502-655 *)
Definition init_rows_cols (n_row n_col : Z) (w : work) : outcome (colamd_error + work * jumble) :=
  let! e := negative_column (wk_head w) (zrange 0 n_col) in
  match e with Some e => Done (inl e) | None =>
  let! w := ofold init_col (zrange 0 n_col) w in
  let! w := ofold (fun w row => set_row w row (fun r => CRow (rw_start r) 0 (rw_shared1 r) (-1))) (zrange 0 n_row) w in
  let! e := bad_entry (wk_A w) (wk_head w) n_row (zrange 0 n_col) in
  match e with Some e => Done (inl e) | None =>
  let! (w, j) := ofold scan_column (zrange 0 n_col) (w, Jumble false (-1) (-1) 0) in
  let! nnz := head_at w n_col in
  let! w := set_row w 0 (fun r => CRow nnz (rw_length r) nnz (-1)) in
  let! w := ofold row_pointer (zrange 1 n_row) w in
  let! w := ofold (row_form (j_seen j)) (zrange 0 n_col) w in
  let! w := ofold (fun w row => set_row w row (fun r => CRow (rw_start r) (rw_length r) (rw_length r) 0))
              (zrange 0 n_row) w in
  if j_seen j then
    let! w := set_col w 0 (cl_set_start 0) in
    let! w := set_head w 0 0 in
    let! w := ofold col_pointer (zrange 1 n_col) w in
    let! w := ofold col_form (zrange 0 n_row) w in
    Done (inr (w, j))
  else Done (inr (w, j))
  end end.

(* ----- init_scoring ----- *)

(** options.rs 8-23 *)
Record colamd_options := ColamdOptions {
  dense_row_control : f64;
  dense_column_control : f64;
  aggressive_row_absorption : bool
}.
(** options.rs 25-31 *)
Definition colamd_default : colamd_options := ColamdOptions (lit 10) (lit 10) true.

(** [as i32] of an [f64]: towards zero, saturating, NaN to 0 *)
Definition f64_to_i32 (x : f64) : Z :=
  let clamp z := Z.max (- 2 ^ 31) (Z.min (2 ^ 31 - 1) z) in
  match x with
  | S754_zero _ | S754_nan => 0
  | S754_infinity s => if s then - 2 ^ 31 else 2 ^ 31 - 1
  | S754_finite s m e =>
      let z := if 0 <=? e then Z.pos m * 2 ^ e else Z.pos m / 2 ^ (- e) in
      clamp (if s then - z else z)
  end.
(** 684-706 *)
Definition dense_count (control : f64) (of_limit none : Z) : Z :=
  if nltb control nzero then none - 1
  else
    let x := nmul control (nsqrt (nofZ of_limit)) in
    f64_to_i32 (if nltb x (lit 16) then lit 16 else x).

(** 710-719, one column; the state is the tables and [n_col2] *)
Definition drop_empty (st : work * Z) (c : Z) : outcome (work * Z) :=
  let '(w, n_col2) := st in
  let! col := col_at w c in
  if cl_length col =? 0 then
    let! w := set_col w c (fun col => cl_set_start dead_principal (cl_set_shared2 (n_col2 - 1) col)) in
    Done (w, n_col2 - 1)
  else Done (w, n_col2).

(** 729-732 *)
Definition decrement_degree (w : work) (cp : Z) : outcome work :=
  let! row := mem_at w cp in
  set_row w row (fun r => rw_set_shared1 (rw_shared1 r - 1) r).
(** 720-737, one column *)
Definition drop_dense (dense_col_count : Z) (st : work * Z) (c : Z) : outcome (work * Z) :=
  let '(w, n_col2) := st in
  let! col := col_at w c in
  if alive (cl_start col) && (dense_col_count <? cl_length col) then
    let! w := set_col w c (cl_set_shared2 (n_col2 - 1)) in
    let! w := ofold decrement_degree (zrange (cl_start col) (cl_start col + cl_length col)) w in
    let! w := set_col w c (cl_set_start dead_principal) in
    Done (w, n_col2 - 1)
  else Done (w, n_col2).

(** 738-748, one row; the state is the tables, [n_row2] and [max_deg] *)
Definition drop_row (dense_row_count : Z) (st : work * Z * Z) (r : Z) : outcome (work * Z * Z) :=
  let '(w, n_row2, max_deg) := st in
  let! row := row_at w r in
  let deg := rw_shared1 row in
  if (dense_row_count <? deg) || (deg =? 0) then
    let! w := set_row w r (rw_set_shared2 dead) in Done (w, n_row2 - 1, max_deg)
  else Done (w, n_row2, if deg <? max_deg then max_deg else deg).

(** 756-770, one entry; the state is the tables, [new_cp] and [score] *)
Definition score_entry (n_col : Z) (st : work * Z * Z) (cp : Z) : outcome (work * Z * Z) :=
  let '(w, new_cp, score) := st in
  let! row := mem_at w cp in
  let! r := row_at w row in
  if negb (alive (rw_shared2 r)) then Done (w, new_cp, score) else
  let! w := set_mem w new_cp row in
  Done (w, new_cp + 1, Z.min (score + (rw_shared1 r - 1)) n_col).
(** 749-784, one column *)
Definition score_column (n_col : Z) (st : work * Z) (c : Z) : outcome (work * Z) :=
  let '(w, n_col2) := st in
  let! col := col_at w c in
  if alive (cl_start col) then
    let start := cl_start col in
    let! (w, new_cp, score) := ofold (score_entry n_col) (zrange start (start + cl_length col)) (w, start, 0) in
    if new_cp - start =? 0 then
      let! w := set_col w c (fun col => cl_set_start dead_principal (cl_set_shared2 (n_col2 - 1) col)) in
      Done (w, n_col2 - 1)
    else
      let! w := set_col w c (fun col => cl_set_shared2 score (cl_set_length (new_cp - start) col)) in
      Done (w, n_col2)
  else Done (w, n_col2).

(** 795-801 and 1051-1057: put column [c], of score [score], in front of its list *)
Definition link_column (w : work) (c score : Z) : outcome work :=
  let! next_col := head_at w score in
  let! w := set_col w c (fun col => cl_set_shared4 next_col (cl_set_shared3 empty_link col)) in
  let! w := if negb (next_col =? empty_link) then set_col w next_col (cl_set_shared3 c) else Done w in
  set_head w score c.
(** 791-805, one column.  ([min_score] is not used afterwards.) *)
Definition hang_column (w : work) (c : Z) : outcome work :=
  let! col := col_at w c in
  if alive (cl_start col) then link_column w c (cl_shared2 col) else Done w.

(** 656-809; the tables, [n_row2], [n_col2] and [max_deg] *)
Definition init_scoring (n_row n_col : Z) (o : colamd_options) (w : work) : outcome (work * Z * Z * Z) :=
  let dense_row_count := dense_count (dense_row_control o) n_col n_col in
  let dense_col_count := dense_count (dense_column_control o) (Z.min n_row n_col) n_row in
  let down := rev (zrange 0 n_col) in
  let! (w, n_col2) := ofold drop_empty down (w, n_col) in
  let! (w, n_col2) := ofold (drop_dense dense_col_count) down (w, n_col2) in
  let! (w, n_row2, max_deg) := ofold (drop_row dense_row_count) (zrange 0 n_row) (w, n_row, 0) in
  let! (w, n_col2) := ofold (score_column n_col) down (w, n_col2) in
  let! w := ofold (fun w c => set_head w c empty_link) (zrange 0 (n_col + 1)) w in
  let! w := ofold hang_column down w in
  Done (w, n_row2, n_col2, max_deg).

(* ----- find_ordering ----- *)

(** 1308-1326; the tables and [tag_mark] *)
Definition clear_mark (tag_mark max_mark n_row : Z) (w : work) : outcome (work * Z) :=
  if (tag_mark <=? 0) || (max_mark <=? tag_mark) then
    let! w := ofold (fun w r =>
        let! row := row_at w r in
        if alive (rw_shared2 row) then set_row w r (rw_set_shared2 0) else Done w) (zrange 0 n_row) w in
    Done (w, 1)
  else Done (w, tag_mark).

(** 1246-1256, one entry; the state is the tables and [pdest] *)
Definition compact_entry (st : work * Z) (psrc : Z) : outcome (work * Z) :=
  let '(w, pdest) := st in
  let! r := mem_at w psrc in
  let! row := row_at w r in
  if alive (rw_shared2 row) then let! w := set_mem w pdest r in Done (w, pdest + 1) else Done (w, pdest).
(** 1238-1262, one column *)
Definition compact_column (st : work * Z) (c : Z) : outcome (work * Z) :=
  let '(w, pdest) := st in
  let! col := col_at w c in
  if alive (cl_start col) then
    let! w := set_col w c (cl_set_start pdest) in
    let! (w, stop) := ofold compact_entry (zrange (cl_start col) (cl_start col + cl_length col)) (w, pdest) in
    let! w := set_col w c (cl_set_length (stop - pdest)) in
    Done (w, stop)
  else Done (w, pdest).
(** 1264-1275, one row: swap its first entry for a mark *)
Definition mark_row (w : work) (r : Z) : outcome work :=
  let! row := row_at w r in
  if negb (alive (rw_shared2 row)) || (rw_length row =? 0) then set_row w r (rw_set_shared2 dead)
  else
    let! first := mem_at w (rw_start row) in
    let! w := set_row w r (rw_set_shared2 first) in
    set_mem w (rw_start row) (- r - 1).
(** 1289-1299, one entry *)
Definition compact_row_entry (st : work * Z) (psrc : Z) : outcome (work * Z) :=
  let '(w, pdest) := st in
  let! c := mem_at w psrc in
  let! col := col_at w c in
  if alive (cl_start col) then let! w := set_mem w pdest c in Done (w, pdest + 1) else Done (w, pdest).
(** 1277-1304 *)
Fixpoint compact_rows (fuel : nat) (pfree : Z) (w : work) (psrc pdest : Z) : outcome (work * Z) :=
  match fuel with
  | O => Timeout
  | S fuel =>
      if psrc <? pfree then
        let! x := mem_at w psrc in
        if x <? 0 then
          let r := - x - 1 in
          let! row := row_at w r in
          let! w := set_mem w psrc (rw_shared2 row) in
          let! w := set_row w r (rw_set_start pdest) in
          let! (w, stop) := ofold compact_row_entry (zrange psrc (psrc + rw_length row)) (w, pdest) in
          let! w := set_row w r (rw_set_length (stop - pdest)) in
          compact_rows fuel pfree w (psrc + rw_length row) stop
        else compact_rows fuel pfree w (psrc + 1) pdest
      else Done (w, pdest)
  end.
(** 1222-1307; the tables and the new [pfree] *)
Definition garbage_collection (n_row n_col : Z) (w : work) (pfree : Z) : outcome (work * Z) :=
  let! (w, pdest) := ofold compact_column (zrange 0 n_col) (w, 0) in
  let! w := ofold mark_row (zrange 0 n_row) w in
  compact_rows (S (length (wk_A w))) pfree w pdest pdest.

(** 860-862 *)
Fixpoint find_min (fuel : nat) (n_col : Z) (w : work) (min_score : Z) : outcome Z :=
  match fuel with
  | O => Timeout
  | S fuel =>
      let! h := head_at w min_score in
      if (h =? empty_link) && (min_score <? n_col) then find_min fuel n_col w (min_score + 1)
      else Done min_score
  end.

(** 895-909, one entry; the state is the tables, [pfree] and [pivot_row_degree] *)
Definition gather_col (st : work * Z * Z) (rp : Z) : outcome (work * Z * Z) :=
  let '(w, pfree, degree) := st in
  let! col := mem_at w rp in
  let! c := col_at w col in
  let thickness := cl_shared1 c in
  if (0 <? thickness) && alive (cl_start c) then
    let! w := set_col w col (cl_set_shared1 (- thickness)) in
    let! w := set_mem w pfree col in
    Done (w, pfree + 1, degree + thickness)
  else Done (w, pfree, degree).
(** 888-911, one entry *)
Definition gather_row (st : work * Z * Z) (cp : Z) : outcome (work * Z * Z) :=
  let '(w, pfree, degree) := st in
  let! row := mem_at w cp in
  let! r := row_at w row in
  if alive (rw_shared2 r) then
    ofold gather_col (zrange (rw_start r) (rw_start r + rw_length r)) (w, pfree, degree)
  else Done (w, pfree, degree).
(** 920-925 *)
Definition kill_row (w : work) (cp : Z) : outcome work :=
  let! row := mem_at w cp in set_row w row (rw_set_shared2 dead).

(** 953-971, one entry *)
Definition subtract_row (tag_mark : Z) (aggressive : bool) (thickness : Z) (w : work) (cp : Z) : outcome work :=
  let! row := mem_at w cp in
  let! r := row_at w row in
  let row_mark := rw_shared2 r in
  if negb (alive row_mark) then Done w else
  let set_difference := row_mark - tag_mark in
  let set_difference := if set_difference <? 0 then rw_shared1 r else set_difference in
  let set_difference := set_difference - thickness in
  if (set_difference =? 0) && aggressive then set_row w row (rw_set_shared2 dead)
  else set_row w row (rw_set_shared2 (set_difference + tag_mark)).
(** 943-950: take column [c] out of its list *)
Definition unlink_column (w : work) (c : Z) : outcome work :=
  let! col := col_at w c in
  let prev_col := cl_shared3 col in
  let next_col := cl_shared4 col in
  let! w := if prev_col =? empty_link then set_head w (cl_shared2 col) next_col
            else set_col w prev_col (cl_set_shared4 next_col) in
  if negb (next_col =? empty_link) then set_col w next_col (cl_set_shared3 prev_col) else Done w.
(** 934-972, one column of the pivot row *)
Definition subtract_column (tag_mark : Z) (aggressive : bool) (w : work) (rp : Z) : outcome work :=
  let! col := mem_at w rp in
  let! c := col_at w col in
  let thickness := - cl_shared1 c in
  let! w := set_col w col (cl_set_shared1 thickness) in
  let! w := unlink_column w col in
  ofold (subtract_row tag_mark aggressive thickness) (zrange (cl_start c) (cl_start c + cl_length c)) w.

(** [u32::wrapping_add] *)
Definition wrap32 (x : Z) : Z := x mod 2 ^ 32.
(** 984-998, one entry; the state is the tables, [new_cp], [hash] and [cur_score] *)
Definition rescore_entry (n_col tag_mark : Z) (st : work * Z * Z * Z) (cp : Z) : outcome (work * Z * Z * Z) :=
  let '(w, new_cp, hash, cur_score) := st in
  let! row := mem_at w cp in
  let! r := row_at w row in
  let row_mark := rw_shared2 r in
  if negb (alive row_mark) then Done st else
  let! w := set_mem w new_cp row in
  Done (w, new_cp + 1, wrap32 (hash + row), Z.min (cur_score + (row_mark - tag_mark)) n_col).
(** 1009-1019: put column [c] into its hash bucket *)
Definition hash_column (w : work) (col hash : Z) : outcome work :=
  let! head_column := head_at w hash in
  let! (w, first_col) :=
    if empty_link <? head_column then
      let! hc := col_at w head_column in
      let! w := set_col w head_column (cl_set_shared3 col) in
      Done (w, cl_shared3 hc)
    else
      let! w := set_head w hash (- (col + 2)) in
      Done (w, - (head_column + 2)) in
  set_col w col (fun c => cl_set_shared3 hash (cl_set_shared4 first_col c)).
(** 975-1021, one column of the pivot row; the state is the tables, [pivot_row_degree] and [k] *)
Definition rescore_column (n_col tag_mark : Z) (st : work * Z * Z) (rp : Z) : outcome (work * Z * Z) :=
  let '(w, degree, k) := st in
  let! col := mem_at w rp in
  let! c := col_at w col in
  let start := cl_start c in
  let! (w, new_cp, hash, cur_score) :=
    ofold (rescore_entry n_col tag_mark) (zrange start (start + cl_length c)) (w, start, 0, 0) in
  let! w := set_col w col (cl_set_length (new_cp - start)) in
  if new_cp - start =? 0 then
    let! w := set_col w col (fun c => cl_set_start dead_principal (cl_set_shared2 k c)) in
    Done (w, degree - cl_shared1 c, k + cl_shared1 c)
  else
    let! w := set_col w col (cl_set_shared2 cur_score) in
    let! w := hash_column w col (hash mod (n_col + 1)) in
    Done (w, degree, k).

(** 1185-1198: are the [n] entries from [cp1] and from [cp2] on the same? *)
Fixpoint same_entries (w : work) (n : nat) (cp1 cp2 : Z) : outcome bool :=
  match n with
  | O => Done true
  | S n =>
      let! x := mem_at w cp1 in
      let! y := mem_at w cp2 in
      if x =? y then same_entries w n (cp1 + 1) (cp2 + 1) else Done false
  end.
(** 1178-1212: compare [super_c] with the columns of its bucket from [c] on *)
Fixpoint absorb (fuel : nat) (w : work) (super_c prev_c c : Z) : outcome work :=
  if c =? empty_link then Done w else
  match fuel with
  | O => Timeout
  | S fuel =>
      let! s := col_at w super_c in
      let! x := col_at w c in
      let! same :=
        if negb (cl_length x =? cl_length s) || negb (cl_shared2 x =? cl_shared2 s) then Done false
        else same_entries w (Z.to_nat (cl_length s)) (cl_start s) (cl_start x) in
      if same then
        let! w := set_col w super_c (cl_set_shared1 (cl_shared1 s + cl_shared1 x)) in
        let! w := set_col w c (fun x => cl_set_shared2 empty_link
                                 (cl_set_start dead_non_principal (cl_set_shared1 super_c x))) in
        let! w := set_col w prev_c (cl_set_shared4 (cl_shared4 x)) in
        absorb fuel w super_c prev_c (cl_shared4 x)
      else absorb fuel w super_c c (cl_shared4 x)
  end.
(** 1174-1214: each column of a bucket in turn *)
Fixpoint absorb_bucket (fuel : nat) (w : work) (super_c : Z) : outcome work :=
  if super_c =? empty_link then Done w else
  match fuel with
  | O => Timeout
  | S fuel =>
      let! s := col_at w super_c in
      let! w := absorb (S fuel) w super_c super_c (cl_shared4 s) in
      let! s := col_at w super_c in
      absorb_bucket fuel w (cl_shared4 s)
  end.
(** 1160-1220, one column of the pivot row *)
Definition detect_column (w : work) (rp : Z) : outcome work :=
  let! col := mem_at w rp in
  let! c := col_at w col in
  if negb (alive (cl_start c)) then Done w else
  let hash := cl_shared3 c in
  let! head_column := head_at w hash in
  let! first_col :=
    if empty_link <? head_column then let! hc := col_at w head_column in Done (cl_shared3 hc)
    else Done (- (head_column + 2)) in
  let! w := absorb_bucket (S (length (wk_cols w))) w first_col in
  if empty_link <? head_column then set_col w head_column (cl_set_shared3 empty_link)
  else set_head w hash empty_link.
(** 1139-1221 *)
Definition detect_super_cols (w : work) (row_start row_length : Z) : outcome work :=
  ofold detect_column (zrange row_start (row_start + row_length)) w.

(** 1028-1063, one column of the pivot row; the state is the tables, [new_rp] and [min_score] *)
Definition finish_column (n_col k pivot_row degree : Z) (st : work * Z * Z) (rp : Z) : outcome (work * Z * Z) :=
  let '(w, new_rp, min_score) := st in
  let! col := mem_at w rp in
  let! c := col_at w col in
  if negb (alive (cl_start c)) then Done st else
  let! w := set_mem w new_rp col in
  let! w := set_mem w (cl_start c + cl_length c) pivot_row in
  let! w := set_col w col (cl_set_length (cl_length c + 1)) in
  let cur_score := Z.min (cl_shared2 c + degree - cl_shared1 c) (n_col - k - cl_shared1 c) in
  let! w := set_col w col (cl_set_shared2 cur_score) in
  let! w := link_column w col cur_score in
  Done (w, new_rp + 1, Z.min min_score cur_score).

(** The loop-carried variables of 859-1072 *)
Record search := Search {
  sr_work : work; sr_k : Z; sr_min_score : Z; sr_max_deg : Z; sr_pfree : Z; sr_tag_mark : Z; sr_garbage : Z
}.

(** 859-1072, one round *)
Definition order_pivot (n_row n_col alen : Z) (aggressive : bool) (st : search) : outcome search :=
  let max_mark := 2 ^ 31 - 1 - n_col in
  let w := sr_work st in
  (* 860-872 *)
  let! min_score := find_min (S (length (wk_head w))) n_col w (sr_min_score st) in
  let! pivot_col := head_at w min_score in
  let! pc := col_at w pivot_col in
  let next_col := cl_shared4 pc in
  let! w := set_head w min_score next_col in
  let! w := if negb (next_col =? empty_link) then set_col w next_col (cl_set_shared3 empty_link) else Done w in
  let! pc := col_at w pivot_col in
  let score := cl_shared2 pc in
  let! w := set_col w pivot_col (cl_set_shared2 (sr_k st)) in
  let thickness := cl_shared1 pc in
  let k := sr_k st + thickness in
  (* 873-882 *)
  let needed_memory := Z.min score (n_col - k) in
  let! (w, pfree, tag_mark, ngarbage) :=
    if alen <=? sr_pfree st + needed_memory then
      let! (w, pfree) := garbage_collection n_row n_col w (sr_pfree st) in
      let! (w, tag_mark) := clear_mark 0 max_mark n_row w in
      Done (w, pfree, tag_mark, sr_garbage st + 1)
    else Done (w, sr_pfree st, sr_tag_mark st, sr_garbage st) in
  (* 883-917 *)
  let pivot_row_start := pfree in
  let! w := set_col w pivot_col (cl_set_shared1 (- thickness)) in
  let! pc := col_at w pivot_col in
  let entries := zrange (cl_start pc) (cl_start pc + cl_length pc) in
  let! (w, pfree, degree) := ofold gather_row entries (w, pfree, 0) in
  let! w := set_col w pivot_col (cl_set_shared1 thickness) in
  let max_deg := Z.max (sr_max_deg st) degree in
  (* 918-931 *)
  let! w := ofold kill_row entries w in
  let pivot_row_length := pfree - pivot_row_start in
  let! pivot_row := if 0 <? pivot_row_length then mem_at w (cl_start pc) else Done empty_link in
  let pivot := zrange pivot_row_start (pivot_row_start + pivot_row_length) in
  (* 932-1024 *)
  let! w := ofold (subtract_column tag_mark aggressive) pivot w in
  let! (w, degree, k) := ofold (rescore_column n_col tag_mark) pivot (w, degree, k) in
  let! w := detect_super_cols w pivot_row_start pivot_row_length in
  let! w := set_col w pivot_col (cl_set_start dead_principal) in
  let! (w, tag_mark) := clear_mark (tag_mark + max_deg + 1) max_mark n_row w in
  (* 1025-1071 *)
  let! (w, new_rp, min_score) :=
    ofold (finish_column n_col k pivot_row degree) pivot (w, pivot_row_start, min_score) in
  let! w :=
    if 0 <? degree then
      set_row w pivot_row (fun _ => CRow pivot_row_start (new_rp - pivot_row_start) degree 0)
    else Done w in
  Done (Search w k min_score max_deg pfree tag_mark ngarbage).

(** 859-1072 *)
Fixpoint order_loop (fuel : nat) (n_row n_col n_col2 alen : Z) (aggressive : bool) (st : search) : outcome search :=
  if sr_k st <? n_col2 then
    match fuel with
    | O => Timeout
    | S fuel =>
        let! st := order_pivot n_row n_col alen aggressive st in
        order_loop fuel n_row n_col n_col2 alen aggressive st
    end
  else Done st.

(** 810-1074 *)
Definition find_ordering (n_row n_col alen n_col2 max_deg pfree : Z) (aggressive : bool) (w : work)
  : outcome (work * Z) :=
  let! (w, tag_mark) := clear_mark 0 (2 ^ 31 - 1 - n_col) n_row w in
  let! st := order_loop (length (wk_cols w)) n_row n_col n_col2 alen aggressive
               (Search w 0 0 max_deg pfree tag_mark 0) in
  Done (sr_work st, sr_garbage st).

(* ----- order_children ----- *)

(** 1096-1101 *)
Fixpoint principal_of (fuel : nat) (cols : list ccol) (c : Z) : outcome Z :=
  match fuel with
  | O => Timeout
  | S fuel =>
      let! x := zget cols c in
      let! y := zget cols (cl_shared1 x) in
      if cl_start y =? dead_principal then Done (cl_shared1 x) else principal_of fuel cols (cl_shared1 x)
  end.
(** 1104-1126; the columns and [order].  ([c] is the parent after one round: the
    parent is read back after it was overwritten.) *)
Fixpoint order_path (fuel : nat) (cols : list ccol) (parent c order : Z) : outcome (list ccol * Z) :=
  match fuel with
  | O => Timeout
  | S fuel =>
      let! cols := zupdate cols c (cl_set_shared2 order) in
      let! cols := zupdate cols c (cl_set_shared1 parent) in
      let! x := zget cols c in
      let c := cl_shared1 x in
      let! y := zget cols c in
      if negb (cl_shared2 y =? empty_link) then Done (cols, order + 1)
      else order_path fuel cols parent c (order + 1)
  end.
(** 1090-1131, one column *)
Definition order_child (cols : list ccol) (i : Z) : outcome (list ccol) :=
  let! x := zget cols i in
  if negb (cl_start x =? dead_principal) && (cl_shared2 x =? empty_link) then
    let! parent := principal_of (S (length cols)) cols i in
    let! y := zget cols parent in
    let! (cols, order) := order_path (S (length cols)) cols parent i (cl_shared2 y) in
    zupdate cols parent (cl_set_shared2 order)
  else Done cols.
(** 1135-1137 *)
Definition emit (cols : list ccol) (p : list Z) (c : Z) : outcome (list Z) :=
  let! x := zget cols c in zset p (cl_shared2 x) c.
(** 1087-1138 *)
Definition order_children (n_col : Z) (cols : list ccol) (p : list Z) : outcome (list ccol * list Z) :=
  let! cols := ofold order_child (zrange 0 n_col) cols in
  let! p := ofold (emit cols) (zrange 0 n_col) p in
  Done (cols, p).

(* ----- colamd ----- *)

(** status.rs 7-46; [None]: [Status::Ok] *)
Record statistics := Statistics {
  st_jumble : option (Z * Z * Z);
  st_ignored_rows : Z;
  st_ignored_columns : Z;
  st_garbage_collections : Z
}.

(** 368-494: the error, or [p] afterwards and the statistics *)
Definition colamd_core (n_row n_col : Z) (a p : list Z) (o : colamd_options)
  : outcome (colamd_error + list Z * statistics) :=
  if n_row <? 0 then Done (inl NegativeRows) else
  if n_col <? 0 then Done (inl NegativeColumns) else
  let! nnz := zget p n_col in
  if nnz <? 0 then Done (inl NegativeEntries) else
  let! p0 := zget p 0 in
  if negb (p0 =? 0) then Done (inl (BadStartPointer p0)) else
  let a_len := Z.of_nat (length a) in
  match calculate_sizes n_col n_row nnz with
  | None => Done (inl (ATooSmall 0 a_len))
  | Some (col_size, row_size, need) =>
      if a_len <? need then Done (inl (ATooSmall need a_len)) else
      let alen := a_len - (col_size + row_size) in
      let w := Work (repeat (CRow 0 0 0 0) (Z.to_nat (n_row + 1))) (repeat (CCol 0 0 0 0 0 0) (Z.to_nat (n_col + 1)))
                    (firstn (Z.to_nat alen) a) p in
      let! r := init_rows_cols n_row n_col w in
      match r with
      | inl e => Done (inl e)
      | inr (w, j) =>
          let! (w, n_row2, n_col2, max_deg) := init_scoring n_row n_col o w in
          let! (w, ngarbage) := find_ordering n_row n_col alen n_col2 max_deg (2 * nnz)
                                  (aggressive_row_absorption o) w in
          let! (_, p) := order_children n_col (wk_cols w) (wk_head w) in
          Done (inr (p, Statistics (if j_seen j then Some (j_col j, j_row j, j_count j) else None)
                          (n_row - n_row2) (n_col - n_col2) ngarbage))
      end
  end.

(** lib.rs 101-139.  Errors -3 to -5 are unreachable in status.rs 115. *)
Definition colamd (nrows ncols : Z) (row_indices column_pointers : list Z) (o : option colamd_options)
  : outcome (colamd_error + list Z * statistics) :=
  let! _ := oassert ((0 <=? ncols + 1) && (Z.of_nat (length column_pointers) =? ncols + 1)) in
  let! r := colamd_core nrows ncols row_indices column_pointers
              (match o with Some o => o | None => colamd_default end) in
  match r with
  | inl NegativeRows | inl NegativeColumns | inl NegativeEntries => Panic
  | r => Done r
  end.

(** [usize::try_into::<i32>().unwrap()] *)
Definition to_i32 (n : nat) : outcome Z := if Z.of_nat n <? 2 ^ 31 then Done (Z.of_nat n) else Panic.
(** qr.rs 121-166 *)
Definition colamd_ordering (a : structure) : outcome (list nat) :=
  let! nnz := to_i32 (length (s_row_indices a)) in
  let! nrows := to_i32 (s_nrows a) in
  let! ncols := to_i32 (s_ncols a) in
  let! a_len := ounwrap (colamd_recommended nnz nrows ncols) in
  let rows := map Z.of_nat (s_row_indices a) in
  let scratch := firstn (Z.to_nat a_len) rows ++ repeat 0 (Z.to_nat a_len - length rows) in
  let p := map Z.of_nat (s_column_pointers a) in
  let! r := colamd nrows ncols scratch p None in
  match r with
  | inl _ => Panic
  | inr (p, _) => Done (firstn (s_ncols a) (map Z.to_nat p))
  end.
