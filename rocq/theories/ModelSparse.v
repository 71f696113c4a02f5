(** Model of solvi's sparse matrices:
    /repo/solvi/src/triplet_mat.rs and /repo/solvi/src/sparse_col_mat.rs.

    Simplification: [usize] is [nat], so [row + 1] and the like do not overflow;
    and [usize::MAX] as a "nothing yet" value is [None].  [debug_assert!] is not
    modelled (release build). *)
From Coq Require Import List Arith Bool.
From Verif Require Import Outcome Num.
Import ListNotations.

(** [&slice[a..b]] *)
Definition oslice {A} (l : list A) (a b : nat) : outcome (list A) :=
  if (a <=? b) && (b <=? length l) then Done (firstn (b - a) (skipn a l)) else Panic.

(** [start..=last] *)
Definition range_incl (start last : nat) : list nat := seq start (S last - start).

(** triplet_mat.rs 24-33 *)
Record triplet_mat (T : Type) := TripletMat {
  t_nrows : nat;
  t_ncols : nat;
  t_row_indices : list nat;
  t_col_indices : list nat;
  t_values : list T
}.
Arguments TripletMat {T}. Arguments t_nrows {T}. Arguments t_ncols {T}.
Arguments t_row_indices {T}. Arguments t_col_indices {T}. Arguments t_values {T}.

(** sparse_col_mat.rs 190-201 *)
Record structure := Structure {
  s_nrows : nat;
  s_ncols : nat;
  s_row_indices : list nat;
  s_column_pointers : list nat
}.

(** sparse_col_mat.rs 518-528 *)
Record matrix (T : Type) := Matrix {
  m_structure : structure;
  m_values : list T
}.
Arguments Matrix {T}. Arguments m_structure {T}. Arguments m_values {T}.

(** sparse_col_mat.rs 8-104 *)
Inductive format_error :=
| BadNumberOfPointers (expected got : nat)
| BadStartPointer (got : nat)
| BadEndPointer (expected got : nat)
| UnorderedPointer (slice start stop : nat)
| UnorderedIndex (slice idx prev got : nat)
| IndexOutOfBounds (slice idx value bound : nat).

Section Triplets.
  Context {T : Type}.

  (** triplet_mat.rs 44-64 *)
  Definition triplet_new (nrows ncols : nat) : triplet_mat T := TripletMat nrows ncols [] [] [].

  (** triplet_mat.rs 99-105 *)
  Definition push_triplet (row col : nat) (value : T) (a : triplet_mat T) : triplet_mat T :=
    TripletMat (Nat.max (t_nrows a) (row + 1)) (Nat.max (t_ncols a) (col + 1))
      (t_row_indices a ++ [row]) (t_col_indices a ++ [col]) (t_values a ++ [value]).

  (** triplet_mat.rs 111-117 *)
  Definition triplet_clear (a : triplet_mat T) : triplet_mat T := TripletMat 0 0 [] [] [].

  (** triplet_mat.rs 141-149 *)
  Definition triplet_transpose (a : triplet_mat T) : triplet_mat T :=
    TripletMat (t_ncols a) (t_nrows a) (t_col_indices a) (t_row_indices a) (t_values a).

  (** triplet_mat.rs 158-174 *)
  Definition triplet_from_iter (ts : list (nat * nat * T)) : triplet_mat T :=
    fold_left (fun a '(row, col, value) => push_triplet row col value a) ts (triplet_new 0 0).
End Triplets.

(** sparse_col_mat.rs 256-286: the row indices of one column, from index [idx]
    (after its first).  [rows]: what is left of [row_indices[start+1..end]]
    (a missing tail ends the loop, as [take] does). *)
Fixpoint check_rows (nrows col idx prev_row : nat) (rows : list nat) : option format_error :=
  match rows with
  | [] => None
  | row :: rows =>
      if nrows <=? row then Some (IndexOutOfBounds col idx row nrows)
      else if row <=? prev_row then Some (UnorderedIndex col idx prev_row row)
      else check_rows nrows col (S idx) row rows
  end.

(** sparse_col_mat.rs 237-287: one column *)
Definition check_column (nrows : nat) (row_indices column_pointers : list nat) (col : nat)
  : outcome (option format_error) :=
  let! start := oget column_pointers col in
  let! stop := oget column_pointers (col + 1) in
  if stop <? start then Done (Some (UnorderedPointer col start stop)) else
  if start <? stop then
    let! prev_row := oget row_indices start in
    if nrows <=? prev_row then Done (Some (IndexOutOfBounds col start prev_row nrows))
    else Done (check_rows nrows col (start + 1) prev_row
                 (skipn (start + 1) (firstn stop row_indices)))
  else Done None.

Fixpoint check_columns (nrows : nat) (row_indices column_pointers cols : list nat)
  : outcome (option format_error) :=
  match cols with
  | [] => Done None
  | col :: cols =>
      let! e := check_column nrows row_indices column_pointers col in
      match e with
      | Some e => Done (Some e)
      | None => check_columns nrows row_indices column_pointers cols
      end
  end.

(** sparse_col_mat.rs 209-294 *)
Definition try_from_data (nrows ncols : nat) (row_indices column_pointers : list nat)
  : outcome (structure + format_error) :=
  let num_nonzero := length row_indices in
  if negb (length column_pointers =? ncols + 1)
  then Done (inr (BadNumberOfPointers (ncols + 1) (length column_pointers))) else
  let! first := oget column_pointers 0 in
  if negb (first =? 0) then Done (inr (BadStartPointer first)) else
  let! last := oget column_pointers ncols in
  if negb (last =? num_nonzero) then Done (inr (BadEndPointer num_nonzero last)) else
  let! e := check_columns nrows row_indices column_pointers (seq 0 ncols) in
  match e with
  | Some e => Done (inr e)
  | None => Done (inl (Structure nrows ncols row_indices column_pointers))
  end.

(** sparse_col_mat.rs 298-305 *)
Definition structure_empty (nrows ncols : nat) : structure := Structure nrows ncols [] [].

(** sparse_col_mat.rs 309-316 *)
Definition structure_identity (n : nat) : structure := Structure n n (seq 0 n) (seq 0 (n + 1)).

(** sparse_col_mat.rs 326-334 *)
Definition index_column_range (s : structure) (col : nat) : outcome (nat * nat) :=
  if length (s_column_pointers s) <=? col + 1 then Panic else
  let! a := oget (s_column_pointers s) col in
  let! b := oget (s_column_pointers s) (col + 1) in
  Done (a, b).

(** sparse_col_mat.rs 341-350 *)
Definition index_column (s : structure) (col : nat) : outcome (list nat) :=
  let! (a, b) := index_column_range s col in
  oslice (s_row_indices s) a b.

Section Matrices.
  Context {T : Type}.

  (** sparse_col_mat.rs 540-548 *)
  Definition from_structure_and_values (s : structure) (values : list T) : outcome (matrix T) :=
    let! _ := oassert (length (s_row_indices s) =? length values) in
    Done (Matrix s values).

  (** sparse_col_mat.rs 563-575 *)
  Definition matrix_column (m : matrix T) (col : nat) : outcome (list T * list nat) :=
    let! (a, b) := index_column_range (m_structure m) col in
    let! vs := oslice (m_values m) a b in
    let! rs := oslice (s_row_indices (m_structure m)) a b in
    Done (vs, rs).

  (** [+=] on [T] *)
  Variable add : T -> T -> T.

  (** [sort_unstable_by_key]: the standard library's sort.  It is an argument:
      it sorts by key, but the order of elements with equal keys is not fixed. *)
  Variable sort : (nat -> nat * nat) -> list nat -> list nat.

  (** The loop-carried variables of [from_triplet_mat]: [values_dedup],
      [row_indices], [column_pointers], and [prev_row], [prev_col] *)
  Record csc_state := CscState {
    c_values : list T;
    c_rows : list nat;
    c_pointers : list nat;
    c_prev : option (nat * nat)
  }.

  (** [prev_col.wrapping_add(1)] *)
  Definition next_col (prev : option (nat * nat)) : nat :=
    match prev with None => 0 | Some (_, c) => S c end.

  (** 712-716 and 727-729: [for c in cols { column_pointers[c] = value }] *)
  Definition set_pointers (cols : list nat) (value : nat) (ptrs : list nat) : outcome (list nat) :=
    ofold (fun ptrs c => oset ptrs c value) cols ptrs.

  (** [*values.last_mut().unwrap() += v] *)
  Definition add_to_last (vs : list T) (v : T) : outcome (list T) :=
    match rev vs with
    | [] => Panic
    | u :: us => Done (rev (add u v :: us))
    end.

  Definition same_cell (prev : option (nat * nat)) (row col : nat) : bool :=
    match prev with None => false | Some (r, c) => (row =? r) && (col =? c) end.
  Definition same_col (prev : option (nat * nat)) (col : nat) : bool :=
    match prev with None => false | Some (_, c) => col =? c end.

  (** 706-723, one round *)
  Definition csc_step (a : triplet_mat T) (st : csc_state) (idx : nat) : outcome csc_state :=
    let! row := oget (t_row_indices a) idx in
    let! col := oget (t_col_indices a) idx in
    let! value := oget (t_values a) idx in
    if same_cell (c_prev st) row col then
      let! values := add_to_last (c_values st) value in
      Done (CscState values (c_rows st) (c_pointers st) (Some (row, col)))
    else
      let! ptrs :=
        if same_col (c_prev st) col then Done (c_pointers st)
        else set_pointers (range_incl (next_col (c_prev st)) col) (length (c_values st))
               (c_pointers st) in
      Done (CscState (c_values st ++ [value]) (c_rows st ++ [row]) ptrs (Some (row, col))).

  (** 690-737.  (The sort's key function indexes the vectors; an index out of
      bounds there, impossible since they have equal lengths, is key (0, 0).) *)
  Definition from_triplet_mat (a : triplet_mat T) : outcome (matrix T) :=
    let indices :=
      sort (fun idx => (nth idx (t_col_indices a) 0, nth idx (t_row_indices a) 0))
        (seq 0 (length (t_values a))) in
    let! st := ofold (csc_step a) indices (CscState [] [] (repeat 0 (t_ncols a + 1)) None) in
    let! ptrs := set_pointers (range_incl (next_col (c_prev st)) (t_ncols a))
                   (length (c_values st)) (c_pointers st) in
    Done (Matrix (Structure (t_nrows a) (t_ncols a) (c_rows st) ptrs) (c_values st)).

  (** 439-452.  [values]: what the iterator yields; [next().unwrap()] panics
      when it has run out. *)
  Definition transpose_push (s : structure) (acc : triplet_mat T * list T) (j : nat)
    : outcome (triplet_mat T * list T) :=
    let! rows := index_column s j in
    ofold (fun '(t, vs) i =>
             match vs with
             | [] => Panic
             | v :: vs => Done (push_triplet i j v t, vs)
             end) rows acc.

  Definition transpose_with_values (s : structure) (values : list T) : outcome (matrix T) :=
    let! (t, _) := ofold (transpose_push s) (seq 0 (s_ncols s))
                     (triplet_new (s_nrows s) (s_ncols s), values) in
    from_triplet_mat (triplet_transpose t).

  (** 679-682 *)
  Definition matrix_transpose (m : matrix T) : outcome (matrix T) :=
    transpose_with_values (m_structure m) (m_values m).

  (** 468-502 *)
  Definition permute_step (s : structure) (a_values : list T)
    (st : list nat * list nat * list T) (j : nat) : outcome (list nat * list nat * list T) :=
    let '(row_indices, column_pointers, values) := st in
    let! a_rows := index_column s j in
    (* [column_pointers[idx]] is its last element *)
    Done (row_indices ++ a_rows,
          column_pointers ++ [last column_pointers 0 + length a_rows],
          values ++ a_values).

  Definition permute_columns_with_values (s : structure) (permutation : list nat) (values : list T)
    : outcome (matrix T) :=
    let! _ := oassert (length values =? length (s_row_indices s)) in
    let! (row_indices, column_pointers, values) :=
      ofold (permute_step s values) permutation ([], [0], []) in
    Done (Matrix (Structure (s_nrows s) (length permutation) row_indices column_pointers) values).

  (** 630-633 *)
  Definition matrix_permute_columns (m : matrix T) (permutation : list nat) : outcome (matrix T) :=
    permute_columns_with_values (m_structure m) permutation (m_values m).
End Matrices.
Arguments csc_state T : clear implicits.
Arguments CscState {T}.

(** 417-431: the values are those of a type with one value.  (The code's iterator
    is endless; here there are as many as there are structural entries, which is
    how many are asked for when the columns do not overlap.) *)
Definition structure_transpose (sort : (nat -> nat * nat) -> list nat -> list nat) (s : structure)
  : outcome structure :=
  let! m := transpose_with_values (fun _ _ => tt) sort s (repeat tt (length (s_row_indices s))) in
  Done (m_structure m).

(** 456-463 *)
Definition structure_permute_columns (s : structure) (permutation : list nat) : outcome structure :=
  let! m := permute_columns_with_values s permutation (repeat tt (length (s_row_indices s))) in
  Done (m_structure m).

Section Triangular.
  Context {F : Type} {NF : Num F}.
  Local Open Scope num_scope.

  Definition nlast {A} (l : list A) : option A := nth_error l (length l - 1).

  (** 815-821: [take_while (|(_, row)| row < i)] *)
  Fixpoint back_substitute (i : nat) (coeff : F) (entries : list (F * nat)) (b : list F)
    : outcome (list F) :=
    match entries with
    | [] => Done b
    | (value, row) :: entries =>
        if (row <? i)%nat then
          let! x := oget b row in
          let! b := oset b row (x - coeff * value) in
          back_substitute i coeff entries b
        else Done b
    end.

  (** 797-822, one round; [false]: [return false] *)
  Definition triangular_step (m : matrix F) (i : nat) (b : list F)
    : outcome (bool * list F) :=
    let! (values, rows) := matrix_column m i in
    let! diag :=
      match nlast rows with
      | Some r => if (r =? i)%nat then ounwrap (nlast values) else Done nzero
      | None => Done nzero
      end in
    if diag =? nzero then Done (false, b) else
    let! x := oget b i in
    let coeff := x / diag in
    let! b := oset b i coeff in
    let! b := back_substitute i coeff (combine values rows) b in
    Done (true, b).

  Fixpoint triangular_rounds (m : matrix F) (is : list nat) (b : list F) : outcome (bool * list F) :=
    match is with
    | [] => Done (true, b)
    | i :: is =>
        let! (ok, b) := triangular_step m i b in
        if ok then triangular_rounds m is b else Done (false, b)
    end.

  (** 788-826: the answer and what is left in [b] *)
  Definition solve_upper_triangular (m : matrix F) (b : list F) : outcome (bool * list F) :=
    let! _ := oassert (s_nrows (m_structure m) =? length b)%nat in
    triangular_rounds m (rev (seq 0 (s_nrows (m_structure m)))) b.
End Triangular.

(** A sort the theorems' hypotheses can be instantiated with: insertion sort,
    which keeps the order of elements with equal keys. *)
Definition key_leb (a b : nat * nat) : bool :=
  (fst a <? fst b) || ((fst a =? fst b) && (snd a <=? snd b)).
Fixpoint insert_by (key : nat -> nat * nat) (x : nat) (l : list nat) : list nat :=
  match l with
  | [] => [x]
  | y :: l => if key_leb (key x) (key y) then x :: y :: l else y :: insert_by key x l
  end.
Definition insertion_sort (key : nat -> nat * nat) (l : list nat) : list nat :=
  fold_right (insert_by key) [] l.
