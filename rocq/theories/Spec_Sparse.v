(** What it means for a sparse matrix to be well-formed, what its entries are,
    and what a list of triplets stands for.  Written from the documentation of
    [SparseColMatStructure] (sparse_col_mat.rs 135-189), without the functions
    of the model. *)
From Coq Require Import List Arith Bool Permutation Sorted.
From Verif Require Import Outcome ModelSparse.
Import ListNotations.

(** Column [j] owns the positions from [a] up to, excluding, [b]. *)
Definition column (s : structure) (j a b : nat) : Prop :=
  nth_error (s_column_pointers s) j = Some a /\ nth_error (s_column_pointers s) (S j) = Some b.

Record well_formed (s : structure) : Prop := WellFormed {
  wf_count : length (s_column_pointers s) = s_ncols s + 1;
  wf_start : nth_error (s_column_pointers s) 0 = Some 0;
  wf_end : nth_error (s_column_pointers s) (s_ncols s) = Some (length (s_row_indices s));
  wf_ordered : forall j a b, column s j a b -> a <= b;
  wf_bound : forall k i, nth_error (s_row_indices s) k = Some i -> i < s_nrows s;
  wf_increasing : forall j a b k i i',
    column s j a b -> a <= k -> S k < b ->
    nth_error (s_row_indices s) k = Some i -> nth_error (s_row_indices s) (S k) = Some i' ->
    i < i'
}.

(** Position [k] holds the entry of row [i], column [j]. *)
Definition stored (s : structure) (i j k : nat) : Prop :=
  exists a b, column s j a b /\ a <= k /\ k < b /\ nth_error (s_row_indices s) k = Some i.

(** The matrix has a structural entry in row [i], column [j]. *)
Definition structural (s : structure) (i j : nat) : Prop := exists k, stored s i j k.

Definition shape (s : structure) : nat * nat := (s_nrows s, s_ncols s).

Section Entries.
  Context {T : Type}.

  Record well_formed_matrix (m : matrix T) : Prop := WellFormedMatrix {
    wfm_structure : well_formed (m_structure m);
    wfm_values : length (m_values m) = length (s_row_indices (m_structure m))
  }.

  (** The structural entry in row [i], column [j] has value [v]. *)
  Definition entry (m : matrix T) (i j : nat) (v : T) : Prop :=
    exists k, stored (m_structure m) i j k /\ nth_error (m_values m) k = Some v.

  (** The values of the triplets [(row, col, value)] at row [i], column [j] *)
  Definition values_at (ts : list (nat * nat * T)) (i j : nat) : list T :=
    map snd (filter (fun t => Nat.eqb (fst (fst t)) i && Nat.eqb (snd (fst t)) j) ts).

  (** The sum of some values; of none there is no sum ([T] may have no zero) *)
  Definition total (add : T -> T -> T) (vs : list T) : option T :=
    match vs with [] => None | v :: vs => Some (fold_left add vs v) end.

  (** Triplet matrices the API can build, with the triplets they hold *)
  Inductive holds : triplet_mat T -> list (nat * nat * T) -> Prop :=
  | holds_new r c : holds (triplet_new r c) []
  | holds_push a ts i j v : holds a ts -> holds (push_triplet i j v a) (ts ++ [(i, j, v)])
  | holds_clear a ts : holds a ts -> holds (triplet_clear a) []
  | holds_transpose a ts :
      holds a ts -> holds (triplet_transpose a) (map (fun '(i, j, v) => (j, i, v)) ts)
  | holds_iter ts : holds (triplet_from_iter ts) ts.
End Entries.

(** A sort: it rearranges, and the keys come out in (lexicographic) order. *)
Definition key_le (a b : nat * nat) : Prop := fst a < fst b \/ fst a = fst b /\ snd a <= snd b.
Definition sorting (sort : (nat -> nat * nat) -> list nat -> list nat) : Prop :=
  forall key l,
    Permutation (sort key l) l /\ StronglySorted (fun x y => key_le (key x) (key y)) (sort key l).

(** An error of [try_from_data] is about the data it was given. *)
Definition violation (nrows ncols : nat) (rows ptrs : list nat) (e : format_error) : Prop :=
  match e with
  | BadNumberOfPointers expected got => expected = ncols + 1 /\ got = length ptrs /\ got <> expected
  | BadStartPointer got => nth_error ptrs 0 = Some got /\ got <> 0
  | BadEndPointer expected got =>
      expected = length rows /\ nth_error ptrs ncols = Some got /\ got <> expected
  | UnorderedPointer j a b =>
      j < ncols /\ nth_error ptrs j = Some a /\ nth_error ptrs (S j) = Some b /\ b < a
  | UnorderedIndex j k prev got =>
      j < ncols /\ (exists a b, nth_error ptrs j = Some a /\ nth_error ptrs (S j) = Some b /\ a < k < b) /\
      nth_error rows (k - 1) = Some prev /\ nth_error rows k = Some got /\ got <= prev
  | IndexOutOfBounds j k value bound =>
      j < ncols /\ (exists a b, nth_error ptrs j = Some a /\ nth_error ptrs (S j) = Some b /\ a <= k < b) /\
      nth_error rows k = Some value /\ bound = nrows /\ bound <= value
  end.

(** The element of row [i], column [j]: the structural entry, or zero *)
Definition element {T} (zero : T) (m : matrix T) (i j : nat) (x : T) : Prop :=
  entry m i j x \/ x = zero /\ ~ structural (m_structure m) i j.

(** [A] is the full matrix *)
Definition represents {T} (zero : T) (m : matrix T) (A : nat -> nat -> T) : Prop :=
  forall i j, element zero m i j (A i j).

(** No structural entry below the diagonal *)
Definition upper_triangular (s : structure) : Prop :=
  forall i j, structural s i j -> i <= j.
