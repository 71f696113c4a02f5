(** Reflections, least squares and structural rank *)
From Coq Require Import List Arith NArith Reals Permutation.
From Verif Require Import Outcome ModelSparse Spec_Sparse Spec_Linear.
Import ListNotations.
Local Open Scope R_scope.

(** The Euclidean norm of a list *)
Definition norm (v : list R) : R := sqrt (inner (length v) (coords v) (coords v)).

(** The vector that has [values[k]] in row [rows[k]], for every [k], and zeros
    elsewhere (no row twice) *)
Fixpoint spread (rows : list nat) (values : list R) (i : nat) : R :=
  match rows, values with
  | r :: rows, v :: values => (if Nat.eqb r i then v else 0) + spread rows values i
  | _, _ => 0
  end.

(** [(I - beta w w^T) x] *)
Definition reflect (n : nat) (beta : R) (w x : nat -> R) (i : nat) : R :=
  x i - beta * inner n w x * w i.

(** A linear map that preserves inner products, hence norms and angles *)
Definition orthogonal (n : nat) (f : (nat -> R) -> nat -> R) : Prop :=
  forall x y, inner n (f x) (f y) = inner n x y.

(** The first unit vector *)
Definition e1 (i : nat) : R := delta 0 i.

(** The square of the Euclidean norm of [A x - b], [A] with [m] rows and [n]
    columns *)
Definition residual (m n : nat) (A : nat -> nat -> R) (b x : list R) : R :=
  inner m (fun i => product n A x i - nth i b 0) (fun i => product n A x i - nth i b 0).

(** [x] minimises the norm of [A x - b]. *)
Definition minimises (m n : nat) (A : nat -> nat -> R) (b x : list R) : Prop :=
  forall z, length z = n -> residual m n A b x <= residual m n A b z.

(** No combination of the columns vanishes, other than the trivial one. *)
Definition independent_columns (m n : nat) (A : nat -> nat -> R) : Prop :=
  forall z, length z = n -> (forall i, (i < m)%nat -> product n A z i = 0) -> forall j, (j < n)%nat -> nth j z 0 = 0.

(** Every column can be given a row of its own in which it has an entry. *)
Definition structural_full_rank (s : structure) : Prop :=
  exists rows, length rows = s_ncols s /\ NoDup rows /\
    forall j i, nth_error rows j = Some i -> structural s i j.

(** [p] lists [0 .. n-1] in some order. *)
Definition is_ordering (n : nat) (p : list nat) : Prop := Permutation p (seq 0 n).

(** What the ordering crate promises: an ordering of the columns, for every
    structure *)
Definition orders (colamd : structure -> outcome (list nat)) : Prop :=
  forall s, well_formed s -> exists p, colamd s = Done p /\ is_ordering (s_ncols s) p.
(** The same, for structures with fewer than [K] rows, columns and entries *)
Definition orders_below (K : N) (colamd : structure -> outcome (list nat)) : Prop :=
  forall s, well_formed s -> (N.of_nat (s_nrows s) < K)%N -> (N.of_nat (s_ncols s) < K)%N ->
    (N.of_nat (length (s_row_indices s)) < K)%N ->
    exists p, colamd s = Done p /\ is_ordering (s_ncols s) p.
