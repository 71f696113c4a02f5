(** What a column ordering is, and the forests of absorbed columns. *)
From Coq Require Import List ZArith Permutation.
From Verif Require Import Outcome ModelColamd.
Import ListNotations.
Local Open Scope Z_scope.

(** [p] holds each of [0..n] exactly once. *)
Definition column_order (n : Z) (p : list Z) : Prop := Permutation p (zrange 0 n).

(** Element [i] of [l], counted from 0 *)
Definition element (l : list Z) (i : Z) : Z := nth (Z.to_nat i) l 0.
(** The row indices of column [c] are [rows[pointers[c] .. pointers[c + 1]]], in range
    and strictly increasing; [rows] may be longer than the last column needs. *)
Record sorted_columns (n_row n_col : Z) (rows pointers : list Z) : Prop := {
  sc_sizes : 0 <= n_row /\ 0 <= n_col;
  sc_length : Z.of_nat (length pointers) = n_col + 1;
  sc_first : element pointers 0 = 0;
  sc_up : forall c, 0 <= c < n_col -> element pointers c <= element pointers (c + 1);
  sc_last : element pointers n_col <= Z.of_nat (length rows);
  sc_rows : forall c i, 0 <= c < n_col -> element pointers c <= i < element pointers (c + 1) -> 0 <= element rows i < n_row;
  sc_sorted : forall c i, 0 <= c < n_col -> element pointers c <= i -> i + 1 < element pointers (c + 1) ->
    element rows i < element rows (i + 1)
}.

(** Column [i] of the table, if there is one *)
Definition column_at (cols : list ccol) (i : Z) (c : ccol) : Prop :=
  0 <= i /\ nth_error cols (Z.to_nat i) = Some c.
(** A column is principal when its start is [DEAD_PRINCIPAL]; otherwise it was
    absorbed and its first shared field is the column that absorbed it. *)
Definition principal (c : ccol) : Prop := cl_start c = -1.

(** [absorbed_by cols i r]: column [r] is principal and reached from [i] by going
    from absorbed column to absorbing column; a principal column reaches itself. *)
Inductive absorbed_by (cols : list ccol) : Z -> Z -> Prop :=
| ab_here i c : column_at cols i c -> principal c -> absorbed_by cols i i
| ab_up i c r : column_at cols i c -> ~ principal c -> absorbed_by cols (cl_shared1 c) r -> absorbed_by cols i r.

(** The columns of the group of [r], among the first [n] *)
Definition group_of (n : Z) (cols : list ccol) (r : Z) (l : list Z) : Prop :=
  NoDup l /\ forall i, In i l <-> 0 <= i < n /\ absorbed_by cols i r.

(** Before the absorbed columns are ordered: the first [n] columns are a forest;
    each principal column has been given as many consecutive places from its
    [order] on as its group has members, no two groups share a place, and all
    places are in [0..n]; the absorbed columns have no place yet. *)
Record absorption_forest (n : Z) (cols : list ccol) : Prop := {
  af_length : n <= Z.of_nat (length cols);
  af_roots : forall i, 0 <= i < n -> exists r, absorbed_by cols i r /\ 0 <= r < n;
  af_unordered : forall i c, 0 <= i < n -> column_at cols i c -> ~ principal c -> cl_shared2 c = -1;
  af_places : forall r c l, 0 <= r < n -> column_at cols r c -> principal c -> group_of n cols r l ->
    0 <= cl_shared2 c /\ cl_shared2 c + Z.of_nat (length l) <= n;
  af_disjoint : forall r c l r' c' l', 0 <= r < n -> 0 <= r' < n -> r <> r' ->
    column_at cols r c -> principal c -> group_of n cols r l ->
    column_at cols r' c' -> principal c' -> group_of n cols r' l' ->
    cl_shared2 c + Z.of_nat (length l) <= cl_shared2 c' \/ cl_shared2 c' + Z.of_nat (length l') <= cl_shared2 c
}.
