(** What a symmetric matrix is given as, and which part of it counts. *)
From Coq Require Import List ZArith.
From Verif Require Import Outcome ModelColamd Spec_Colamd.
Import ListNotations.
Local Open Scope Z_scope.

(** The row indices of column [c] are [rows[pointers[c] .. pointers[c + 1]]], all in
    [0..n]; in any order, and any of them any number of times. *)
Record columns_in_range (n : Z) (rows pointers : list Z) : Prop := {
  ci_size : 0 <= n;
  ci_length : Z.of_nat (length pointers) = n + 1;
  ci_first : element pointers 0 = 0;
  ci_up : forall c, 0 <= c < n -> element pointers c <= element pointers (c + 1);
  ci_last : element pointers n <= Z.of_nat (length rows);
  ci_rows : forall c i, 0 <= c < n -> element pointers c <= i < element pointers (c + 1) -> 0 <= element rows i < n
}.

(** The row indices of column [c], as they are given *)
Definition entries (rows pointers : list Z) (c : Z) : list Z :=
  map (element rows) (zrange (element pointers c) (element pointers (c + 1))).

(** The members of a list in the order in which they come first *)
Fixpoint distinct_from (seen l : list Z) : list Z :=
  match l with
  | [] => []
  | x :: l => if existsb (Z.eqb x) seen then distinct_from seen l else x :: distinct_from (x :: seen) l
  end.
Definition distinct (l : list Z) : list Z := distinct_from [] l.

(** The part of column [c] below the diagonal *)
Definition lower_part (rows pointers : list Z) (c : Z) : list Z :=
  distinct (filter (fun i => c <? i) (entries rows pointers c)).

(** The columns are strictly increasing. *)
Definition increasing_columns (n : Z) (rows pointers : list Z) : Prop :=
  forall c i, 0 <= c < n -> element pointers c <= i -> i + 1 < element pointers (c + 1) -> element rows i < element rows (i + 1).
