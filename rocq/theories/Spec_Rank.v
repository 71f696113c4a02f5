(** Linear dependence of the rows of a matrix over the reals. *)
From Coq Require Import List Reals.
Import ListNotations.
Local Open Scope R_scope.

(** Entry [j] of the combination of [rows] with the coefficients [cs] *)
Fixpoint lin (cs : list R) (rows : list (list R)) (j : nat) : R :=
  match cs, rows with
  | c :: cs, r :: rows => c * nth j r 0 + lin cs rows j
  | _, _ => 0
  end.

(** Row [v] (of length [n]) is a linear combination of [rows], *)
Definition dependent (n : nat) (rows : list (list R)) (v : list R) : Prop :=
  exists cs, length cs = length rows /\ forall j, (j < n)%nat -> nth j v 0 = lin cs rows j.
(** or differs from one by at most [eps] in every entry. *)
Definition nearly_dependent (eps : R) (n : nat) (rows : list (list R)) (v : list R) : Prop :=
  exists cs, length cs = length rows /\ forall j, (j < n)%nat -> Rabs (nth j v 0 - lin cs rows j) <= eps.
(** Only the trivial combination of [rows] is zero. *)
Definition independent (n : nat) (rows : list (list R)) : Prop :=
  forall cs, length cs = length rows -> (forall j, (j < n)%nat -> lin cs rows j = 0) ->
    forall c, In c cs -> c = 0.

(** The rows with a [true] flag *)
Fixpoint select (flags : list bool) (rows : list (list R)) : list (list R) :=
  match flags, rows with
  | b :: flags, r :: rows => if b then r :: select flags rows else select flags rows
  | _, _ => []
  end.

(** The rows of the Jacobian that belong to constraint [h]: a coincidence has
    two (one per axis), every other constraint one. *)
From Verif Require Import ModelSystem.
Definition constraint_rows {F} (s : system F) (h : chandle) : list nat :=
  match nth_error (sys_constraints s) (ch_id h) with
  | Some (EncodedConstraint CPointPointCoincidence i) => [i; S i]
  | Some (EncodedConstraint _ i) => [i]
  | None => []
  end.
