(** Sums and linear systems over the reals *)
From Coq Require Import List Reals.
Import ListNotations.
Local Open Scope R_scope.

(** The sum of [f j] over the [j] in the list *)
Definition rsum (f : nat -> R) (l : list nat) : R := fold_right (fun j a => f j + a) 0 l.

(** Component [i] of [A x], where [A] has [n] columns *)
Definition product (n : nat) (A : nat -> nat -> R) (x : list R) (i : nat) : R :=
  rsum (fun j => A i j * nth j x 0) (seq 0 n).

(** Vectors as functions of the index *)
Definition coords (x : list R) : nat -> R := fun i => nth i x 0.
Definition inner (n : nat) (x y : nat -> R) : R := rsum (fun i => x i * y i) (seq 0 n).
Definition apply (n : nat) (A : nat -> nat -> R) (x : nat -> R) (i : nat) : R :=
  rsum (fun j => A i j * x j) (seq 0 n).
Definition delta (i j : nat) : R := if Nat.eqb i j then 1 else 0.
