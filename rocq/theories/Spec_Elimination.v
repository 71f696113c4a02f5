(** Elimination trees of a column graph *)
From Coq Require Import List Arith Relations.
From Verif Require Import ModelSparse Spec_Sparse.

(** Two columns are linked... *)
(** ... in the graph of a symmetric matrix given by its upper triangle, *)
Definition linked_symmetric (s : structure) (a b : nat) : Prop := a < b /\ structural s a b.
(** ... in the graph of [A^T A]: some row has an entry in both. *)
Definition linked_product (s : structure) (a b : nat) : Prop :=
  exists row, structural s row a /\ structural s row b.

(** [a] and [b] are connected by links between columns up to [j]. *)
Definition connected (link : nat -> nat -> Prop) (j : nat) : nat -> nat -> Prop :=
  clos_refl_sym_trans nat (fun a b => link a b /\ a <= j /\ b <= j).

(** The parent of column [k] is the smallest later column [j] to which [k] is
    connected using columns up to [j] only. *)
Definition elimination_parent (link : nat -> nat -> Prop) (n k : nat) (parent : option nat) : Prop :=
  match parent with
  | Some j => k < j /\ j < n /\ connected link j k j /\ forall i, k < i -> i < j -> ~ connected link i k i
  | None => forall j, k < j -> j < n -> ~ connected link j k j
  end.

(** The entries off the diagonal of the Cholesky factor (with its transpose):
    those of the matrix, and, as the columns are eliminated in order, one between
    any two later columns that both have an entry with column [k]. *)
Inductive filled (link : nat -> nat -> Prop) : nat -> nat -> Prop :=
| filled_link a b : link a b -> a <> b -> filled link a b
| filled_sym a b : filled link a b -> filled link b a
| filled_step k a b : filled link k a -> filled link k b -> k < a -> k < b -> a <> b -> filled link a b.

(** The parent of [k] is the first entry below the diagonal of column [k]. *)
Definition first_entry (link : nat -> nat -> Prop) (n k : nat) (parent : option nat) : Prop :=
  match parent with
  | Some j => k < j /\ j < n /\ filled link k j /\ forall i, k < i -> i < j -> ~ filled link k i
  | None => forall j, k < j -> j < n -> ~ filled link k j
  end.
