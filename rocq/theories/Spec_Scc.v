(** Strongly connected components of a directed graph. *)
From Coq Require Import List.
Import ListNotations.

Inductive reaches (E : nat -> nat -> Prop) : nat -> nat -> Prop :=
| reaches_refl x : reaches E x x
| reaches_step x y z : E x y -> reaches E y z -> reaches E x z.

(** [sccs] lists the strongly connected components of the graph with vertices
    [V] and edges [E], each vertex once, every component after the ones it
    points to. *)
Record scc_order (V : list nat) (E : nat -> nat -> Prop) (sccs : list (list nat)) : Prop := {
  so_once : NoDup (concat sccs);
  so_all : forall x, In x V <-> In x (concat sccs);
  so_nonempty : forall s, In s sccs -> s <> [];
  so_mutual : forall s x y, In s sccs -> In x s ->
     (In y s <-> reaches E x y /\ reaches E y x);
  so_order : forall pre s post x y, sccs = pre ++ s :: post -> In x s -> E x y ->
     In y (concat (pre ++ [s]))
}.
