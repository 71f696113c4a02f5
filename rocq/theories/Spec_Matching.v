(** Matchings of a bipartite graph. *)
From Coq Require Import List.
From Verif Require Import ModelMatching.
Import ListNotations.

Definition edge (g : bigraph) (a b : nat) : Prop :=
  In a (vertices_a g) /\ exists bs, neighbors_of_a g a = Some bs /\ In b bs.

(** A set of edges no two of which share an end. *)
Definition is_matching (g : bigraph) (M : list (nat * nat)) : Prop :=
  NoDup (map fst M) /\ NoDup (map snd M) /\ forall a b, In (a, b) M -> edge g a b.

(** One with as many edges as possible. *)
Definition is_maximum_matching (g : bigraph) (M : list (nat * nat)) : Prop :=
  is_matching g M /\ forall M', is_matching g M' -> length M' <= length M.
