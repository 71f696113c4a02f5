(** When two runs of the same calls are comparable. *)
From Coq Require Import List Permutation.
From Verif Require Import Num Outcome ModelExpr ModelSystem ModelMatching ModelSolve ModelApi.
Import ListNotations.

(** Every solve among the calls is without a decomposer *)
Definition undecomposed {F} (cs : list (call F)) : Prop :=
  forall o, In (Solve o) cs -> o_decomposer o = DecomposeNone.

(** The same expressions, and the same variables in some order *)
Definition same_group (a b : group) : Prop :=
  group_expressions a = group_expressions b /\ Permutation (group_free_variables a) (group_free_variables b).
