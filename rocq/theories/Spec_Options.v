(** What the optimizer option is to decide. *)
From Coq Require Import List.
From Verif Require Import Num Outcome ModelExpr ModelSystem ModelSolve ModelApi.
Import ListNotations.

(** Every solve among the calls asks for the optimizer [k]. *)
Definition all_ask {F} (k : optimizer) (cs : list (call F)) : Prop :=
  forall o, In (Solve o) cs -> o_optimizer o = k.
(** Every (no) solve among the calls is by recursive assembly. *)
Definition all_assemble {F} (cs : list (call F)) : Prop :=
  forall o, In (Solve o) cs -> o_decomposer o = RecursiveAssembly.
Definition none_assembles {F} (cs : list (call F)) : Prop :=
  forall o, In (Solve o) cs -> o_decomposer o <> RecursiveAssembly.

(** The same calls, with another choice of optimizer *)
Definition choosing {F} (k : optimizer) (c : call F) : call F :=
  match c with Solve o => Solve (Options k (o_decomposer o) (o_perturb o)) | c => c end.
