(** The objective of the optimizers as a real function. *)
From Coq Require Import List Reals Arith.
From Verif Require Import Num NumR Outcome ModelSolve Spec_Descent.
Import ListNotations.
Local Open Scope R_scope.

(** The sum of the squared residuals at [x] (0 where they cannot be computed) *)
Definition squares (p : problem R) (x : list R) : R :=
  match objective p x with Some v => v | None => 0 end.

(** The point [x + t d] *)
Definition displaced (x d : list R) (t : R) : list R := map (fun '(v, w) => v + t * w) (combine x d).

(** The residuals computed along with the dense Jacobian are the residuals. *)
Definition dense_consistent (p : problem R) : Prop :=
  forall x jac rs jac', calculate_residuals_and_jacobian p x jac = Done (rs, jac') ->
    length jac = num_residuals p -> calculate_residuals p x = Done rs.
