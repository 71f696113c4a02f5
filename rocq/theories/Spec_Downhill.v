(** When a round of L-BFGS goes downhill *)
From Coq Require Import List Reals Arith.
From Verif Require Import Num NumR Outcome ModelSolve ModelLbfgs Spec_Linear Spec_Gradient.
Import ListNotations.
Local Open Scope R_scope.

(** The slope along the direction of a round, where it starts *)
Definition slope_before (n : nat) (r : round R) : R := inner n (coords (r_gradient r)) (coords (r_direction r)).

(** The Wolfe conditions (Hager and Zhang, A new conjugate gradient method with guaranteed
    descent and an efficient line search (2005), equations 2.1 and 2.2, for the parameters of
    the code), or their approximate Wolfe conditions (4.1 and 4.3), for the step [t] from [x]
    along [d] with the slope [s0] where it starts and the gradient [g] where it ends *)
Definition wolfe_at (p : problem R) (x d : list R) (s0 t : R) (g : list R) : Prop :=
  let s := inner (num_variables p) (coords g) (coords d) in
  9 / 10 * s0 <= s /\
  (squares p (displaced x d t) <= squares p x + 1 / 10 ^ 4 * t * s0 \/
   squares p (displaced x d t) <= squares p x + 1 / 10 ^ 6 /\ s <= (2 / 10 ^ 4 - 1) * s0).

(** For the step a round took *)
Definition wolfe (p : problem R) (r : round R) : Prop :=
  wolfe_at p (r_variables r) (r_direction r) (slope_before (num_variables p) r) (r_step r) (r_gradient' r).

(** [g] is the transposed Jacobian, evaluated at [x], times the residuals. *)
Definition gradient_at (p : problem R) (x g : list R) : Prop :=
  length g = num_variables p /\
  exists jac0 rs jac, calculate_residuals_and_jacobian p x jac0 = Done (rs, jac) /\
    forall j, (j < num_variables p)%nat ->
      nth j g 0 = rsum (fun c => nth j (nth c jac []) 0 * nth c rs 0) (seq 0 (num_residuals p)).

(** A step forward that the line search ought to accept *)
Definition proper_step (p : problem R) (r : round R) : Prop := 0 < r_step r /\ wolfe p r.

(** The gradient is zero where the round starts. *)
Definition stationary (n : nat) (r : round R) : Prop := forall i, (i < n)%nat -> nth i (r_gradient r) 0 = 0.
