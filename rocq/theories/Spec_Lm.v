(** Levenberg-Marquardt as in the textbooks, over the reals. *)
From Coq Require Import List Reals Arith.
From Verif Require Import Num NumR Outcome ModelSolve Spec_Linear Spec_Jacobian Spec_Descent Spec_Gradient.
Import ListNotations.
Local Open Scope R_scope.

(** What the linear model [r + J d] leaves, plus the price [lambda] of the length
    of [d] *)
Definition damped (m n : nat) (J : nat -> nat -> R) (r : nat -> R) (lambda : R) (d : list R) : R :=
  rsum (fun i => (r i + product n J d i) ^ 2) (seq 0 m) + lambda * rsum (fun j => nth j d 0 ^ 2) (seq 0 n).

Section Problem.
  Variable p : problem R.

  (** The residuals at [x] and their sparse derivatives, as the problem reports
      them *)
  Definition residuals_at (x : list R) (i : nat) : R := residual_at (calculate_residuals p) x i.
  Definition jacobian_at (x : list R) (i j : nat) : R :=
    match calculate_residuals_and_sparse_jacobian p x with Done (_, ts) => entry ts i j | _ => 0 end.

  (** [d] is the step from [x] with damping [lambda]. *)
  Definition step (x : list R) (lambda : R) (d : list R) : Prop :=
    length d = num_variables p /\
    forall z, length z = num_variables p ->
      damped (num_residuals p) (num_variables p) (jacobian_at x) (residuals_at x) lambda d <=
      damped (num_residuals p) (num_variables p) (jacobian_at x) (residuals_at x) lambda z.

  Definition length_squared (d : list R) : R := rsum (fun j => nth j d 0 ^ 2) (seq 0 (num_variables p)).
  (** A step that is neither short nor an improvement *)
  Definition rejected (x : list R) (lambda : R) : Prop :=
    exists d, step x lambda d /\ / 10 ^ 12 <= length_squared d /\ squares p x <= squares p (displaced x d 1).
  (** From [x], with damping [lambda], twice that, four times that and so on, the
      first step that is short or an improvement is [d], with damping [lambda']. *)
  Definition first_step (x : list R) (lambda lambda' : R) (d : list R) : Prop :=
    exists a, lambda' = lambda * 2 ^ a /\ step x lambda' d /\ forall b, (b < a)%nat -> rejected x (lambda * 2 ^ b).

  (** [run k lambda x l]: in at most [k] rounds from [x], the first with damping
      [lambda] or more, the points visited are [l]. *)
  Inductive run : nat -> R -> list R -> list (list R) -> Prop :=
  | run_solved k lambda x : squares p x < / 10 ^ 8 -> run k lambda x [x]
  | run_out lambda x : run 0 lambda x [x]
  | run_short k lambda x lambda' d : / 10 ^ 8 <= squares p x -> first_step x lambda lambda' d ->
      length_squared d < / 10 ^ 12 -> run (S k) lambda x [x]
  | run_slow k lambda x lambda' d : / 10 ^ 8 <= squares p x -> first_step x lambda lambda' d ->
      / 10 ^ 12 <= length_squared d ->
      squares p (displaced x d 1) < squares p x ->
      squares p x - squares p (displaced x d 1) <= / 10 ^ 6 * squares p x ->
      run (S k) lambda x [x; displaced x d 1]
  | run_on k lambda x lambda' d l : / 10 ^ 8 <= squares p x -> first_step x lambda lambda' d ->
      / 10 ^ 12 <= length_squared d ->
      / 10 ^ 6 * squares p x < squares p x - squares p (displaced x d 1) ->
      run k (Rmax (lambda' / 8) (/ 10 ^ 50)) (displaced x d 1) l ->
      run (S k) lambda x (x :: l).
End Problem.
