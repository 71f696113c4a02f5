(** What is assumed of the pieces [solve] is built from. *)
From Coq Require Import List Arith NArith Permutation.
From Verif Require Import Num Outcome ModelGraph ModelSystem ModelSolve.
Import ListNotations.

Section Solver.
  Context {F : Type} {NF : Num F}.

  (** A problem that can be evaluated at every point of the right dimension,
      with results of the right shape, and sparse derivatives in the same places
      everywhere. *)
  Record problem_ok (p : problem F) : Prop := {
    po_residuals : forall x, length x = num_variables p ->
      exists rs, calculate_residuals p x = Done rs /\ length rs = num_residuals p;
    po_dense : forall x jac, length x = num_variables p -> length jac = num_residuals p ->
      (forall row, In row jac -> length row = num_variables p) ->
      exists rs jac', calculate_residuals_and_jacobian p x jac = Done (rs, jac') /\
        length rs = num_residuals p /\ length jac' = num_residuals p /\
        forall row, In row jac' -> length row = num_variables p;
    po_sparse : forall x, length x = num_variables p ->
      exists rs ts, calculate_residuals_and_sparse_jacobian p x = Done (rs, ts) /\
        length rs = num_residuals p /\
        forall i j d, In (i, j, d) ts -> i < num_residuals p /\ j < num_variables p;
    po_pattern : forall x x' rs ts rs' ts', length x = num_variables p -> length x' = num_variables p ->
      calculate_residuals_and_sparse_jacobian p x = Done (rs, ts) ->
      calculate_residuals_and_sparse_jacobian p x' = Done (rs', ts') ->
      map fst ts = map fst ts'
  }.

  (** Iterating over a hash set visits each member once, in some order; the
      recursive-assembly branch only writes coordinates of the component's
      elements. *)
  Record env_ok (env : solver_env F) : Prop := {
    eo_order : forall l, Permutation (env_order env l) l;
    eo_assembly : forall scale es cs s s', env_assembly env scale es cs s = Done s' ->
      exists vs vt, s' = with_values vs vt s /\
        length vs = length (sys_variables s) /\
        length vt = length (sys_variables_transformed s) /\
        forall v, (forall id e, In id es -> nth_error (sys_elements s) id = Some e ->
                     ~ In v (element_variables e)) ->
          nth_error vs v = nth_error (sys_variables s) v
  }.

  (** The optimizers, on a problem that can be evaluated, do not panic and
      return a point of the same dimension. *)
  Record env_safe (env : solver_env F) : Prop := {
    es_panic : forall o p x, problem_ok p -> length x = num_variables p ->
      env_optimize env o p x <> Panic;
    es_length : forall o p x x', problem_ok p -> length x = num_variables p ->
      env_optimize env o p x = Done x' -> length x' = length x
  }.

  (** The problems of a sketch of at most [K] elements and [K] constraints: a
      point has two variables, a coincidence two expressions, and no expression
      has more than eight variables. *)
  Record sized (K : N) (p : problem F) : Prop := {
    sz_variables : (N.of_nat (num_variables p) <= 2 * K)%N;
    sz_residuals : (N.of_nat (num_residuals p) <= 2 * K)%N;
    sz_sparse : forall x rs ts, length x = num_variables p ->
      calculate_residuals_and_sparse_jacobian p x = Done (rs, ts) -> length ts <= 8 * num_residuals p
  }.
  (** [env_safe], asked only of the problems of such sketches *)
  Record env_safe_upto (K : N) (env : solver_env F) : Prop := {
    eu_panic : forall o p x, problem_ok p -> sized K p -> length x = num_variables p ->
      env_optimize env o p x <> Panic;
    eu_length : forall o p x x', problem_ok p -> sized K p -> length x = num_variables p ->
      env_optimize env o p x = Done x' -> length x' = length x
  }.
End Solver.
