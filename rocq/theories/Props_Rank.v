(** Property C21: the over-constraint analysis (over the reals).  Statements use
    the model, [Spec_History.v] and [Spec_Rank.v] only.  The matrix is the one the
    analysis computes; C12 says when its entries are the true derivatives. *)
From Coq Require Import List Arith NArith Lia Reals Lra Sorted.
From Verif Require Import Num NumR Outcome ModelExpr ModelSystem ModelSolve ModelNumerical ModelApi
  Spec_Solver Spec_History Spec_Rank Proofs_Rank Proofs_Overconstraint Demo DemoR.
Import ListNotations.
Local Open Scope R_scope.

(** ** C21 *)
(** Full statement: a constraint is reported only if one of its rows is linearly
    dependent on the rows before it, and the rows of constraints that are not
    reported are independent.  Both fail, by the tolerance and otherwise: see the
    three refutations.  What holds: a reported constraint has a row whose number
    is at least the number of variables, or that is within [EPSILON] in
    every entry of a combination of the rows before it; *)
Theorem C21_reported_partial : forall (env : solver_env R) id (l : log R) s s' hs,
  env_ok env -> history env id l s -> step env Analyze s = Done (s', RConstraints hs) ->
  exists J, analysis_jacobian s = Done J /\
    forall h, In h hs -> In h (created_constraints l) /\
      exists i row, In i (constraint_rows s h) /\ nth_error J i = Some row /\
        ((length (sys_variables s) <= i)%nat \/
         nearly_dependent EPSILON (length (sys_variables s)) (firstn i J) row).
Proof.
  intros env id l s s' hs EO H St. simpl in St. apply Lib.obind_done in St. destruct St as (hs' & Hf & E).
  inversion E; subst. exact (reported_rows env id l s' hs EO H Hf).
Qed.
Print Assumptions C21_reported_partial.

(** and if there are no more rows than variables and no row is nearly but not
    exactly dependent on the rows before it, then the report is exactly the
    constraints with a dependent row, and all other rows are independent. *)
Theorem C21_exact_partial : forall (env : solver_env R) id (l : log R) s s' hs,
  env_ok env -> history env id l s -> step env Analyze s = Done (s', RConstraints hs) ->
  exists J, analysis_jacobian s = Done J /\
    let n := length (sys_variables s) in
    ((length J <= n)%nat ->
     (forall i row, nth_error J i = Some row ->
        nearly_dependent EPSILON n (firstn i J) row -> dependent n (firstn i J) row) ->
     (forall h, In h hs <-> In h (created_constraints l) /\
        exists i row, In i (constraint_rows s h) /\ nth_error J i = Some row /\
          dependent n (firstn i J) row) /\
     (forall is, StronglySorted lt is ->
        (forall i, In i is ->
           exists h, In h (created_constraints l) /\ ~ In h hs /\ In i (constraint_rows s h)) ->
        independent n (map (fun i => nth i J []) is))).
Proof.
  intros env id l s s' hs EO H St. simpl in St. apply Lib.obind_done in St. destruct St as (hs' & Hf & E).
  inversion E; subst. exact (reported_exactly env id l s' hs EO H Hf).
Qed.
Print Assumptions C21_exact_partial.

(** The same distance between the same two points twice: the second is reported. *)
Example C21_example : env_ok rdemo_env /\
  history rdemo_env 7%N (fst (after twice_calls)) (snd (after twice_calls)) /\
  length (sys_variables (snd (after twice_calls))) = 4%nat /\
  exists J, analysis_jacobian (snd (after twice_calls)) = Done J /\ length J = 2%nat /\
  (forall i row, nth_error J i = Some row ->
     nearly_dependent EPSILON 4 (firstn i J) row -> dependent 4 (firstn i J) row) /\
  find_overconstraints (snd (after twice_calls)) = Done [CHandle 7%N 1 CPointPointDistance].
Proof. split; [exact rdemo_env_ok|exact twice_example]. Qed.

(** Six times the distance AB on three points, then the distance BC: the last
    constraint is reported although its row is nowhere near a combination of the
    others, only because its row number is not less than the number of variables. *)
Theorem C21_reported_refuted : exists (l : log R) s hs h J i row,
  history rdemo_env 7%N l s /\ find_overconstraints s = Done hs /\ analysis_jacobian s = Done J /\
  In h hs /\ constraint_rows s h = [i] /\ nth_error J i = Some row /\
  ~ nearly_dependent EPSILON (length (sys_variables s)) (firstn i J) row.
Proof. exact extra_reported. Qed.
Print Assumptions C21_reported_refuted.

(** Two unreported rows that are multiples of each other: a row below the
    tolerance does not count as a pivot row, but is subtracted from later rows. *)
Theorem C21_independent_refuted : exists (matrix : list (list R)) flags m cols,
  (forall r, In r matrix -> length r = 3%nat) /\
  incremental_gauss_jordan_elimination matrix 3 [0; 1; 2]%nat = Done (flags, m, cols) /\
  length matrix = 3%nat /\ flags = [false; true; true] /\
  dependent 3 [nth 1 matrix []] (nth 2 matrix []).
Proof. exact drift. Qed.
Print Assumptions C21_independent_refuted.
