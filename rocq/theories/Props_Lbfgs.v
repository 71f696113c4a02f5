(** Properties of the L-BFGS optimizer.  Statements use the model, [Spec_Solver.v],
    [Spec_Linear.v], [Spec_Bfgs.v], [Spec_Lbfgs.v], [Spec_Jacobian.v],
    [Spec_Gradient.v] and [Spec_Downhill.v] only. *)
From Coq Require Import List Arith Lia Bool Reals Lra.
From Verif Require Import Num NumR Outcome ModelExpr ModelSystem ModelSolve ModelLbfgs Spec_Solver Spec_Geometry
  Spec_Jacobian Spec_Linear Spec_Bfgs Spec_Lbfgs Spec_Gradient Spec_Downhill
  Proofs_Lbfgs Proofs_Bfgs Proofs_LbfgsDemo Proofs_LbfgsLong Proofs_Gradient Proofs_Downhill.
Import ListNotations.
Local Open Scope R_scope.

(** ** C25: the step direction *)
(** Whatever the arithmetic: a run is a chain of at most 100 rounds, and each
    round moves along its direction. *)
Theorem C25_chain : forall (F : Type) (NF : Num F) (p : problem F) fuel x out rs,
  problem_ok p -> length x = num_variables p -> lbfgs_trace fuel p x = Done (out, rs) ->
  linked x out rs /\ (length rs <= 100)%nat.
Proof. intros F NF p fuel x out rs OK. exact (chained p OK fuel x out rs). Qed.
Print Assumptions C25_chain.
Theorem C25_moves : forall (F : Type) (NF : Num F) (p : problem F) fuel x out rs,
  problem_ok p -> length x = num_variables p -> lbfgs_trace fuel p x = Done (out, rs) ->
  forall r, In r rs ->
    length (r_variables r) = num_variables p /\ length (r_direction r) = num_variables p /\
    r_variables' r = map (fun '(v, d) => nadd v (nmul (r_step r) d)) (combine (r_variables r) (r_direction r)).
Proof. intros F NF p fuel x out rs OK. exact (moves p OK fuel x out rs). Qed.
Print Assumptions C25_moves.
(** In exact arithmetic, in the first round and once the history is full, the
    direction is minus the approximation of the inverse Hessian, built from the
    pairs of the last five rounds, applied to the gradient.  Missing for the full
    claim: rounds 1 to 4, see [C25_refuted] and [C25_actual]. *)
Theorem C25_direction_partial : forall (p : problem R) fuel x out rs,
  problem_ok p -> length x = num_variables p -> lbfgs_trace fuel p x = Done (out, rs) ->
  forall k r i, nth_error rs k = Some r -> (k = 0 \/ 5 <= k)%nat -> (i < num_variables p)%nat ->
  nth i (r_direction r) 0 =
    - apply (num_variables p) (lbfgs_matrix (num_variables p) (recent_pairs k rs)) (coords (r_gradient r)) i.
Proof. intros p fuel x out rs OK. exact (directions_recent p OK fuel x out rs). Qed.
Print Assumptions C25_direction_partial.
(** The claim is false in the second round: the first pair is not used. *)
Theorem C25_refuted : exists (p : problem R) fuel x out rs k r i,
  problem_ok p /\ length x = num_variables p /\ lbfgs_trace fuel p x = Done (out, rs) /\
  nth_error rs k = Some r /\ (i < num_variables p)%nat /\
  nth i (r_direction r) 0 <>
    - apply (num_variables p) (lbfgs_matrix (num_variables p) (recent_pairs k rs)) (coords (r_gradient r)) i.
Proof.
  destruct (demo_wrong 0) as (out & r1 & E & H). eexists diagonal, 0%nat, [1; 1], out, _, 1%nat, r1, 1%nat.
  split; [exact diagonal_ok|]. split; [reflexivity|]. split; [exact E|]. split; [reflexivity|]. split; [auto|]. exact H.
Qed.
Print Assumptions C25_refuted.
(** What happens in every round: the pairs of the rounds [pairs_used] are used,
    and the scale of the newest pair. *)
Theorem C25_actual : forall (p : problem R) fuel x out rs,
  problem_ok p -> length x = num_variables p -> lbfgs_trace fuel p x = Done (out, rs) ->
  forall k r i, nth_error rs k = Some r -> (i < num_variables p)%nat ->
  nth i (r_direction r) 0 = - apply (num_variables p)
    (bfgs_matrix (num_variables p) (bfgs_scale (num_variables p) (newest_pair k rs)) (pairs_at rs (pairs_used k)))
    (coords (r_gradient r)) i.
Proof. intros p fuel x out rs OK. exact (directions p OK fuel x out rs). Qed.
Print Assumptions C25_actual.
(** A run whose last round has a full history *)
Example C25_example : exists rs r, problem_ok tabulated /\ lbfgs_trace 0 tabulated [0] = Done ([17 / 4], rs) /\
  nth_error rs 5 = Some r.
Proof.
  destruct (long_trace 0) as (rs & E & L). destruct (nth_error rs 5) as [r|] eqn:N.
  - exists rs, r. split; [exact tabulated_ok|]. auto.
  - apply nth_error_None in N. lia.
Qed.

(** ** C26: the gradient *)
(** At every point a run visits, the gradient is the transposed Jacobian times
    the residuals, and, where the Jacobian is that of the residuals, half the
    gradient of the sum of their squares. *)
Theorem C26_gradient : forall (p : problem R) fuel x out rs,
  problem_ok p -> dense_consistent p -> length x = num_variables p -> lbfgs_trace fuel p x = Done (out, rs) ->
  forall r, In r rs -> exists jac0 res J,
    calculate_residuals_and_jacobian p (r_variables r) jac0 = Done (res, J) /\
    calculate_residuals p (r_variables r) = Done res /\
    (forall j, (j < num_variables p)%nat -> nth j (r_gradient r) 0
       = rsum (fun c => nth j (nth c J []) 0 * nth c res 0) (seq 0 (num_residuals p))) /\
    (forall j, (j < num_variables p)%nat ->
       (forall c, (c < num_residuals p)%nat ->
          partial_derivative (calculate_residuals p) (r_variables r) c j (nth j (nth c J []) 0)) ->
       derivable_pt_lim (fun t => squares p (lset (r_variables r) j t)) (nth j (r_variables r) 0)
         (2 * nth j (r_gradient r) 0)).
Proof. intros p fuel x out rs OK DC. exact (run_gradient p OK DC fuel x out rs). Qed.
Print Assumptions C26_gradient.
(** In the line search: its value is the sum of squares, and its slope is half
    the derivative of that value along the direction. *)
Theorem C26_slope : forall (p : problem R) x d b t c b',
  problem_ok p -> dense_consistent p -> length x = num_variables p -> length d = num_variables p ->
  length (b_jacobian b) = num_residuals p -> (forall row, In row (b_jacobian b) -> length row = num_variables p) ->
  calculate_phi p x d b t = Done (c, b') ->
  phi c = squares p (displaced x d t) /\
  ((forall k, (k < num_residuals p)%nat ->
      derivable_pt_lim (fun s => residual_at (calculate_residuals p) (displaced x d s) k) t
        (rsum (fun j => nth j (nth k (b_jacobian b') []) 0 * nth j d 0) (seq 0 (num_variables p)))) ->
   derivable_pt_lim (fun s => squares p (displaced x d s)) t (2 * dphi c)).
Proof. intros p x d b t c b' OK DC. exact (slope p OK DC x d b t c b'). Qed.
Print Assumptions C26_slope.
(** For the problems the program builds, no assumption on the Jacobian is
    needed where the residuals have derivatives, if no constraint refers to a
    coordinate twice. *)
Theorem C26_constraints_partial : forall (ss : subsystem R) fuel x out rs,
  let p := subsystem_problem ss in
  (forall id, In id (ss_expressions ss) -> (id < length (ss_all_expressions ss))%nat) ->
  (forall e v, In e (ss_all_expressions ss) -> In v (variable_indices e) -> (v < length (ss_variables ss))%nat) ->
  length x = num_variables p -> lbfgs_trace fuel p x = Done (out, rs) ->
  forall r, In r rs ->
  (forall id e, In id (ss_expressions ss) -> nth_error (ss_all_expressions ss) id = Some e ->
     regular (ss_map ss (r_variables r)) e /\ NoDup (variable_indices e)) ->
  forall j, (j < num_variables p)%nat ->
    derivable_pt_lim (fun t => squares p (lset (r_variables r) j t)) (nth j (r_variables r) 0)
      (2 * nth j (r_gradient r) 0).
Proof. intros ss fuel x out rs p O1 O2. exact (subsystem_gradient ss (conj O1 O2) fuel x out rs). Qed.
Print Assumptions C26_constraints_partial.
(** Otherwise the gradient can be wrong: a dense Jacobian keeps only one of the
    contributions to a coordinate used twice. *)
Theorem C26_shared_refuted : exists (ss : subsystem R) x rs J,
  let p := subsystem_problem ss in
  calculate_residuals_and_jacobian p x (repeat (repeat 0 (num_variables p)) (num_residuals p)) = Done (rs, J) /\
  (forall id e, In id (ss_expressions ss) -> nth_error (ss_all_expressions ss) id = Some e -> regular (ss_map ss x) e) /\
  exists j, (j < num_variables p)%nat /\
    ~ derivable_pt_lim (fun t => squares p (lset x j t)) (nth j x 0) (2 * nth j (compute_gradient (num_variables p) J rs) 0).
Proof.
  destruct shared_wrong as (rs & J & E & H). exists ss_shared, [1], rs, J. split; [exact E|]. split.
  - intros id e [<-|[]] He. injection He as <-. eexists. split; [reflexivity|exact Logic.I].
  - exists 0%nat. split; [constructor|exact H].
Qed.
Print Assumptions C26_shared_refuted.
(** Two lines to be made perpendicular *)
Example C26_example : exists out r,
  lbfgs_trace 0 (subsystem_problem ss_two_lines) [3] = Done (out, [r]) /\
  (forall id e, In id (ss_expressions ss_two_lines) -> nth_error (ss_all_expressions ss_two_lines) id = Some e ->
     regular (ss_map ss_two_lines (r_variables r)) e /\ NoDup (variable_indices e)).
Proof.
  destruct two_lines_run as (out & r & E & V). exists out, r. split; [exact E|]. rewrite V.
  intros id e [<-|[]] He. injection He as <-. split; [eexists; split; [reflexivity|exact Logic.I]|].
  cbn. repeat constructor; cbn; lia.
Qed.
Example C26_consistent : dense_consistent (subsystem_problem ss_two_lines).
Proof. apply subsystem_dense_consistent. Qed.

(** ** C56: going downhill *)
(** In exact arithmetic, if the line search took a step forward satisfying the Wolfe or the
    approximate Wolfe conditions in every earlier round, then the direction of the next round
    goes downhill; and if that round's step is such a step too, the sum of squares grows by at
    most 1e-6.  This although the rounds 1 to 4 use the wrong pairs.  Missing: that the line
    search takes such steps.  It does not, see [C56_refuted] in [Props_Whole64.v]. *)
Theorem C56_downhill_partial : forall (p : problem R) fuel x out rs,
  problem_ok p -> length x = num_variables p -> lbfgs_trace fuel p x = Done (out, rs) ->
  forall k r, nth_error rs k = Some r ->
  (forall m r', (m < k)%nat -> nth_error rs m = Some r' -> proper_step p r' /\ ~ stationary (num_variables p) r') ->
  ~ stationary (num_variables p) r ->
  slope_before (num_variables p) r < 0 /\
  (proper_step p r -> squares p (r_variables' r) <= squares p (r_variables r) + 1 / 10 ^ 6).
Proof.
  intros p fuel x out rs OK Hx Run k r Hr Hp Hs.
  assert (D : slope_before (num_variables p) r < 0) by exact (downhill p OK fuel x out rs Hx Run k r Hr Hp Hs).
  split; [exact D|]. intros [Ht W]. destruct W as [_ W]. cbv zeta in W.
  destruct (moves p OK fuel x out rs Hx Run r (nth_error_In _ _ Hr)) as (_ & _ & E).
  change (r_variables' r = displaced (r_variables r) (r_direction r) (r_step r)) in E. rewrite E.
  destruct W as [W|[W _]]; [|exact W].
  assert (0 < r_step r * - slope_before (num_variables p) r) by (apply Rmult_lt_0_compat; lra). lra.
Qed.
Print Assumptions C56_downhill_partial.
(** The line search tries the full step first.  It takes it if it satisfies the conditions;
    otherwise the conditions fail there. *)
Theorem C56_full_step : forall (p : problem R) fuel x out rs,
  problem_ok p -> dense_consistent p -> length x = num_variables p -> lbfgs_trace fuel p x = Done (out, rs) ->
  forall r, In r rs ->
  (r_step r = 1 /\ wolfe p r) \/
  exists g, gradient_at p (displaced (r_variables r) (r_direction r) 1) g /\
    ~ wolfe_at p (r_variables r) (r_direction r) (slope_before (num_variables p) r) 1 g.
Proof. intros p fuel x out rs OK DC. exact (all_tested p OK DC fuel x out rs). Qed.
Print Assumptions C56_full_step.
(** The second round of a run *)
Example C56_example : exists (out : list R) (r0 r1 : round R), lbfgs_trace 0 diagonal [1; 1] = Done (out, [r0; r1]) /\
  (forall m r', (m < 1)%nat -> nth_error [r0; r1] m = Some r' -> proper_step diagonal r' /\ ~ stationary 2 r') /\
  ~ stationary 2 r1 /\ dense_consistent diagonal.
Proof.
  destruct (demo_trace 0) as (out & r1 & E & G & _). eexists out, _, r1. split; [exact E|]. split.
  - intros [|m] r' Hm Hr; [|lia]. injection Hr as <-. split.
    + split; [cbn; lra|]. unfold wolfe, wolfe_at, slope_before, squares, Spec_Descent.objective, inner, rsum, coords. cbn. split; [lra|]. left. lra.
    + intros S. specialize (S 0%nat ltac:(lia)). cbn in S. lra.
  - split.
    + intros S. specialize (S 0%nat ltac:(lia)). rewrite G in S. cbn in S. lra.
    + intros y jac res jac' H _. unfold diagonal in H |- *. cbn [calculate_residuals calculate_residuals_and_jacobian] in H |- *.
      inversion H. reflexivity.
Qed.
