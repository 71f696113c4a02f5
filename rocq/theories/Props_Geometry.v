(** Properties C10-C16: what residuals and gradients mean over the reals.
    Statements use the model, [Spec_History.v], [Spec_Geometry.v] and
    [Spec_Jacobian.v] only. *)
From Coq Require Import List Arith NArith ZArith Bool Reals Lra Lia.
From Coquelicot Require Import Derive_2d.
From Verif Require Import Num NumR Outcome ModelExpr ModelGraph ModelSystem ModelSolve ModelNumerical
  ModelApi Spec_Solver Spec_History Spec_Geometry Spec_Jacobian Lib Proofs_Real Proofs_Api Proofs_Geometry
  Proofs_Derive Proofs_Motion Proofs_Jacobian Demo DemoR.
Import ListNotations.
Local Open Scope R_scope.

(** ** C10: the residual a client reads is zero exactly when the geometric
    relation holds between the values the client reads *)
Theorem C10_zero_iff_satisfied : forall (env : solver_env R) id (l : log R) s k,
  env_ok env -> history env id l s -> In (RConstraint k) (map snd l) ->
  exists c x, current_call l k = Some c /\ constraint_residual k s = Done x /\
    (general c (read s) -> (x = 0 <-> satisfied c (read s))).
Proof.
  intros env id l s k He Hh Hk.
  destruct (residual_meaning env id l s k He Hh Hk) as (c & x & H1 & H2 & H3).
  exists c, x. split; [auto|]. split; [auto|]. intros G. exact (residual_zero c (read s) x H2 G).
Qed.
Print Assumptions C10_zero_iff_satisfied.
(** C is at distance 1 to the left of the line AB. *)
Example C10_example : env_ok rdemo_env /\ history rdemo_env 7%N rdemo_log rdemo_state /\
  In (RConstraint (CHandle 7%N 1 CPointLineDistance)) (map snd rdemo_log) /\
  general (CreatePointLineDistance (rp 2) (rl 3) 1) (read rdemo_state) /\
  satisfied (CreatePointLineDistance (rp 2) (rl 3) 1) (read rdemo_state).
Proof.
  split; [exact rdemo_env_ok|]. split; [exact rdemo_history|].
  split; [vm_compute; auto|].
  assert (V : read rdemo_state (rp 2) = Some (VPoint (2, 1)) /\ read rdemo_state (rl 3) = Some (VLine (0, 0) (1, 0)))
    by (vm_compute; auto).
  destruct V as [V1 V2]. split.
  - intros A H. rewrite V2 in H. injection H as H1 H2. rewrite <- H2 in H1. injection H1. lra.
  - exists (2, 1), (0, 0), (1, 0). split; [auto|]. split; [auto|].
    apply signed_iff; [injection; lra|]. simpl.
    replace ((1 - 0) * (1 - 0) + (0 - 0) * (0 - 0)) with 1 by ring. rewrite sqrt_1. field.
Qed.

(** ** C11: every gradient entry is the partial derivative of the residual *)
Theorem C11_gradient : forall (e : expr R) (v : nat -> R), nondegenerate e v ->
  forall i, derivable_pt_lim (fun x => fst (compute_rg e (with_slot v i x))) (v i)
              (nth i (snd (compute_rg e v)) 0).
Proof. exact gradient_partial. Qed.
Print Assumptions C11_gradient.
(** More: along every differentiable motion of the variables the residual
    changes at the rate given by the gradient (total derivative). *)
Theorem C11_total_derivative : forall (e : expr R) (p : nat -> R -> R) (w : nat -> R) (t : R),
  (forall i, derivable_pt_lim (p i) t (w i)) -> nondegenerate e (fun i => p i t) ->
  derivable_pt_lim (fun s => fst (compute_rg e (fun i => p i s))) t
    (fold_right Rplus 0 (map (fun i => nth i (snd (compute_rg e (fun i => p i t))) 0 * w i) (seq 0 8))).
Proof. exact total_derivative. Qed.
Print Assumptions C11_total_derivative.
(** The tangency of the line through (0,0), (4,3) and the circle around (1,5) *)
Example C11_example : nondegenerate (LineCircleTangency 0 2 4 6)
  (fun i => nth i [0; 0; 4; 3; 1; 5; 2] 0).
Proof.
  simpl. unfold slot_point. simpl. split.
  - intros H. injection H. lra.
  - intros (t & E1 & E2). simpl in *. lra.
Qed.
(** The derivative does not exist on the excluded sets, e.g. the distance of
    two coinciding points *)
Example C11_degenerate : forall d l, ~ derivable_pt_lim
  (fun x => fst (compute_rg (PointPointDistance 0 2 d) (with_slot (fun _ => 0) 0 x))) 0 l.
Proof. exact distance_not_derivable. Qed.

(** ** C12: the Jacobians *)
Theorem C12_sparse_jacobian : forall (ss : subsystem R) xs rs ts,
  calculate_residuals_and_sparse_jacobian (subsystem_problem ss) xs = Done (rs, ts) ->
  forall i id e, nth_error (ss_expressions ss) i = Some id ->
    nth_error (ss_all_expressions ss) id = Some e -> regular (ss_map ss xs) e ->
  forall j, partial_derivative (calculate_residuals (subsystem_problem ss)) xs i j (entry ts i j).
Proof. exact sparse_jacobian. Qed.
Print Assumptions C12_sparse_jacobian.
(** The dense Jacobian (used by the over-constraint analysis and by L-BFGS) is
    correct only for expressions in which no variable occurs twice; see
    [C12_dense_refuted]. *)
Theorem C12_analysis_jacobian_partial : forall (s : system R) J, analysis_jacobian s = Done J ->
  forall i e, nth_error (sys_expressions s) i = Some e -> NoDup (variable_indices e) ->
  regular (identity_map (sys_variables s)) e ->
  forall j, partial_derivative
    (fun xs => omap (calculate_residual (identity_map xs)) (sys_expressions s))
    (sys_variables s) i j (nth j (nth i J []) 0).
Proof. exact analysis_jacobian_correct. Qed.
Print Assumptions C12_analysis_jacobian_partial.
Theorem C12_dense_jacobian_partial : forall (ss : subsystem R) xs rs J',
  let zeros := repeat (repeat 0 (length (ss_free_variables ss))) (length (ss_expressions ss)) in
  calculate_residuals_and_jacobian (subsystem_problem ss) xs zeros = Done (rs, J') ->
  forall i id e, nth_error (ss_expressions ss) i = Some id ->
    nth_error (ss_all_expressions ss) id = Some e -> regular (ss_map ss xs) e ->
    NoDup (variable_indices e) ->
  forall j, partial_derivative (calculate_residuals (subsystem_problem ss)) xs i j
    (nth j (nth i J' []) 0).
Proof. exact dense_jacobian_zeros. Qed.
Print Assumptions C12_dense_jacobian_partial.
(** The lines AB and BC share B: the analysis uses a wrong derivative. *)
Theorem C12_dense_refuted : exists id (l : log R) s J i e j,
  history rdemo_env id l s /\ analysis_jacobian s = Done J /\
  nth_error (sys_expressions s) i = Some e /\ regular (identity_map (sys_variables s)) e /\
  ~ partial_derivative (fun xs => omap (calculate_residual (identity_map xs)) (sys_expressions s))
      (sys_variables s) i j (nth j (nth i J []) 0).
Proof. exact dense_refuted. Qed.
Print Assumptions C12_dense_refuted.
Definition C12_ss : subsystem R :=
  Subsystem [0; 0; 1; 0; 2; 1] [LineLinePerpendicularity 0 2 2 4; PointPointDistance 0 2 1] [0; 1]%nat [2; 3]%nat.
Example C12_example : (exists rs ts,
    calculate_residuals_and_sparse_jacobian (subsystem_problem C12_ss) [1; 0] = Done (rs, ts)) /\
  regular (ss_map C12_ss [1; 0]) (LineLinePerpendicularity 0 2 2 4) /\
  regular (ss_map C12_ss [1; 0]) (PointPointDistance 0 2 1) /\
  NoDup (variable_indices (PointPointDistance 0 2 1)).
Proof.
  split; [cbv -[Rplus Rmult Rminus Ropp Rdiv IZR sqrt]; eauto|].
  split; [eexists; split; [reflexivity|exact Logic.I]|].
  split; [eexists; split; [reflexivity|]|].
  - unfold nondegenerate, slot_point, buffer. simpl. intros H. injection H. lra.
  - simpl. repeat constructor; simpl; lia.
Qed.

(** ** C13: rescaling *)
Theorem C13_scaling : forall (s : system R) (scale : R) (xs : list R) i e r, 0 < scale ->
  nth_error (sys_expressions s) i = Some e ->
  forall e', nth_error (sys_expressions_transformed (scale_system scale s)) i = Some e' ->
  calculate_residual (identity_map xs) e' = Done r ->
  exists r0, calculate_residual (identity_map (map (Rmult scale) xs)) e = Done r0 /\ (r0 = 0 <-> r = 0).
Proof. exact scaling. Qed.
Print Assumptions C13_scaling.
(** ... and the scaled coordinates the solver starts from are the coordinates
    divided by the scale *)
Theorem C13_scaled_values : forall (s : system R) (scale : R), 0 < scale ->
  map (Rmult scale) (sys_variables_transformed (scale_system scale s)) = sys_variables s.
Proof. exact scaled_values. Qed.
Print Assumptions C13_scaled_values.
Example C13_example : exists e e' r, 0 < 3 /\
  nth_error (sys_expressions rdemo_state) 1 = Some e /\
  nth_error (sys_expressions_transformed (scale_system 3 rdemo_state)) 1 = Some e' /\
  calculate_residual (identity_map [0; 0; 1/3; 0; 2/3; 1/3]) e' = Done r.
Proof.
  do 3 eexists. split; [lra|]. split; [vm_compute; reflexivity|]. split; [vm_compute; reflexivity|].
  vm_compute. reflexivity.
Qed.

(** ** C14: rigid motions *)
Theorem C14_rigid_motion_partial : forall (a : R) (t : point) (c : call R) val,
  legs_nonzero c val -> ~ legs_opposite c val ->
  call_residual c (fun h => option_map (moved a t) (val h)) = call_residual c val.
Proof. exact motion. Qed.
Print Assumptions C14_rigid_motion_partial.
(** Angle constraints whose legs point in opposite directions: turning the
    figure by half a turn changes the residual by a full turn. *)
Theorem C14_opposite_refuted : exists (a : R) (t : point) (c : call R) val x y,
  legs_nonzero c val /\ call_residual c val = Some x /\
  call_residual c (fun h => option_map (moved a t) (val h)) = Some y /\ x <> y.
Proof. exact motion_refuted. Qed.
Print Assumptions C14_opposite_refuted.
Example C14_example : legs_nonzero (CreateLineLineAngle (rl 3) (rl 4) 5) (read rdemo_state) /\
  ~ legs_opposite (CreateLineLineAngle (rl 3) (rl 4) 5) (read rdemo_state).
Proof.
  assert (V : read rdemo_state (rl 3) = Some (VLine (0, 0) (1, 0)) /\ read rdemo_state (rl 4) = Some (VLine (1, 0) (2, 1)))
    by (vm_compute; auto).
  destruct V as [V1 V2]. unfold legs_nonzero, legs_opposite. rewrite V1, V2. split; [split|].
  - intros A H. injection H as H1 H2. rewrite <- H2 in H1. injection H1. lra.
  - intros A H. injection H as H1 H2. rewrite <- H2 in H1. injection H1. lra.
  - intros (A & B & C & D & H1 & H2 & k & K & E). injection H1 as <- <-. injection H2 as <- <-.
    unfold minus in E. simpl in E. injection E as E1 E2. lra.
Qed.

(** ** C15: poses *)
Theorem C15_pose_rigid : forall (s : pose R) (p q r : point),
  let T := transform_point s in
  dist (T p) (T q) = dist p q /\
  (forall x, turned (minus q p) (minus r p) x -> turned (minus (T q) (T p)) (minus (T r) (T p)) x).
Proof. exact pose_rigid. Qed.
Print Assumptions C15_pose_rigid.
(** [f] is any function of the transformed point with gradient (gx, gy) there *)
Theorem C15_chain_rule : forall (f : R -> R -> R) (a tx ty u v gx gy : R),
  let p := transform_point (Pose a (tx, ty)) (u, v) in
  let '(da, dx, dy) := gradient_chain_rule_point (Pose a (tx, ty)) (u, v) (gx, gy) in
  differentiable_pt_lim f (fst p) (snd p) gx gy ->
  derivable_pt_lim (fun b => let p := transform_point (Pose b (tx, ty)) (u, v) in f (fst p) (snd p)) a da /\
  derivable_pt_lim (fun b => let p := transform_point (Pose a (b, ty)) (u, v) in f (fst p) (snd p)) tx dx /\
  derivable_pt_lim (fun b => let p := transform_point (Pose a (tx, b)) (u, v) in f (fst p) (snd p)) ty dy.
Proof. exact pose_chain. Qed.
Print Assumptions C15_chain_rule.
Example C15_example : turned (minus (1, 0) (0, 0)) (minus (0, 2) (0, 0)) (PI / 2) /\
  differentiable_pt_lim (fun x y => x * 2 + y * 3) 1 5 2 3.
Proof.
  split.
  - exists 2. split; [lra|]. unfold minus, rotate. simpl. rewrite cos_PI2, sin_PI2. f_equal; ring.
  - intros eps. exists (mkposreal 1 Rlt_0_1). intros u v _ _.
    replace (u * 2 + v * 3 - (1 * 2 + 5 * 3) - (2 * (u - 1) + 3 * (v - 5))) with 0 by ring.
    rewrite Rabs_R0. apply Rmult_le_pos; [apply Rlt_le, cond_pos|].
    apply Rle_trans with (Rabs (u - 1)); [apply Rabs_pos|apply Rmax_l].
Qed.

(** ** C16: attainable angles.  Exactly the parameters of at most half a turn
    are attainable. *)
Theorem C16_attainable_partial : forall p q r k l a, - PI <= a <= PI ->
  p <> q -> q <> r -> p <> r -> k <> l ->
  (exists val, call_residual (CreatePointPointPointAngle p q r a) val = Some 0) /\
  (exists val, call_residual (CreateLineLineAngle k l a) val = Some 0).
Proof. exact angle_attained. Qed.
Print Assumptions C16_attainable_partial.
Theorem C16_refuted : forall (env : solver_env R) id (l : log R) s k c a,
  env_ok env -> history env id l s -> current_call l k = Some c -> In (RConstraint k) (map snd l) ->
  (exists p q r, c = CreatePointPointPointAngle p q r a) \/ (exists k l, c = CreateLineLineAngle k l a) ->
  PI < Rabs a -> constraint_residual k s <> Done 0.
Proof. exact angle_unattainable. Qed.
Print Assumptions C16_refuted.
(** A full turn more than a right angle is not attainable (a right angle is). *)
Example C16_example : PI < Rabs (PI / 2 + 2 * PI) /\ - PI <= PI / 2 <= PI /\
  current_call rdemo_log (CHandle 7%N 2 CLineLineAngle) = Some (CreateLineLineAngle (rl 3) (rl 4) 5) /\
  PI < Rabs 5.
Proof.
  pose proof PI_RGT_0. pose proof PI_4. rewrite !Rabs_right by lra.
  split; [lra|]. split; [lra|]. split; [vm_compute; reflexivity|lra].
Qed.
