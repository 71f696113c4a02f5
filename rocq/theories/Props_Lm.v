(** Property C54: Levenberg-Marquardt is what the textbooks say, in exact
    arithmetic.  Statements use the model, [Spec_Solver.v], [Spec_Linear.v],
    [Spec_Jacobian.v], [Spec_Gradient.v] and [Spec_Lm.v] only. *)
From Coq Require Import List Arith NArith ZArith Lia Bool Reals Lra.
From Verif Require Import Num NumR Outcome Lib ModelExpr ModelSystem ModelSolve ModelLm ModelSparse ModelQr ModelOptimize ModelColamd
  Spec_Solver Spec_Sparse Spec_Linear Spec_Qr Spec_Jacobian Spec_Descent Spec_Gradient Spec_Lm
  Proofs_Linear Proofs_Triangular Proofs_Lm Proofs_Safe Proofs_Optimize Proofs_Gradient Proofs_LmTextbook
  Props_Sparse Props_Colamd Props_Geometry Props_Solve.
Import ListNotations.
Local Open Scope R_scope.

(** The problem can be evaluated everywhere and is that of a sketch of at most
    2^24 elements and constraints.  Then the optimizer, with sparse QR and
    column ordering as they are, returns the last point of the one and only
    textbook run of at most 100 rounds from [x] whose damping starts at 1/2. *)
Theorem C54_textbook : forall sort (p : problem R) x,
  sorting sort -> problem_ok p -> consistent p -> sized (2 ^ 24) p -> length x = num_variables p ->
  exists l, run p 100 (/ 2) x l /\ (forall l', run p 100 (/ 2) x l' -> l' = l) /\
    exists n, forall fuel, (n < fuel)%nat ->
      optimize colamd_ordering sort fuel LevenbergMarquardt p x = Done (last l x).
Proof.
  intros sort p x Hs Hp Cp Sz Lx.
  destruct (lm_textbook colamd_ordering sort Hs p (orders_sized _ _ sort p Hs Hp colamd_orders Sz) Hp Cp x Lx) as (n & l & R & H).
  exists l. split; [exact R|]. split; [|now exists n].
  intros l' R'. apply (run_unique p 100 (/ 2) x l R); [lra|exact R'].
Qed.
Print Assumptions C54_textbook.

(** A step solves the damped normal equations [(J^T J + lambda I) d = - J^T r]. *)
Theorem C54_normal_equations : forall (p : problem R) x lambda d j,
  step p x lambda d -> 0 <= lambda -> (j < num_variables p)%nat ->
  rsum (fun i => jacobian_at p x i j * (residuals_at p x i + product (num_variables p) (jacobian_at p x) d i))
    (seq 0 (num_residuals p)) + lambda * nth j d 0 = 0.
Proof. exact step_normal. Qed.
Print Assumptions C54_normal_equations.

(** A step that is not nothing goes downhill: the sum of squares of the residuals
    has a negative slope along it. *)
Theorem C54_downhill : forall (p : problem R) x lambda d,
  step p x lambda d -> 0 < lambda -> 0 < length_squared p d ->
  2 * rsum (fun i => residuals_at p x i * product (num_variables p) (jacobian_at p x) d i) (seq 0 (num_residuals p)) < 0.
Proof. intros p x lambda d S Hl Hd. pose proof (step_downhill p x lambda d S Hl Hd). lra. Qed.
Print Assumptions C54_downhill.

(** A sketch's problem, at a configuration [x] at which its residuals have
    derivatives.  If the sum of squares is stationary at [x], for instance because
    [x] is a local minimum, the optimizer stays there. *)
Theorem C54_stationary : forall sort (ss : subsystem R) x,
  let p := subsystem_problem ss in
  sorting sort -> problem_ok p -> sized (2 ^ 24) p -> length x = num_variables p ->
  (forall id, In id (ss_expressions ss) -> exists e, nth_error (ss_all_expressions ss) id = Some e /\ regular (ss_map ss x) e) ->
  (forall j, (j < num_variables p)%nat -> derivable_pt_lim (fun t => squares p (lset x j t)) (nth j x 0) 0) ->
  exists n, forall fuel, (n < fuel)%nat -> optimize colamd_ordering sort fuel LevenbergMarquardt p x = Done x.
Proof.
  intros sort ss x p Hs Hp Sz Lx Hreg Hst.
  destruct (C54_textbook sort p x Hs Hp (subsystem_consistent ss) Sz Lx) as (l & R & _ & n & H).
  exists n. intros fuel Hfu. rewrite (H fuel Hfu). f_equal.
  destruct (po_sparse _ Hp x Lx) as (rs & ts & E & Lrs & _).
  assert (HJ : forall j, (j < num_variables p)%nat -> rsum (fun i => jacobian_at p x i j * residuals_at p x i) (seq 0 (num_residuals p)) = 0).
  { intros j Hj.
    pose proof (derivable_squares (fun c t => residual_at (calculate_residuals p) (lset x j t) c)
      (fun c => jacobian_at p x c j) (nth j x 0) (seq 0 (num_residuals p))) as D. cbn beta in D.
    assert (Ex : lset x j (nth j x 0) = x) by (apply lset_same, nth_error_nth'; lia). rewrite Ex in D.
    assert (D' : derivable_pt_lim (fun t => squares p (lset x j t)) (nth j x 0)
      (2 * rsum (fun c => jacobian_at p x c j * residual_at (calculate_residuals p) x c) (seq 0 (num_residuals p)))).
    { eapply derivable_pt_lim_ext; [|apply D].
      - intros t. cbn beta. rewrite (squares_value p Hp) by now rewrite lset_length. reflexivity.
      - intros c Hc. apply in_seq in Hc. unfold jacobian_at. rewrite E.
        destruct (nth_error_ex (ss_expressions ss) c) as [id Hid]; [cbn in Hc; lia|].
        destruct (Hreg id) as (e & He & Hr); [eapply nth_error_In; eauto|].
        exact (C12_sparse_jacobian ss x rs ts E c id e Hid He Hr j). }
    pose proof (uniqueness_limite _ _ _ _ (Hst j Hj) D') as E0. unfold residuals_at. lra. }
  assert (Hz : forall lambda' d, first_step p x (/ 2) lambda' d -> length_squared p d < / 10 ^ 12).
  { intros lambda' d (a & -> & S & _). rewrite (step_stationary p x (/ 2 * 2 ^ a) d); [apply Rinv_0_lt_compat, pow_lt; lra| |exact S|exact HJ].
    apply Rmult_lt_0_compat; [lra|apply pow_lt; lra]. }
  inversion R as [| |? ? ? ? ? H1 F H2|? ? ? ? ? H1 F H2 H3 H4|? ? ? ? ? ? H1 F H2 H3 R2]; subst; try reflexivity;
    pose proof (Hz _ _ F); lra.
Qed.
Print Assumptions C54_stationary.

(** The two lines of C26, of which one end may move along the first axis: all of
    the hypotheses hold, and the first step with damping 1/2 from 3 is -2. *)
Example C54_example : let p := subsystem_problem ss_two_lines in
  sorting insertion_sort /\ problem_ok p /\ consistent p /\ sized (2 ^ 24) p /\ length [3] = num_variables p /\
  step p [3] (/ 2) [-2] /\
  forall id, In id (ss_expressions ss_two_lines) ->
    exists e, nth_error (ss_all_expressions ss_two_lines) id = Some e /\ regular (ss_map ss_two_lines [3]) e.
Proof.
  cbv zeta. split; [exact insertion_sort_sorting|]. split.
  { apply subsystem_ok. split.
    - intros id [<-|[]]. cbn. lia.
    - intros e v [<-|[]] Hv. cbn in Hv |- *. lia. }
  split; [apply subsystem_consistent|]. split; [apply subsystem_sized; cbn; lia|]. split; [reflexivity|]. split.
  - split; [reflexivity|]. intros z Lz. destruct z as [|z [|? ?]]; cbn in Lz; try discriminate.
    unfold damped, product, rsum, residuals_at, jacobian_at, residual_at. cbn. pose proof (pow2_ge_0 (z + 2)). nra.
  - intros id [<-|[]]. eexists. split; [reflexivity|]. eexists. split; [reflexivity|exact Logic.I].
Qed.
(** At 0 the objective of that problem is stationary. *)
Example C54_stationary_example : let p := subsystem_problem ss_two_lines in
  forall j, (j < num_variables p)%nat -> derivable_pt_lim (fun t => squares p (lset [0] j t)) (nth j [0] 0) 0.
Proof.
  cbv zeta. intros [|j] Hj; [|cbn in Hj; lia]. cbn [nth lset].
  apply (derivable_pt_lim_ext (fun t => t * t)).
  - intros t. unfold squares, objective. cbn. lra.
  - replace 0 with (1 * id 0 + id 0 * 1) at 2 by (unfold id; lra).
    apply (derivable_pt_lim_mult id id); apply derivable_pt_lim_id.
Qed.
