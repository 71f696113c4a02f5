(** C50-C52: what solving does to the sketch as a whole, in exact arithmetic
    and without a decomposer (the default) unless said otherwise.  [misfit u s ks] is the sum of the
    squared residuals of the constraints [ks], lengths measured in units of
    [u]; the solver works in units of [calculate_system_scale s]. *)
From Coq Require Import List Arith NArith ZArith Reals Lra.
From Verif Require Import Num NumR Outcome ModelExpr ModelGraph ModelSystem ModelSolve ModelApi ModelLm
  ModelSparse ModelColamd ModelOptimize ModelAssembly Spec_Solver Spec_History Spec_Components Spec_Descent Spec_Whole
  Proofs_Lm Proofs_Optimize Proofs_AssemblyFrame Proofs_WholeR Proofs_PassWhole Proofs_AssemblyBroken Proofs_Idle Proofs_IdleDemo DemoR Props_Sparse Props_Assembly Props_Optimize Proofs_WholeDemo.
Import ListNotations.
Local Open Scope R_scope.

(** ** C50: if the optimizer solves every problem it is given, every constraint
    of the sketch holds after solving; if it solves them up to [eps], every
    constraint holds up to [eps] times the unit.  With or without perturbation.
    (Partial: when each constraint is in one group with its points and lengths,
    as is the case if no constraint joined two groups, [C50_unmerged].) *)
Theorem C50_within_partial : forall eps (env : solver_env R) opts id (l : log R) s s' k,
  env_ok env -> history env id l s -> together l s ->
  0 < calculate_system_scale s -> o_decomposer opts = DecomposeNone ->
  0 <= eps -> reaches eps env (o_optimizer opts) ->
  solve env opts s = Done s' -> In (RConstraint k) (map snd l) ->
  exists x, constraint_residual k s' = Done x /\
    Rabs x <= eps * calculate_system_scale s ^ dimension (ch_tag k).
Proof. exact solved_within. Qed.
Print Assumptions C50_within_partial.
Theorem C50_solved_partial : forall (env : solver_env R) opts id (l : log R) s s' k,
  env_ok env -> history env id l s -> together l s ->
  0 < calculate_system_scale s -> o_decomposer opts = DecomposeNone ->
  reaches 0 env (o_optimizer opts) ->
  solve env opts s = Done s' -> In (RConstraint k) (map snd l) ->
  constraint_residual k s' = Done 0.
Proof.
  intros env opts id l s s' k EO H N S D Re Hs K.
  destruct (solved_within 0 env opts id l s s' k EO H N S D (Rle_refl 0) Re Hs K) as (x & Hx & Hle).
  rewrite Hx. f_equal. rewrite Rmult_0_l in Hle. pose proof (Rabs_pos x).
  destruct (Req_dec x 0) as [|Nz]; [assumption|]. apply Rabs_pos_lt in Nz. lra.
Qed.
Print Assumptions C50_solved_partial.
Theorem C50_unmerged : forall (env : solver_env R) id (l : log R) s,
  env_ok env -> history env id l s -> never_merges l -> together l s.
Proof. exact never_merges_together. Qed.
Print Assumptions C50_unmerged.
(** The points (1,1) and (3,1) are to coincide. *)
Example C50_example : env_ok sure_env /\ history sure_env 7%N (meet_log 1 1 3 1) (meet_state 1 1 3 1) /\
  together (meet_log 1 1 3 1) (meet_state 1 1 3 1) /\ 0 < calculate_system_scale (meet_state 1 1 3 1) /\
  reaches 0 sure_env LevenbergMarquardt /\ In (RConstraint meet_con) (map snd (meet_log 1 1 3 1)) /\
  exists s', solve sure_env (Options LevenbergMarquardt DecomposeNone false) (meet_state 1 1 3 1) = Done s'.
Proof.
  split; [apply same_env_ok|]. split; [apply meet_history|]. split; [eapply (C50_unmerged sure_env); [apply same_env_ok|apply meet_history|apply meet_never_merges]|].
  split; [apply meet_scale; lra|]. split; [apply sure_reaches|]. split; [simpl; auto|]. apply meet_solved.
Qed.

(** The same with the single-pass decomposer, if every residual equation can be
    given a free coordinate of its own ([assignable]); without this the
    decomposer drops equations.  A coincidence is two equations, which can be
    solved apart. *)
Theorem C50_single_pass_partial : forall eps (env : solver_env R) opts id (l : log R) s s' k,
  env_ok env -> history env id l s -> small l -> together l s ->
  0 < calculate_system_scale s -> o_decomposer opts = SinglePass -> assignable s ->
  0 <= eps -> reaches eps env (o_optimizer opts) ->
  solve env opts s = Done s' -> In (RConstraint k) (map snd l) ->
  exists x, constraint_residual k s' = Done x /\
    Rabs x <= eps * sqrt (INR (tag_valency (ch_tag k))) * calculate_system_scale s ^ dimension (ch_tag k).
Proof. exact pass_solved_within. Qed.
Print Assumptions C50_single_pass_partial.
Theorem C50_single_pass_solved_partial : forall (env : solver_env R) opts id (l : log R) s s' k,
  env_ok env -> history env id l s -> small l -> together l s ->
  0 < calculate_system_scale s -> o_decomposer opts = SinglePass -> assignable s ->
  reaches 0 env (o_optimizer opts) ->
  solve env opts s = Done s' -> In (RConstraint k) (map snd l) ->
  constraint_residual k s' = Done 0.
Proof.
  intros env opts id l s s' k EO H Sm N S D A Re Hs K.
  destruct (pass_solved_within 0 env opts id l s s' k EO H Sm N S D A (Rle_refl 0) Re Hs K) as (x & Hx & Hle).
  rewrite Hx. f_equal. rewrite !Rmult_0_l in Hle. pose proof (Rabs_pos x).
  destruct (Req_dec x 0) as [|Nz]; [assumption|]. apply Rabs_pos_lt in Nz. lra.
Qed.
Print Assumptions C50_single_pass_solved_partial.
Example C50_single_pass_example : env_ok sure_env /\ history sure_env 7%N (meet_log 1 1 3 1) (meet_state 1 1 3 1) /\
  small (meet_log 1 1 3 1) /\ together (meet_log 1 1 3 1) (meet_state 1 1 3 1) /\
  0 < calculate_system_scale (meet_state 1 1 3 1) /\ assignable (meet_state 1 1 3 1) /\
  reaches 0 sure_env LevenbergMarquardt /\ In (RConstraint meet_con) (map snd (meet_log 1 1 3 1)) /\
  exists s', solve sure_env (Options LevenbergMarquardt SinglePass false) (meet_state 1 1 3 1) = Done s'.
Proof.
  split; [apply same_env_ok|]. split; [apply meet_history|]. split; [split; vm_compute; reflexivity|].
  split; [eapply (C50_unmerged sure_env); [apply same_env_ok|apply meet_history|apply meet_never_merges]|].
  split; [apply meet_scale; lra|]. split; [apply meet_assignable|]. split; [apply sure_reaches|]. split; [simpl; auto|]. apply meet_passed.
Qed.

(** C50 is false of recursive assembly.  The points (1,0) and (2,0) are to be on
    the circle around (0,0) with radius 1.  With every optimizer that solves all
    problems it returns from, and every bound on the loops, if solving returns,
    the first point is off the circle by 1, where it was on it before.  (Hash sets
    are gone through in ascending order.) *)
Theorem C50_assembly_refuted : exists (l : log R) s k, (forall env, history env 7%N l s) /\
  together l s /\ 0 < calculate_system_scale s /\ In (RConstraint k) (map snd l) /\ constraint_residual k s = Done 0 /\
  let env opt fuel search :=
    SolverEnv (fun _ => opt) ascending (recursive_assembly opt ascending (20 + fuel) (60 + search)) in
  (forall opt fuel search o s', env_ok (env opt fuel search) /\
     (reaches 0 (env opt fuel search) o -> solve (env opt fuel search) (Options o RecursiveAssembly false) s = Done s' ->
      constraint_residual k s' = Done (-1))) /\
  exists opt, forall fuel search o, reaches 0 (env opt fuel search) o /\
    exists s', solve (env opt fuel search) (Options o RecursiveAssembly false) s = Done s'.
Proof.
  exists wheel_log, wheel_state, (wheel_con 0). split; [exact (fun env => wheel_history env)|].
  split; [exact wheel_together|]. split; [exact wheel_scale|]. split; [simpl; auto|]. split.
  { exact wheel_before. }
  intros env. split.
  - intros opt fuel search o s'. split; [apply assembling_ok, ascending_perm|]. intros Re H.
    apply (wheel_broken opt o fuel search s'); [|exact H].
    intros p x y Hy. destruct (Re p x y Hy) as (a & Ha & Hle). exists a. split; [exact Ha|]. now rewrite Rmult_0_l in Hle.
  - exists radius_optimizer. intros fuel search o. split; [|apply wheel_solved].
    intros p x y Hy. destruct (radius_solves p x y Hy) as (a & Ha & Hle). exists a. split; [exact Ha|]. now rewrite Rmult_0_l.
Qed.
Print Assumptions C50_assembly_refuted.

(** ** C55 is false: one point is to be on the line through two others; for
    every optimizer that solves all problems it returns from, solving by
    recursive assembly does not return unless the point is on the line already,
    although moving one point would do. *)
Theorem C55_refuted : forall x y, y <> 0 -> exists (l : log R) s k, (forall env, history env 7%N l s) /\
  In (RConstraint k) (map snd l) /\ created_constraints l = [k] /\
  get_value (rp 3) s = Done (VPoint (x, y)) /\
  (exists s', point_update_value (rp 3) x 0 s = Done s' /\ constraint_residual k s' = Done 0) /\
  forall opt fuel search o s',
    let env := SolverEnv (fun _ => opt) ascending (recursive_assembly opt ascending (20 + fuel) (60 + search)) in
    reaches 0 env o -> solve env (Options o RecursiveAssembly false) s <> Done s'.
Proof.
  intros x y Hy. exists (bent_log x y), (bent_state x y), bent_con. split; [exact (fun env => bent_history env x y)|].
  split; [simpl; auto|]. split; [reflexivity|]. split; [reflexivity|]. split.
  { eexists. split; [reflexivity|]. unfold constraint_residual. cbn. f_equal. ring. }
  intros opt fuel search o s' env Re. apply bent_fails; [|exact Hy].
  intros p v w Hw. destruct (Re p v w Hw) as (a & Ha & Hle). exists a. split; [exact Ha|]. now rewrite Rmult_0_l in Hle.
Qed.
Print Assumptions C55_refuted.

(** What holds of C55: if the sketch is satisfied, every problem is, at the point
    the optimizer starts from; so if the optimizer returns its starting point
    where that is a solution, the sketch stays as it is. *)
Theorem C55_satisfied_partial : forall (opt : problem R -> list R -> outcome (list R)) order fuel search o id (l : log R) s s',
  let env := SolverEnv (fun _ => opt) order (recursive_assembly opt order fuel search) in
  (forall vs, Permutation.Permutation (order vs) vs) ->
  (forall p x y, (forall b, objective p x = Some b -> b <= 0) -> opt p x = Done y -> y = x) ->
  history env id l s -> small l -> 0 < calculate_system_scale s ->
  (forall k, In (RConstraint k) (map snd l) -> constraint_residual k s = Done 0) ->
  solve env (Options o RecursiveAssembly false) s = Done s' ->
  (forall h, get_value h s' = get_value h s) /\ (forall k, constraint_residual k s' = constraint_residual k s).
Proof.
  intros opt order fuel search o id l s s' env O La H Sm S Hz Hs.
  assert (Ha : misfit (calculate_system_scale s) s (created_constraints l) = Done 0).
  { unfold misfit. assert (E : omap (relative_residual (calculate_system_scale s) s) (created_constraints l) =
      Done (map (fun _ => 0) (created_constraints l))).
    { assert (Hin : forall k, In k (created_constraints l) -> constraint_residual k s = Done 0).
      { intros k Hk. apply Hz. unfold created_constraints in Hk. apply in_flat_map in Hk. destruct Hk as ([c r] & Hin & Hk).
        apply in_rev in Hin. apply in_map_iff. exists (c, r). destruct r; simpl in Hk; try contradiction. destruct Hk as [<-|[]]. auto. }
      clear -Hin. induction (created_constraints l) as [|k ks IH]; [reflexivity|]. cbn [omap map].
      unfold relative_residual at 1. rewrite (Hin k) by (simpl; auto). cbn [obind].
      rewrite IH by (intros; apply Hin; simpl; auto). cbn [obind]. do 2 f_equal. unfold Rdiv. ring. }
    rewrite E. cbn [obind]. f_equal. clear. induction (created_constraints l) as [|k ks IH]; [reflexivity|].
    cbn [map fold_right]. rewrite IH. ring. }
  assert (Lz : lazy 0 opt) by (intros p x y _ _; apply La).
  rewrite (solve_lazy (fun _ => opt) order fuel search (Options o RecursiveAssembly false)
    id l s s' 0 O H Sm S eq_refl ltac:(discriminate) Lz (fun _ => Lz) Ha Hs).
  split; reflexivity.
Qed.
Print Assumptions C55_satisfied_partial.
(** Two points on a circle; with Levenberg-Marquardt *)
Example C55_satisfied_example : forall fuel search,
  let opt := optimize colamd_ordering insertion_sort (20 + fuel) LevenbergMarquardt in
  let env := SolverEnv (fun _ => opt) ascending (recursive_assembly opt ascending (20 + fuel) (60 + search)) in
  history env 7%N rim_log rim_state /\ small rim_log /\ 0 < calculate_system_scale rim_state /\
  (forall k, In (RConstraint k) (map snd rim_log) -> constraint_residual k rim_state = Done 0) /\
  exists s', solve env (Options LevenbergMarquardt RecursiveAssembly false) rim_state = Done s'.
Proof.
  intros fuel search opt env. split; [apply rim_history|]. split; [split; vm_compute; reflexivity|].
  split; [exact rim_scale|]. split; [exact rim_satisfied|]. exact (rim_idle (fun _ => opt) ascending fuel search).
Qed.

(** ** C51: Levenberg-Marquardt without perturbation leaves a sketch alone that
    is solved well enough, whatever groups there are. *)
Theorem C51_solved_untouched : forall colamd sort fuel search order id (l : log R) s s' a,
  let env := whole_env colamd sort fuel search order in
  let opts := Options LevenbergMarquardt DecomposeNone false in
  env_ok env -> history env id l s -> 0 < calculate_system_scale s ->
  misfit (calculate_system_scale s) s (created_constraints l) = Done a -> a < 1 / 10 ^ 8 ->
  solve env opts s = Done s' ->
  (forall h, get_value h s' = get_value h s) /\ (forall k, constraint_residual k s' = constraint_residual k s).
Proof.
  intros colamd sort fuel search order id l s s' a env opts EO H S Ha Hlt Hs.
  apply (solve_idle env opts id l s s' a EO H S eq_refl eq_refl); [|exact Ha|exact Hs].
  intros ss x y b Hb Hle Ho. cbn in Ho.
  apply (lm_solved orderly_R (qr_solver colamd sort) _ (subsystem_consistent ss) fuel x b y Hb); [|exact Ho].
  cbn. destruct (Proofs_Real.Rltb_spec b (1 / 100000000)) as [|N]; [reflexivity|]. exfalso. apply N.
  replace 100000000 with (10 ^ 8) by ring. lra.
Qed.
Print Assumptions C51_solved_untouched.
Example C51_example : forall fuel search order, let env := whole_env colamd_ordering insertion_sort fuel search order in
  (forall m, Permutation.Permutation (order m) m) ->
  env_ok env /\ history env 7%N (meet_log 1 2 1 2) (meet_state 1 2 1 2) /\
  0 < calculate_system_scale (meet_state 1 2 1 2) /\
  misfit (calculate_system_scale (meet_state 1 2 1 2)) (meet_state 1 2 1 2) (created_constraints (meet_log 1 2 1 2)) = Done 0 /\
  exists s', solve env (Options LevenbergMarquardt DecomposeNone false) (meet_state 1 2 1 2) = Done s'.
Proof.
  intros fuel search order env O. split; [now apply whole_env_ok|]. split; [apply meet_history|].
  split; [apply meet_scale; lra|]. split; [|apply meet_idle].
  generalize (calculate_system_scale (meet_state 1 2 1 2)). intros u.
  unfold misfit, relative_residual. cbn. f_equal.
  replace (0 + (1 - 1) * (1 - 1) + (2 - 2) * (2 - 2)) with 0 by ring. rewrite sqrt_0. unfold Rdiv. ring.
Qed.

(** By each decomposer and with each optimizer, and with L-BFGS where the misfit is
    larger still, which is up to where it takes a sketch for solved.  (Recursive
    assembly always uses Levenberg-Marquardt.  [small]: fewer than 2^31 elements
    and constraints.) *)
Definition untouched (s s' : system R) : Prop :=
  (forall h, get_value h s' = get_value h s) /\ (forall k, constraint_residual k s' = constraint_residual k s).
Theorem C51_decomposed : forall colamd sort fuel search order o d id (l : log R) s s' a,
  let env := whole_env colamd sort fuel search order in
  (forall vs, Permutation.Permutation (order vs) vs) -> history env id l s -> small l -> 0 < calculate_system_scale s ->
  misfit (calculate_system_scale s) s (created_constraints l) = Done a ->
  a < 1 / 10 ^ 8 \/ (o = LBfgs /\ d <> RecursiveAssembly /\ a < 1 / 10 ^ 4) ->
  solve env (Options o d false) s = Done s' -> untouched s s'.
Proof.
  intros colamd sort fuel search order o d id l s s' a env O H Sm S Ha Hlt Hs.
  assert (La : lazy a (optimize colamd sort fuel o)).
  { destruct Hlt as [Hlt|(-> & _ & Hlt)]; [|now apply lbfgs_lazy]. destruct o; [now apply lm_lazy|apply lbfgs_lazy; lra]. }
  destruct d.
  - apply (solve_idle env (Options o DecomposeNone false) id l s s' a (whole_env_ok _ _ _ _ _ O) H S eq_refl eq_refl); [|exact Ha|exact Hs].
    intros ss x y b Hb Hle Ho. apply (La _ _ _ (subsystem_consistent ss) (Proofs_Gradient.subsystem_dense_consistent ss)); [|exact Ho].
    intros b' Hb'. rewrite Hb in Hb'. apply some_inj in Hb'. now subst b'.
  - rewrite (solve_lazy (optimize colamd sort fuel) order fuel search (Options o SinglePass false)
      id l s s' a O H Sm S eq_refl ltac:(discriminate) La ltac:(discriminate) Ha Hs).
    split; reflexivity.
  - destruct Hlt as [Hlt|(_ & Hne & _)]; [|now contradiction Hne].
    rewrite (solve_lazy (optimize colamd sort fuel) order fuel search (Options o RecursiveAssembly false)
      id l s s' a O H Sm S eq_refl ltac:(discriminate) La (fun _ => lm_lazy _ _ _ _ Hlt) Ha Hs).
    split; reflexivity.
Qed.
Print Assumptions C51_decomposed.
(** Two points that coincide, and two points on a circle *)
Example C51_decomposed_example : forall fuel search,
  (exists s', solve (whole_env colamd_ordering insertion_sort fuel search (fun m => m))
     (Options LevenbergMarquardt SinglePass false) (meet_state 1 2 1 2) = Done s') /\
  let env := whole_env colamd_ordering insertion_sort (20 + fuel) (60 + search) ascending in
  history env 7%N rim_log rim_state /\ small rim_log /\ 0 < calculate_system_scale rim_state /\
  misfit (calculate_system_scale rim_state) rim_state (created_constraints rim_log) = Done 0 /\
  exists s', solve env (Options LevenbergMarquardt RecursiveAssembly false) rim_state = Done s'.
Proof.
  intros fuel search. split; [apply meet_pass_idle|]. intros env. split; [apply rim_history|].
  split; [split; vm_compute; reflexivity|]. split; [exact rim_scale|]. split; [apply rim_misfit|apply rim_idle].
Qed.

(** ** C52: without perturbation the misfit of the sketch does not grow, if the
    optimizer does not make a problem worse; Levenberg-Marquardt does not.
    (Partial: when each constraint is in one group with its points and lengths,
    as is the case if no constraint joined two groups, [C50_unmerged].) *)
Theorem C52_improves_partial : forall (env : solver_env R) opts id (l : log R) s s',
  env_ok env -> history env id l s -> together l s -> 0 < calculate_system_scale s ->
  o_decomposer opts = DecomposeNone -> o_perturb opts = false ->
  (forall p x y, env_optimize env (o_optimizer opts) p x = Done y -> consistent p -> y = x \/ better p y x) ->
  solve env opts s = Done s' ->
  exists a b, misfit (calculate_system_scale s) s (created_constraints l) = Done a /\
    misfit (calculate_system_scale s) s' (created_constraints l) = Done b /\ b <= a.
Proof.
  intros env opts id l s s' EO H N S D P Im Hs. apply (solve_improves env opts id l s s' EO H N S D P); [|exact Hs].
  intros ss x y Ho. apply (Im _ _ _ Ho). apply subsystem_consistent.
Qed.
Print Assumptions C52_improves_partial.
Theorem C52_never_worse_partial : forall colamd sort fuel search order id (l : log R) s s',
  let env := whole_env colamd sort fuel search order in
  let opts := Options LevenbergMarquardt DecomposeNone false in
  env_ok env -> history env id l s -> together l s -> 0 < calculate_system_scale s ->
  solve env opts s = Done s' ->
  exists a b, misfit (calculate_system_scale s) s (created_constraints l) = Done a /\
    misfit (calculate_system_scale s) s' (created_constraints l) = Done b /\ b <= a.
Proof.
  intros colamd sort fuel search order id l s s' env opts EO H N S Hs.
  apply (C52_improves_partial env opts id l s s' EO H N S eq_refl eq_refl); [|exact Hs].
  intros p x y Ho C. cbn in Ho. exact (lm_better orderly_R (qr_solver colamd sort) p C fuel x y Ho).
Qed.
Print Assumptions C52_never_worse_partial.
Example C52_example : env_ok eager_env /\ history eager_env 7%N (meet_log 1 1 3 1) (meet_state 1 1 3 1) /\
  together (meet_log 1 1 3 1) (meet_state 1 1 3 1) /\ 0 < calculate_system_scale (meet_state 1 1 3 1) /\
  (forall p x y, env_optimize eager_env LevenbergMarquardt p x = Done y -> consistent p -> y = x \/ better p y x) /\
  exists s', solve eager_env (Options LevenbergMarquardt DecomposeNone false) (meet_state 1 1 3 1) = Done s'.
Proof.
  split; [apply same_env_ok|]. split; [apply meet_history|]. split; [eapply (C50_unmerged sure_env); [apply same_env_ok|apply meet_history|apply meet_never_merges]|].
  split; [apply meet_scale; lra|]. split; [intros p x y Hy _; eapply eager_improves; eauto|]. apply meet_eager.
Qed.
