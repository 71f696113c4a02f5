(** Solved sketches that Levenberg-Marquardt leaves alone: two points that
    coincide, one block at a time; two points on a circle, by recursive
    assembly. *)
From Coq Require Import List Arith NArith ZArith Lia Permutation Reals Lra.
From Verif Require Import Num NumR Outcome Lib ModelExpr ModelGraph ModelSystem ModelMatching ModelSolve ModelApi ModelSparse ModelLm ModelOptimize ModelAssembly ModelColamd
  Spec_Solver Spec_Descent Spec_Components Spec_Whole Proofs_System Proofs_History Proofs_Api Proofs_Real Proofs_Lm Proofs_WholeR Proofs_Idle Props_Sparse Spec_History Proofs_WholeDemo Props_Assembly Proofs_AssemblyBroken Demo DemoR.
Import ListNotations.
Local Open Scope R_scope.

Ltac tiny := 
  unfold norm_squared, tenm; cbn [fold_left map nltb NumR];
  match goal with |- Rltb ?a ?b = true => destruct (Rltb_spec a b) as [|N]; [reflexivity|]; exfalso; apply N end;
  cbn; match goal with |- ?a < _ => replace a with 0 by ring end; lra.

Lemma meet_pass_idle fuel search : exists s',
  solve (whole_env colamd_ordering insertion_sort fuel search (fun l => l))
    (Options LevenbergMarquardt SinglePass false) (meet_state 1 2 1 2) = Done s'.
Proof.
  set (u := calculate_system_scale (meet_state 1 2 1 2)).
  destruct (meet_group 1 2 1 2 u) as (k & H1 & H2 & H3 & _).
  unfold solve. fold u. generalize u. clear u. intros u.
  set (s0 := scale_system u (meet_state 1 2 1 2)).
  change (components (sys_graph s0)) with (components (sys_graph (meet_state 1 2 1 2))). rewrite H1. cbn [ofold].
  unfold solve_component. destruct (c_elements k) as [|e0 es0] eqn:Ee; [congruence|].
  change (component_free_variables s0) with (component_free_variables (meet_state 1 2 1 2)). rewrite H3.
  cbn [obind o_perturb o_decomposer o_optimizer]. unfold solve_single_pass.
  match goal with |- context [find_strongly_connected_expressions ?g ?f ?h] =>
    change (find_strongly_connected_expressions g f h) with
      (find_strongly_connected_expressions (sys_eqgraph (meet_state 1 2 1 2)) [0; 1; 2; 3]%nat (fun l => l)) end.
  rewrite meet_blocks. cbn [obind ofold]. unfold solve_group.
  set (r := 1 / u).
  match goal with |- context [omap (oget ?xs) (group_free_variables (Group [1; 3]%nat _))] =>
    change (omap (oget xs) _) with (Done [2 * r; 2 * r]) end.
  cbn [obind].
  match goal with |- context [env_optimize ?e ?o ?p ?x] => assert (E1 : env_optimize e o p x = Done x) end.
  { cbn [env_optimize whole_env fiksi_env optimize]. eapply lm_returns; [cbn; reflexivity|vm_compute; reflexivity|tiny]. }
  rewrite E1. clear E1. cbn [obind].
  match goal with |- context [write_back_transformed ?p ?q ?w] =>
    change (write_back_transformed p q w) with (Done [1 * r; 2 * r; 1 * r; 2 * r]) end.
  cbn [obind].
  match goal with |- context [write_back ?u ?p ?q ?w] =>
    change (write_back u p q w) with (Done [1; u * (2 * r); 1; u * (2 * r)]) end.
  cbn [obind].
  match goal with |- context [omap (oget ?xs) (group_free_variables (Group [0; 2]%nat _))] =>
    change (omap (oget xs) _) with (Done [1 * r; 1 * r]) end.
  cbn [obind].
  match goal with |- context [env_optimize ?e ?o ?p ?x] => assert (E1 : env_optimize e o p x = Done x) end.
  { cbn [env_optimize whole_env fiksi_env optimize]. eapply lm_returns; [cbn; reflexivity|vm_compute; reflexivity|tiny]. }
  rewrite E1. clear E1. cbn [obind].
  match goal with |- context [write_back_transformed ?p ?q ?w] =>
    change (write_back_transformed p q w) with (Done [1 * r; 2 * r; 1 * r; 2 * r]) end.
  cbn [obind].
  match goal with |- context [write_back ?u ?p ?q ?w] =>
    change (write_back u p q w) with (Done [u * (1 * r); u * (2 * r); u * (1 * r); u * (2 * r)]) end.
  cbn [obind]. eauto.
Qed.

(** Two points on a circle *)
Definition rim_calls : list (call R) :=
  [CreatePoint 0 0; CreateLength 1; CreateCircle (rp 0) (EHandle 7%N 1 TLength); CreatePoint 1 0; CreatePoint 0 1;
   CreatePointCircleIncidence (rp 3) wheel_circle; CreatePointCircleIncidence (rp 4) wheel_circle].
Definition rim_run : option (log R * system R) :=
  Eval vm_compute in replay rdemo_env rim_calls [] (system_new 7%N).
Definition rim_log : log R := match rim_run with Some (l, _) => l | None => [] end.
Definition rim_state : system R := match rim_run with Some (_, s) => s | None => system_new 7%N end.
Lemma rim_history env : history env 7%N rim_log rim_state.
Proof.
  apply (replay_history env 7%N rim_calls [] (system_new 7%N)); [constructor|]. vm_compute. reflexivity.
Qed.

Lemma lm_returns' {F S} {NF : Num F} (solver : damped_solver F S) p fuel x rs ts :
  lm_evaluate p x = Done (rs, ts) ->
  (exists sym, ds_build solver (num_residuals p + num_variables p) (num_variables p) ts = Done sym) ->
  nltb (norm_squared rs) (tenm 8) = true -> levenberg_marquardt solver p fuel x = Done x.
Proof. intros H1 (sym & H2) H3. eapply lm_returns; eauto. Qed.
Ltac rim_tiny r Hr :=
  change R0 with 0; change R1 with 1; rewrite cos_0, sin_0; fold r;
  match goal with |- context [sqrt ?x] => replace (sqrt x) with (1 * r) by
    (symmetry; replace x with ((1 * r) * (1 * r)) by ring; apply sqrt_square; lra) end;
  tiny.
Lemma rim_step1 fuel u : 0 < u -> exists s',
  solve_step (optimize colamd_ordering insertion_sort fuel LevenbergMarquardt) u (scale_system u rim_state) wheel_step1 = Done s'.
Proof.
  intros Hu. unfold solve_step. set (r := 1 / u). assert (Hr : 0 < r) by (unfold r; apply Rdiv_lt_0_compat; lra).
  change (clustered_build (scale_system u rim_state) wheel_step1) with
      (Done (wheel_clusters1, repeat 0 15 ++ [0 * r; 0 * r; 1 * r; 1 * r; 0 * r; 0 * r; 1 * r])). cbn [obind].
  match goal with |- context [optimize _ _ _ _ ?p ?x] => assert (E1 : optimize colamd_ordering insertion_sort fuel LevenbergMarquardt p x = Done x) end.
  { cbn [optimize]. eapply lm_returns'; [cbn; reflexivity|(abstract (eexists; vm_compute; reflexivity))|(abstract (rim_tiny r Hr))]. }
  rewrite E1. clear E1. clearbody r. cbn [obind]. eexists. vm_compute. reflexivity.
Qed.
Lemma rim_step2 fuel u : 0 < u -> exists s',
  solve_step (optimize colamd_ordering insertion_sort fuel LevenbergMarquardt) u (scale_system u rim_state) wheel_step2 = Done s'.
Proof.
  intros Hu. unfold solve_step. set (r := 1 / u). assert (Hr : 0 < r) by (unfold r; apply Rdiv_lt_0_compat; lra).
  change (clustered_build (scale_system u rim_state) wheel_step2) with
      (Done (wheel_clusters2, repeat 0 12 ++ [0 * r; 0 * r; 1 * r; 0 * r; 1 * r])). cbn [obind].
  match goal with |- context [optimize _ _ _ _ ?p ?x] => assert (E1 : optimize colamd_ordering insertion_sort fuel LevenbergMarquardt p x = Done x) end.
  { cbn [optimize]. eapply lm_returns'; [cbn; reflexivity|(abstract (eexists; vm_compute; reflexivity))|(abstract (rim_tiny r Hr))]. }
  rewrite E1. clear E1. clearbody r. cbn [obind]. eexists. vm_compute. reflexivity.
Qed.
Lemma rim_scale : 0 < calculate_system_scale rim_state.
Proof.
  unfold calculate_system_scale, root_mean_squares, mean_squares, sum_squares.
  cbn [rim_state rim_run sys_variables sys_expressions flat_map length_parameter app fold_left length].
  apply sqrt_lt_R0. apply Rmult_lt_0_compat; [cbn; lra|]. cbn. apply Rinv_0_lt_compat. lra.
Qed.
Lemma rim_misfit u : misfit u rim_state (created_constraints rim_log) = Done 0.
Proof.
  unfold misfit, relative_residual. cbn. f_equal. change R0 with 0. change R1 with 1.
  replace ((1 - 0) * (1 - 0) + (0 - 0) * (0 - 0)) with 1 by ring.
  replace ((0 - 0) * (0 - 0) + (1 - 0) * (1 - 0)) with 1 by ring. rewrite sqrt_1. unfold Rdiv. ring.
Qed.
Lemma rim_satisfied k : In (RConstraint k) (map snd rim_log) -> constraint_residual k rim_state = Done 0.
Proof.
  intros H. simpl in H.
  repeat (destruct H as [H|H]; [try discriminate H; injection H as <-; cbn; f_equal; change R0 with 0; change R1 with 1;
    match goal with |- sqrt ?x - 1 = 0 => replace x with 1 by ring; rewrite sqrt_1; ring end|]). destruct H.
Qed.
Lemma rim_idle any order fuel search : exists s',
  solve (SolverEnv any order (recursive_assembly (optimize colamd_ordering insertion_sort (20 + fuel) LevenbergMarquardt)
      ascending (20 + fuel) (60 + search)))
    (Options LevenbergMarquardt RecursiveAssembly false) rim_state = Done s'.
Proof.
  assert (Hu := rim_scale). unfold solve. set (u := calculate_system_scale rim_state) in *. clearbody u.
  set (opt := optimize colamd_ordering insertion_sort (20 + fuel) LevenbergMarquardt).
  assert (A : exists s1, recursive_assembly opt ascending (20 + fuel) (60 + search) u [0; 1; 3; 4]%nat [0; 1]%nat
    (scale_system u rim_state) = Done s1).
  { unfold recursive_assembly.
    change (sys_graph (scale_system u rim_state)) with (sys_graph wheel_state). rewrite wheel_decomposed. cbn [obind].
    change wheel_plan with [wheel_step1; wheel_step2]. cbn [ofold].
    destruct (rim_step1 (20 + fuel) u Hu) as (s1 & H1). fold opt in H1. rewrite H1. cbn [obind].
    assert (E : s1 = scale_system u rim_state).
    { assert (EO : env_ok (whole_env (F := R) colamd_ordering insertion_sort fuel search ascending))
        by (apply Proofs_AssemblyFrame.whole_env_ok, ascending_perm).
      destruct (history_inv _ _ _ _ EO (rim_history _)) as [sk I]. assert (M := iv_models _ _ _ _ I).
      pose proof (rim_misfit u) as Hm. rewrite (iv_ch _ _ _ _ I), (misfit_shares _ _ _ Hu M) in Hm.
      apply (f_equal (fun o => match o with Done z => z | _ => 0 end)) in Hm. cbv beta iota in Hm.
      apply (step_idle rim_state sk u 0 Hu M Hm opt wheel_step1); [apply lm_lazy; lra| |exact H1].
      rewrite <- (m_clen _ _ M). cbn. split; [repeat constructor; simpl; lia|]. intros c [<-|[]]. lia. }
    subst s1. destruct (rim_step2 (20 + fuel) u Hu) as (s2 & H2). fold opt in H2. rewrite H2. cbn [obind]. eauto. }
  destruct A as (s1 & A).
  set (s0 := scale_system u rim_state) in *.
  change (components (sys_graph s0)) with (components (sys_graph wheel_state)). rewrite wheel_group. cbn [ofold].
  unfold solve_component. cbn [c_elements c_constraints].
  change (component_free_variables s0 [0; 1; 3; 4]%nat) with (Done [0; 1; 2; 3; 4; 5; 6]%nat : outcome (list nat)).
  cbn [obind o_perturb o_decomposer env_assembly].
  change (with_values (sys_variables s0) (sys_variables_transformed s0) s0) with s0. fold opt. rewrite A. cbn [obind]. eauto.
Qed.
