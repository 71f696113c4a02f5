(** Recursive assembly on two points on one circle: whatever the optimizer, the
    distances of the points from the centre stay as they were, for the search has
    put each point and the centre into a rigid cluster before any constraint was
    solved, and the radius ends up as the distance of the point solved last. *)
From Coq Require Import List Arith NArith ZArith Lia Permutation Reals Lra.
From Verif Require Import Num NumR Outcome Lib ModelExpr ModelGraph ModelSystem ModelSolve ModelApi ModelAssembly
  Spec_Solver Spec_History Spec_Components Spec_Geometry Spec_Descent Spec_Whole Proofs_Motion Proofs_WholeR Proofs_Clustered Proofs_AssemblyFrame Props_Assembly Demo DemoR.
Import ListNotations.
Local Open Scope R_scope.
Definition wheel_circle : ehandle := EHandle 7%N 2 TCircle.
Definition wheel_calls : list (call R) :=
  [CreatePoint 0 0; CreateLength 1; CreateCircle (rp 0) (EHandle 7%N 1 TLength); CreatePoint 1 0; CreatePoint 2 0;
   CreatePointCircleIncidence (rp 3) wheel_circle; CreatePointCircleIncidence (rp 4) wheel_circle].
Definition wheel_run : option (log R * system R) :=
  Eval vm_compute in replay rdemo_env wheel_calls [] (system_new 7%N).
Definition wheel_log : log R := match wheel_run with Some (l, _) => l | None => [] end.
Definition wheel_state : system R := match wheel_run with Some (_, s) => s | None => system_new 7%N end.
Lemma wheel_group : components (sys_graph wheel_state) = [Component [0; 1; 3; 4] [0; 1]]%nat.
Proof. reflexivity. Qed.
Definition wheel_plan : list plan_step :=
  match decompose ascending 20 60 3 (sys_graph wheel_state) [0; 1; 3; 4]%nat [0; 1]%nat with Done p => p | _ => [] end.
Lemma wheel_decomposed fuel search :
  decompose ascending (20 + fuel) (60 + search) 3 (sys_graph wheel_state) [0; 1; 3; 4]%nat [0; 1]%nat = Done wheel_plan.
Proof. vm_compute. reflexivity. Qed.
Lemma wheel_history env : history env 7%N wheel_log wheel_state.
Proof.
  apply (replay_history env 7%N wheel_calls [] (system_new 7%N)); [constructor|]. vm_compute. reflexivity.
Qed.
Definition wheel_at u vs vt : system R := with_values vs vt (scale_system u wheel_state).
Definition wheel_step1 : plan_step := Eval vm_compute in nth 0 wheel_plan (Step [] [] [] [] [] []).
Definition wheel_step2 : plan_step := Eval vm_compute in nth 1 wheel_plan (Step [] [] [] [] [] []).
Definition wheel_clusters1 : clustered := Clustered [0; 1; 3; 4]%nat
  [(0, [0]); (1, [0; 3]); (2, [0; 4]); (3, [3]); (4, [4])]%nat [0]%nat 14
  [(0, 15); (1, 16); (2, 17); (3, 18); (4, 19); (5, 20); (6, 21)]%nat.
Definition wheel_clusters2 : clustered := Clustered [0; 1; 4]%nat
  [(0, [0]); (2, [0; 4]); (5, [0]); (4, [4])]%nat [1]%nat 10
  [(0, 12); (1, 13); (2, 14); (5, 15); (6, 16)]%nat.

Definition solves (opt : problem R -> list R -> outcome (list R)) : Prop :=
  forall p x y, opt p x = Done y -> exists a, objective p y = Some a /\ a <= 0.

Lemma rigid (T : pose R) p q : dist (transform_point T p) (transform_point T q) = dist p q.
Proof. exact (proj1 (pose_rigid T p q q)). Qed.
Lemma pair_fst_snd (p : vec R) : (fst p, snd p) = p.
Proof. now destruct p. Qed.

Section Steps.
  Variable opt : problem R -> list R -> outcome (list R).
  Variable u : R.
  Hypothesis So : solves opt.

  Lemma wheel_first w0 w1 w2 w3 w4 w5 w6 v0 v1 v2 v3 v4 v5 v6 s1 :
    solve_step opt u (wheel_at u [w0; w1; w2; w3; w4; w5; w6] [v0; v1; v2; v3; v4; v5; v6]) wheel_step1 = Done s1 ->
    exists z0 z1 z2 z3 z4 z5 z6, s1 = wheel_at u (map (Rmult u) [z0; z1; z2; z3; z4; z5; z6]) [z0; z1; z2; z3; z4; z5; z6] /\
      dist (z3, z4) (z0, z1) = dist (v3, v4) (v0, v1) /\ dist (z5, z6) (z0, z1) = dist (v5, v6) (v0, v1).
  Proof.
    intros H. unfold solve_step in H. set (s := wheel_at u _ _) in *.
    assert (B : exists values, clustered_build s wheel_step1 = Done (wheel_clusters1, values)) by (eexists; reflexivity).
    destruct B as [values B]. rewrite B in H. cbn [obind] in H.
    apply obind_done in H. destruct H as (y & Hy & H).
    destruct (So _ _ _ Hy) as (a & Ha & Hle). destruct (clustered_solved _ _ _ _ _ Ha Hle) as [Cl _]. clear Ha Hle Hy B.
    destruct (Cl 1%nat _ _ 0%nat eq_refl (or_introl eq_refl)) as (p & x & z & i & Hp & Hf & X1 & X2).
    destruct (Cl 1%nat _ _ 3%nat eq_refl (or_intror (or_introl eq_refl))) as (p' & x' & z' & i' & Hp' & Hf' & X3 & X4).
    rewrite Hp in Hp'. injection Hp' as <-.
    destruct (Cl 2%nat _ _ 0%nat eq_refl (or_introl eq_refl)) as (q & x2 & z2 & i2 & Hq & Hf2 & X5 & X6).
    destruct (Cl 2%nat _ _ 4%nat eq_refl (or_intror (or_introl eq_refl))) as (q' & x3 & z3 & i3 & Hq' & Hf3 & X7 & X8).
    rewrite Hq in Hq'. injection Hq' as <-. clear Cl Hp Hq.
    assert (E1 : frontier_point s wheel_clusters1 0 = Done (v0, v1, 15%nat)) by reflexivity.
    assert (E3 : frontier_point s wheel_clusters1 3 = Done (v3, v4, 18%nat)) by reflexivity.
    assert (E4 : frontier_point s wheel_clusters1 4 = Done (v5, v6, 20%nat)) by reflexivity.
    rewrite E1 in Hf, Hf2. rewrite E3 in Hf'. rewrite E4 in Hf3.
    injection Hf as <- <- <-. injection Hf' as <- <- <-. injection Hf2 as <- <- <-. injection Hf3 as <- <- <-.
    cbn [Nat.add] in X1, X2, X3, X4, X5, X6, X7, X8. clear E1 E3 E4.
    destruct y as [|y0 y]; [discriminate X8|].
  destruct y as [|y1 y]; [discriminate X8|].
  destruct y as [|y2 y]; [discriminate X8|].
  destruct y as [|y3 y]; [discriminate X8|].
  destruct y as [|y4 y]; [discriminate X8|].
  destruct y as [|y5 y]; [discriminate X8|].
  destruct y as [|y6 y]; [discriminate X8|].
  destruct y as [|y7 y]; [discriminate X8|].
  destruct y as [|y8 y]; [discriminate X8|].
  destruct y as [|y9 y]; [discriminate X8|].
  destruct y as [|y10 y]; [discriminate X8|].
  destruct y as [|y11 y]; [discriminate X8|].
  destruct y as [|y12 y]; [discriminate X8|].
  destruct y as [|y13 y]; [discriminate X8|].
  destruct y as [|y14 y]; [discriminate X8|].
  destruct y as [|y15 y]; [discriminate X8|].
  destruct y as [|y16 y]; [discriminate X8|].
  destruct y as [|y17 y]; [discriminate X8|].
  destruct y as [|y18 y]; [discriminate X8|].
  destruct y as [|y19 y]; [discriminate X8|].
  destruct y as [|y20 y]; [discriminate X8|].
  destruct y as [|y21 y]; [discriminate X8|].
    cbn [nth_error] in X1, X2, X3, X4, X5, X6, X7, X8.
    apply some_inj in X1, X2, X3, X4, X5, X6, X7, X8.
    exists y15, y16, y17, y18, y19, y20, y21. split; [|split].
    - assert (Q : forall o, o = Done s1 -> o = Done (wheel_at u (map (Rmult u) [y15; y16; y17; y18; y19; y20; y21]) [y15; y16; y17; y18; y19; y20; y21]) ->
        s1 = wheel_at u (map (Rmult u) [y15; y16; y17; y18; y19; y20; y21]) [y15; y16; y17; y18; y19; y20; y21]) by congruence.
      apply (Q _ H). reflexivity.
    - rewrite X1, X2, X3, X4, !pair_fst_snd. apply rigid.
    - rewrite X5, X6, X7, X8, !pair_fst_snd. apply rigid.
  Qed.

  Lemma wheel_second w0 w1 w2 w3 w4 w5 w6 v0 v1 v2 v3 v4 v5 v6 s1 :
    solve_step opt u (wheel_at u [w0; w1; w2; w3; w4; w5; w6] [v0; v1; v2; v3; v4; v5; v6]) wheel_step2 = Done s1 ->
    exists z0 z1 z2 z3 z4 z5 z6, s1 = wheel_at u (map (Rmult u) [z0; z1; z2; z3; z4; z5; z6]) [z0; z1; z2; z3; z4; z5; z6] /\
      dist (z3, z4) (z0, z1) = dist (v3, v4) (v0, v1) /\ dist (z5, z6) (z0, z1) = dist (v5, v6) (v0, v1) /\
      calculate_residual (identity_map [z0; z1; z2; z3; z4; z5; z6]) (PointCircleIncidence 5 0 2 : expr R) = Done 0.
  Proof.
    intros H. unfold solve_step in H. set (s := wheel_at u _ _) in *.
    assert (B : exists values, clustered_build s wheel_step2 = Done (wheel_clusters2, values)) by (eexists; reflexivity).
    destruct B as [values B]. rewrite B in H. cbn [obind] in H.
    apply obind_done in H. destruct H as (y & Hy & H).
    destruct (So _ _ _ Hy) as (a & Ha & Hle). destruct (clustered_solved _ _ _ _ _ Ha Hle) as [Cl Ex]. clear Ha Hle Hy B.
    destruct (Cl 1%nat _ _ 0%nat eq_refl (or_introl eq_refl)) as (p & x & z & i & Hp & Hf & X1 & X2).
    destruct (Cl 1%nat _ _ 4%nat eq_refl (or_intror (or_introl eq_refl))) as (p' & x' & z' & i' & Hp' & Hf' & X3 & X4).
    rewrite Hp in Hp'. injection Hp' as <-.
    destruct (Cl 2%nat _ _ 0%nat eq_refl (or_introl eq_refl)) as (q & x2 & z2 & i2 & Hq & Hf2 & X5 & X6).
    destruct (Ex 1%nat (or_introl eq_refl)) as (ex & Hex & Hr). clear Cl Hp Ex.
    assert (E1 : frontier_point s wheel_clusters2 0 = Done (v0, v1, 12%nat)) by reflexivity.
    assert (E4 : frontier_point s wheel_clusters2 4 = Done (v5, v6, 15%nat)) by reflexivity.
    rewrite E1 in Hf, Hf2. rewrite E4 in Hf'.
    injection Hf as <- <- <-. injection Hf' as <- <- <-. injection Hf2 as <- <- <-.
    cbn [Nat.add] in X1, X2, X3, X4, X5, X6. clear E1 E4.
    destruct y as [|y0 y]; [discriminate X4|].
  destruct y as [|y1 y]; [discriminate X4|].
  destruct y as [|y2 y]; [discriminate X4|].
  destruct y as [|y3 y]; [discriminate X4|].
  destruct y as [|y4 y]; [discriminate X4|].
  destruct y as [|y5 y]; [discriminate X4|].
  destruct y as [|y6 y]; [discriminate X4|].
  destruct y as [|y7 y]; [discriminate X4|].
  destruct y as [|y8 y]; [discriminate X4|].
  destruct y as [|y9 y]; [discriminate X4|].
  destruct y as [|y10 y]; [discriminate X4|].
  destruct y as [|y11 y]; [discriminate X4|].
  destruct y as [|y12 y]; [discriminate X4|].
  destruct y as [|y13 y]; [discriminate X4|].
  destruct y as [|y14 y]; [discriminate X4|].
  destruct y as [|y15 y]; [discriminate X4|].
  destruct y as [|y16 y]; [discriminate X4|].
    cbn [nth_error] in X1, X2, X3, X4, X5, X6.
    apply some_inj in X1, X2, X3, X4, X5, X6.
    assert (Eq : Pose y6 (y7, y8) = q).
    { match type of Hq with ?o = _ => change o with (Done (Pose y6 (y7, y8))) in Hq end. now injection Hq. }
    subst q.
    set (T := Pose y6 (y7, y8)) in *. set (P := transform_point T (v3, v4)).
    exists y12, y13, y14, (fst P), (snd P), y15, y16. split; [|split; [|split]].
    - assert (Q : forall o st, o = Done s1 -> o = Done st -> s1 = st) by congruence.
      apply (Q _ _ H). reflexivity.
    - rewrite X5, X6, !pair_fst_snd. apply rigid.
    - rewrite X1, X2, X3, X4, !pair_fst_snd. apply rigid.
    - change (nth_error (sys_expressions_transformed s) 1) with (Some (PointCircleIncidence 5 0 2 : expr R)) in Hex.
      apply some_inj in Hex. subst ex. exact Hr.
  Qed.
End Steps.

Lemma dist_scaled u a b c d : 0 <= u -> dist (u * a, u * b) (u * c, u * d) = u * dist (a, b) (c, d).
Proof.
  intros Hu. unfold dist. cbn [fst snd].
  replace ((u * a - u * c) ^ 2 + (u * b - u * d) ^ 2) with (u ^ 2 * ((a - c) ^ 2 + (b - d) ^ 2)) by ring.
  rewrite sqrt_mult_alt by apply pow2_ge_0. now rewrite sqrt_pow2.
Qed.
Lemma on_circle_residual vs px py cx cy r pi ci ri :
  nth_error vs pi = Some px -> nth_error vs (S pi) = Some py -> nth_error vs ci = Some cx ->
  nth_error vs (S ci) = Some cy -> nth_error vs ri = Some r ->
  calculate_residual (identity_map vs) (PointCircleIncidence pi ci ri) = Done (dist (px, py) (cx, cy) - r).
Proof.
  intros H1 H2 H3 H4 H5. unfold calculate_residual, gather. cbn [variable_indices pt app omap].
  unfold identity_map, oget. rewrite H1, H2, H3, H4, H5. cbn [obind]. f_equal.
  unfold compute_rg, pci_rg, ppd_rg, buffer, bpt, hypot2, vsub. cbn. unfold dist. cbn [fst snd].
  f_equal. f_equal. ring.
Qed.

Definition wheel_con (i : nat) : chandle := CHandle 7%N i CPointCircleIncidence.
Lemma wheel_residual i vs vt u e : nth_error [PointCircleIncidence 3 0 2; PointCircleIncidence 5 0 2] i = Some e ->
  constraint_residual (wheel_con i) (wheel_at u vs vt) = calculate_residual (identity_map vs) e.
Proof. destruct i as [|[|[|i]]]; intros H; try discriminate; apply some_inj in H; subst e; reflexivity. Qed.
Lemma wheel_scale : 0 < calculate_system_scale wheel_state.
Proof.
  unfold calculate_system_scale, root_mean_squares, mean_squares, sum_squares.
  cbn [wheel_state wheel_run sys_variables sys_expressions flat_map length_parameter app fold_left length].
  apply sqrt_lt_R0. apply Rmult_lt_0_compat; [cbn; lra|]. cbn. apply Rinv_0_lt_compat. lra.
Qed.

Definition assembling (opt : problem R -> list R -> outcome (list R)) order fuel search : solver_env R :=
  SolverEnv (fun _ => opt) order (recursive_assembly opt order fuel search).

Lemma wheel_assembly opt fuel search u : forall s',
  recursive_assembly opt ascending (20 + fuel) (60 + search) u [0; 1; 3; 4]%nat [0; 1]%nat
    (scale_system u wheel_state) = Done s' <->
  exists s1, solve_step opt u (scale_system u wheel_state) wheel_step1 = Done s1 /\ solve_step opt u s1 wheel_step2 = Done s'.
Proof.
  intros s'. unfold recursive_assembly.
  change (sys_graph (scale_system u wheel_state)) with (sys_graph wheel_state). rewrite wheel_decomposed. cbn [obind].
  change wheel_plan with [wheel_step1; wheel_step2]. cbn [ofold].
  destruct (solve_step opt u (scale_system u wheel_state) wheel_step1) as [s1| |]; cbn [obind].
  - destruct (solve_step opt u s1 wheel_step2) as [s2| |] eqn:E; cbn [obind].
    + split; [intros H; exists s1; split; [reflexivity|]; congruence|]. intros (s1' & H1 & H2). congruence.
    + split; [discriminate|]. intros (s1' & H1 & H2). congruence.
    + split; [discriminate|]. intros (s1' & H1 & H2). congruence.
  - split; [discriminate|]. intros (s1' & H1 & H2). discriminate.
  - split; [discriminate|]. intros (s1' & H1 & H2). discriminate.
Qed.
Lemma wheel_solve opt o fuel search : forall s',
  let u := calculate_system_scale wheel_state in
  solve (assembling opt ascending (20 + fuel) (60 + search)) (Options o RecursiveAssembly false) wheel_state = Done s' <->
  exists s1, solve_step opt u (scale_system u wheel_state) wheel_step1 = Done s1 /\ solve_step opt u s1 wheel_step2 = Done s'.
Proof.
  intros s' u. rewrite <- (wheel_assembly opt fuel search u s'). unfold solve. fold u. generalize u. clear u. intros u.
  set (s0 := scale_system u wheel_state).
  change (components (sys_graph s0)) with (components (sys_graph wheel_state)). rewrite wheel_group. cbn [ofold].
  unfold solve_component. cbn [c_elements c_constraints].
  change (component_free_variables s0 [0; 1; 3; 4]%nat) with (Done [0; 1; 2; 3; 4; 5; 6]%nat : outcome (list nat)).
  cbn [obind o_perturb o_decomposer env_assembly assembling].
  change (with_values (sys_variables s0) (sys_variables_transformed s0) s0) with s0.
  destruct (recursive_assembly opt ascending (20 + fuel) (60 + search) u [0; 1; 3; 4]%nat [0; 1]%nat s0); cbn [obind];
    split; congruence.
Qed.

Theorem wheel_broken opt o fuel search s' : solves opt ->
  solve (assembling opt ascending (20 + fuel) (60 + search)) (Options o RecursiveAssembly false) wheel_state = Done s' ->
  constraint_residual (wheel_con 0) s' = Done (-1) /\ constraint_residual (wheel_con 1) s' = Done 0.
Proof.
  intros So H. apply wheel_solve in H. destruct H as (s1 & H1 & H2). assert (Hu := wheel_scale).
  revert H1 H2 Hu. generalize (calculate_system_scale wheel_state). intros u H1 H2 Hu.
  change (scale_system u wheel_state) with
    (wheel_at u [0; 0; 1; 1; 0; 2; 0] [0 * (1 / u); 0 * (1 / u); 1 * (1 / u); 1 * (1 / u); 0 * (1 / u); 2 * (1 / u); 0 * (1 / u)]) in H1.
  apply (wheel_first opt u So) in H1. destruct H1 as (a0 & a1 & a2 & a3 & a4 & a5 & a6 & -> & D1 & D2).
  apply (wheel_second opt u So) in H2. destruct H2 as (z0 & z1 & z2 & z3 & z4 & z5 & z6 & -> & D3 & D4 & R).
  rewrite D1 in D3. rewrite D2 in D4.
  assert (X : forall x, 0 < x -> dist (x * (1 / u), 0 * (1 / u)) (0 * (1 / u), 0 * (1 / u)) = x / u).
  { intros x Hx. unfold dist. cbn [fst snd].
    replace ((x * (1 / u) - 0 * (1 / u)) ^ 2 + (0 * (1 / u) - 0 * (1 / u)) ^ 2) with ((x / u) ^ 2) by (field; lra).
    apply sqrt_pow2. apply Rlt_le. now apply Rdiv_lt_0_compat. }
  rewrite X in D3, D4 by lra.
  rewrite (on_circle_residual _ z5 z6 z0 z1 z2) in R by reflexivity. rewrite D4 in R.
  assert (R2 : z2 = 2 / u) by (injection R; lra).
  rewrite (wheel_residual 0 _ _ _ _ eq_refl), (wheel_residual 1 _ _ _ _ eq_refl).
  rewrite (on_circle_residual _ (u * z3) (u * z4) (u * z0) (u * z1) (u * z2)) by reflexivity.
  rewrite (on_circle_residual _ (u * z5) (u * z6) (u * z0) (u * z1) (u * z2)) by reflexivity.
  rewrite !dist_scaled, D3, D4, R2 by lra. split; f_equal; field; lra.
Qed.

(** An optimizer that solves these problems by choosing the radius, and makes sure *)
Definition radius_fit (x : list R) : list R :=
  let at_ i := nth i x 0 in
  match length x with
  | 22%nat => lset x 17 (dist (at_ 18%nat, at_ 19%nat) (at_ 15%nat, at_ 16%nat))
  | 17%nat => lset x 14 (dist (at_ 15%nat, at_ 16%nat) (at_ 12%nat, at_ 13%nat))
  | _ => x
  end.
Definition radius_optimizer (p : problem R) (x : list R) : outcome (list R) :=
  match objective p (radius_fit x) with
  | Some a => if Rle_dec a 0 then Done (radius_fit x) else Timeout
  | None => Timeout
  end.
Lemma radius_solves : solves radius_optimizer.
Proof.
  intros p x y H. unfold radius_optimizer in H. destruct (objective p (radius_fit x)) as [a|] eqn:E; [|discriminate].
  destruct (Rle_dec a 0); [|discriminate]. injection H as <-. exists a. auto.
Qed.
Lemma all_zero (p : problem R) y rs : calculate_residuals p y = Done rs -> (forall r, In r rs -> r = 0) -> objective p y = Some 0.
Proof.
  intros H Z. unfold objective. rewrite H. f_equal.
  assert (G : forall a, fold_left (fun sum r => nadd sum (nmul r r)) rs a = a).
  { clear H. induction rs as [|r rs IH]; intros a; cbn [fold_left]; [reflexivity|].
    rewrite IH by (intros; apply Z; simpl; auto). rewrite (Z r) by (simpl; auto). cbn. ring. }
  apply G.
Qed.
Lemma wheel_first_fits u vs v0 v1 v2 v3 v4 v5 v6 :
  let values := repeat 0 15 ++ [v0; v1; v2; v3; v4; v5; v6] in
  objective (clustered_problem (wheel_at u vs [v0; v1; v2; v3; v4; v5; v6]) wheel_clusters1 22) (radius_fit values) = Some 0.
Proof.
  intros values. eapply all_zero.
  - unfold clustered_problem. cbn [calculate_residuals]. reflexivity.
  - intros r Hr. cbn in Hr.
    repeat (destruct Hr as [Hr|Hr]; [rewrite <- Hr; clear Hr|]); [..|destruct Hr];
      try (rewrite cos_0, sin_0; ring).
    unfold dist. cbn [fst snd]. apply Rminus_diag_eq. f_equal. ring.
Qed.
Lemma wheel_second_fits u vs v0 v1 v2 v3 v4 v5 v6 :
  let values := repeat 0 12 ++ [v0; v1; v2; v5; v6] in
  objective (clustered_problem (wheel_at u vs [v0; v1; v2; v3; v4; v5; v6]) wheel_clusters2 17) (radius_fit values) = Some 0.
Proof.
  intros values. eapply all_zero.
  - unfold clustered_problem. cbn [calculate_residuals]. reflexivity.
  - intros r Hr. cbn in Hr.
    repeat (destruct Hr as [Hr|Hr]; [rewrite <- Hr; clear Hr|]); [..|destruct Hr];
      try (rewrite cos_0, sin_0; ring).
    unfold dist. cbn [fst snd]. apply Rminus_diag_eq. f_equal. ring.
Qed.
Lemma radius_returns p x : objective p (radius_fit x) = Some 0 -> radius_optimizer p x = Done (radius_fit x).
Proof.
  intros H. unfold radius_optimizer. rewrite H. destruct (Rle_dec 0 0) as [|N]; [reflexivity|]. exfalso. apply N. lra.
Qed.

Theorem wheel_solved o fuel search : exists s',
  solve (assembling radius_optimizer ascending (20 + fuel) (60 + search)) (Options o RecursiveAssembly false) wheel_state = Done s'.
Proof.
  set (u := calculate_system_scale wheel_state).
  assert (G : exists s1 s', solve_step radius_optimizer u (scale_system u wheel_state) wheel_step1 = Done s1 /\
    solve_step radius_optimizer u s1 wheel_step2 = Done s').
  { generalize u. clear u. intros u.
    change (scale_system u wheel_state) with
      (wheel_at u [0; 0; 1; 1; 0; 2; 0] [0 * (1 / u); 0 * (1 / u); 1 * (1 / u); 1 * (1 / u); 0 * (1 / u); 2 * (1 / u); 0 * (1 / u)]).
    generalize (0 * (1 / u)) (1 * (1 / u)) (2 * (1 / u)). intros a b c.
    unfold solve_step at 1.
    change (clustered_build (wheel_at u [0; 0; 1; 1; 0; 2; 0] [a; a; b; b; a; c; a]) wheel_step1) with
      (Done (wheel_clusters1, repeat 0 15 ++ [a; a; b; b; a; c; a])). cbn [obind].
    change (length (repeat 0 15 ++ [a; a; b; b; a; c; a])) with 22%nat.
    rewrite radius_returns by apply wheel_first_fits. cbn [obind].
    eexists. eexists. split; [reflexivity|].
    set (r := dist _ _).
    unfold solve_step. 
    match goal with |- context [clustered_build ?st wheel_step2] =>
      change (clustered_build st wheel_step2) with (Done (wheel_clusters2, repeat 0 12 ++ [a; a; r; c; a])) end. cbn [obind].
    change (length (repeat 0 12 ++ [a; a; r; c; a])) with 17%nat.
    match goal with |- context [clustered_problem ?st _ _] =>
      change st with (wheel_at u (map (Rmult u) [a; a; r; b; a; c; a]) [a; a; r; b; a; c; a]) end.
    rewrite radius_returns by apply wheel_second_fits. cbn [obind]. reflexivity. }
  destruct G as (s1 & s' & H1 & H2). exists s'. apply wheel_solve. exists s1. auto.
Qed.

(** ** A point to be on a line: the points of the line, and either with the third,
    are made rigid first, so that nothing can be done *)
Definition bent_calls (x y : R) : list (call R) :=
  [CreatePoint 0 0; CreatePoint 1 0; CreateLine (rp 0) (rp 1); CreatePoint x y; CreatePointLineIncidence (rp 3) (rl 2)].
Definition bent_run (x y : R) : option (log R * system R) :=
  Eval vm_compute in replay rdemo_env (bent_calls x y) [] (system_new 7%N).
Definition bent_log x y : log R := match bent_run x y with Some (l, _) => l | None => [] end.
Definition bent_state x y : system R := match bent_run x y with Some (_, s) => s | None => system_new 7%N end.
Lemma bent_history env x y : history env 7%N (bent_log x y) (bent_state x y).
Proof.
  apply (replay_history env 7%N (bent_calls x y) [] (system_new 7%N)); [constructor|]. vm_compute. reflexivity.
Qed.
Definition bent_con : chandle := CHandle 7%N 0 CPointLineIncidence.
Lemma bent_straight x : constraint_residual bent_con (bent_state x 0) = Done 0.
Proof. unfold constraint_residual. cbn. f_equal. ring. Qed.
Definition bent_step : plan_step := Step [0]%nat [0; 1; 3]%nat []
  [(0, [0; 1]); (1, [0; 2]); (3, [1; 2])]%nat [(0, [0; 1]); (1, [3])]%nat [(0, [0; 1]); (1, [0; 3]); (2, [1; 3])]%nat.
Lemma bent_decomposed x y fuel search :
  decompose ascending (20 + fuel) (60 + search) 3 (sys_graph (bent_state x y)) [0; 1; 3]%nat [0]%nat = Done [bent_step].
Proof. vm_compute. reflexivity. Qed.
Definition bent_clusters : clustered := Clustered [0; 1; 3]%nat [(0, [0; 1]); (1, [0; 3]); (2, [1; 3])]%nat [0]%nat 12
  [(0, 9); (1, 10); (2, 11); (3, 12); (4, 13); (5, 14)]%nat.

(** The doubled area of a triangle is determined by its sides. *)
Lemma area_of_sides (ax ay bx bz cx cy ax' ay' bx' by' cx' cy' : R) :
  dist (ax, ay) (bx, bz) = dist (ax', ay') (bx', by') -> dist (ax, ay) (cx, cy) = dist (ax', ay') (cx', cy') ->
  dist (bx, bz) (cx, cy) = dist (bx', by') (cx', cy') ->
  ((bx - ax) * (cy - ay) - (bz - ay) * (cx - ax)) ^ 2 = ((bx' - ax') * (cy' - ay') - (by' - ay') * (cx' - ax')) ^ 2.
Proof.
  assert (S : forall p q p' q' : point, dist p q = dist p' q' ->
    (fst p - fst q) ^ 2 + (snd p - snd q) ^ 2 = (fst p' - fst q') ^ 2 + (snd p' - snd q') ^ 2).
  { intros p q p' q' H. unfold dist in H. apply sqrt_inj in H; [exact H| |];
      apply Rplus_le_le_0_compat; apply pow2_ge_0. }
  intros H1 H2 H3. apply S in H1, H2, H3. cbn [fst snd] in *. clear S.
  assert (I : forall ax ay bx bz cx cy, ((bx - ax) * (cy - ay) - (bz - ay) * (cx - ax)) ^ 2 =
    ((ax - bx) ^ 2 + (ay - bz) ^ 2) * ((ax - cx) ^ 2 + (ay - cy) ^ 2) -
    ((((ax - bx) ^ 2 + (ay - bz) ^ 2) + ((ax - cx) ^ 2 + (ay - cy) ^ 2) - ((bx - cx) ^ 2 + (bz - cy) ^ 2)) / 2) ^ 2)
    by (intros; field).
  rewrite (I ax ay bx bz cx cy), (I ax' ay' bx' by' cx' cy'), H1, H2, H3. reflexivity.
Qed.

Lemma bent_step_fails opt u x y s : solves opt -> 0 < u -> y <> 0 ->
  solve_step opt u (scale_system u (bent_state x y)) bent_step <> Done s.
Proof.
  intros So Hu Hy0 H. unfold solve_step in H. set (s0 := scale_system u _) in *.
  assert (B : exists values, clustered_build s0 bent_step = Done (bent_clusters, values)) by (eexists; reflexivity).
  destruct B as [values B]. rewrite B in H. cbn [obind] in H.
  apply obind_done in H. destruct H as (v & Hv & _).
  destruct (So _ _ _ Hv) as (a & Ha & Hle). destruct (clustered_solved _ _ _ _ _ Ha Hle) as [Cl Ex]. clear Ha Hle Hv B.
  set (r := 1 / u).
  assert (E0 : frontier_point s0 bent_clusters 0 = Done (0 * r, 0 * r, 9%nat)) by reflexivity.
  assert (E1 : frontier_point s0 bent_clusters 1 = Done (1 * r, 0 * r, 11%nat)) by reflexivity.
  assert (E3 : frontier_point s0 bent_clusters 3 = Done (x * r, y * r, 13%nat)) by reflexivity.
  assert (Pair : forall i key p q px py pu qx qy qu, nth_error (cs_clusters bent_clusters) i = Some (key, [p; q]) ->
    frontier_point s0 bent_clusters p = Done (px, py, pu) -> frontier_point s0 bent_clusters q = Done (qx, qy, qu) ->
    exists a b c d, nth_error v pu = Some a /\ nth_error v (pu + 1) = Some b /\ nth_error v qu = Some c /\
      nth_error v (qu + 1) = Some d /\ dist (a, b) (c, d) = dist (px, py) (qx, qy)).
  { intros i key p q px py pu qx qy qu Hc Ep Eq.
    destruct (Cl i _ _ p Hc (or_introl eq_refl)) as (T & x1 & z1 & u1 & Hp & Hf & X1 & X2).
    destruct (Cl i _ _ q Hc (or_intror (or_introl eq_refl))) as (T' & x2 & z2 & u2 & Hp' & Hf' & X3 & X4).
    rewrite Hp in Hp'. injection Hp' as <-. rewrite Ep in Hf. rewrite Eq in Hf'.
    injection Hf as <- <- <-. injection Hf' as <- <- <-.
    do 4 eexists. split; [exact X1|]. split; [exact X2|]. split; [exact X3|]. split; [exact X4|].
    rewrite !pair_fst_snd. apply rigid. }
  destruct (Pair 0%nat _ _ _ _ _ _ _ _ _ eq_refl E0 E1) as (a0 & a1 & b0 & b1 & A0 & A1 & B0 & B1 & D1).
  destruct (Pair 1%nat _ _ _ _ _ _ _ _ _ eq_refl E0 E3) as (a0' & a1' & c0 & c1 & A0' & A1' & C0 & C1 & D2).
  destruct (Pair 2%nat _ _ _ _ _ _ _ _ _ eq_refl E1 E3) as (b0' & b1' & c0' & c1' & B0' & B1' & C0' & C1' & D3).
  rewrite A0 in A0'. rewrite A1 in A1'. rewrite B0 in B0'. rewrite B1 in B1'. rewrite C0 in C0'. rewrite C1 in C1'.
  apply some_inj in A0', A1', B0', B1', C0', C1'. subst a0' a1' b0' b1' c0' c1'.
  pose proof (area_of_sides _ _ _ _ _ _ _ _ _ _ _ _ D1 D2 D3) as Ar.
  destruct (Ex 0%nat (or_introl eq_refl)) as (ex & Hex & Hr). 
  change (nth_error (sys_expressions_transformed s0) 0) with (Some (PointLineIncidence 4 0 2 : expr R)) in Hex.
  apply some_inj in Hex. subst ex. unfold calculate_residual, gather, clustered_map in Hr.
  cbn in Hr. unfold oget in Hr. cbn [Nat.add] in *. rewrite A0, A1, B0, B1, C0, C1 in Hr. cbn in Hr.
  match type of Hr with Done ?z = Done _ => assert (Z : z = 0) by (injection Hr; auto) end.
  assert (Cr : (b0 - a0) * (c1 - a1) - (b1 - a1) * (c0 - a0) = 0) by lra.
  rewrite Cr in Ar. replace ((1 * r - 0 * r) * (y * r - 0 * r) - (0 * r - 0 * r) * (x * r - 0 * r)) with (y * (r * r)) in Ar by ring.
  assert (Pr : 0 < r) by (apply Rdiv_lt_0_compat; lra).
  assert (y * (r * r) <> 0) by (apply Rmult_integral_contrapositive_currified; [exact Hy0|apply Rgt_not_eq; nra]).
  apply (pow_nonzero _ 2) in H. apply H. rewrite <- Ar. ring.
Qed.

Lemma bent_scale x y : 0 < calculate_system_scale (bent_state x y).
Proof.
  unfold calculate_system_scale, root_mean_squares, mean_squares, sum_squares.
  cbn [bent_state bent_run sys_variables sys_expressions flat_map length_parameter app fold_left length].
  apply sqrt_lt_R0. apply Rmult_lt_0_compat.
  - cbn. pose proof (Rle_0_sqr x). pose proof (Rle_0_sqr y). unfold Rsqr in *. lra.
  - cbn. apply Rinv_0_lt_compat. lra.
Qed.
Theorem bent_fails opt o fuel search x y s : solves opt -> y <> 0 ->
  solve (assembling opt ascending (20 + fuel) (60 + search)) (Options o RecursiveAssembly false) (bent_state x y) <> Done s.
Proof.
  intros So Hy H. assert (Hu := bent_scale x y). unfold solve in H. revert H Hu.
  generalize (calculate_system_scale (bent_state x y)). intros u H Hu.
  set (s0 := scale_system u (bent_state x y)) in *.
  change (components (sys_graph s0)) with [Component [0; 1; 3] [0]]%nat in H. cbn [ofold] in H.
  unfold solve_component in H. cbn [c_elements c_constraints] in H.
  change (component_free_variables s0 [0; 1; 3]%nat) with (Done [0; 1; 2; 3; 4; 5]%nat : outcome (list nat)) in H.
  cbn [obind o_perturb o_decomposer env_assembly assembling] in H.
  change (with_values (sys_variables s0) (sys_variables_transformed s0) s0) with s0 in H.
  unfold recursive_assembly in H. change (sys_graph s0) with (sys_graph (bent_state x y)) in H.
  rewrite bent_decomposed in H. cbn [obind ofold] in H.
  destruct (solve_step opt u s0 bent_step) as [s1| |] eqn:E; [|discriminate|discriminate].
  exact (bent_step_fails opt u x y s1 So Hu Hy E).
Qed.

Lemma wheel_together : together wheel_log wheel_state.
Proof.
  intros c k p g Hin Hp Hg.
  destruct g as [|[|g]]; [|destruct Hg as (cc & Hc & _); discriminate|destruct Hg as (cc & Hc & _); destruct g; discriminate].
  exists (Component [0; 1; 3; 4] [0; 1])%nat. split; [reflexivity|]. cbn [c_elements].
  assert (C : c = CreatePointCircleIncidence (rp 4) wheel_circle \/ c = CreatePointCircleIncidence (rp 3) wheel_circle).
  { destruct Hin as [Hin|[Hin|Hin]]; [left|right|exfalso].
    - exact (f_equal fst (eq_sym Hin)).
    - exact (f_equal fst (eq_sym Hin)).
    - repeat (destruct Hin as [Hin|Hin]; [apply (f_equal snd) in Hin; discriminate|]). destruct Hin. }
  destruct C as [-> | ->].
  - change (touched wheel_log (CreatePointCircleIncidence (rp 4) wheel_circle)) with [rp 4; rp 0; EHandle 7%N 1 TLength] in Hp.
    destruct Hp as [<-|[<-|[<-|[]]]]; simpl; auto.
  - change (touched wheel_log (CreatePointCircleIncidence (rp 3) wheel_circle)) with [rp 3; rp 0; EHandle 7%N 1 TLength] in Hp.
    destruct Hp as [<-|[<-|[<-|[]]]]; simpl; auto.
Qed.
Lemma assembling_ok opt order fuel search : (forall vs, Permutation (order vs) vs) -> env_ok (assembling opt order fuel search).
Proof.
  intros O. split; [exact O|]. intros scale es cs s s' H. 
  simpl in H. now apply recursive_assembly_frame in H.
Qed.
Lemma wheel_before : constraint_residual (wheel_con 0) wheel_state = Done 0.
Proof.
  change (constraint_residual (wheel_con 0) wheel_state) with
    (calculate_residual (identity_map [0; 0; 1; 1; 0; 2; 0]) (PointCircleIncidence 3 0 2 : expr R)).
  rewrite (on_circle_residual _ 1 0 0 0 1) by reflexivity. f_equal. unfold dist. cbn [fst snd].
  replace ((1 - 0) ^ 2 + (0 - 0) ^ 2) with 1 by ring. rewrite sqrt_1. ring.
Qed.
