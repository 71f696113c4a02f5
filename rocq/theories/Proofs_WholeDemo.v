(** Concrete sketches for C50-C52. *)
From Coq Require Import List Arith NArith ZArith Lia Permutation Reals Lra.
From Verif Require Import Num NumR Outcome Lib ModelExpr ModelGraph ModelMatching ModelSystem ModelSolve ModelApi ModelLm
  ModelSparse ModelColamd ModelOptimize ModelAssembly
  Spec_Solver Spec_History Spec_Components Spec_Descent Spec_Whole Proofs_Real Proofs_AssemblyFrame Props_Sparse Props_Assembly Demo DemoR.
Import ListNotations.
Local Open Scope R_scope.

(** Two points are to coincide. *)
Definition meet_calls (a b c d : R) : list (call R) :=
  [CreatePoint a b; CreatePoint c d; CreateCoincidence (rp 0) (rp 1)].
Definition meet_run (a b c d : R) : option (log R * system R) :=
  Eval vm_compute in replay rdemo_env (meet_calls a b c d) [] (system_new 7%N).
Definition meet_log (a b c d : R) : log R := match meet_run a b c d with Some (l, _) => l | None => [] end.
Definition meet_state (a b c d : R) : system R := match meet_run a b c d with Some (_, s) => s | None => system_new 7%N end.
Definition meet_con : chandle := CHandle 7%N 0 CPointPointCoincidence.

(** An optimizer that moves the second point, or coordinate, to the first, and makes sure *)
Definition meeting (x : list R) : list R :=
  match x with [a; b; _; _] => [a; b; a; b] | [a; _] => [a; a] | _ => x end.
Definition sure_env : solver_env R := {|
  env_optimize := fun _ p x =>
    match objective p (meeting x) with
    | Some a => if Rle_dec a 0 then Done (meeting x) else Timeout
    | None => Timeout
    end;
  env_order := fun l => l;
  env_assembly := fun _ _ _ s => Done s
|}.
(** One that does so if it helps *)
Definition eager_env : solver_env R := {|
  env_optimize := fun _ p x =>
    match objective p (meeting x), objective p x with
    | Some a, Some b => if nltb a b then Done (meeting x) else Done x
    | _, _ => Done x
    end;
  env_order := fun l => l;
  env_assembly := fun _ _ _ s => Done s
|}.
Lemma same_env_ok (f : optimizer -> problem R -> list R -> outcome (list R)) :
  env_ok (SolverEnv f (fun l => l) (fun _ _ _ s => Done s)).
Proof.
  split.
  - intros l. simpl. apply Permutation_refl.
  - intros scale es cs s s' H. simpl in H. inversion H; subst.
    exists (sys_variables s'), (sys_variables_transformed s'). destruct s'; auto.
Qed.
Lemma sure_reaches o : reaches 0 sure_env o.
Proof.
  intros p x y H. unfold sure_env in H. cbn [env_optimize] in H.
  destruct (objective p (meeting x)) as [a|] eqn:E; [|discriminate]. destruct (Rle_dec a 0); [|discriminate].
  injection H as <-. exists a. split; [exact E|lra].
Qed.
Lemma eager_improves o p x y : env_optimize eager_env o p x = Done y -> y = x \/ better p y x.
Proof.
  unfold eager_env. cbn [env_optimize]. intros H.
  destruct (objective p (meeting x)) as [a|] eqn:E; [|injection H as <-; auto].
  destruct (objective p x) as [b|] eqn:E'; [|injection H as <-; auto].
  destruct (nltb a b) eqn:L; injection H as <-; [|auto]. right. exists a, b. auto.
Qed.
Lemma meet_history env a b c d : history env 7%N (meet_log a b c d) (meet_state a b c d).
Proof.
  apply (replay_history env 7%N (meet_calls a b c d) [] (system_new 7%N)); [constructor|].
  vm_compute. reflexivity.
Qed.
Lemma meet_never_merges a b c d : never_merges (meet_log a b c d).
Proof.
  unfold meet_log, meet_run. cbn [never_merges]. split; [exact Logic.I|].
  intros p q _ _ (cc & k & h & t & H & _). exfalso. vm_compute in H. intuition discriminate.
Qed.
Lemma meet_scale a b c d : a <> 0 -> 0 < calculate_system_scale (meet_state a b c d).
Proof.
  intros Hx. unfold calculate_system_scale, root_mean_squares, mean_squares, sum_squares.
  cbn [meet_state meet_run sys_variables sys_expressions flat_map length_parameter app fold_left length].
  apply sqrt_lt_R0. apply Rmult_lt_0_compat.
  - cbn. pose proof (Rle_0_sqr b). pose proof (Rle_0_sqr c). pose proof (Rle_0_sqr d).
    pose proof (Rlt_0_sqr a Hx). unfold Rsqr in *. lra.
  - cbn. apply Rinv_0_lt_compat. lra.
Qed.

(** Solving one group without perturbation *)
Lemma solve_one {F} {NF : Num F} (env : solver_env F) o (s : system F) c free es values y :
  forall u, calculate_system_scale s = u ->
  let s0 := scale_system u s in components (sys_graph s) = [c] -> c_elements c <> [] ->
  component_free_variables s (c_elements c) = Done free -> component_expressions s (c_constraints c) = Done es ->
  omap (oget (sys_variables_transformed s0)) free = Done values ->
  env_optimize env o (subsystem_problem (subsystem_new (sys_variables_transformed s0)
    (sys_expressions_transformed s0) free es)) values = Done y ->
  (length (index_set free) <= length y)%nat -> (forall v, In v (index_set free) -> v < length (sys_variables s))%nat ->
  exists s', solve env (Options o DecomposeNone false) s = Done s'.
Proof.
  intros u Eu s0 Ec Ne Hf He Hv Ho L R. unfold solve. rewrite Eu. fold s0.
  change (components (sys_graph s0)) with (components (sys_graph s)). rewrite Ec. cbn [ofold].
  unfold solve_component. destruct (c_elements c) as [|e0 es0] eqn:Ee; [congruence|].
  change (component_free_variables s0) with (component_free_variables s). rewrite Hf. cbn [obind o_perturb].
  cbn [o_decomposer]. unfold solve_none. cbn [sys_variables_transformed with_values].
  rewrite Hv. cbn [obind].
  match goal with |- context [component_expressions ?a ?b] =>
    change (component_expressions a b) with (component_expressions s b) end.
  rewrite He. cbn [obind o_optimizer].
  match goal with |- context [env_optimize env o ?p ?x] =>
    replace (env_optimize env o p x) with (Done y) end.
  cbn [obind]. unfold write_back.
  destruct (Proofs_Solve.write_ok (fun x => nmul u x) y (index_set free) 0 (sys_variables s) R L) as (vs & Hw).
  cbn [ss_free_variables subsystem_new sys_variables with_values].
  match goal with |- context [ofold ?f ?l ?a] => replace (ofold f l a) with (Done vs) end.
  cbn [obind]. eauto.
Qed.



Lemma meet_group a b c d u : exists k,
  components (sys_graph (meet_state a b c d)) = [k] /\ c_elements k <> [] /\
  component_free_variables (meet_state a b c d) (c_elements k) = Done [0; 1; 2; 3]%nat /\
  component_expressions (meet_state a b c d) (c_constraints k) = Done [0; 1]%nat /\
  omap (oget (sys_variables_transformed (scale_system u (meet_state a b c d)))) [0; 1; 2; 3]%nat
  = Done (map (fun w => w * (1 / u)) [a; b; c; d]) /\
  index_set [0; 1; 2; 3]%nat = [0; 1; 2; 3]%nat /\ length (sys_variables (meet_state a b c d)) = 4%nat.
Proof.
  eexists. split; [reflexivity|]. split; [discriminate|]. split; [vm_compute; reflexivity|].
  split; [vm_compute; reflexivity|]. split; [reflexivity|]. split; reflexivity.
Qed.
Definition meet_ss a b c d u : subsystem R :=
  subsystem_new (map (fun w => w * (1 / u)) [a; b; c; d])
    (map (transform (1 / u)) [VariableVariableEquality 0 2; VariableVariableEquality 1 3]) [0; 1; 2; 3]%nat [0; 1]%nat.
Lemma meet_solve env o a b c d y :
  let u := calculate_system_scale (meet_state a b c d) in
  env_optimize env o (subsystem_problem (meet_ss a b c d u)) (map (fun w => w * (1 / u)) [a; b; c; d]) = Done y ->
  length y = 4%nat -> exists s', solve env (Options o DecomposeNone false) (meet_state a b c d) = Done s'.
Proof.
  intros u Ho L. destruct (meet_group a b c d u) as (k & H1 & H2 & H3 & H4 & H5 & H6 & H7).
  eapply (solve_one env o (meet_state a b c d) k _ _ _ y u eq_refl H1 H2 H3 H4 H5); [exact Ho| |].
  - rewrite H6, L. simpl. lia.
  - rewrite H6, H7. intros v Hv. simpl in Hv. lia.
Qed.
Lemma meet_objective a b c d u x y z t : objective (subsystem_problem (meet_ss a b c d u)) [x; y; z; t] =
  Some (0 + (z - x) * (z - x) + (t - y) * (t - y)).
Proof. reflexivity. Qed.
Lemma meet_solved o : exists s', solve sure_env (Options o DecomposeNone false) (meet_state 1 1 3 1) = Done s'.
Proof.
  eapply meet_solve.
  - unfold sure_env. cbn [env_optimize map meeting]. rewrite meet_objective.
    match goal with |- context [Rle_dec ?a 0] => destruct (Rle_dec a 0) as [|N]; [reflexivity|exfalso; apply N; right; ring] end.
  - reflexivity.
Qed.
Lemma meet_eager o : exists s', solve eager_env (Options o DecomposeNone false) (meet_state 1 1 3 1) = Done s'.
Proof.
  set (u := calculate_system_scale (meet_state 1 1 3 1)).
  assert (Hu : u <> 0) by (pose proof (meet_scale 1 1 3 1 ltac:(lra)); fold u in H; lra).
  apply (meet_solve eager_env o 1 1 3 1 [1 * (1 / u); 1 * (1 / u); 1 * (1 / u); 1 * (1 / u)]); [|reflexivity].
  fold u. unfold eager_env. cbn [env_optimize map meeting]. rewrite !meet_objective.
  match goal with |- context [nltb ?a ?b] => change (nltb a b) with (Rltb a b); destruct (Rltb_spec a b) as [|N] end; [reflexivity|].
  exfalso. apply N. assert (P := Rlt_0_sqr (1 / u)). unfold Rsqr in P.
  assert (Q : 1 / u <> 0) by (unfold Rdiv; rewrite Rmult_1_l; now apply Rinv_neq_0_compat). specialize (P Q).
  set (w := 1 / u) in *. replace (3 * w - 1 * w) with (2 * w) by ring. nra.
Qed.

(** The same one block at a time *)
Lemma meet_blocks a b c d : find_strongly_connected_expressions (sys_eqgraph (meet_state a b c d)) [0; 1; 2; 3]%nat (fun l => l) =
  Done [Group [1; 3]%nat [1]%nat; Group [0; 2]%nat [0]%nat].
Proof. vm_compute. reflexivity. Qed.
Lemma meet_block o x y vt u ss : ss = subsystem_new vt (map (transform u) [VariableVariableEquality 0 2; VariableVariableEquality 1 3]) [1; 3]%nat [1]%nat \/
    ss = subsystem_new vt (map (transform u) [VariableVariableEquality 0 2; VariableVariableEquality 1 3]) [0; 2]%nat [0]%nat ->
  env_optimize sure_env o (subsystem_problem ss) [x; y] = Done [x; x].
Proof.
  intros [-> | ->]; unfold sure_env; cbn [env_optimize meeting].
  - change (objective _ [x; x]) with (Some (0 + (x - x) * (x - x))). cbv beta iota.
    match goal with |- context [Rle_dec ?a 0] => destruct (Rle_dec a 0) as [|N]; [reflexivity|exfalso; apply N; right; ring] end.
  - change (objective _ [x; x]) with (Some (0 + (x - x) * (x - x))). cbv beta iota.
    match goal with |- context [Rle_dec ?a 0] => destruct (Rle_dec a 0) as [|N]; [reflexivity|exfalso; apply N; right; ring] end.
Qed.
Lemma meet_passed o a b c d : exists s', solve sure_env (Options o SinglePass false) (meet_state a b c d) = Done s'.
Proof.
  set (u := calculate_system_scale (meet_state a b c d)).
  destruct (meet_group a b c d u) as (k & H1 & H2 & H3 & _).
  unfold solve. fold u. generalize u. clear u. intros u.
  set (s0 := scale_system u (meet_state a b c d)).
  change (components (sys_graph s0)) with (components (sys_graph (meet_state a b c d))). rewrite H1. cbn [ofold].
  unfold solve_component. destruct (c_elements k) as [|e0 es0] eqn:Ee; [congruence|].
  change (component_free_variables s0) with (component_free_variables (meet_state a b c d)). rewrite H3.
  cbn [obind o_perturb o_decomposer o_optimizer]. unfold solve_single_pass.
  match goal with |- context [find_strongly_connected_expressions ?g ?f ?h] =>
    change (find_strongly_connected_expressions g f h) with
      (find_strongly_connected_expressions (sys_eqgraph (meet_state a b c d)) [0; 1; 2; 3]%nat (fun l => l)) end.
  rewrite meet_blocks. cbn [obind ofold]. unfold solve_group.
  set (r := 1 / u).
  match goal with |- context [omap (oget ?xs) (group_free_variables (Group [1; 3]%nat _))] =>
    change (omap (oget xs) _) with (Done [b * r; d * r]) end.
  cbn [obind].
  rewrite (meet_block o (b * r) (d * r) [a * r; b * r; c * r; d * r] r) by (left; reflexivity).
  cbn [obind].
  match goal with |- context [write_back_transformed ?p ?q ?w] =>
    change (write_back_transformed p q w) with (Done [a * r; b * r; c * r; b * r]) end.
  cbn [obind].
  match goal with |- context [write_back ?u ?p ?q ?w] =>
    change (write_back u p q w) with (Done [a; u * (b * r); c; u * (b * r)]) end.
  cbn [obind].
  match goal with |- context [omap (oget ?xs) (group_free_variables (Group [0; 2]%nat _))] =>
    change (omap (oget xs) _) with (Done [a * r; c * r]) end.
  cbn [obind].
  rewrite (meet_block o (a * r) (c * r) [a * r; b * r; c * r; b * r] r) by (right; reflexivity).
  cbn [obind].
  match goal with |- context [write_back_transformed ?p ?q ?w] =>
    change (write_back_transformed p q w) with (Done [a * r; b * r; a * r; b * r]) end.
  cbn [obind].
  match goal with |- context [write_back ?u ?p ?q ?w] =>
    change (write_back u p q w) with (Done [u * (a * r); u * (b * r); u * (a * r); u * (b * r)]) end.
  cbn [obind]. eauto.
Qed.
Lemma meet_assignable a b c d : assignable (meet_state a b c d).
Proof.
  exists (fun e => e). split; [|auto].
  intros [|[|[|e]]] x Hx; cbn in Hx.
  - apply (f_equal (fun o => match o with Some z => variable_indices z | None => [] end)) in Hx. cbn in Hx. rewrite <- Hx. simpl. auto.
  - apply (f_equal (fun o => match o with Some z => variable_indices z | None => [] end)) in Hx. cbn in Hx. rewrite <- Hx. simpl. auto.
  - discriminate.
  - destruct e; discriminate.
Qed.

(** Levenberg-Marquardt on a sketch that is solved *)
Lemma lm_returns {F S} {NF : Num F} (solver : damped_solver F S) p fuel x rs ts sym :
  lm_evaluate p x = Done (rs, ts) ->
  ds_build solver (num_residuals p + num_variables p) (num_variables p) ts = Done sym ->
  nltb (norm_squared rs) (tenm 8) = true -> levenberg_marquardt solver p fuel x = Done x.
Proof.
  intros H1 H2 H3. unfold levenberg_marquardt, lm_trace. rewrite H1. cbn [obind]. rewrite H2. cbn [obind].
  generalize 99%nat. intros n.
  cbn [lm_outer lm_ssr]. rewrite H3. reflexivity.
Qed.
Lemma meet_idle fuel search order : exists s',
  solve (whole_env colamd_ordering insertion_sort fuel search order)
    (Options LevenbergMarquardt DecomposeNone false) (meet_state 1 2 1 2) = Done s'.
Proof.
  set (u := calculate_system_scale (meet_state 1 2 1 2)).
  apply (meet_solve _ LevenbergMarquardt 1 2 1 2 (map (fun w => w * (1 / u)) [1; 2; 1; 2])); [|reflexivity].
  fold u. cbn [env_optimize whole_env fiksi_env optimize].
  eapply lm_returns.
  - cbn. reflexivity.
  - vm_compute. reflexivity.
  - clearbody u. unfold norm_squared, tenm. cbn [fold_left map nltb NumR].
    match goal with |- Rltb ?a ?b = true => destruct (Rltb_spec a b) as [|N]; [reflexivity|]; exfalso; apply N end.
    cbn. match goal with |- ?a < _ => replace a with 0 by ring end. lra.
Qed.
