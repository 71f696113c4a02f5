(** C07, the other half: what is not fixed, or no longer fixed, is free. *)
From Coq Require Import List NArith ZArith Permutation.
From Verif Require Import Num Outcome ModelExpr ModelGraph ModelSystem ModelSolve ModelApi
  Spec_Solver Spec_History Demo Proofs_Free.
Import ListNotations.

(** Whatever value [c] the optimizer puts its variables at, every constrained point
    and length that is not fixed at the moment of solving (never fixed, or unfixed
    since it was last fixed) ends there, brought back to the scale of the sketch. *)
Theorem C07_free_moves : forall (F : Type) (NF : Num F) (env : solver_env F) (c : F) id (l : log F) s o s' r p,
  env_ok env -> history env id l s ->
  (forall o p x, env_optimize env o p x = Done (repeat c (length x))) ->
  o_decomposer o = DecomposeNone -> step env (Solve o) s = Done (s', r) ->
  In (RElement p) (map snd l) -> is_constrained l p -> is_fixed l p = false ->
  let u := calculate_system_scale s in
  (forall x y, get_value p s = Done (VPoint (x, y)) -> get_value p s' = Done (VPoint (nmul u c, nmul u c))) /\
  (forall x, get_value p s = Done (VLength x) -> get_value p s' = Done (VLength (nmul u c))).
Proof. intros F NF env c id l s o s' r p. exact (free_moves env c id l s o s' r p). Qed.
Print Assumptions C07_free_moves.

(** A line between points 0 and 1 is fixed, then point 1 is released; point 2 is to be
    in their line.  An optimizer that answers seven moves points 1 and 2. *)
Definition sevens : solver_env f64 :=
  SolverEnv (fun _ _ x => Done (repeat (z64 7) (length x))) (fun l => l) (fun _ _ _ s => Done s).
Definition released_calls : list (call f64) :=
  [CreatePoint (z64 0) (z64 0); CreatePoint (z64 3) (z64 0); CreatePoint (z64 1) (z64 2);
   CreateLine (dp 0) (dp 1); CreatePointLineIncidence (dp 2) (EHandle 7%N 3 TLine);
   Fix (EHandle 7%N 3 TLine); Unfix (dp 1)].
Example C07_free_example : exists l s s' r, env_ok sevens /\ history sevens 7%N l s /\
  step sevens (Solve (Options LBfgs DecomposeNone true)) s = Done (s', r) /\
  is_constrained l (dp 1) /\ is_fixed l (dp 1) = false /\ is_fixed l (dp 0) = true /\
  get_value (dp 0) s' = Done (VPoint (z64 0, z64 0)) /\
  get_value (dp 1) s = Done (VPoint (z64 3, z64 0)) /\
  exists x, get_value (dp 1) s' = Done (VPoint (x, x)) /\ get_value (dp 2) s' = Done (VPoint (x, x)).
Proof.
  destruct (replay sevens released_calls [] (system_new 7%N)) as [[l s]|] eqn:E; [|vm_compute in E; discriminate].
  assert (H := replay_history sevens 7%N released_calls _ _ _ _ (h_new sevens 7%N) E).
  vm_compute in E. inversion E; subst l s. clear E.
  match type of H with history _ _ _ ?s =>
    destruct (step sevens (Solve (Options LBfgs DecomposeNone true)) s) as [[s' r]| |] eqn:E;
      [|vm_compute in E; discriminate..] end.
  eexists _, _, s', r. split.
  { split; [intros; apply Permutation_refl|]. intros scale es cs s0 s1 Q. simpl in Q. inversion Q; subst.
    exists (sys_variables s1), (sys_variables_transformed s1). destruct s1; auto. }
  split; [exact H|]. split; [exact E|]. vm_compute in E. inversion E; subst.
  split.
  { eexists _, _, (EHandle 7%N 3 TLine), _. split; [right; right; left; reflexivity|]. split; [right; left; reflexivity|].
    vm_compute. auto. }
  split; [reflexivity|]. split; [reflexivity|]. split; [reflexivity|]. split; [reflexivity|].
  eexists. split; reflexivity.
Qed.
