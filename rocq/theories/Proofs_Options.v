(** Which optimizer solves *)
From Coq Require Import List Arith NArith.
From Verif Require Import Num Outcome Lib ModelExpr ModelGraph ModelSystem ModelMatching ModelSolve ModelApi
  Spec_Options Proofs_Reproducible.
Import ListNotations.

Section Options.
  Context {F : Type} {NF : Num F}.

  (** Two environments that differ in nothing the options ask for *)
  Definition alike (env env' : solver_env F) (o : options) : Prop :=
    match o_decomposer o with
    | DecomposeNone => forall p x, env_optimize env (o_optimizer o) p x = env_optimize env' (o_optimizer o) p x
    | SinglePass => (forall p x, env_optimize env (o_optimizer o) p x = env_optimize env' (o_optimizer o) p x) /\
        env_order env = env_order env'
    | RecursiveAssembly => forall sc es cs s, env_assembly env sc es cs s = env_assembly env' sc es cs s
    end.

  Lemma component_alike (env env' : solver_env F) o scale st c : alike env env' o ->
    solve_component env o scale st c = solve_component env' o scale st c.
  Proof.
    intros E. unfold alike in E. unfold solve_component. destruct st as [rng s]. destruct (c_elements c) as [|e es]; [reflexivity|].
    destruct (component_free_variables s (e :: es)) as [free| |]; cbn [obind]; try reflexivity.
    destruct (if o_perturb o then _ else _) as [[rng' vt]| |]; cbn [obind]; try reflexivity.
    destruct (o_decomposer o).
    - unfold solve_none. destruct (omap _ _); cbn [obind]; try reflexivity.
      destruct (component_expressions _ _); cbn [obind]; try reflexivity. rewrite E. reflexivity.
    - destruct E as [E Eo]. unfold solve_single_pass. rewrite Eo.
      destruct (find_strongly_connected_expressions _ _ _) as [gs| |]; cbn [obind]; try reflexivity.
      rewrite (ofold_ext _ (solve_group env' (o_optimizer o) scale)); [reflexivity|].
      intros s' g. unfold solve_group. destruct (omap _ _); cbn [obind]; try reflexivity. rewrite E. reflexivity.
    - rewrite E. reflexivity.
  Qed.

  Lemma run_alike (env env' : solver_env F) : forall cs s, (forall o, In (Solve o) cs -> alike env env' o) ->
    run env cs s = run env' cs s.
  Proof.
    induction cs as [|c cs IH]; intros s U; [reflexivity|]. cbn [run].
    assert (S : step env c s = step env' c s).
    { destruct c; try reflexivity. match goal with |- step _ (Solve ?x) _ = _ => set (o := x) in * end. cbn [step]. unfold solve.
      rewrite (ofold_ext _ (solve_component env' o (calculate_system_scale s))); [reflexivity|].
      intros. apply component_alike. apply U. left; reflexivity. }
    rewrite S. destruct (step env' c s) as [[s' r]| |]; cbn [obind]; try reflexivity. rewrite IH; [reflexivity|].
    intros o Ho. apply U. right; exact Ho.
  Qed.

  Lemma run_choosing (env : solver_env F) k : forall cs s,
    all_assemble cs ->
    run env (map (choosing k) cs) s = run env cs s.
  Proof.
    induction cs as [|c cs IH]; intros s U; [reflexivity|]. cbn [map run].
    assert (S : step env (choosing k c) s = step env c s).
    { destruct c; try reflexivity. match goal with |- _ = step _ (Solve ?x) _ => set (o := x) in * end. cbn [choosing step]. unfold solve.
      rewrite (ofold_ext _ (solve_component env o (calculate_system_scale s))); [reflexivity|].
      intros [rng s'] c. unfold solve_component. cbn [o_decomposer o_perturb].
      rewrite (U o (or_introl eq_refl)). reflexivity. }
    rewrite S. destruct (step env c s) as [[s' r]| |]; cbn [obind]; try reflexivity. rewrite IH; [reflexivity|].
    intros o Ho. apply U. right; exact Ho.
  Qed.
End Options.
