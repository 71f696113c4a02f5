(** C61: the optimizer option chooses the optimizer. *)
From Coq Require Import List Arith NArith ZArith.
From Verif Require Import Num Outcome ModelExpr ModelGraph ModelSystem ModelSolve ModelApi ModelLm ModelLbfgs
  ModelSparse ModelColamd ModelOptimize ModelAssembly Spec_Options Demo
  Props_Sparse Props_Assembly Props_Reproducible Proofs_Options.
Import ListNotations.
Local Open Scope nat_scope.

(** ** C61.  Whatever the calls: an optimizer that no solve asks for plays no
    part.  Were it replaced by any other, every call would return the same. *)
Theorem C61_unasked : forall (F : Type) (NF : Num F) (env env' : solver_env F) (cs : list (call F)) s,
  env_order env = env_order env' -> env_assembly env = env_assembly env' ->
  (forall o, In (Solve o) cs -> env_optimize env (o_optimizer o) = env_optimize env' (o_optimizer o)) ->
  run env cs s = run env' cs s.
Proof.
  intros F NF env env' cs s Eo Ea E. apply run_alike. intros o Ho. unfold alike.
  destruct (o_decomposer o); [|split|]; intros; rewrite ?(E o Ho), ?Ea; auto.
Qed.
Print Assumptions C61_unasked.

(** Without recursive assembly, all the numerical work of the solver is done by
    the optimizer that is asked for: if every solve asks for Levenberg-Marquardt
    (L-BFGS), the solver is one that knows of no other, and whose recursive
    assembly panics. *)
Theorem C61_chosen_partial : forall (F : Type) (NF : Num F) colamd sort fuel search order (cs : list (call F)) s,
  none_assembles cs ->
  (all_ask LevenbergMarquardt cs ->
   run (whole_env colamd sort fuel search order) cs s =
   run (SolverEnv (fun _ p x => levenberg_marquardt (qr_solver colamd sort) p fuel x) order (fun _ _ _ _ => Panic)) cs s) /\
  (all_ask LBfgs cs ->
   run (whole_env colamd sort fuel search order) cs s =
   run (SolverEnv (fun _ p x => lbfgs fuel p x) order (fun _ _ _ _ => Panic)) cs s).
Proof.
  intros F NF colamd sort fuel search order cs s N. split; intros K; apply run_alike; intros o Ho; unfold alike;
    specialize (N o Ho); specialize (K o Ho); destruct (o_decomposer o); try congruence; try split;
    intros; rewrite ?K; reflexivity.
Qed.
Print Assumptions C61_chosen_partial.

(** ** With recursive assembly it is false: every solve is done by
    Levenberg-Marquardt, whatever optimizer is asked for. *)
Theorem C61_assembly_refuted : forall (F : Type) (NF : Num F) colamd sort fuel search order (cs : list (call F)) s,
  all_assemble cs ->
  (forall k, run (whole_env colamd sort fuel search order) (map (choosing k) cs) s =
             run (whole_env colamd sort fuel search order) cs s) /\
  run (whole_env colamd sort fuel search order) cs s =
  run (SolverEnv (fun _ _ _ => Panic) order
        (recursive_assembly (fun p x => levenberg_marquardt (qr_solver colamd sort) p fuel x) order fuel search)) cs s.
Proof.
  intros F NF colamd sort fuel search order cs s N. split.
  - intros k. apply run_choosing. exact N.
  - apply run_alike. intros o Ho. unfold alike. rewrite (N o Ho). reflexivity.
Qed.
Print Assumptions C61_assembly_refuted.

(** The choice matters: two points are to be at distance 1.  Both optimizers
    return, with different numbers; recursive assembly returns, moves the first
    point, and gives the same numbers for both. *)
Definition chosen k d : outcome (list (ret f64)) :=
  let! (_, rs) := run (whole_env colamd_ordering insertion_sort 60 60 ascending)
    (pair_apart ++ [Solve (Options k d false); GetValue (dp 0)]) (system_new 7%N) in
  Done rs.
Example C61_example :
  (exists vs vs', chosen LevenbergMarquardt DecomposeNone = Done vs /\ chosen LBfgs DecomposeNone = Done vs' /\
     last vs RUnit <> last vs' RUnit) /\
  (exists vs, chosen LevenbergMarquardt RecursiveAssembly = Done vs /\ chosen LBfgs RecursiveAssembly = Done vs /\
     last vs RUnit <> RValue (VPoint (z64 0, z64 0))).
Proof.
  split.
  - destruct (chosen LevenbergMarquardt DecomposeNone) as [vs| |] eqn:E1; vm_compute in E1; try discriminate.
    destruct (chosen LBfgs DecomposeNone) as [vs'| |] eqn:E2; vm_compute in E2; try discriminate.
    exists vs, vs'. split; [reflexivity|]. split; [reflexivity|].
    inversion E1; subst vs; inversion E2; subst vs'. vm_compute. discriminate.
  - destruct (chosen LevenbergMarquardt RecursiveAssembly) as [vs| |] eqn:E1; vm_compute in E1; try discriminate.
    exists vs. split; [reflexivity|]. inversion E1; subst vs. split; vm_compute; [reflexivity|discriminate].
Qed.
