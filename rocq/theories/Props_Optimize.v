(** Properties of the optimizers.  Statements use the model, [Spec_Solver.v] and
    [Spec_Descent.v] only. *)
From Coq Require Import List Arith NArith ZArith Lia Bool Reals.
From Verif Require Import Num NumR Outcome ModelExpr ModelSystem ModelSolve ModelLm
  Spec_Solver Spec_Descent Proofs_Lm.
Import ListNotations.
Local Open Scope nat_scope.

(** ** C23: whatever the linear solver answers, in the reals and in binary64 *)
Theorem C23_steps : forall (F : Type) (NF : Num F) (S : Type) (solver : damped_solver F S)
    (p : problem F) fuel x trace,
  orderly F -> consistent p -> lm_trace solver p fuel x = Done trace ->
  descends p trace /\ length trace <= 1 + 100 /\ last trace [] = x.
Proof. intros F NF S solver p fuel x trace O C. exact (lm_descends O solver p C fuel x trace). Qed.
Print Assumptions C23_steps.
Theorem C23_never_worse : forall (F : Type) (NF : Num F) (S : Type) (solver : damped_solver F S)
    (p : problem F) fuel x y,
  orderly F -> consistent p -> levenberg_marquardt solver p fuel x = Done y ->
  y = x \/ better p y x.
Proof. intros F NF S solver p fuel x y O C. exact (lm_better O solver p C fuel x y). Qed.
Print Assumptions C23_never_worse.
Theorem C23_solved_untouched : forall (F : Type) (NF : Num F) (S : Type) (solver : damped_solver F S)
    (p : problem F) fuel x a y,
  orderly F -> consistent p -> objective p x = Some a -> (a <? tenm 8)%num = true ->
  levenberg_marquardt solver p fuel x = Done y -> y = x.
Proof. intros F NF S solver p fuel x a y O C. exact (lm_solved O solver p C fuel x a y). Qed.
Print Assumptions C23_solved_untouched.
(** The hypotheses hold of the arithmetics and of every problem the solver
    builds. *)
Theorem C23_arithmetic : orderly R /\ orderly f64.
Proof. exact (conj orderly_R orderly_f64). Qed.
Print Assumptions C23_arithmetic.
Theorem C23_problems : forall (F : Type) (NF : Num F) (ss : subsystem F), consistent (subsystem_problem ss).
Proof. intros F NF ss. exact (subsystem_consistent ss). Qed.
Print Assumptions C23_problems.
(** A run in binary64: the distance between (0,0) and (3,4) is asked to be 1 and
    only the first coordinate of the second point may move. *)
Definition C23_ss : subsystem f64 :=
  Subsystem [lit 0; lit 0; lit 3; lit 4] [PointPointDistance 0 2 (lit 1)] [0] [2].
Definition C23_solver : damped_solver f64 unit :=
  DampedSolver (fun _ _ _ => Done tt)
    (fun _ _ _ ts d b => match ts, b with
      | (_, _, j) :: _, r :: _ => Done (Some (r * j / (j * j + d * d) :: tl b)%num)
      | _, _ => Done None
      end).
Example C23_example : exists trace,
  lm_trace C23_solver (subsystem_problem C23_ss) 50 [lit 3] = Done trace /\ 3 <= length trace.
Proof.
  destruct (lm_trace C23_solver (subsystem_problem C23_ss) 50 [lit 3]) as [trace| |] eqn:E;
    [|vm_compute in E; discriminate|vm_compute in E; discriminate].
  exists trace. split; [auto|]. vm_compute in E. inversion E. simpl. lia.
Qed.
