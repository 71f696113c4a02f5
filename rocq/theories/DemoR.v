(** A concrete history over the real numbers, for the examples. *)
From Coq Require Import List Arith NArith ZArith Bool Permutation Reals Lra.
From Verif Require Import Num NumR Outcome ModelExpr ModelGraph ModelSystem ModelSolve
  ModelApi Spec_Solver Spec_History Demo.
Import ListNotations.
Local Open Scope R_scope.

Definition rdemo_env : solver_env R := {|
  env_optimize := fun _ p x => Done x;
  env_order := fun l => l;
  env_assembly := fun _ _ _ s => Done s
|}.
Lemma rdemo_env_ok : env_ok rdemo_env.
Proof.
  split.
  - intros l. simpl. apply Permutation_refl.
  - intros scale es cs s s' H. simpl in H. inversion H; subst.
    exists (sys_variables s'), (sys_variables_transformed s'). destruct s'; auto.
Qed.
Definition rp (i : nat) : ehandle := EHandle 7%N i TPoint.
Definition rl (i : nat) : ehandle := EHandle 7%N i TLine.
(** Points A = (0,0), B = (1,0), C = (2,1), lines AB and BC which share B *)
Definition rdemo_calls : list (call R) := [
  CreatePoint 0 0;                                     (* 0 *)
  CreatePoint 1 0;                                     (* 1 *)
  CreatePoint 2 1;                                     (* 2 *)
  CreateLine (rp 0) (rp 1);                            (* 3 *)
  CreateLine (rp 1) (rp 2);                            (* 4 *)
  CreateLineLinePerpendicularity (rl 3) (rl 4);        (* constraint 0 *)
  CreatePointLineDistance (rp 2) (rl 3) 1;             (* constraint 1 *)
  CreateLineLineAngle (rl 3) (rl 4) 5                  (* constraint 2 *)
].
Definition rdemo : option (log R * system R) := replay rdemo_env rdemo_calls [] (system_new 7%N).
Definition rdemo_log : log R := match rdemo with Some (l, _) => l | None => [] end.
Definition rdemo_state : system R := match rdemo with Some (_, s) => s | None => system_new 7%N end.
Lemma rdemo_history : history rdemo_env 7%N rdemo_log rdemo_state.
Proof.
  apply (replay_history rdemo_env 7%N rdemo_calls [] (system_new 7%N)); [constructor|].
  unfold rdemo_log, rdemo_state, rdemo. destruct (replay _ _ _ _) as [[l s]|] eqn:E; [auto|].
  vm_compute in E. discriminate.
Qed.
