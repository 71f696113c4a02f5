(** C60: where it fails, shown by running the model in IEEE binary64. *)
From Coq Require Import List Arith NArith ZArith.
From Verif Require Import Num Outcome ModelExpr ModelGraph ModelSystem ModelSolve ModelNumerical ModelApi
  Spec_Solver Spec_History Spec_Units Demo.
Import ListNotations.
Local Open Scope nat_scope.

(** ** Over-constraint analysis depends on the unit of length.  A point half way
    between the ends (0, 0) and (1, 0) of a line, to lie on it: nothing is
    over-constrained.  The same sketch in units 2^30 times as large (a sketch in
    metres of something a nanometre wide): the one constraint is reported to
    over-constrain it.  Multiplying by 2^-30 is exact in binary64. *)
Definition nano : f64 := ndiv (z64 1) (z64 (2 ^ 30)).
Definition midway : list (call f64) :=
  [CreatePoint (z64 0) (z64 0); CreatePoint (z64 1) (z64 0); CreatePoint (ndiv (z64 1) (z64 2)) (z64 0);
   CreateLine (dp 0) (dp 1); CreatePointLineIncidence (dp 2) (EHandle 7%N 3 TLine)].
Theorem C60_analysis_refuted : exists (l l' : log f64) s s' h,
  (forall env, history env 7%N l s) /\ (forall env, history env 7%N l' s') /\
  l' = rescaled_log nano l /\ map fst (rev l) = midway /\ created_constraints l = [h] /\
  find_overconstraints s = Done [] /\ find_overconstraints s' = Done [h].
Proof.
  destruct (replay demo_env midway [] (system_new 7%N)) as [[l s]|] eqn:E; [|vm_compute in E; discriminate].
  destruct (replay demo_env (map (rescaled nano) midway) [] (system_new 7%N)) as [[l' s']|] eqn:E'; [|vm_compute in E'; discriminate].
  exists l, l', s, s', (CHandle 7%N 0 CPointLineIncidence).
  split; [|split].
  - intros env. apply (replay_history env 7%N midway [] (system_new 7%N)); [constructor|]. rewrite <- E. vm_compute. reflexivity.
  - intros env. apply (replay_history env 7%N (map (rescaled nano) midway) [] (system_new 7%N)); [constructor|]. rewrite <- E'. vm_compute. reflexivity.
  - vm_compute in E, E'. inversion E; inversion E'; subst. clear E E'. vm_compute. repeat split; reflexivity.
Qed.
Print Assumptions C60_analysis_refuted.
