(** C49: the same calls give the same numbers. *)
From Coq Require Import List Arith NArith ZArith Permutation.
From Verif Require Import Num Outcome ModelExpr ModelGraph ModelSystem ModelMatching ModelSolve ModelApi
  ModelSparse ModelColamd ModelOptimize ModelAssembly Spec_Solver Spec_History Spec_Reproducible Demo
  Props_Sparse Props_Assembly Proofs_Reproducible.
Import ListNotations.
Local Open Scope nat_scope.

(** ** C49, without a decomposer: whatever the calls, in whatever order hash
    sets are gone through, the system ends up the same and every call returns
    the same (or the same call panics or does not return). *)
Theorem C49_undecomposed : forall (F : Type) (NF : Num F) colamd sort fuel search search' order order'
    (cs : list (call F)) s,
  undecomposed cs ->
  run (whole_env colamd sort fuel search order) cs s = run (whole_env colamd sort fuel search' order') cs s.
Proof. intros. now apply run_same. Qed.
Print Assumptions C49_undecomposed.

(** In a single pass, the groups that are solved one after the other and what
    is asked of each do not depend on the order; the order of the variables
    within a group does. *)
Theorem C49_single_pass_partial : forall g free order order' gs,
  (forall l, Permutation (order l) l) -> (forall l, Permutation (order' l) l) ->
  find_strongly_connected_expressions g free order = Done gs ->
  exists gs', find_strongly_connected_expressions g free order' = Done gs' /\ Forall2 same_group gs gs'.
Proof. intros g free order order' gs P P'. exact (groups_same g free order order' P P' gs). Qed.
Print Assumptions C49_single_pass_partial.

(** ** With a decomposer it is false.  Two points are to be at distance 1.
    In two runs of the same program, which differ in the order in which hash
    sets happen to be gone through, both decomposers leave different numbers
    behind. *)
Definition pair_apart : list (call f64) := [
  CreatePoint (z64 0) (z64 0); CreatePoint (z64 3) (z64 1); CreatePointPointDistance (dp 0) (dp 1) (z64 1)].
Definition descending (l : list nat) : list nat := rev (ascending l).
Lemma descending_perm l : Permutation (descending l) l.
Proof. eapply Permutation_trans; [apply Permutation_sym, Permutation_rev|apply ascending_perm]. Qed.
Definition solved_with order d : outcome (list (ret f64)) :=
  let! (_, rs) := run (whole_env colamd_ordering insertion_sort 60 60 order)
    (pair_apart ++ [Solve (Options LevenbergMarquardt d false); GetValue (dp 0)]) (system_new 7%N) in
  Done rs.
Theorem C49_decomposed_refuted : forall d, d = SinglePass \/ d = RecursiveAssembly ->
  exists vs vs', (forall l, Permutation (ascending l) l) /\ (forall l, Permutation (descending l) l) /\
    solved_with ascending d = Done vs /\ solved_with descending d = Done vs' /\
    last vs RUnit <> last vs' RUnit.
Proof.
  intros d [->| ->].
  all: destruct (solved_with ascending _) as [vs| |] eqn:E1; vm_compute in E1; try discriminate.
  all: destruct (solved_with descending _) as [vs'| |] eqn:E2; vm_compute in E2; try discriminate.
  all: exists vs, vs'; split; [exact ascending_perm|]; split; [exact descending_perm|].
  all: inversion E1; subst vs; inversion E2; subst vs'; split; [reflexivity|]; split; [reflexivity|].
  all: vm_compute; discriminate.
Qed.
Print Assumptions C49_decomposed_refuted.

(** Even whether there is a plan for recursive assembly depends on the order:
    for four points, an angle between the first three and a distance between
    the first and the last, one order gives a plan and another a panic. *)
Theorem C49_plan_refuted : exists l s, history demo_env 7%N l s /\
  (exists plan, decompose descending 20 20 3 (sys_graph s) [0; 1; 2; 3] [0; 1] = Done plan) /\
  forall fuel search, decompose ascending (20 + fuel) (20 + search) 3 (sys_graph s) [0; 1; 2; 3] [0; 1] = Panic.
Proof.
  destruct (sketch_of 4 [[0; 1; 2]; [0; 3]]) as [[l s]|] eqn:E; [|vm_compute in E; discriminate].
  assert (H := sketch_history _ _ _ _ E). exists l, s. split; [auto|].
  vm_compute in E. inversion E; subst; clear E. split.
  - eexists. vm_compute. reflexivity.
  - intros. vm_compute. reflexivity.
Qed.
Print Assumptions C49_plan_refuted.

(** The default options are without a decomposer: two solves, with points moved
    in between, return, and move the points. *)
Definition default_calls : list (call f64) :=
  pair_apart ++ [Solve default_options; UpdatePoint (dp 1) (z64 5) (z64 5); Solve default_options; GetValue (dp 1)].
Example C49_example : undecomposed default_calls /\
  exists s rs, run (whole_env colamd_ordering insertion_sort 60 60 ascending) default_calls (system_new 7%N) = Done (s, rs) /\
    last rs RUnit <> RValue (VPoint (z64 5, z64 5)).
Proof.
  split.
  - intros o H. simpl in H. repeat (destruct H as [H|H]; [try discriminate; inversion H; reflexivity|]). destruct H.
  - destruct (run (whole_env colamd_ordering insertion_sort 60 60 ascending) default_calls (system_new 7%N))
      as [[s rs]| |] eqn:E; vm_compute in E; try discriminate.
    exists s, rs. split; [reflexivity|]. inversion E. vm_compute. discriminate.
Qed.
