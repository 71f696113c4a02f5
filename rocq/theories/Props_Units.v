(** C60: the unit of length does not matter to the solver, in exact arithmetic. *)
From Coq Require Import List Arith NArith ZArith Bool Reals Lra Permutation.
From Verif Require Import Lib Num NumR Outcome ModelExpr ModelSystem ModelSolve ModelApi ModelSparse ModelColamd ModelOptimize ModelAssembly
  Spec_Solver Spec_History Spec_Units Proofs_Units Proofs_AssemblyFrame Proofs_UnitsHistory DemoR Props_Sparse Props_Assembly Props_Solve.
From Verif Require Proofs_Api.
Import ListNotations.
Local Open Scope R_scope.

(** Two clients make the same sketch through the same calls, solves with any
    options included, one of them writing [k * x] for every length and
    coordinate [x] of the other.  Neither asks for an analysis.  Then every call
    of the second returns what that call of the first returns, in the other
    unit; whatever may be read afterwards differs by the unit only; and a next
    call returns, panics or goes on for ever for both or for neither.

    Missing: over-constraint analysis depends on the unit
    ([C60_analysis_refuted]). *)
Theorem C60_units_partial : forall colamd sort fuel search order id (l : log R) s k,
  let env := whole_env colamd sort fuel search order in
  (forall vs, Permutation (order vs) vs) -> 0 < k ->
  history env id l s -> ~ In Analyze (map fst l) ->
  exists s', history env id (rescaled_log k l) s' /\
    (forall h, read s' h = option_map (rescaled_value k) (read s h)) /\
    (forall c, allowed l c -> c <> Analyze ->
       match step env c s, step env (rescaled k c) s' with
       | Done (_, r), Done (_, r') => r' = rescaled_ret k c r
       | Panic, Panic | Timeout, Timeout => True
       | _, _ => False
       end).
Proof.
  intros colamd sort fuel search order id l s k env O K H N.
  assert (EO : env_ok env) by (apply whole_env_ok; exact O).
  assert (AU : assembly_units k env) by (apply assembly_units_whole).
  pose proof (history_units k K env id l s EO AU H N) as H'.
  exists (units k s). split; [exact H'|]. split; [apply read_units|].
  intros c A NA. rewrite (step_units k K env id l s c EO AU H H' A NA).
  destruct (step env c s) as [[s1 r]| |]; cbn; [reflexivity|exact I|exact I].
Qed.
Print Assumptions C60_units_partial.

(** Such a history, with a solve and a residual read after it *)
Lemma history_env (env env' : solver_env R) id l s : history env id l s ->
  (forall o, ~ In (Solve o) (map fst l)) -> history env' id l s.
Proof.
  induction 1 as [|l s c s' r H IH A Hs]; intros N; [apply h_new|].
  apply h_call with (s := s); [apply IH; intros o I; apply (N o); right; exact I|exact A|].
  rewrite <- Hs. destruct c; try reflexivity. exfalso. apply (N opts). left. reflexivity.
Qed.
Definition plain (c : call R) : bool := match c with Solve _ | Analyze => false | _ => true end.
Lemma solved_and_read (env env0 : solver_env R) id l s0 o s h : env_ok env -> history env0 id l s0 ->
  forallb plain (map fst l) = true -> solve env o s0 = Done s -> In (RConstraint h) (map snd l) ->
  exists x, history env id ((GetResidual h, RNumber x) :: (Solve o, RUnit) :: l) s /\
    ~ In Analyze (map fst ((GetResidual h, RNumber x) :: (Solve o, RUnit) :: l)).
Proof.
  intros EO H0 P E C.
  assert (Q : forall c, In c (map fst l) -> plain c = true) by (apply forallb_forall; exact P).
  assert (H : history env id ((Solve o, RUnit) :: l) s).
  { apply h_call with (s := s0).
    - apply (history_env env0); [exact H0|]. intros o' I. specialize (Q _ I). discriminate Q.
    - split; [intros ? ? []|]. split; [intros ? []|exact I].
    - cbn [step]. rewrite E. reflexivity. }
  destruct (Proofs_Api.residual_meaning env id _ s h EO H) as (c & x & _ & _ & X); [right; exact C|].
  exists x. split.
  - apply h_call with (s := s); [exact H| |cbn [step]; rewrite X; reflexivity].
    split; [intros ? ? []|]. split; [|exact I]. intros h' [<-|[]]. right. exact C.
  - intros [I|[I|I]]; [discriminate I|discriminate I|]. specialize (Q _ I). discriminate Q.
Qed.
Lemma rdemo_plain : forallb plain (map fst rdemo_log) = true.
Proof. vm_compute. reflexivity. Qed.
Definition returns_constraint (h : chandle) (r : ret R) : bool :=
  match r with RConstraint h' => if chandle_dec h' h then true else false | _ => false end.
Lemma returns_in (l : log R) h : existsb (returns_constraint h) (map snd l) = true -> In (RConstraint h) (map snd l).
Proof.
  intros E. apply existsb_exists in E. destruct E as (r & I & B). destruct r; try discriminate B.
  cbn in B. destruct (chandle_dec h0 h) as [->|]; [exact I|discriminate B].
Qed.
Lemma rdemo_returns : existsb (returns_constraint (CHandle 7%N 1 CPointLineDistance)) (map snd rdemo_log) = true.
Proof. vm_compute. reflexivity. Qed.
Lemma rdemo_modest : modest rdemo_log.
Proof. now vm_compute. Qed.
Example C60_example : exists fuel l s, let env := whole_env colamd_ordering insertion_sort fuel 60 ascending in
  history env 7%N l s /\ ~ In Analyze (map fst l) /\
  exists x l', l = (GetResidual (CHandle 7%N 1 CPointLineDistance), RNumber x) :: (Solve default_options, RUnit) :: l'.
Proof.
  assert (M := rdemo_modest). assert (H := rdemo_history). assert (P := rdemo_plain).
  assert (C := returns_in _ _ rdemo_returns).
  revert M H P C. generalize rdemo_log rdemo_state. intros l s0 M H P C.
  destruct (C24_program_partial insertion_sort 60 ascending rdemo_env 7%N l s0 default_options)
    as (n & s & E); [apply insertion_sort_sorting|apply ascending_perm|apply rdemo_env_ok|exact H|exact M|reflexivity|discriminate|].
  specialize (E (S n) (Nat.lt_succ_diag_r n)).
  assert (EO : env_ok (whole_env (F := R) colamd_ordering insertion_sort (S n) 60 ascending)) by (apply whole_env_ok, ascending_perm).
  destruct (solved_and_read _ rdemo_env 7%N l s0 default_options s _ EO H P E C) as (x & X & N).
  exists (S n), ((GetResidual (CHandle 7%N 1 CPointLineDistance), RNumber x) :: (Solve default_options, RUnit) :: l), s.
  split; [exact X|]. split; [exact N|]. exists x, l. reflexivity.
Qed.
