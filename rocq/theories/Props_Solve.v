(** Whether [solve] returns, with the optimizers as they are.  Statements use the
    model, [Spec_History.v], [Spec_Solver.v], [Spec_Sparse.v] ([sorting]) and
    [Spec_Qr.v] only. *)
From Coq Require Import List Arith NArith ZArith Lia Bool Permutation Reals.
From Verif Require Import Num NumR Outcome ModelExpr ModelSystem ModelSolve ModelApi ModelSparse ModelColamd ModelOptimize ModelAssembly
  Spec_Solver Spec_History Spec_Sparse Spec_Qr Demo DemoR Proofs_Api Proofs_Optimize Proofs_LmExact Proofs_Returns
  Proofs_Hang Proofs_LbfgsHang Proofs_AssemblyFrame Props_Sparse Props_Colamd.
Import ListNotations.
Local Open Scope nat_scope.

(** A sketch of up to 2^24 elements and as many constraints: the matrices of its
    problems are small enough for the [i32] arithmetic of the column ordering. *)
Definition modest {F} (l : log F) : Prop :=
  (N.of_nat (length (created_elements l)) <= 2 ^ 24)%N /\ (N.of_nat (length (created_constraints l)) <= 2 ^ 24)%N.
Lemma colamd_orders : orders_below (18 * 2 ^ 24 + 1) colamd_ordering.
Proof.
  intros s W H1 H2 H3. change (18 * 2 ^ 24 + 1)%N with 301989889%N in *.
  apply C42_factorisation; unfold fits; [exact W|lia|lia|lia].
Qed.

(** ** C06, with the optimizers: in any arithmetic no allowed call panics,
    whatever its options (but recursive assembly) and the values in the sketch.
    The rounds of the loops without a bound are limited to [fuel]. *)
Theorem C06_optimizers_no_panic : forall (F : Type) (NF : Num F) sort fuel order assembly id (l : log F) s c,
  sorting sort -> env_ok (fiksi_env colamd_ordering sort fuel order assembly) ->
  history (fiksi_env colamd_ordering sort fuel order assembly) id l s -> allowed l c -> modest l ->
  (forall o, c = Solve o -> o_decomposer o <> RecursiveAssembly) ->
  step (fiksi_env colamd_ordering sort fuel order assembly) c s <> Panic.
Proof.
  intros F NF sort fuel order assembly id l s c Hs EO H A [M1 M2].
  apply (step_nopanic_limited (2 ^ 24) _ id l s c EO); auto; [|split; lia].
  apply fiksi_env_safe_upto; [exact colamd_orders|exact Hs].
Qed.
Print Assumptions C06_optimizers_no_panic.

(** ** C06, with all parts of the solver as modelled *)
Theorem C06_program_no_panic : forall (F : Type) (NF : Num F) sort fuel search order id (l : log F) s c,
  sorting sort -> (forall vs, Permutation (order vs) vs) ->
  history (whole_env colamd_ordering sort fuel search order) id l s -> allowed l c -> modest l ->
  (forall o, c = Solve o -> o_decomposer o <> RecursiveAssembly) ->
  step (whole_env colamd_ordering sort fuel search order) c s <> Panic.
Proof.
  intros F NF sort fuel search order id l s c Hs O.
  exact (C06_optimizers_no_panic F NF sort fuel order _ id l s c Hs (whole_env_ok colamd_ordering sort fuel search order O)).
Qed.
Print Assumptions C06_program_no_panic.
Example C06_program_example : sorting insertion_sort /\ modest (fst origin) /\
  history (whole_env colamd_ordering insertion_sort 9 9 (@rev nat)) 0%N (fst origin) (snd origin) /\
  allowed (fst origin) (Solve (Options LBfgs SinglePass true)) /\ forall vs : list nat, Permutation (rev vs) vs.
Proof.
  split; [exact insertion_sort_sorting|]. split; [now vm_compute|]. split; [apply origin_history|].
  split; [|intros; apply Permutation_sym, Permutation_rev]. split; [intros ? ? []|]. split; [intros ? []|exact I].
Qed.

(** The solver [E k] runs the optimizers with [k] rounds. *)
Lemma lm_solver_returns (E : nat -> solver_env R) sort order env id (l : log R) s o :
  (forall k, env_order (E k) = order) -> (forall k, env_ok (E k)) ->
  (forall k p x, env_optimize (E k) LevenbergMarquardt p x = optimize colamd_ordering sort k LevenbergMarquardt p x) ->
  sorting sort -> env_ok env -> history env id l s -> modest l ->
  o_optimizer o = LevenbergMarquardt -> o_decomposer o <> RecursiveAssembly ->
  exists n s', forall fuel, n < fuel -> solve (E fuel) o s = Done s'.
Proof.
  intros E1 EO E2 Hs Eenv H [M1 M2] Ho Hd.
  destruct (solve_returns_small E order E1 EO LevenbergMarquardt (2 ^ 24)) with (env := env) (id := id) (l := l) (s := s) (opts := o)
    as (s' & n & Hn); auto; [|split; lia|].
  - intros p x Hp Sz Hx. pose proof (orders_sized _ _ sort p Hs Hp colamd_orders Sz) as Hc.
    destruct (lm_returns colamd_ordering sort Hs p Hc Hp x Hx) as (n & y & Ly & Hn).
    exists y. split; [congruence|]. exists n. intros k Hk. rewrite E2. now apply Hn.
  - now exists n, s'.
Qed.

(** ** C24, partly: in exact arithmetic, by Levenberg-Marquardt, [solve] returns:
    it gives the same system whatever large number of rounds is allowed to the
    loops without a bound. *)
Theorem C24_exact_lm_partial : forall sort order assembly env id (l : log R) s o,
  sorting sort -> (forall fuel, env_ok (fiksi_env colamd_ordering sort fuel order assembly)) ->
  env_ok env -> history env id l s -> modest l ->
  o_optimizer o = LevenbergMarquardt -> o_decomposer o <> RecursiveAssembly ->
  exists n s', forall fuel, n < fuel -> solve (fiksi_env colamd_ordering sort fuel order assembly) o s = Done s'.
Proof.
  intros sort order assembly env id l s o Hs EO.
  exact (lm_solver_returns (fun k => fiksi_env colamd_ordering sort k order assembly) sort order env id l s o
    (fun _ => eq_refl) EO (fun _ _ _ => eq_refl) Hs).
Qed.
Print Assumptions C24_exact_lm_partial.

(** ** C24, partly, with all parts of the solver as modelled, in exact arithmetic *)
Theorem C24_program_partial : forall sort search order env id (l : log R) s o,
  sorting sort -> (forall vs, Permutation (order vs) vs) ->
  env_ok env -> history env id l s -> modest l ->
  o_optimizer o = LevenbergMarquardt -> o_decomposer o <> RecursiveAssembly ->
  exists n s', forall fuel, n < fuel -> solve (whole_env colamd_ordering sort fuel search order) o s = Done s'.
Proof.
  intros sort search order env id l s o Hs O.
  exact (lm_solver_returns (fun k => whole_env colamd_ordering sort k search order) sort order env id l s o
    (fun _ => eq_refl) (fun k => whole_env_ok colamd_ordering sort k search order O) (fun _ _ _ => eq_refl) Hs).
Qed.
Print Assumptions C24_program_partial.

(** A sort as asked for, and a history *)
Definition keep {F} (_ : F) (_ _ : list nat) (s : system F) : outcome (system F) := Done s.
Lemma keep_ok {F} {NF : Num F} fuel : env_ok (fiksi_env colamd_ordering insertion_sort fuel (fun l => l) keep).
Proof.
  split.
  - intros l. apply Permutation_refl.
  - intros scale es cs s s' [= <-]. exists (sys_variables s), (sys_variables_transformed s). now destruct s.
Qed.
Example C24_exact_example : exists n s', forall fuel, n < fuel ->
  solve (fiksi_env colamd_ordering insertion_sort fuel (fun l => l) keep) default_options rdemo_state = Done s'.
Proof.
  apply (C24_exact_lm_partial insertion_sort (fun l => l) keep rdemo_env 7%N rdemo_log);
    auto using insertion_sort_sorting, keep_ok, rdemo_env_ok, rdemo_history.
  - now vm_compute.
  - discriminate.
Qed.

(** ** C24 is false in binary64, with the default options and with either
    optimizer: there is a history (two points at the origin, one fixed, made
    coincident) after which no number of rounds is enough. *)
Theorem C24_refuted : exists (cs : list (call f64)) (l : log f64) (s : system f64),
  (forall env, history env 0%N l s) /\ small l /\ map fst (rev l) = cs /\
  cs = [CreatePoint (lit 0) (lit 0); CreatePoint (lit 0) (lit 0); Fix (EHandle 0%N 0 TPoint);
        CreateCoincidence (EHandle 0%N 0 TPoint) (EHandle 0%N 1 TPoint)] /\
  forall sort order assembly, sorting sort -> forall o fuel,
    solve (fiksi_env colamd_ordering sort fuel order assembly) (Options o DecomposeNone true) s = Timeout.
Proof.
  exists origin_calls, (fst origin), (snd origin). split; [exact origin_history|]. split; [now vm_compute|].
  split; [vm_compute; reflexivity|]. split; [reflexivity|].
  intros sort order assembly Hs o fuel. apply origin_hangs; [|exact Hs].
  intros t W H1 H2 H3. apply colamd_orders; [exact W|lia|lia|lia].
Qed.
Print Assumptions C24_refuted.

(** ** It is false of L-BFGS even for an ordinary triangle, with and without
    perturbation: two points fixed at (0,0) and (1,0), a third one at (-2,2) that
    is to be at distance 4 from both. *)
Theorem C24_ordinary_refuted : exists (cs : list (call f64)) (l : log f64) (s : system f64),
  (forall env, history env 0%N l s) /\ map fst (rev l) = cs /\
  (let p i := EHandle 0%N i TPoint in
   cs = [CreatePoint (lit 0) (lit 0); CreatePoint (lit 1) (lit 0); CreatePoint (lit (-2)) (lit 2); Fix (p 0); Fix (p 1);
         CreatePointPointDistance (p 2) (p 0) (lit 4); CreatePointPointDistance (p 2) (p 1) (lit 4)]) /\
  forall colamd sort order assembly perturb fuel,
    solve (fiksi_env colamd sort fuel order assembly) (Options LBfgs DecomposeNone perturb) s = Timeout.
Proof.
  exists triangle_calls, (fst triangle), (snd triangle). split; [exact triangle_history|].
  split; [vm_compute; reflexivity|]. split; [reflexivity|]. intros. apply triangle_hangs.
Qed.
Print Assumptions C24_ordinary_refuted.
(** Levenberg-Marquardt solves it: both distances are within 1e-3 of 4 afterwards *)
Example C24_ordinary_example : exists s' x y,
  solve (whole_env colamd_ordering insertion_sort 60 60 (fun l => l)) (Options LevenbergMarquardt DecomposeNone true)
    (snd triangle) = Done s' /\
  constraint_residual (CHandle 0%N 0 CPointPointDistance) s' = Done x /\
  constraint_residual (CHandle 0%N 1 CPointPointDistance) s' = Done y /\
  nltb (nabs x) (tenm 3) = true /\ nltb (nabs y) (tenm 3) = true.
Proof.
  destruct (solve (whole_env colamd_ordering insertion_sort 60 60 (fun l => l))
    (Options LevenbergMarquardt DecomposeNone true) (snd triangle)) as [s'| |] eqn:E; [|vm_compute in E; discriminate..].
  exists s'. vm_compute in E. inversion E; subst; clear E.
  eexists _, _. split; [reflexivity|]. split; [vm_compute; reflexivity|]. split; [vm_compute; reflexivity|].
  split; vm_compute; reflexivity.
Qed.

(** ** Without perturbation it is false, with either optimizer, as soon as two
    points that are to be apart start at the same place: one fixed at (1,1),
    another one there, to be at distance 1 from it. *)
Theorem C24_stacked_refuted : exists (cs : list (call f64)) (l : log f64) (s : system f64),
  (forall env, history env 0%N l s) /\ map fst (rev l) = cs /\
  (let p i := EHandle 0%N i TPoint in
   cs = [CreatePoint (lit 1) (lit 1); CreatePoint (lit 1) (lit 1); Fix (p 0);
         CreatePointPointDistance (p 0) (p 1) (lit 1)]) /\
  forall sort order assembly, sorting sort -> forall o fuel,
    solve (fiksi_env colamd_ordering sort fuel order assembly) (Options o DecomposeNone false) s = Timeout.
Proof.
  exists stacked_calls, (fst stacked), (snd stacked). split; [exact stacked_history|].
  split; [vm_compute; reflexivity|]. split; [reflexivity|].
  intros sort order assembly Hs o fuel. apply stacked_hangs; [|exact Hs].
  intros t W H1 H2 H3. apply colamd_orders; [exact W|lia|lia|lia].
Qed.
Print Assumptions C24_stacked_refuted.
