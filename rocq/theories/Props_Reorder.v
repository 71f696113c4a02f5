(** C49 in exact arithmetic: the differences between runs are rounding.  Statements
    use the model, [Spec_Solver.v], [Spec_History.v] and [Spec_Sparse.v] ([sorting]). *)
From Coq Require Import List Arith NArith ZArith Lia Bool Permutation Reals Lra.
From Verif Require Import Num NumR Outcome Lib ModelExpr ModelSystem ModelSolve ModelSparse ModelColamd ModelOptimize ModelAssembly
  Spec_Descent Spec_Lm ModelApi Spec_Solver Spec_History Spec_Sparse Spec_Qr DemoR Proofs_Safe Proofs_Api Proofs_Optimize Proofs_Returns
  Proofs_AssemblyFrame Proofs_OrderSolve Proofs_OrderHistory Props_Sparse Props_Colamd Props_Solve Props_Lm Props_Assembly Props_Reproducible.
Import ListNotations.
Local Open Scope nat_scope.

Lemma program_textbook sort search order : sorting sort ->
  textbook (2 ^ 24) (fun k => whole_env colamd_ordering sort k search order).
Proof.
  intros Hs p x Hp Cp Sz Lx. destruct (C54_textbook sort p x Hs Hp Cp Sz Lx) as (l & R & _ & n & H).
  exists l. split; [exact R|]. exists n. exact H.
Qed.
Lemma program_both sort sort' search search' order order' env id (l : log R) s o :
  sorting sort -> sorting sort' -> (forall vs, Permutation (order vs) vs) -> (forall vs, Permutation (order' vs) vs) ->
  env_ok env -> history env id l s -> modest l ->
  o_optimizer o = LevenbergMarquardt -> o_decomposer o <> RecursiveAssembly ->
  exists s', both (fun k => solve (whole_env colamd_ordering sort k search order) o s)
                  (fun k => solve (whole_env colamd_ordering sort' k search' order') o s) s'.
Proof.
  intros H1 H2 P1 P2 EO H [M1 M2] Ho Hd.
  eapply (solve_both_small (fun k => whole_env colamd_ordering sort k search order)
    (fun k => whole_env colamd_ordering sort' k search' order') order order' (fun _ => eq_refl) (fun _ => eq_refl)
    (fun k => whole_env_ok colamd_ordering sort k search order P1) (fun k => whole_env_ok colamd_ordering sort' k search' order' P2)
    (2 ^ 24) (program_textbook _ _ _ H1) (program_textbook _ _ _ H2)); eauto. split; lia.
Qed.

(** By Levenberg-Marquardt, in exact arithmetic, without a decomposer or in a single
    pass: a sketch determines what solving makes of it, in whatever order hash sets
    are gone through and however equal entries are sorted. *)
Theorem C49_exact : forall env id (l : log R) s o,
  env_ok env -> history env id l s -> modest l ->
  o_optimizer o = LevenbergMarquardt -> o_decomposer o <> RecursiveAssembly ->
  exists s', forall sort search order, sorting sort -> (forall vs, Permutation (order vs) vs) ->
    exists n, forall fuel, n < fuel -> solve (whole_env colamd_ordering sort fuel search order) o s = Done s'.
Proof.
  intros env id l s o EO H M Ho Hd.
  destruct (program_both insertion_sort insertion_sort 0 0 (fun vs => vs) (fun vs => vs) env id l s o
    insertion_sort_sorting insertion_sort_sorting (fun vs => Permutation_refl vs) (fun vs => Permutation_refl vs) EO H M Ho Hd) as (s' & Q & _).
  exists s'. intros sort search order Hs P.
  destruct (program_both insertion_sort sort 0 search (fun vs => vs) order env id l s o
    insertion_sort_sorting Hs (fun vs => Permutation_refl vs) P EO H M Ho Hd) as (s2 & (n1 & Q1) & (n2 & Q2)).
  destruct Q as (n0 & Q). assert (E : s2 = s').
  { specialize (Q (S (Nat.max n0 n1))). specialize (Q1 (S (Nat.max n0 n1))). rewrite Q in Q1 by lia.
    specialize (Q1 ltac:(lia)). now inversion Q1. }
  subst s2. exists n2. exact Q2.
Qed.
Print Assumptions C49_exact.

(** The same of whole histories: if the calls of [l] return what [l] says (for all
    large numbers of rounds allowed to the loops without a bound) with one order of
    hash sets, they do with every other, and leave the same system behind. *)
Theorem C49_exact_history : forall sort sort' search search' order order' id (l : log R),
  sorting sort -> sorting sort' -> (forall vs, Permutation (order vs) vs) -> (forall vs, Permutation (order' vs) vs) ->
  modest l ->
  (forall o r, In (Solve o, r) l -> o_optimizer o = LevenbergMarquardt /\ o_decomposer o <> RecursiveAssembly) ->
  (exists n, forall fuel, n < fuel -> exists s, history (whole_env colamd_ordering sort fuel search order) id l s) ->
  exists s n, forall fuel, n < fuel ->
    history (whole_env colamd_ordering sort fuel search order) id l s /\
    history (whole_env colamd_ordering sort' fuel search' order') id l s.
Proof.
  intros sort sort' search search' order order' id l H1 H2 P1 P2 [M1 M2] HS H.
  refine (history_both (fun k => whole_env colamd_ordering sort k search order) (fun k => whole_env colamd_ordering sort' k search' order')
    (2 ^ 24) _ _ id l HS M1 M2 H); [lia|].
  intros id' l' s o k Hh _ S1 S2 Ho Hd.
  apply (program_both sort sort' search search' order order' _ id' l' s o H1 H2 P1 P2
    (whole_env_ok colamd_ordering sort k search order P1) Hh); [split; assumption|exact Ho|exact Hd].
Qed.
Print Assumptions C49_exact_history.

(** The demonstration sketch, solved in a single pass after a perturbation *)
Definition single_pass : options := Options LevenbergMarquardt SinglePass true.
Lemma rdemo_no_solve : no_solve rdemo_log.
Proof.
  intros o r H. assert (E : existsb (fun cr => match fst cr with Solve _ => true | _ => false end) rdemo_log = false) by (vm_compute; reflexivity).
  apply Bool.not_true_iff_false in E. apply E. apply existsb_exists. exists (Solve o, r). split; [exact H|reflexivity].
Qed.
Lemma rdemo_modest : modest rdemo_log.
Proof. now vm_compute. Qed.
Lemma solve_after sort search order l s o n s' : (forall fuel, n < fuel -> solve (whole_env colamd_ordering sort fuel search order) o s = Done s') ->
  history rdemo_env 7%N l s -> no_solve l ->
  forall fuel, n < fuel -> history (whole_env colamd_ordering sort fuel search order) 7%N ((Solve o, RUnit) :: l) s'.
Proof.
  intros H Hl N fuel Hf. eapply h_call; [eapply history_other; eauto| |].
  - split; [intros h t []|]. split; [intros h []|exact I].
  - cbn [step]. unfold ret_unit. rewrite H by exact Hf. reflexivity.
Qed.
Lemma in_solved o r (l : log R) : no_solve l -> In (Solve o, r) ((Solve single_pass, RUnit) :: l) -> o = single_pass.
Proof. intros N [Q|Q]; [now inversion Q|]. destruct (N o r Q). Qed.
Lemma modest_solved o (l : log R) : modest l -> modest ((Solve o, RUnit) :: l).
Proof.
  unfold modest, created_elements, created_constraints. cbn [rev]. rewrite !flat_map_app. cbn [flat_map snd app]. now rewrite !app_nil_r.
Qed.
Lemma rdemo_solved : exists n s', forall fuel, n < fuel ->
  solve (whole_env colamd_ordering insertion_sort fuel 9 descending) single_pass rdemo_state = Done s'.
Proof.
  exact (C24_program_partial insertion_sort 9 descending rdemo_env 7%N rdemo_log rdemo_state single_pass
    insertion_sort_sorting descending_perm rdemo_env_ok rdemo_history rdemo_modest eq_refl ltac:(discriminate)).
Qed.
Example C49_exact_example :
  modest ((Solve single_pass, RUnit) :: rdemo_log) /\
  (forall o r, In (Solve o, r) ((Solve single_pass, RUnit) :: rdemo_log) -> o_optimizer o = LevenbergMarquardt /\ o_decomposer o <> RecursiveAssembly) /\
  exists n, forall fuel, n < fuel ->
    exists s, history (whole_env colamd_ordering insertion_sort fuel 9 descending) 7%N ((Solve single_pass, RUnit) :: rdemo_log) s.
Proof.
  split; [exact (modest_solved _ _ rdemo_modest)|]. split.
  { intros o r Q. rewrite (in_solved o r rdemo_log rdemo_no_solve Q). split; [reflexivity|discriminate]. }
  destruct rdemo_solved as (n & s' & H).
  exists n. intros fuel Hf. exists s'. exact (solve_after _ _ _ _ _ _ _ _ H rdemo_history rdemo_no_solve fuel Hf).
Qed.
