(** Two solvers that agree on every solve of a history give the same history. *)
From Coq Require Import List Arith NArith Lia Bool Permutation Reals.
From Verif Require Import Num NumR Outcome Lib ModelExpr ModelGraph ModelSystem ModelMatching ModelSolve ModelApi
  Spec_Solver Spec_History Proofs_History Proofs_Api Proofs_Returns Proofs_OrderSolve.
Import ListNotations.
Local Open Scope nat_scope.

Lemma history_state {F} {NF : Num F} (env : solver_env F) id l s : history env id l s -> forall s', history env id l s' -> s' = s.
Proof.
  induction 1 as [|l s c s1 r H IH A S]; intros s' H'; inversion H'; subst; [reflexivity|].
  match goal with Q : history env id l ?t |- _ => rewrite (IH _ Q) in * end. congruence.
Qed.
Lemma step_other {F} {NF : Num F} (env env' : solver_env F) c s : (forall o, c <> Solve o) -> step env c s = step env' c s.
Proof. intros H. destruct c; try reflexivity. now destruct (H opts). Qed.
Lemma created_tail {F} (cr : call F * ret F) l : length (created_elements l) <= length (created_elements (cr :: l)) /\
  length (created_constraints l) <= length (created_constraints (cr :: l)).
Proof. unfold created_elements, created_constraints. cbn [rev]. rewrite !flat_map_app, !app_length. lia. Qed.

Section Two.
  Variables E E' : nat -> solver_env R.
  Hypothesis EO : forall k, env_ok (E k).
  Variable K : N.
  Hypothesis KS : (2 * K < 2 ^ 32)%N.
  Hypothesis agree : forall id l s o k, history (E k) id l s -> small l ->
    (N.of_nat (length (created_elements l)) <= K)%N -> (N.of_nat (length (created_constraints l)) <= K)%N ->
    o_optimizer o = LevenbergMarquardt -> o_decomposer o <> RecursiveAssembly ->
    exists s', both (fun k => solve (E k) o s) (fun k => solve (E' k) o s) s'.

  Lemma history_both id l :
    (forall o r, In (Solve o, r) l -> o_optimizer o = LevenbergMarquardt /\ o_decomposer o <> RecursiveAssembly) ->
    (N.of_nat (length (created_elements l)) <= K)%N -> (N.of_nat (length (created_constraints l)) <= K)%N ->
    (exists n, forall k, n < k -> exists s, history (E k) id l s) ->
    exists s n, forall k, n < k -> history (E k) id l s /\ history (E' k) id l s.
  Proof.
    induction l as [|[c r] l IH]; intros HS H1 H2 (n & H).
    - exists (system_new id), 0. intros k _. split; constructor.
    - destruct (created_tail (c, r) l) as [T1 T2].
      destruct IH as (s & n1 & Hs); [intros o q Q; apply (HS o q); simpl; auto|lia|lia| |].
      { exists n. intros k Hk. destruct (H k Hk) as (s' & Q). inversion Q; subst. eauto. }
      assert (ST : forall k, n < k -> n1 < k -> allowed l c /\ exists s', step (E k) c s = Done (s', r)).
      { intros k Hk Hk1. destruct (H k Hk) as (s' & Q). inversion Q; subst.
        match goal with Q : history (E k) id l ?t |- _ => rewrite (history_state _ _ _ _ (proj1 (Hs k Hk1)) _ Q) in * end. eauto. }
      set (N0 := S (Nat.max n n1)). destruct (ST N0) as [A (s' & S0)]; [lia..|].
      assert (D : (exists o, c = Solve o) \/ forall o, c <> Solve o) by (destruct c; eauto; right; discriminate).
      destruct D as [(o & ->)|D].
      + destruct (HS o r) as [Ho Hd]; [simpl; auto|].
        destruct (agree id l s o N0) as (s2 & [(m1 & M1) (m2 & M2)]); auto; [apply Hs; lia|split; lia|lia|lia|].
        exists s2, (Nat.max (Nat.max n n1) (Nat.max m1 m2)). intros k Hk.
        destruct (ST k) as [_ (s3 & S3)]; [lia..|]. cbn [step] in S3. rewrite M1 in S3 by lia. inversion S3; subst.
        destruct (Hs k) as [Hk1 Hk2]; [lia|]. split; econstructor; eauto; cbn [step]; [rewrite M1 by lia|rewrite M2 by lia]; reflexivity.
      + exists s', (Nat.max n n1). intros k Hk. destruct (Hs k) as [Hk1 Hk2]; [lia|].
        split; econstructor; eauto; rewrite <- S0; now apply step_other.
  Qed.
End Two.

Lemma history_other {F} {NF : Num F} (env env' : solver_env F) id l s : history env id l s -> no_solve l -> history env' id l s.
Proof.
  induction 1 as [|l s c s1 r H IH A S]; intros N; [constructor|].
  assert (Nl : no_solve l) by (intros o q Q; apply (N o q); simpl; auto).
  econstructor; eauto. rewrite <- S. apply step_other. intros o ->. apply (N o r). simpl; auto.
Qed.
