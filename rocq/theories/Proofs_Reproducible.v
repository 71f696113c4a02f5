(** Solving without a decomposer does not go through hash sets. *)
From Coq Require Import List Arith NArith Permutation.
From Verif Require Import Num Outcome Lib ModelExpr ModelGraph ModelSystem ModelMatching ModelSolve ModelApi
  Spec_Reproducible.
Import ListNotations.

Section Reproducible.
  Context {F : Type} {NF : Num F}.

  Lemma ofold_ext {A B} (f g : A -> B -> outcome A) l : (forall a b, f a b = g a b) ->
    forall a, ofold f l a = ofold g l a.
  Proof.
    intros E. induction l as [|b l IH]; simpl; intros a; [auto|]. rewrite E.
    destruct (g a b); simpl; auto.
  Qed.

  Lemma component_same (env env' : solver_env F) o scale st c :
    (forall k p x, env_optimize env k p x = env_optimize env' k p x) ->
    o_decomposer o = DecomposeNone ->
    solve_component env o scale st c = solve_component env' o scale st c.
  Proof.
    intros E D. unfold solve_component. destruct st as [rng s]. destruct (c_elements c); [auto|].
    rewrite D. unfold solve_none.
    destruct (component_free_variables s (n :: l)); simpl; auto.
    destruct (if o_perturb o then _ else _) as [[rng' vt]| |]; simpl; auto.
    destruct (omap _ _); simpl; auto.
    destruct (component_expressions _ _); simpl; auto. now rewrite E.
  Qed.

  Lemma solve_same (env env' : solver_env F) o s :
    (forall k p x, env_optimize env k p x = env_optimize env' k p x) ->
    o_decomposer o = DecomposeNone -> solve env o s = solve env' o s.
  Proof.
    intros E D. unfold solve. rewrite (ofold_ext _ (solve_component env' o (calculate_system_scale s))); auto.
    intros. now apply component_same.
  Qed.

  Lemma run_same (env env' : solver_env F) :
    (forall k p x, env_optimize env k p x = env_optimize env' k p x) ->
    forall cs s, undecomposed cs -> run env cs s = run env' cs s.
  Proof.
    intros E. induction cs as [|c cs IH]; simpl; intros s U; [auto|].
    assert (S : step env c s = step env' c s).
    { destruct c; try reflexivity. simpl. rewrite (solve_same env env'); auto. apply U. simpl; auto. }
    rewrite S. destruct (step env' c s) as [[s' r]| |]; simpl; auto. rewrite IH; auto.
    intros o Ho. apply U. simpl; auto.
  Qed.

End Reproducible.

  Lemma groups_same g free order order' :
    (forall l, Permutation (order l) l) -> (forall l, Permutation (order' l) l) ->
    forall gs, find_strongly_connected_expressions g free order = Done gs ->
    exists gs', find_strongly_connected_expressions g free order' = Done gs' /\ Forall2 same_group gs gs'.
  Proof.
    intros P P' gs H. unfold find_strongly_connected_expressions in *.
    apply obind_done in H. destruct H as (m & Hm & H). rewrite Hm. cbn [obind].
    apply obind_done in H. destruct H as (sccs & Hs & H). rewrite Hs. cbn [obind].
    revert gs H. generalize (rev sccs). intros es.
    induction es as [|e es IH]; simpl; intros gs H; [inversion H; subst; eauto|].
    apply obind_done in H. destruct H as (a & Ha & H).
    apply obind_done in H. destruct H as (as_ & Has & H). inversion H; subst; clear H.
    destruct (IH _ Has) as (bs & Hb & Fb). rewrite Hb.
    unfold group_of in *.
    apply obind_done in Ha. destruct Ha as (vs & Hvs & Ha). rewrite Hvs. simpl.
    inversion Ha; subst. eexists. split; [reflexivity|]. constructor; auto. split; simpl; auto.
    eapply Permutation_trans; [apply P|apply Permutation_sym, P'].
  Qed.
