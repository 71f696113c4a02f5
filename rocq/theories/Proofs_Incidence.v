(** After every history an element lists exactly the constraints it is in, and so
    groups that constraints do not lead out of can be planned. *)
From Coq Require Import List Arith ZArith Bool Lia Permutation.
From Verif Require Import Num Outcome Lib ModelExpr ModelGraph ModelSystem ModelSolve ModelApi ModelAssembly
  Spec_Graph Spec_Solver Spec_History Spec_Components Spec_Assembly
  Proofs_Graph Proofs_System Proofs_History Proofs_Api Proofs_Components Proofs_Assembly.
Import ListNotations.
Local Open Scope nat_scope.

Definition incidence (g : graph) : Prop :=
  forall v ge c, nth_error (g_elements g) v = Some ge ->
    (In c (incident_constraints ge) <->
     exists gc, nth_error (g_constraints g) c = Some gc /\ In v (incident_elements gc)).

Lemma incidence_new : incidence graph_new.
Proof. intros v ge c H. destruct v; discriminate. Qed.
Lemma incidence_add_element d g : wf_graph g -> incidence g -> incidence (graph_add_element d g).
Proof.
  intros W I v ge c H. simpl in H. apply nth_error_snoc in H. destruct H as [[_ H]|[-> ->]]; [now apply I|].
  simpl. split; [contradiction|]. intros (gc & Hg & Hv). apply nth_error_In in Hg.
  pose proof (wg_inc _ W _ _ Hg Hv). lia.
Qed.
Lemma push_incident_ok c : forall elements es es', push_incident_constraint c elements es = Done es' ->
  length es' = length es /\
  forall v ge', nth_error es' v = Some ge' -> exists ge, nth_error es v = Some ge /\
    forall k, In k (incident_constraints ge') <-> In k (incident_constraints ge) \/ (k = c /\ In v elements).
Proof.
  induction elements as [|e elements IH]; intros es es' H.
  - inversion H; subst. split; [auto|]. intros v ge' Hv. exists ge'. split; [auto|]. intros k. simpl. tauto.
  - unfold push_incident_constraint in H. cbn [ofold] in H. apply obind_done in H. destruct H as (es1 & H1 & H).
    apply obind_done in H1. destruct H1 as (ge0 & Hg & H1). apply oget_done in Hg. apply oset_done in H1.
    destruct H1 as [Hl ->]. destruct (IH _ _ H) as [L K]. rewrite lset_length in L. split; [auto|].
    intros v ge' Hv. destruct (K v ge' Hv) as (ge1 & H1 & H2). destruct (Nat.eq_dec e v) as [->|Hne].
    + rewrite nth_error_lset_eq in H1 by auto. inversion H1; subst ge1. exists ge0. split; [auto|].
      intros k. rewrite H2. cbn [incident_constraints]. rewrite in_app_iff. simpl. intuition.
    + rewrite nth_error_lset_ne in H1 by auto. exists ge1. split; [auto|]. intros k. rewrite H2. simpl. intuition.
Qed.
Lemma incidence_add_constraint val elements g g' : wf_graph g -> incidence g ->
  graph_add_constraint val elements g = Done g' -> incidence g'.
Proof.
  intros W I H. unfold graph_add_constraint in H. cbv zeta in H.
  apply obind_done in H. destruct H as (g1 & H1 & H). apply obind_done in H. destruct H as (es & H2 & H).
  inversion H; subst g'. clear H.
  assert (E : g_elements g1 = g_elements g /\ g_constraints g1 = g_constraints g).
  { unfold merge_connected_components in H1. apply obind_done in H1. destruct H1 as ([best sz] & _ & H1).
    destruct (match best with Some ci => (ci, components g) | None => _ end) as [t comps].
    apply obind_done in H1. destruct H1 as (tc & _ & H1). cbv zeta in H1.
    apply obind_done in H1. destruct H1 as ([[ec cs] tc'] & _ & H1). cbv zeta in H1.
    apply obind_done in H1. destruct H1 as (cs'' & _ & H1). inversion H1; subst g1. auto. }
  destruct E as [E1 E2]. rewrite E1 in H2. apply push_incident_ok in H2. destruct H2 as [L K].
  intros v ge c Hv. cbn [g_elements g_constraints] in *. rewrite E2.
  destruct (K v ge Hv) as (ge0 & H0 & Hk). rewrite Hk, (I v ge0 c H0). split.
  - intros [(gc & Hg & Hin)|[-> Hin]].
    + exists gc. split; [now apply nth_error_app_old|auto].
    + eexists. split; [apply nth_error_app_new|auto].
  - intros (gc & Hg & Hin). apply nth_error_snoc in Hg. destruct Hg as [[_ Hg]|[-> ->]]; [left; eauto|right; auto].
Qed.

Section History.
  Context {F : Type} {NF : Num F}.
  Lemma history_incidence (env : solver_env F) id l s : env_ok env -> history env id l s -> incidence (sys_graph s).
  Proof.
    intros EO H. induction H as [|l s c s' r H IH A Hs]; [apply incidence_new|].
    destruct (history_inv _ _ _ _ EO H) as [sk I]. assert (M := iv_models _ _ _ _ I).
    assert (W := m_graph _ _ M). assert (G := step_graph _ _ _ _ _ _ EO M Hs).
    destruct r; try (destruct G as [->|[d ->]]; auto using incidence_add_element; fail).
    destruct G as (v & els & G). eapply incidence_add_constraint; eauto.
  Qed.

  (** A group whose constraints do not lead out of it *)
  Lemma group_closed (env : solver_env F) id l s c : env_ok env -> history env id l s ->
    In c (components (sys_graph s)) ->
    (forall k gc, In k (c_constraints c) -> nth_error (g_constraints (sys_graph s)) k = Some gc ->
       incl (incident_elements gc) (c_elements c)) ->
    closed_part (sys_graph s) (c_elements c) (c_constraints c).
  Proof.
    intros EO H Hc Hi. destruct (history_inv _ _ _ _ EO H) as [sk I]. assert (M := iv_models _ _ _ _ I).
    assert (W := m_graph _ _ M). pose proof (wg_part _ W) as P. apply In_nth_error in Hc. destruct Hc as [ci Hc].
    destruct (p_sorted _ _ _ _ P _ _ Hc) as [S1 S2].
    constructor.
    - split; [now apply ssorted_nodup|]. intros v Hv. rewrite <- (wg_len _ W). eapply p_range; eauto.
    - split; [now apply ssorted_nodup|]. intros k Hk. apply (p_ccov _ _ _ _ P). eauto.
    - exact Hi.
    - intros k gc v ge Hk Hg Hv He. apply (history_incidence _ _ _ _ EO H _ _ _ He). eauto.
  Qed.
  Lemma unmerged_closed (env : solver_env F) id l s c : env_ok env -> history env id l s -> never_merges l ->
    In c (components (sys_graph s)) -> closed_part (sys_graph s) (c_elements c) (c_constraints c).
  Proof.
    intros EO H T Hc. eapply group_closed; eauto. intros k gc Hk Hg e He.
    pose proof (never_merges_closed _ _ _ _ EO H T) as C.
    apply In_nth_error in Hc. destruct Hc as [ci Hc].
    assert (Hx : nth_error (element_component (sys_graph s)) e = Some (Some ci)).
    { eapply (cl_con _ C); [exists c; eauto| |exact He]. unfold hyperedges. now rewrite nth_error_map, Hg. }
    apply (cl_ec _ C) in Hx. destruct Hx as (c' & Hc' & Hin). rewrite Hc in Hc'. now inversion Hc'; subst.
  Qed.
End History.
