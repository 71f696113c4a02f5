(** Single-pass solving of systems reached through the API. *)
From Coq Require Import List Arith NArith ZArith Lia Bool Permutation.
From Verif Require Import Num Outcome Lib ModelExpr ModelGraph ModelSystem ModelMatching ModelSolve
  ModelNumerical ModelApi Spec_Sketch Spec_Matching Spec_Groups Spec_Solver Spec_History Spec_Pass
  Proofs_Graph Proofs_System Proofs_Matching Proofs_Groups Proofs_Solve Proofs_Safe Proofs_Step
  Proofs_History Proofs_Api.
Import ListNotations.

Section Pass.
  Context {F : Type} {NF : Num F}.
  Implicit Types (s : system F) (env : solver_env F) (l : log F).

  Lemma solve_group_written env opt scale s g s' : NoDup (group_free_variables g) ->
    solve_group env opt scale s g = Done s' ->
    forall v, In v (group_free_variables g) -> exists x,
      nth_error (sys_variables_transformed s') v = Some x /\
      nth_error (sys_variables s') v = Some (nmul scale x).
  Proof.
    intros N H v Hv. unfold solve_group in H.
    apply obind_done in H. destruct H as (values & Hvv & H).
    apply obind_done in H. destruct H as (values' & Ho & H).
    apply obind_done in H. destruct H as (vt & Ht & H).
    apply obind_done in H. destruct H as (vs & Hw & H). inversion H; subst. simpl.
    unfold write_back in Hw. unfold write_back_transformed in Ht. simpl in Hw, Ht.
    rewrite index_set_nodup in Hw, Ht by auto.
    apply (write_spec (fun x => nmul scale x)) in Hw. destruct Hw as (_ & _ & U).
    apply (write_spec (fun x => x)) in Ht. destruct Ht as (_ & _ & U').
    apply In_nth_error in Hv. destruct Hv as [i Hi].
    destruct (U N _ _ Hi) as (x & X1 & X2). destruct (U' N _ _ Hi) as (x' & X1' & X2').
    exists x. split; auto. congruence.
  Qed.

  Theorem single_pass env id l s scale vs vt opt free s' : env_ok env -> history env id l s -> small l ->
    length vs = length (sys_variables s) -> length vt = length (sys_variables s) ->
    NoDup free -> (forall v, In v free -> v < length (sys_variables s)) ->
    let s0 := with_values vs vt (scale_system scale s) in
    solve_single_pass env opt scale free s0 = Done s' ->
    exists M gs,
      is_maximum_matching (masked (sys_eqgraph s) free) M /\
      group_order (map variable_indices (sys_expressions s)) free M gs /\
      ofold (solve_group env opt scale) gs s0 = Done s' /\
      (forall i j gi gj v, nth_error gs i = Some gi -> nth_error gs j = Some gj ->
         In v (group_free_variables gi) -> In v (group_free_variables gj) -> i = j) /\
      (forall v, ~ (exists g, In g gs /\ In v (group_free_variables g)) ->
         nth_error (sys_variables s') v = nth_error vs v) /\
      (forall v g, In g gs -> In v (group_free_variables g) -> exists x,
         nth_error (sys_variables_transformed s') v = Some x /\
         nth_error (sys_variables s') v = Some (nmul scale x)) /\
      (forall Z : F -> Prop,
         (forall pre g post s1, gs = pre ++ g :: post ->
            ofold (solve_group env opt scale) (pre ++ [g]) s0 = Done s1 ->
            forall e, In e (group_expressions g) -> exists r, residual_in s1 e = Done r /\ Z r) ->
         forall e, matched M e -> exists r, residual_in s' e = Done r /\ Z r).
  Proof.
    intros EO H Sm Lvs Lvt N Hr s0 HS. destruct (history_inv _ _ _ _ EO H) as [sk I].
    assert (M := iv_models _ _ _ _ I). assert (Ro := small_room _ _ _ _ I Sm).
    assert (O : run_ok s0).
    { assert (Oa : run_ok (scale_system scale s)).
      { unfold scale_system. apply (models_run_ok _ _ _ _ M); [now rewrite map_length|apply Ro]. }
      eapply (rewritten_run_ok (fun _ => True)); [|exact Oa].
      exists vs, vt. unfold s0. split; [auto|]. simpl. rewrite map_length. split; [auto|]. split; [auto|]. intros v Hv. exfalso; apply Hv; exact Logic.I. }
    assert (GM : graph_matches s0).
    { unfold graph_matches, s0. simpl. rewrite (m_eqe _ _ M), map_map. apply map_ext.
      intros e. symmetry. apply transform_indices. }
    assert (Hr0 : forall v, In v free -> v < length (sys_variables s0)).
    { intros v Hv. unfold s0. simpl. rewrite Lvs. auto. }
    assert (HS' := HS). unfold solve_single_pass in HS'. apply obind_done in HS'. destruct HS' as (gs & Hg & Hf).
    destruct (groups_in_range _ _ _ _ EO (ro_eq _ O) N Hr0 Hg) as (m & V & MM & GO).
    exists (a_to_b m), gs. split; [exact MM|].
    assert (Ee : eq_expressions (sys_eqgraph s0) = map variable_indices (sys_expressions s)) by (apply (m_eqe _ _ M)).
    split; [now rewrite <- Ee|]. split; [auto|]. split; [|split; [|split]].
    - intros i j gi gj v. eapply (written_once free m gs s0); eauto.
    - intros v Hv. change (nth_error vs v) with (nth_error (sys_variables s0) v).
      assert (Q : forall gl s1, incl gl gs -> ofold (solve_group env opt scale) gl s1 = Done s' ->
        nth_error (sys_variables s') v = nth_error (sys_variables s1) v).
      { induction gl as [|g gl IH]; simpl; intros s1 Hi Hfo; [inversion Hfo; auto|].
        apply obind_done in Hfo. destruct Hfo as (s2 & H2 & Hfo).
        rewrite (IH _ (fun x Hx => Hi x (or_intror Hx)) Hfo).
        apply (solve_group_frame _ _ _ _ _ _ (go_vonce _ _ _ _ GO g (Hi g (or_introl eq_refl))) H2).
        intros Hin. apply Hv. exists g. split; auto. apply Hi. simpl; auto. }
      apply (Q gs); auto. intros x; auto.
    - intros v g Hgin Hv.
      assert (Q : forall gl s1, incl gl gs -> ofold (solve_group env opt scale) gl s1 = Done s' ->
        (In g gl \/ exists x, nth_error (sys_variables_transformed s1) v = Some x /\
                              nth_error (sys_variables s1) v = Some (nmul scale x)) ->
        exists x, nth_error (sys_variables_transformed s') v = Some x /\
                  nth_error (sys_variables s') v = Some (nmul scale x)).
      { induction gl as [|g0 gl IH]; simpl; intros s1 Hi Hfo Hor.
        { inversion Hfo; subst. destruct Hor as [[]|]; auto. }
        apply obind_done in Hfo. destruct Hfo as (s2 & H2 & Hfo).
        assert (Nd := go_vonce _ _ _ _ GO g0 (Hi g0 (or_introl eq_refl))).
        apply (IH s2); auto; [intros x Hx; apply Hi; simpl; auto|].
        destruct (in_dec Nat.eq_dec v (group_free_variables g0)) as [Hin|Hout].
        - right. eapply solve_group_written; eauto.
        - destruct Hor as [[<-|Hor]|Hor]; [contradiction|auto|].
          right. destruct (solve_group_frame _ _ _ _ _ _ Nd H2 v Hout) as [-> ->]. auto. }
      eapply Q; eauto. intros x; auto.
    - intros Z HZ e He. eapply (single_pass_keeps env opt scale free m gs s0); eauto.
  Qed.
End Pass.

Lemma amap_in (m : amap nat) : NoDup (map fst m) -> forall a b, In (a, b) m <-> aget m a = Some b.
Proof.
  induction m as [|[k v] m IH]; simpl; intros N a b; [split; [intros []|discriminate]|].
  apply NoDup_cons_iff in N. destruct N as [N1 N2]. destruct (Nat.eqb_spec a k) as [->|Ne].
  - split; intros H.
    + destruct H as [H|H]; [inversion H; auto|]. exfalso. apply N1. apply in_map_iff. exists (k, b). auto.
    + inversion H; auto.
  - rewrite <- IH by auto. split; [intros [H|H]; auto; inversion H; congruence|auto].
Qed.
Lemma maximum_matching_symmetric g : NoDup (vertices_a g) ->
  (forall a, In a (vertices_a g) -> exists bs, neighbors_of_a g a = Some bs) ->
  exists m, find_maximum_matching g = Done m /\ is_maximum_matching g (a_to_b m) /\
    (forall a b, In (a, b) (a_to_b m) <-> In (b, a) (b_to_a m)).
Proof.
  intros N H. destruct (find_maximum_matching_ok g N H) as (m & E & V & MM). exists m.
  split; [auto|]. split; [auto|]. intros a b.
  rewrite (amap_in _ (v_nda _ _ V)), (amap_in _ (v_ndb _ _ V)). split; [apply (v_ab _ _ V)|apply (v_ba _ _ V)].
Qed.
Lemma groups_ordered (g : eqgraph) free order :
  NoDup free -> (forall v, In v free -> v < length (eq_variables g)) ->
  (forall v l, nth_error (eq_variables g) v = Some l ->
     forall e, In e l <-> mentions (eq_expressions g) e v) ->
  (N.of_nat (length (eq_expressions g)) < 2 ^ 32)%N ->
  (forall l, Permutation (order l) l) ->
  exists m gs, find_maximum_matching (masked g free) = Done m /\
    find_strongly_connected_expressions g free order = Done gs /\
    group_order (eq_expressions g) free (a_to_b m) gs.
Proof.
  intros H1 H2 H3 H4 H5. destruct (find_groups_ok g free order) as (m & gs & Q1 & Q2 & Q3 & Q4 & Q5); auto.
  exists m, gs. auto.
Qed.
