(** Every call of the API refines the sketch specification. *)
From Coq Require Import List Arith NArith ZArith Lia Bool Permutation.
From Verif Require Import Num Outcome Lib ModelExpr ModelGraph ModelSystem ModelMatching ModelSolve
  ModelNumerical ModelApi Spec_Sketch Spec_Graph Spec_Scc Spec_Matching Spec_Groups Spec_Solver
  Proofs_Graph Proofs_System Proofs_Calls Proofs_Analyze Proofs_Solve Proofs_Safe.
Import ListNotations.

Section Step.
  Context {F : Type} {NF : Num F}.
  Implicit Types (s : system F) (sk : sketch F) (env : solver_env F).

  (** The constraint handle of a residual call has the kind of the constraint
      (its type says so; only a handle of another system could differ). *)
  Definition unforged sk (c : call F) : Prop :=
    match c with
    | GetResidual h => forall r, nth_error (sk_relations sk) (ch_id h) = Some r ->
        ch_system h = sk_id sk -> ch_tag h = relation_tag r
    | _ => True
    end.

  Lemma item_create_sound s sk tag vals enc it s' h :
    models s sk ->
    new_item (sys_elements s) (length (sys_variables s)) it vals (enc (length (sys_variables s))) ->
    tag = item_tag it ->
    add_element tag vals enc s = Done (s', h) ->
    exists sk', add_item it sk = Some (sk', RElement h) /\ models s' sk'.
  Proof.
    intros M N -> H. destruct (add_element_models _ _ _ _ _ _ _ _ M N H) as [M' ->].
    eexists; split; [reflexivity|auto].
  Qed.

  Lemma relation_create_sound s sk r m s' rt : models s sk ->
    m = create_relation s sk r -> ret_constraint m = Done (s', rt) ->
    exists sk', add_relation r sk = Some (sk', rt) /\ models s' sk'.
  Proof.
    intros M -> H. unfold ret_constraint in H. apply obind_done in H.
    destruct H as ([s1 h] & H1 & H). inversion H; subst.
    destruct (create_relation_models _ _ _ _ _ M H1). eauto.
  Qed.

  Theorem step_sound env c s sk s' r : env_ok env -> models s sk -> unforged sk c ->
    step env c s = Done (s', r) -> exists sk', spec_step c sk sk' r /\ models s' sk'.
  Proof.
    intros EO M U H.
    assert (D : forall sk', spec_call c sk = Some (sk', r) -> models s' sk' ->
       exists sk', spec_step c sk sk' r /\ models s' sk').
    { intros sk' E1 E2. exists sk'. split; auto. now apply spec_determined. }
    destruct c; simpl in H.
    - unfold ret_element in H. apply obind_done in H. destruct H as ([s1 h] & H1 & H). inversion H; subst.
      eapply item_create_sound with (it := (ILength length)) in H1; [|exact M|unfold new_item; simpl; auto|reflexivity]. destruct H1 as (sk' & E & M'). eauto.
    - unfold ret_element in H. apply obind_done in H. destruct H as ([s1 h] & H1 & H). inversion H; subst.
      eapply item_create_sound with (it := (IPoint x y)) in H1; [|exact M|unfold new_item; simpl; auto|reflexivity]. destruct H1 as (sk' & E & M'). eauto.
    - unfold ret_element in H. apply obind_done in H. destruct H as ([s1 h] & H1 & H). inversion H; subst.
      unfold line_create in H1. rewrite !point_idx_eq in H1.
      destruct (pt_at (sys_elements s) (eh_id point1)) as [a|] eqn:Ea; [|discriminate].
      destruct (pt_at (sys_elements s) (eh_id point2)) as [b|] eqn:Eb; [|discriminate]. simpl in H1.
      eapply item_create_sound with (it := (ILine (eh_id point1) (eh_id point2))) in H1; [|exact M|unfold new_item; simpl; auto|reflexivity]. destruct H1 as (sk' & E & M').
      apply (D sk'); auto. simpl.
      rewrite (proj2 (has_tag_pt _ _ _ M)) by eauto. rewrite (proj2 (has_tag_pt _ _ _ M)) by eauto. auto.
    - unfold ret_element in H. apply obind_done in H. destruct H as ([s1 h] & H1 & H). inversion H; subst.
      unfold circle_create in H1. rewrite point_idx_eq, length_idx_eq in H1.
      destruct (pt_at (sys_elements s) (eh_id center)) as [a|] eqn:Ea; [|discriminate].
      destruct (len_at (sys_elements s) (eh_id radius)) as [b|] eqn:Eb; [|discriminate]. simpl in H1.
      eapply item_create_sound with (it := (ICircle (eh_id center) (eh_id radius))) in H1; [|exact M|unfold new_item; simpl; auto|reflexivity]. destruct H1 as (sk' & E & M').
      apply (D sk'); auto. simpl.
      rewrite (proj2 (has_tag_pt _ _ _ M)) by eauto. rewrite (proj2 (has_tag_len _ _ _ M)) by eauto. auto.
    - eapply relation_create_sound in H; [|exact M|now apply coincidence_create_eq]. destruct H as (sk' & E & M'). eauto.
    - eapply relation_create_sound in H; [|exact M|now apply ppd_create_eq]. destruct H as (sk' & E & M'). eauto.
    - eapply relation_create_sound in H; [|exact M|now apply pppa_create_eq]. destruct H as (sk' & E & M'). eauto.
    - eapply relation_create_sound in H; [|exact M|now apply pli_create_eq]. destruct H as (sk' & E & M'). eauto.
    - eapply relation_create_sound in H; [|exact M|now apply pld_create_eq]. destruct H as (sk' & E & M'). eauto.
    - eapply relation_create_sound in H; [|exact M|now apply pci_create_eq]. destruct H as (sk' & E & M'). eauto.
    - eapply relation_create_sound in H; [|exact M|now apply ssle_create_eq]. destruct H as (sk' & E & M'). eauto.
    - eapply relation_create_sound in H; [|exact M|now apply lla_create_eq]. destruct H as (sk' & E & M'). eauto.
    - eapply relation_create_sound in H; [|exact M|now apply llp_create_eq]. destruct H as (sk' & E & M'). eauto.
    - eapply relation_create_sound in H; [|exact M|now apply llperp_create_eq]. destruct H as (sk' & E & M'). eauto.
    - eapply relation_create_sound in H; [|exact M|now apply lct_create_eq]. destruct H as (sk' & E & M'). eauto.
    - unfold ret_unit in H. apply obind_done in H. destruct H as (s1 & H1 & H). inversion H; subst.
      destruct (fix_models _ _ _ _ M H1) as [T M']. eapply D; eauto. simpl. rewrite T. auto.
    - unfold ret_unit in H. apply obind_done in H. destruct H as (s1 & H1 & H). inversion H; subst.
      destruct (unfix_models _ _ _ _ M H1) as [T M']. eapply D; eauto. simpl. rewrite T. auto.
    - unfold ret_unit in H. apply obind_done in H. destruct H as (s1 & H1 & H). inversion H; subst.
      destruct (point_update_models _ _ _ _ _ _ M H1) as [T M']. eapply D; eauto. simpl. rewrite T. auto.
    - unfold ret_unit in H. apply obind_done in H. destruct H as (s1 & H1 & H). inversion H; subst.
      destruct (length_update_models _ _ _ _ _ M H1) as [T M']. eapply D; eauto. simpl. rewrite T. auto.
    - unfold ret_unit in H. apply obind_done in H. destruct H as (s1 & H1 & H). inversion H; subst.
      pose proof (update_parameter_eq _ _ h x M) as Q.
      destruct (nth_error (sk_relations sk) (ch_id h)) as [r|] eqn:Er; [|congruence].
      destruct (with_parameter (ch_tag h) x r) as [r'|] eqn:Ep; [|congruence].
      destruct Q as (s2 & Q1 & Q2). replace s2 with s' in * by congruence.
      eapply D; eauto. simpl. rewrite Er, Ep. auto.
    - apply obind_done in H. destruct H as (v & H1 & H). inversion H; subst.
      pose proof (get_value_eq _ _ h M) as Q.
      eapply D; [|exact M]. simpl.
      destruct (N.eqb (eh_system h) (sk_id sk) && has_tag sk (eh_tag h) (eh_id h)); [|congruence].
      destruct (value_of sk (eh_id h)); congruence.
    - apply obind_done in H. destruct H as (v & H1 & H). inversion H; subst.
      assert (Hs : ch_system h = sk_id sk).
      { unfold constraint_residual in H1. apply obind_done in H1. destruct H1 as (u & Ha & _).
        apply oassert_done in Ha. rewrite <- (m_id _ _ M). now apply N.eqb_eq in Ha. }
      destruct (nth_error (sk_relations sk) (ch_id h)) as [r|] eqn:Er.
      + destruct (residual_eq _ _ _ _ M Er Hs (U _ Er Hs)) as (x & E1 & E2).
        eapply D; [|exact M]. simpl. rewrite Er, (proj2 (N.eqb_eq _ _) Hs), E1. congruence.
      + exfalso. unfold constraint_residual in H1. apply obind_done in H1. destruct H1 as (u & Ha & H1).
        apply obind_done in H1. destruct H1 as (ec & He & _). apply oget_done in He.
        apply nth_error_lt in He. rewrite (m_clen _ _ M) in He. apply nth_error_None in Er. lia.
    - inversion H; subst. eapply D; [|exact M]. simpl. now rewrite (element_handles_eq _ _ M).
    - inversion H; subst. eapply D; [|exact M]. simpl. now rewrite (constraint_handles_eq _ _ M).
    - apply obind_done in H. destruct H as (hs & H1 & H). inversion H; subst.
      destruct (find_overconstraints_ok _ _ M) as (hs' & E & I). assert (hs' = hs) by congruence. subst.
      exists sk. split; auto. now constructor.
    - unfold ret_unit in H. apply obind_done in H. destruct H as (s1 & H1 & H). inversion H; subst.
      destruct (solve_models _ _ _ _ _ EO M H1) as (sk' & M' & S). exists sk'. split; auto.
      destruct (o_decomposer opts) eqn:Ed;
      [apply spec_solve|apply spec_solve|apply spec_solve_assembly]; auto; congruence.
  Qed.

  (** The program's own size limits: fewer than 2^32 of everything *)
  Definition room s : Prop :=
    (N.of_nat (length (sys_elements s)) < 2 ^ 32)%N /\
    (N.of_nat (length (sys_variables s)) < 2 ^ 32)%N /\
    (N.of_nat (length (sys_constraints s)) < 2 ^ 32)%N /\
    (N.of_nat (length (sys_expressions s)) < 2 ^ 32)%N.

  Lemma add_element_ok s tag vals enc : room s ->
    exists s' h, add_element (F := F) tag vals enc s = Done (s', h).
  Proof.
    intros (R1 & R2 & _). unfold add_element. rewrite !to_u32_ok by auto. simpl. eauto.
  Qed.
  Lemma relation_create_progress s sk r m : models s sk -> room s -> relation_ok sk r = true ->
    m = create_relation s sk r -> exists s' rt, ret_constraint m = Done (s', rt).
  Proof.
    intros M R O ->. destruct (create_relation_ok _ _ _ M O) as (s' & h & ->); try apply R.
    simpl. eauto.
  Qed.

  Theorem step_progress env c s sk sk1 r1 : models s sk -> room s -> unforged sk c ->
    spec_call c sk = Some (sk1, r1) -> exists s' r, step env c s = Done (s', r).
  Proof.
    intros M R U H. destruct c; cbn [spec_call] in H.
    1,2: cbn [step]; unfold length_create, point_create, ret_element.
    1: destruct (add_element_ok s TLength [length] ELength R) as (s' & h & ->); simpl; eauto.
    1: destruct (add_element_ok s TPoint [x; y] EPoint R) as (s' & h & ->); simpl; eauto.
    1,2: destruct (_ && _)%bool eqn:E in H; [|discriminate]; apply andb_true_iff in E; destruct E as [E1 E2];
       cbn [step]; unfold line_create, circle_create, ret_element;
       rewrite ?point_idx_eq, ?length_idx_eq.
    1: apply (has_tag_pt _ _ _ M) in E1, E2; destruct E1 as [a ->], E2 as [b ->]; cbn [obind];
       destruct (add_element_ok s TLine [] (fun _ => ELine a b) R) as (s' & h & ->); simpl; eauto.
    1: apply (has_tag_pt _ _ _ M) in E1; apply (has_tag_len _ _ _ M) in E2;
       destruct E1 as [a ->], E2 as [b ->]; cbn [obind];
       destruct (add_element_ok s TCircle [] (fun _ => ECircle a b) R) as (s' & h & ->); simpl; eauto.
    1-11: unfold add_relation in H; destruct (relation_ok _ _) eqn:E in H; [|discriminate]; cbn [step].
    - exact (relation_create_progress _ _ _ _ M R E (coincidence_create_eq _ _ _ _ M)).
    - exact (relation_create_progress _ _ _ _ M R E (ppd_create_eq _ _ _ _ _ M)).
    - exact (relation_create_progress _ _ _ _ M R E (pppa_create_eq _ _ _ _ _ _ M)).
    - exact (relation_create_progress _ _ _ _ M R E (pli_create_eq _ _ _ _ M)).
    - exact (relation_create_progress _ _ _ _ M R E (pld_create_eq _ _ _ _ _ M)).
    - exact (relation_create_progress _ _ _ _ M R E (pci_create_eq _ _ _ _ M)).
    - exact (relation_create_progress _ _ _ _ M R E (ssle_create_eq _ _ _ _ _ _ M)).
    - exact (relation_create_progress _ _ _ _ M R E (lla_create_eq _ _ _ _ _ M)).
    - exact (relation_create_progress _ _ _ _ M R E (llp_create_eq _ _ _ _ M)).
    - exact (relation_create_progress _ _ _ _ M R E (llperp_create_eq _ _ _ _ M)).
    - exact (relation_create_progress _ _ _ _ M R E (lct_create_eq _ _ _ _ M)).
    - destruct (has_tag _ _ _) eqn:E in H; [|discriminate]. destruct (fix_ok _ _ _ M E) as [s' Hs].
      simpl. rewrite Hs. simpl; eauto.
    - destruct (has_tag _ _ _) eqn:E in H; [|discriminate]. destruct (unfix_ok _ _ _ M E) as [s' Hs].
      simpl. rewrite Hs. simpl; eauto.
    - destruct (has_tag _ _ _) eqn:E in H; [|discriminate]. destruct (point_update_ok _ _ _ x y M E) as [s' Hs].
      simpl. rewrite Hs. simpl; eauto.
    - destruct (has_tag _ _ _) eqn:E in H; [|discriminate]. destruct (length_update_ok _ _ _ length M E) as [s' Hs].
      simpl. rewrite Hs. simpl; eauto.
    - pose proof (update_parameter_eq _ _ h x M) as Q.
      destruct (nth_error (sk_relations sk) (ch_id h)) as [r|] eqn:Er; [|discriminate].
      destruct (with_parameter (ch_tag h) x r) as [r'|] eqn:Ep; [|discriminate].
      destruct Q as (s2 & Q1 & Q2). simpl. rewrite Q1. simpl; eauto.
    - pose proof (get_value_eq _ _ h M) as Q.
      destruct (N.eqb (eh_system h) (sk_id sk) && has_tag sk (eh_tag h) (eh_id h)); [|discriminate].
      destruct (value_of sk (eh_id h)); [|discriminate]. simpl. rewrite Q. simpl; eauto.
    - destruct (nth_error (sk_relations sk) (ch_id h)) as [r|] eqn:Er; [|discriminate].
      destruct (N.eqb_spec (ch_system h) (sk_id sk)) as [Hs|]; [|discriminate].
      destruct (residual_eq _ _ _ _ M Er Hs (U _ Er Hs)) as (x & E1 & E2).
      simpl. rewrite E2. simpl; eauto.
    - simpl; eauto.
    - simpl; eauto.
    - discriminate.
    - discriminate.
  Qed.
End Step.
