(** What is not fixed is handed to the optimizer: if the optimizer puts every
    coordinate it is given at [c], the constrained elements which are not fixed end
    at [c], brought back to the scale of the sketch. *)
From Coq Require Import List Arith NArith ZArith Lia Bool.
From Verif Require Import Num Outcome Lib ModelExpr ModelGraph ModelSystem ModelSolve
  ModelApi Spec_Sketch Spec_Graph Spec_Groups Spec_Solver Spec_History Spec_Components
  Proofs_Graph Proofs_System Proofs_Calls Proofs_Solve Proofs_History Proofs_Api Proofs_Components.
Import ListNotations.

Section Free.
  Context {F : Type} {NF : Num F}.
  Implicit Types (s : system F) (env : solver_env F).

  Lemma solve_none_constant env opt c scale free cs s s' : NoDup free ->
    (forall o p x, env_optimize env o p x = Done (repeat c (length x))) ->
    solve_none env opt scale free cs s = Done s' ->
    exists vs, s' = with_values vs (sys_variables_transformed s) s /\ length vs = length (sys_variables s) /\
      (forall v, In v free -> nth_error vs v = Some (nmul scale c)) /\
      (forall v, ~ In v free -> nth_error vs v = nth_error (sys_variables s) v).
  Proof.
    intros N C H. unfold solve_none in H.
    apply obind_done in H. destruct H as (values & Hv & H).
    apply obind_done in H. destruct H as (es & He & H).
    apply obind_done in H. destruct H as (values' & Ho & H).
    apply obind_done in H. destruct H as (vs & Hw & H). inversion H; subst.
    rewrite C in Ho. inversion Ho; subst values'.
    unfold write_back in Hw. simpl in Hw. rewrite index_set_nodup in Hw by auto.
    apply (write_spec (fun x => nmul scale x)) in Hw. destruct Hw as (L & U & W).
    exists vs. split; auto. split; auto. split; auto.
    intros v Hin. apply In_nth_error in Hin. destruct Hin as [i Hi].
    destruct (W N i v Hi) as (x & Hx & E). apply nth_error_In in Hx. apply repeat_spec in Hx. now subst x.
  Qed.

  Lemma solve_constant env c o s s' : o_decomposer o = DecomposeNone ->
    (forall o p x, env_optimize env o p x = Done (repeat c (length x))) ->
    solve env o s = Done s' ->
    forall v, writable s v -> nth_error (sys_variables s') v = Some (nmul (calculate_system_scale s) c).
  Proof.
    intros Ed C H. unfold solve in H.
    apply obind_done in H. destruct H as ([rng s1] & H & E). inversion E; subst s1.
    unfold scale_system in H. set (scale := calculate_system_scale s) in *.
    match type of H with context [with_transformed ?a ?b s] => set (s0 := with_transformed a b s) in * end.
    match type of H with ofold ?f _ _ = _ =>
      pose proof (ofold_inv_prefix (fun (pre : list component) (st : N * system F) =>
         (exists vs vt, snd st = with_values vs vt s0) /\
         (forall v co id e, In co pre -> In id (c_elements co) -> nth_error (sys_elements s) id = Some e ->
            In v (element_variables e) -> ~ In v (sys_fixed s) ->
            nth_error (sys_variables (snd st)) v = Some (nmul scale c))) f (components (sys_graph s0))) as G end.
    specialize (G) with (s := (42%N, s0)) (s' := (rng, s')). cbn [snd] in G.
    destruct G as [_ G]; auto.
    - intros pre co post [r1 s1] [r2 s2] Ec ((vs & vt & E1) & IH) Hst. cbn [snd] in *. subst s1.
      unfold solve_component in Hst. destruct (c_elements co) as [|e0 es0] eqn:Eco.
      + inversion Hst; subst. split; [eauto|]. intros v co' id e Hco Hid. apply in_app_iff in Hco.
        destruct Hco as [Hco|[<-|[]]]; [eauto|]. rewrite Eco in Hid. destruct Hid.
      + rewrite <- Eco in Hst. apply obind_done in Hst. destruct Hst as (free & Hf & Hst).
        apply component_free_spec in Hf. destruct Hf as [N Hf].
        apply obind_done in Hst. destruct Hst as ([rng1 vt1] & Hp & Hst).
        apply obind_done in Hst. destruct Hst as (s3 & Hs3 & Hst). inversion Hst; subst r2 s3.
        rewrite Ed in Hs3. apply (solve_none_constant _ _ c) in Hs3; auto.
        destruct Hs3 as (vs2 & -> & L & W & U). split; [eexists; eexists; reflexivity|].
        intros v co' id e Hco Hid He Hv Hn. cbn [sys_variables with_values] in *.
        destruct (in_dec Nat.eq_dec v free) as [I|I]; [auto|]. rewrite U by auto.
        apply in_app_iff in Hco. destruct Hco as [Hco|[<-|[]]]; [eapply IH; eauto|].
        exfalso. apply I. apply Hf. exists id, e. auto.
    - split; [|intros v co id e []]. exists (sys_variables s0), (sys_variables_transformed s0). reflexivity.
    - intros v (co & id & e & Q1 & Q2 & Q3 & Q4 & Q5). eapply G; eauto.
  Qed.

  Lemma free_moves env c id l s o s' r p : env_ok env -> history env id l s ->
    (forall o p x, env_optimize env o p x = Done (repeat c (length x))) ->
    o_decomposer o = DecomposeNone -> step env (Solve o) s = Done (s', r) ->
    In (RElement p) (map snd l) -> is_constrained l p -> is_fixed l p = false ->
    (forall x y, get_value p s = Done (VPoint (x, y)) ->
       get_value p s' = Done (VPoint (nmul (calculate_system_scale s) c, nmul (calculate_system_scale s) c))) /\
    (forall x, get_value p s = Done (VLength x) ->
       get_value p s' = Done (VLength (nmul (calculate_system_scale s) c))).
  Proof.
    intros EO H C Ed Hs K Co Fx. destruct (history_inv _ _ _ _ EO H) as [sk I].
    assert (M := iv_models _ _ _ _ I).
    destruct (groups_always _ _ _ _ EO H) as (GA & _). apply (GA p K) in Co.
    destruct Co as (g & co & Hco & Hin). apply nth_error_In in Hco.
    simpl in Hs. apply obind_done in Hs. destruct Hs as (s1 & Hs & E). inversion E; subst s1 r. clear E.
    assert (SC := solve_constant _ c _ _ _ Ed C Hs).
    assert (SF : sys_id s' = sys_id s /\ sys_elements s' = sys_elements s).
    { destruct (solve_sound _ _ _ _ EO (models_eq_ok _ _ M) (models_el_ok _ _ M) Hs) as (vt & et & (vs & vt' & -> & _)).
      split; reflexivity. }
    destruct SF as [S1 S2]. apply (known_own _ _ _ _ _ I) in K.
    assert (FX : forall k v, addr (sys_elements s) (eh_id p, k) = Some v -> ~ In v (sys_fixed s)).
    { intros k v Ha Hf. apply (m_fixed _ _ M _ _ Ha) in Hf.
      destruct (m_value _ _ M _ _ Ha) as [Hl Hv]. destruct (nth_error (sys_variables s) v) as [x|] eqn:Ex.
      - apply (iv_fixed _ _ _ _ I p k x) in Hf; auto. congruence.
      - apply nth_error_None in Ex. lia. }
    unfold get_value. rewrite S1.
    destruct (oassert (N.eqb (eh_system p) (sys_id s))) as [[]| |]; cbn [obind]; [|split; discriminate..].
    unfold typed_element. rewrite S2.
    destruct (nth_error (sys_elements s) (eh_id p)) as [e|] eqn:Ee.
    2: { unfold oget. rewrite Ee. cbn [obind]. split; discriminate. }
    assert (Oe : oget (sys_elements s) (eh_id p) = Done e) by (unfold oget; now rewrite Ee).
    rewrite Oe. cbn [obind].
    match goal with |- context [obind ?m _] => destruct m as [e'| |] eqn:Et end; cbn [obind]; [|split; discriminate..].
    assert (e' = e) by (destruct (eh_tag p), e; congruence). subst e'.
    assert (W : forall v, In v (element_variables e) -> ~ In v (sys_fixed s) ->
      oget (sys_variables s') v = Done (nmul (calculate_system_scale s) c)).
    { intros v Hv Hn. unfold oget. rewrite (SC v); auto. exists co, (eh_id p), e. auto. }
    destruct e as [a|a|a b|a b]; cbn [from_encoded_element].
    - split; intros; [destruct (oget (sys_variables s) a); discriminate|].
      rewrite W; auto; [simpl; auto|]. apply (FX 0). unfold addr. simpl. now rewrite Ee.
    - split; intros; [|destruct (read_point (sys_variables s) a); discriminate].
      unfold read_point. rewrite W; [|simpl; auto|apply (FX 0); unfold addr; simpl; now rewrite Ee].
      cbn [obind].
      rewrite W; [|simpl; auto|apply (FX 1); unfold addr; simpl; now rewrite Ee]. reflexivity.
    - split; intros ? *; destruct (read_point (sys_variables s) a); cbn [obind]; try discriminate;
        destruct (read_point (sys_variables s) b); discriminate.
    - split; intros ? *; destruct (read_point (sys_variables s) a); cbn [obind]; try discriminate;
        destruct (oget (sys_variables s) b); discriminate.
  Qed.
End Free.
