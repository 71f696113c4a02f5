(** If the optimizer returns, given enough rounds, then so does [solve]. *)
From Coq Require Import List Arith NArith Lia Bool.
From Verif Require Import Num Outcome Lib ModelExpr ModelGraph ModelSystem ModelMatching ModelSolve ModelApi
  Spec_Sketch Spec_Graph Proofs_Graph Proofs_System Proofs_Calls Spec_Matching Proofs_Matching Spec_Scc Proofs_Scc Spec_Groups Proofs_Groups
  Spec_Solver Proofs_Solve Spec_Pass Proofs_Safe Spec_History Proofs_Step Proofs_History Proofs_Api.
Import ListNotations.
Local Open Scope nat_scope.

(** From some number of rounds on, [f] gives [a]. *)
Definition eventually {A} (f : nat -> outcome A) (a : A) : Prop :=
  exists n, forall k, n < k -> f k = Done a.

Lemma eventually_done {A} (a : A) : eventually (fun _ => Done a) a.
Proof. now exists 0. Qed.
Lemma eventually_bind {A B} (f : nat -> outcome A) (g : nat -> A -> outcome B) a b :
  eventually f a -> eventually (fun k => g k a) b -> eventually (fun k => obind (f k) (g k)) b.
Proof.
  intros (n & Hn) (m & Hm). exists (Nat.max n m). intros k Hk. rewrite Hn by lia. cbn [obind]. apply Hm. lia.
Qed.
Lemma eventually_fold {A S} (P : S -> Prop) (f : nat -> S -> A -> outcome S) l :
  (forall a s, In a l -> P s -> exists s', eventually (fun k => f k s a) s' /\ P s') ->
  forall s, P s -> exists s', eventually (fun k => ofold (f k) l s) s' /\ P s'.
Proof.
  induction l as [|a l IH]; intros Hf s Hs.
  - exists s. split; [apply eventually_done|exact Hs].
  - destruct (Hf a s (or_introl eq_refl) Hs) as (s1 & E1 & P1).
    destruct (IH (fun a s H => Hf a s (or_intror H)) s1 P1) as (s2 & E2 & P2).
    exists s2. split; [|exact P2]. cbn [ofold]. eapply (eventually_bind _ (fun k => ofold (f k) l)); eauto.
Qed.

Section Returns.
  Context {F : Type} {NF : Num F}.
  (** The solver with so many rounds *)
  Variable E : nat -> solver_env F.
  Variable order : list nat -> list nat.
  Hypothesis Eorder : forall k, env_order (E k) = order.
  Hypothesis EO : forall k, env_ok (E k).
  Variable opt : optimizer.
  Variable K : N.
  Hypothesis Ereturns : forall p x, problem_ok p -> sized K p -> length x = num_variables p ->
    exists x', length x' = length x /\ eventually (fun k => env_optimize (E k) opt p x) x'.

  Lemma solve_none_returns scale free c s : run_ok s -> limited K s -> NoDup free ->
    (forall v, In v free -> v < length (sys_variables s)) ->
    In c (components (sys_graph s)) ->
    exists s', eventually (fun k => solve_none (E k) opt scale free (c_constraints c) s) s'.
  Proof.
    intros O HL N Hr Hc. unfold solve_none.
    destruct (get_values s free O Hr) as (values & Hv & Lv). rewrite Hv. cbn [obind].
    destruct (ro_comp _ O c Hc) as [_ Hk].
    assert (Hes : exists es, component_expressions s (c_constraints c) = Done es /\
       forall j, In j es -> j < length (sys_expressions_transformed s)).
    { unfold component_expressions. match goal with |- context [omap ?f ?l] => destruct (omap_ok f l) as [ess Hess] end.
      { intros k Hin. destruct (Hk k Hin) as (ec & Hec & _). unfold oget. rewrite Hec. simpl. eauto. }
      rewrite Hess. simpl. eexists; split; [reflexivity|]. intros j Hj. apply in_concat in Hj.
      destruct Hj as (l & Hl & Hj). destruct (omap_in _ _ _ _ Hess Hl) as (k & Hin & Hf).
      destruct (Hk k Hin) as (ec & Hec & Hle). unfold oget in Hf. rewrite Hec in Hf. simpl in Hf.
      inversion Hf; subst. apply in_map_iff in Hj. destruct Hj as (o & <- & Ho). apply in_seq in Ho. lia. }
    destruct Hes as (es & Hes & Hin). rewrite Hes. cbn [obind].
    set (ss := subsystem_new (sys_variables_transformed s) (sys_expressions_transformed s) free es).
    assert (OK : problem_ok (subsystem_problem ss)).
    { apply subsystem_ok. split; simpl; auto. rewrite (ro_vt _ O). apply (ro_ex _ O). }
    assert (Efree : ss_free_variables ss = free) by (simpl; now apply index_set_nodup).
    assert (Ln : length values = num_variables (subsystem_problem ss)) by (change (num_variables (subsystem_problem ss)) with (length (ss_free_variables ss)); rewrite Efree; auto).
    assert (Sz : sized K (subsystem_problem ss)) by (apply (none_sized K s free c es); auto).
    destruct (Ereturns _ _ OK Sz Ln) as (values' & L' & Ev).
    unfold write_back.
    destruct (write_ok (fun x => nmul scale x) values' free 0 (sys_variables s)) as [vs Hvs]; auto; [simpl; lia|].
    eexists. eapply (eventually_bind _ (fun _ values' => _)); [exact Ev|]. cbn beta.
    rewrite Efree, Hvs. cbn [obind]. apply eventually_done.
  Qed.

  Lemma solve_group_returns scale s g : run_ok s -> limited K s ->
    NoDup (group_free_variables g) -> NoDup (group_expressions g) ->
    (forall v, In v (group_free_variables g) -> v < length (sys_variables s)) ->
    (forall e, In e (group_expressions g) -> e < length (sys_expressions_transformed s)) ->
    exists s', eventually (fun k => solve_group (E k) opt scale s g) s'.
  Proof.
    intros O HL N Ne Hr He. unfold solve_group.
    destruct (get_values s _ O Hr) as (values & Hv & Lv). rewrite Hv. cbn [obind].
    set (ss := subsystem_new (sys_variables_transformed s) (sys_expressions_transformed s)
                 (group_free_variables g) (group_expressions g)).
    assert (OK : problem_ok (subsystem_problem ss)).
    { apply subsystem_ok. split; simpl; auto. rewrite (ro_vt _ O). apply (ro_ex _ O). }
    assert (Efree : ss_free_variables ss = group_free_variables g) by (simpl; now apply index_set_nodup).
    assert (Ln : length values = num_variables (subsystem_problem ss)) by (change (num_variables (subsystem_problem ss)) with (length (ss_free_variables ss)); rewrite Efree; auto).
    assert (Sz : sized K (subsystem_problem ss)) by (now apply (group_sized K s g)).
    destruct (Ereturns _ _ OK Sz Ln) as (values' & L' & Ev).
    unfold write_back, write_back_transformed.
    destruct (write_ok (fun x => x) values' (group_free_variables g) 0 (sys_variables_transformed s)) as [vt Hvt];
      [rewrite (ro_vt _ O); auto|simpl; lia|].
    destruct (write_ok (fun x => nmul scale x) values' (group_free_variables g) 0 (sys_variables s)) as [vs Hvs];
      auto; [simpl; lia|].
    eexists. eapply (eventually_bind _ (fun _ values' => _)); [exact Ev|]. cbn beta.
    rewrite Efree, Hvt. cbn [obind]. rewrite Hvs. cbn [obind]. apply eventually_done.
  Qed.

  Lemma single_pass_returns scale free s : run_ok s -> limited K s ->
    NoDup free -> (forall v, In v free -> v < length (sys_variables s)) ->
    exists s', eventually (fun k => solve_single_pass (E k) opt scale free s) s'.
  Proof.
    intros O HL N Hr. unfold solve_single_pass. destruct (ro_eq _ O) as [E1 E2].
    destruct (find_groups_ok (sys_eqgraph s) free order) as (m & gs & Q1 & Q2 & Q3 & Q4 & Q5); auto.
    - intros v Hv. rewrite E1. auto.
    - left. apply (ro_room _ O).
    - rewrite <- (Eorder 0). apply (EO 0).
    - destruct (eventually_fold (fun s1 => rewritten (fun _ => True) s s1) (fun k => solve_group (E k) opt scale) gs) with (s := s)
        as (s' & Es & _).
      + intros g s1 Hg R. destruct (group_in_range s free m gs g O Q5 Hr Q2 Hg) as (G1 & G2 & G3 & G4).
        assert (O1 : run_ok s1) by (eapply rewritten_run_ok; eauto).
        assert (Lv : length (sys_variables s1) = length (sys_variables s)).
        { destruct R as (vs & vt & -> & L & _). auto. }
        assert (Et : sys_expressions_transformed s1 = sys_expressions_transformed s).
        { destruct R as (vs & vt & -> & _). auto. }
        destruct (solve_group_returns scale s1 g O1 (rewritten_limited _ _ _ _ R HL) G1 G4) as (s2 & Ev); [rewrite Lv; auto|rewrite Et; auto|].
        exists s2. split; [exact Ev|]. destruct Ev as (n & Ev). specialize (Ev (S n) (le_n _)).
        apply solve_group_sound in Ev; auto. eapply rewritten_trans; eauto.
        eapply rewritten_weaken; [|exact Ev]. auto.
      + apply rewritten_refl.
      + exists s'. destruct Es as (n & Es). exists n. intros k Hk. rewrite Eorder, Q4. cbn [obind]. now apply Es.
  Qed.

  Lemma solve_component_returns opts scale rng s c : run_ok s -> limited K s -> o_optimizer opts = opt ->
    o_decomposer opts <> RecursiveAssembly -> In c (components (sys_graph s)) ->
    exists st, eventually (fun k => solve_component (E k) opts scale (rng, s) c) st.
  Proof.
    intros O HL Ho Hd Hc. unfold solve_component.
    destruct (c_elements c) as [|e0 es0] eqn:Ec; [eexists; apply eventually_done|]. rewrite <- Ec.
    destruct (ro_comp _ O c Hc) as [He _].
    destruct (component_free_ok s (c_elements c) He) as [free Hf]. rewrite Hf. cbn [obind].
    apply component_free_spec in Hf. destruct Hf as [N Hf].
    assert (Hr : forall v, In v free -> v < length (sys_variables s)).
    { intros v Hv. apply Hf in Hv. destruct Hv as (id & e & _ & Hee & Hv & _). eapply (ro_el _ O); eauto. }
    assert (Hp : exists rng1 vt, (if o_perturb opts then perturb_variables free rng (sys_variables_transformed s)
              else Done (rng, sys_variables_transformed s)) = Done (rng1, vt) /\
              length vt = length (sys_variables_transformed s)).
    { destruct (o_perturb opts); [|eauto].
      destruct (perturb_ok free rng (sys_variables_transformed s)) as [[r1 vt] Hp].
      { intros v Hv. rewrite (ro_vt _ O). auto. }
      exists r1, vt. split; auto. now apply perturb_spec in Hp. }
    destruct Hp as (rng1 & vt & Hp & Lvt). rewrite Hp. cbn [obind].
    set (s1 := with_values (sys_variables s) vt s).
    assert (O1 : run_ok s1).
    { eapply (rewritten_run_ok (fun _ => True)); eauto. exists (sys_variables s), vt. auto. }
    rewrite Ho.
    destruct (o_decomposer opts) eqn:Ed; [| |congruence].
    - destruct (solve_none_returns scale free c s1) as (s' & Es); auto.
      exists (rng1, s'). eapply (eventually_bind _ (fun _ s => Done (rng1, s))); [exact Es|apply eventually_done].
    - destruct (single_pass_returns scale free s1) as (s' & Es); auto.
      exists (rng1, s'). eapply (eventually_bind _ (fun _ s => Done (rng1, s))); [exact Es|apply eventually_done].
  Qed.

  Theorem solve_returns opts s sk : models s sk -> limited K s ->
    (N.of_nat (length (sys_expressions s)) < 2 ^ 32)%N -> o_optimizer opts = opt ->
    o_decomposer opts <> RecursiveAssembly -> exists s', eventually (fun k => solve (E k) opts s) s'.
  Proof.
    intros M HL HR Ho Hd. unfold solve, scale_system.
    match goal with |- context [with_transformed ?a ?b s] => set (s0 := with_transformed a b s) end.
    assert (O0 : run_ok s0). { eapply models_run_ok; eauto. apply map_length. }
    destruct (eventually_fold (fun st => rewritten (fun _ => True) s0 (snd st))
      (fun k => solve_component (E k) opts (calculate_system_scale s)) (components (sys_graph s0))) with (s := (42%N, s0))
      as ([rng' s'] & Es & _).
    - intros c [rng s1] Hc R. simpl in R. assert (O1 : run_ok s1) by (eapply rewritten_run_ok; eauto).
      assert (Hc1 : In c (components (sys_graph s1))) by (destruct R as (vs & vt & -> & _); auto).
      destruct (solve_component_returns opts (calculate_system_scale s) rng s1 c O1 (rewritten_limited _ _ _ _ R HL) Ho Hd Hc1) as ([rng2 s2] & Ev).
      exists (rng2, s2). split; [exact Ev|]. destruct Ev as (n & Ev). specialize (Ev (S n) (le_n _)).
      simpl. eapply rewritten_trans; eauto. eapply rewritten_weaken; [|
        eapply solve_component_sound; eauto; apply O1]. auto.
    - apply rewritten_refl.
    - exists s'. eapply (eventually_bind _ (fun _ '(_, s) => Done s)); [exact Es|apply eventually_done].
  Qed.

  Lemma solve_returns_small env id l s opts : env_ok env -> history env id l s -> small l ->
    (N.of_nat (length (created_elements l)) <= K)%N -> (N.of_nat (length (created_constraints l)) <= K)%N ->
    o_optimizer opts = opt ->
    o_decomposer opts <> RecursiveAssembly -> exists s', eventually (fun k => solve (E k) opts s) s'.
  Proof.
    intros EOK H S S1 S2 Ho Hd. destruct (history_inv _ _ _ _ EOK H) as [sk I].
    eapply solve_returns; eauto; [apply (iv_models _ _ _ _ I)|eapply inv_limited; eauto|].
    pose proof (small_room _ _ _ _ I S) as HR. unfold room in HR. lia.
  Qed.
End Returns.
