(** In exact arithmetic, solving by Levenberg-Marquardt gives the same whatever the
    order in which hash sets are gone through and entries are sorted. *)
From Coq Require Import List Arith NArith Lia Bool Permutation Reals Lra.
From Verif Require Import Num NumR Outcome Lib ModelExpr ModelGraph ModelSystem ModelMatching ModelSolve ModelApi
  Spec_Sketch Spec_Graph Proofs_Graph Proofs_System Proofs_Calls Spec_Matching Proofs_Matching Spec_Scc Proofs_Scc Spec_Groups Proofs_Groups
  Spec_Solver Proofs_Solve Spec_Pass Proofs_Safe Spec_History Proofs_Step Proofs_History Proofs_Api Proofs_Returns
  Spec_Linear Spec_Jacobian Spec_Descent Spec_Gradient Spec_Lm Spec_Reproducible Proofs_Lm Proofs_LmTextbook Proofs_Reproducible Proofs_Reorder.
Import ListNotations.
Local Open Scope nat_scope.

Definition both {A} (f f' : nat -> outcome A) (a : A) : Prop := eventually f a /\ eventually f' a.
Lemma both_done {A} (a : A) : both (fun _ => Done a) (fun _ => Done a) a.
Proof. split; apply eventually_done. Qed.
Lemma both_bind {A B} (f f' : nat -> outcome A) (g g' : nat -> A -> outcome B) a b :
  both f f' a -> both (fun k => g k a) (fun k => g' k a) b ->
  both (fun k => obind (f k) (g k)) (fun k => obind (f' k) (g' k)) b.
Proof. intros [H1 H2] [H3 H4]. split; eapply eventually_bind; eauto. Qed.
Lemma both_fold {A B S} (P : S -> Prop) (Q : A -> B -> Prop) (f : nat -> S -> A -> outcome S) (f' : nat -> S -> B -> outcome S) l l' :
  Forall2 Q l l' ->
  (forall a b s, In a l -> In b l' -> Q a b -> P s -> exists s', both (fun k => f k s a) (fun k => f' k s b) s' /\ P s') ->
  forall s, P s -> exists s', both (fun k => ofold (f k) l s) (fun k => ofold (f' k) l' s) s' /\ P s'.
Proof.
  induction 1 as [|a b l l' Hab Hl IH]; intros Hf s Hs.
  - exists s. split; [apply both_done|exact Hs].
  - destruct (Hf a b s (or_introl eq_refl) (or_introl eq_refl) Hab Hs) as (s1 & E1 & P1).
    destruct (IH (fun a b s Ha Hb => Hf a b s (or_intror Ha) (or_intror Hb)) s1 P1) as (s2 & E2 & P2).
    exists s2. split; [|exact P2]. cbn [ofold]. eapply (both_bind _ _ (fun k => ofold (f k) l) (fun k => ofold (f' k) l')); eauto.
Qed.

Lemma run_lengths p k lambda x l : run p k lambda x l -> length x = num_variables p ->
  forall y, In y l -> length y = num_variables p.
Proof.
  assert (D : forall x lambda lambda' d, first_step p x lambda lambda' d -> length x = num_variables p -> length (displaced x d 1) = num_variables p).
  { intros y la la' d (a & _ & [Ld _] & _) L. rewrite displaced_length; congruence. }
  induction 1 as [k lambda x H|lambda x|k lambda x lambda' d H1 F H2|k lambda x lambda' d H1 F H2 H3 H4|k lambda x lambda' d l H1 F H2 H3 R IH];
    intros L y Hy; cbn [In] in Hy.
  - destruct Hy as [<-|[]]. exact L.
  - destruct Hy as [<-|[]]. exact L.
  - destruct Hy as [<-|[]]. exact L.
  - destruct Hy as [<-|[<-|[]]]; [exact L|eauto].
  - destruct Hy as [<-|Hy]; [exact L|]. apply IH; eauto.
Qed.
Lemma last_all {A} (P : A -> Prop) (l : list A) x : P x -> (forall y, In y l -> P y) -> P (last l x).
Proof.
  intros Hx. induction l as [|a l IH]; intros H; [exact Hx|]. destruct l as [|b l]; [apply H; simpl; auto|].
  apply IH. intros y Hy. apply H. simpl in *. auto.
Qed.

(** Writing back values in the other order *)
Lemma write_reordered (w : R -> R) free free' (x : list R) vs a b : Permutation free free' -> NoDup free ->
  length x = length free ->
  ofold (fun vs '(i, v) => let! x := oget x i in oset vs v (w x)) (combine (seq 0 (length free)) free) vs = Done a ->
  ofold (fun vs '(i, v) => let! x := oget (pull (length free) (place free free') x) i in oset vs v (w x))
    (combine (seq 0 (length free')) free') vs = Done b -> a = b.
Proof.
  intros P N L Ha Hb. apply (write_spec w) in Ha. apply (write_spec w) in Hb.
  destruct Ha as (L1 & U1 & W1), Hb as (L2 & U2 & W2). assert (N' := Permutation_NoDup P N).
  apply nth_error_ext. intros v. destruct (in_dec Nat.eq_dec v free') as [I|I].
  - apply In_nth_error in I. destruct I as [j Hj].
    destruct (W2 N' j v Hj) as (y & Hy & E2). cbn [Nat.add] in Hy.
    assert (Hjl : j < length free) by (rewrite (Permutation_length P); apply nth_error_Some; congruence).
    assert (Ei : index_of free' v = Some j) by now apply index_of_nodup.
    apply (place_index free free' v j P) in Ei. apply index_of_some in Ei.
    destruct (W1 N _ v Ei) as (y' & Hy' & E1). cbn [Nat.add] in Hy'.
    rewrite E1, E2. apply (nth_error_nth _ _ 0%R) in Hy. apply (nth_error_nth _ _ 0%R) in Hy'.
    rewrite nth_pull in Hy by exact Hjl. congruence.
  - rewrite U2 by exact I. apply U1. intros Q. apply I. eapply Permutation_in; eauto.
Qed.

(** Values read in the other order *)
Lemma read_reordered (vs : list R) free free' x : Permutation free free' ->
  omap (oget vs) free = Done x -> omap (oget vs) free' = Done (pull (length free) (place free free') x).
Proof.
  intros P H.
  assert (R : forall l y, omap (oget vs) l = Done y <-> length y = length l /\ forall i v, nth_error l i = Some v -> nth_error vs v = nth_error y i).
  { clear. induction l as [|v l IH]; intros y; cbn [omap].
    - split.
      + intros [= <-]. split; [reflexivity|]. intros [|i] v; discriminate.
      + intros [L _]. destruct y; [reflexivity|discriminate].
    - split.
      + intros H. apply obind_done in H. destruct H as (z & Hz & H). apply oget_done in Hz.
        apply obind_done in H. destruct H as (zs & Hzs & H). inversion H; subst. apply IH in Hzs. destruct Hzs as [L Q].
        split; [simpl; congruence|]. intros [|i] u Hu; cbn in Hu |- *; [inversion Hu; subst; exact Hz|auto].
      + intros [L Q]. destruct y as [|z y]; [discriminate|]. pose proof (Q 0 v eq_refl) as Q0. cbn in Q0.
        unfold oget at 1. rewrite Q0. cbn [obind].
        assert (E : omap (oget vs) l = Done y).
        { apply IH. split; [simpl in L; lia|]. intros i u Hu. exact (Q (S i) u Hu). }
        now rewrite E. }
  apply R in H. destruct H as [L Q]. apply R. split; [now rewrite pull_length, (Permutation_length P)|].
  intros j v Hj. assert (Hjl : j < length free) by (rewrite (Permutation_length P); apply nth_error_Some; congruence).
  assert (Hv : In v free) by (eapply Permutation_in; [apply Permutation_sym; exact P|eapply nth_error_In; eauto]).
  assert (Ei : index_of free v = Some (place free free' j)).
  { unfold place. rewrite (nth_error_nth _ _ 0 Hj). destruct (index_of free v) eqn:E; [reflexivity|]. now apply index_of_none in E. }
  rewrite (nth_error_nth' (pull (length free) (place free free') x) 0%R) by now rewrite pull_length. rewrite nth_pull by exact Hjl.
  apply index_of_some in Ei. rewrite (Q _ v Ei). apply nth_error_nth'. rewrite L. apply nth_error_Some. congruence.
Qed.

Section Two.
  Variables E E' : nat -> solver_env R.
  Variables order order' : list nat -> list nat.
  Hypothesis Eorder : forall k, env_order (E k) = order.
  Hypothesis Eorder' : forall k, env_order (E' k) = order'.
  Hypothesis EO : forall k, env_ok (E k).
  Hypothesis EO' : forall k, env_ok (E' k).
  Variable K : N.
  Definition textbook (E : nat -> solver_env R) : Prop :=
    forall p x, problem_ok p -> consistent p -> sized K p -> length x = num_variables p ->
    exists l, run p 100 (/ 2) x l /\ eventually (fun k => env_optimize (E k) LevenbergMarquardt p x) (last l x).
  Hypothesis T : textbook E.
  Hypothesis T' : textbook E'.

  Lemma half_pos : (0 < / 2)%R.
  Proof. lra. Qed.

  Lemma solve_none_both scale free c s : run_ok s -> limited K s -> NoDup free ->
    (forall v, In v free -> v < length (sys_variables s)) ->
    In c (components (sys_graph s)) ->
    exists s', both (fun k => solve_none (E k) LevenbergMarquardt scale free (c_constraints c) s)
                    (fun k => solve_none (E' k) LevenbergMarquardt scale free (c_constraints c) s) s'.
  Proof.
    intros O HL N Hr Hc. unfold solve_none.
    destruct (get_values s free O Hr) as (values & Hv & Lv). rewrite Hv. cbn [obind].
    destruct (ro_comp _ O c Hc) as [_ Hk].
    assert (Hes : exists es, component_expressions s (c_constraints c) = Done es /\
       forall j, In j es -> j < length (sys_expressions_transformed s)).
    { unfold component_expressions. match goal with |- context [omap ?f ?l] => destruct (omap_ok f l) as [ess Hess] end.
      { intros k Hin. destruct (Hk k Hin) as (ec & Hec & _). unfold oget. rewrite Hec. simpl. eauto. }
      rewrite Hess. simpl. eexists; split; [reflexivity|]. intros j Hj. apply in_concat in Hj.
      destruct Hj as (l & Hl & Hj). destruct (omap_in _ _ _ _ Hess Hl) as (k & Hin & Hf).
      destruct (Hk k Hin) as (ec & Hec & Hle). unfold oget in Hf. rewrite Hec in Hf. simpl in Hf.
      inversion Hf; subst. apply in_map_iff in Hj. destruct Hj as (o & <- & Ho). apply in_seq in Ho. lia. }
    destruct Hes as (es & Hes & Hin). rewrite Hes. cbn [obind].
    set (ss := subsystem_new (sys_variables_transformed s) (sys_expressions_transformed s) free es).
    assert (OK : problem_ok (subsystem_problem ss)).
    { apply subsystem_ok. split; simpl; auto. rewrite (ro_vt _ O). apply (ro_ex _ O). }
    assert (Efree : ss_free_variables ss = free) by (simpl; now apply index_set_nodup).
    assert (Ln : length values = num_variables (subsystem_problem ss)) by (change (num_variables (subsystem_problem ss)) with (length (ss_free_variables ss)); rewrite Efree; auto).
    assert (Sz : sized K (subsystem_problem ss)) by (apply (none_sized K s free c es); auto).
    destruct (T _ _ OK (subsystem_consistent ss) Sz Ln) as (l & R & Ev).
    destruct (T' _ _ OK (subsystem_consistent ss) Sz Ln) as (l' & R' & Ev').
    rewrite (run_unique _ _ _ _ _ R half_pos _ R') in Ev'.
    assert (L' : length (last l values) = length values).
    { rewrite Ln. apply (last_all (fun y => length y = num_variables (subsystem_problem ss))); [exact Ln|]. intros y Hy. exact (run_lengths _ _ _ _ _ R Ln y Hy). }
    unfold write_back.
    destruct (write_ok (fun x => nmul scale x) (last l values) free 0 (sys_variables s)) as [vs Hvs]; auto; [simpl; lia|].
    eexists. eapply (both_bind _ _ (fun _ values' => _) (fun _ values' => _)); [split; [exact Ev|exact Ev']|]. cbn beta.
    rewrite Efree, Hvs. cbn [obind]. apply both_done.
  Qed.

  Lemma solve_group_both scale s g g' : run_ok s -> limited K s -> same_group g g' ->
    NoDup (group_free_variables g) -> NoDup (group_expressions g) ->
    (forall v, In v (group_free_variables g) -> v < length (sys_variables s)) ->
    (forall e, In e (group_expressions g) -> e < length (sys_expressions_transformed s)) ->
    exists s', both (fun k => solve_group (E k) LevenbergMarquardt scale s g)
                    (fun k => solve_group (E' k) LevenbergMarquardt scale s g') s'.
  Proof.
    intros O HL [Ge P] N Ne Hr He. unfold solve_group. rewrite <- Ge.
    set (free := group_free_variables g) in *. set (free' := group_free_variables g') in *.
    assert (N' := Permutation_NoDup P N). assert (LP := Permutation_length P).
    destruct (get_values s _ O Hr) as (values & Hv & Lv). rewrite Hv. cbn [obind].
    rewrite (read_reordered _ _ _ _ P Hv). cbn [obind]. fold free in Lv.
    unfold subsystem_new. rewrite !index_set_nodup by assumption.
    set (vt0 := sys_variables_transformed s). set (et0 := sys_expressions_transformed s). set (es := group_expressions g).
    set (ss := Subsystem vt0 et0 es free). set (ss' := Subsystem vt0 et0 es free').
    assert (OK : problem_ok (subsystem_problem ss)).
    { apply subsystem_ok. split; simpl; auto. unfold vt0. rewrite (ro_vt _ O). apply (ro_ex _ O). }
    assert (OK' : problem_ok (subsystem_problem ss')).
    { apply subsystem_ok. split; simpl; auto. unfold vt0. rewrite (ro_vt _ O). apply (ro_ex _ O). }
    assert (Sz : sized K (subsystem_problem ss)).
    { pose proof (group_sized K s g O HL N Ne Hr He) as Q. unfold subsystem_new in Q. rewrite index_set_nodup in Q by assumption. exact Q. }
    assert (Sz' : sized K (subsystem_problem ss')).
    { pose proof (group_sized K s g' O HL N') as Q. rewrite <- Ge in Q.
      unfold subsystem_new in Q. rewrite index_set_nodup in Q by assumption. apply Q; auto.
      intros v Hv'. apply Hr. eapply Permutation_in; [apply Permutation_sym; exact P|exact Hv']. }
    assert (Ln : length values = num_variables (subsystem_problem ss)) by exact Lv.
    destruct (T _ _ OK (subsystem_consistent ss) Sz Ln) as (l & R & Ev).
    destruct (T' _ (pull (length free) (place free free') values) OK' (subsystem_consistent ss') Sz') as (l' & R' & Ev').
    { rewrite pull_length. exact LP. }
    pose proof (run_reordered vt0 et0 es free free' P N 100 (/ 2) values l Lv R) as R2.
    rewrite (run_unique _ _ _ _ _ R2 half_pos _ R') in Ev'. rewrite last_pull in Ev'.
    assert (L' : length (last l values) = length free).
    { apply (last_all (fun y => length y = length free)); [exact Lv|]. intros y Hy. exact (run_lengths _ _ _ _ _ R Ln y Hy). }
    unfold write_back, write_back_transformed. cbn [ss_free_variables ss ss'].
    destruct (write_ok (fun x => x) (last l values) free 0 vt0) as [vt Hvt];
      [unfold vt0; rewrite (ro_vt _ O); auto|simpl; lia|].
    destruct (write_ok (fun x => nmul scale x) (last l values) free 0 (sys_variables s)) as [vs Hvs];
      auto; [simpl; lia|].
    set (x' := pull (length free) (place free free') (last l values)) in *.
    assert (Hr' : forall v, In v free' -> v < length (sys_variables s)).
    { intros v Hv'. apply Hr. eapply Permutation_in; [apply Permutation_sym; exact P|exact Hv']. }
    destruct (write_ok (fun x => x) x' free' 0 vt0) as [vt' Hvt'];
      [unfold vt0; rewrite (ro_vt _ O); auto|unfold x'; rewrite pull_length; simpl; lia|].
    destruct (write_ok (fun x => nmul scale x) x' free' 0 (sys_variables s)) as [vs' Hvs'];
      [auto|unfold x'; rewrite pull_length; simpl; lia|].
    assert (E1 : vt = vt') by (eapply (write_reordered (fun x => x)); eauto).
    assert (E2 : vs = vs') by (eapply (write_reordered (fun x => nmul scale x)); eauto).
    subst vt' vs'. exists (with_values vs vt s). split.
    - eapply (eventually_bind _ (fun _ values' => _)); [exact Ev|]. cbn beta.
      rewrite Hvt. cbn [obind]. rewrite Hvs. cbn [obind]. apply eventually_done.
    - eapply (eventually_bind _ (fun _ values' => _)); [exact Ev'|]. cbn beta.
      rewrite Hvt'. cbn [obind]. rewrite Hvs'. cbn [obind]. apply eventually_done.
  Qed.

  Lemma single_pass_both scale free s : run_ok s -> limited K s ->
    NoDup free -> (forall v, In v free -> v < length (sys_variables s)) ->
    exists s', both (fun k => solve_single_pass (E k) LevenbergMarquardt scale free s)
                    (fun k => solve_single_pass (E' k) LevenbergMarquardt scale free s) s'.
  Proof.
    intros O HL N Hr. unfold solve_single_pass. destruct (ro_eq _ O) as [E1 E2].
    assert (P1 : forall l, Permutation (order l) l) by (intros l; rewrite <- (Eorder 0); apply (EO 0)).
    assert (P2 : forall l, Permutation (order' l) l) by (intros l; rewrite <- (Eorder' 0); apply (EO' 0)).
    destruct (find_groups_ok (sys_eqgraph s) free order) as (m & gs & Q1 & Q2 & Q3 & Q4 & Q5); auto.
    - intros v Hv. rewrite E1. auto.
    - left. apply (ro_room _ O).
    - destruct (groups_same (sys_eqgraph s) free order order' P1 P2 gs Q4) as (gs' & Q4' & FG).
      destruct (both_fold (fun s1 => rewritten (fun _ => True) s s1) same_group
        (fun k => solve_group (E k) LevenbergMarquardt scale) (fun k => solve_group (E' k) LevenbergMarquardt scale) gs gs' FG) with (s := s)
        as (s' & [Es Es'] & _).
      + intros g g' s1 Hg _ SG R. destruct (group_in_range s free m gs g O Q5 Hr Q2 Hg) as (G1 & G2 & G3 & G4).
        assert (O1 : run_ok s1) by (eapply rewritten_run_ok; eauto).
        assert (Lv : length (sys_variables s1) = length (sys_variables s)).
        { destruct R as (vs & vt & -> & L & _). auto. }
        assert (Et : sys_expressions_transformed s1 = sys_expressions_transformed s).
        { destruct R as (vs & vt & -> & _). auto. }
        destruct (solve_group_both scale s1 g g' O1 (rewritten_limited _ _ _ _ R HL) SG G1 G4) as (s2 & Ev); [rewrite Lv; auto|rewrite Et; auto|].
        exists s2. split; [exact Ev|]. destruct Ev as ((n & Ev) & _). specialize (Ev (S n) (le_n _)).
        apply solve_group_sound in Ev; auto. eapply rewritten_trans; eauto.
        eapply rewritten_weaken; [|exact Ev]. auto.
      + apply rewritten_refl.
      + exists s'. split.
        * destruct Es as (n & Es). exists n. intros k Hk. rewrite Eorder, Q4. cbn [obind]. now apply Es.
        * destruct Es' as (n & Es'). exists n. intros k Hk. rewrite Eorder', Q4'. cbn [obind]. now apply Es'.
  Qed.

  Lemma solve_component_both opts scale rng s c : run_ok s -> limited K s -> o_optimizer opts = LevenbergMarquardt ->
    o_decomposer opts <> RecursiveAssembly -> In c (components (sys_graph s)) ->
    exists st, both (fun k => solve_component (E k) opts scale (rng, s) c) (fun k => solve_component (E' k) opts scale (rng, s) c) st.
  Proof.
    intros O HL Ho Hd Hc. unfold solve_component.
    destruct (c_elements c) as [|e0 es0] eqn:Ec; [eexists; apply both_done|]. rewrite <- Ec.
    destruct (ro_comp _ O c Hc) as [He _].
    destruct (component_free_ok s (c_elements c) He) as [free Hf]. rewrite Hf. cbn [obind].
    apply component_free_spec in Hf. destruct Hf as [N Hf].
    assert (Hr : forall v, In v free -> v < length (sys_variables s)).
    { intros v Hv. apply Hf in Hv. destruct Hv as (id & e & _ & Hee & Hv & _). eapply (ro_el _ O); eauto. }
    assert (Hp : exists rng1 vt, (if o_perturb opts then perturb_variables free rng (sys_variables_transformed s)
              else Done (rng, sys_variables_transformed s)) = Done (rng1, vt) /\
              length vt = length (sys_variables_transformed s)).
    { destruct (o_perturb opts); [|eauto].
      destruct (perturb_ok free rng (sys_variables_transformed s)) as [[r1 vt] Hp].
      { intros v Hv. rewrite (ro_vt _ O). auto. }
      exists r1, vt. split; auto. now apply perturb_spec in Hp. }
    destruct Hp as (rng1 & vt & Hp & Lvt). rewrite Hp. cbn [obind].
    set (s1 := with_values (sys_variables s) vt s).
    assert (O1 : run_ok s1).
    { eapply (rewritten_run_ok (fun _ => True)); eauto. exists (sys_variables s), vt. auto. }
    rewrite Ho.
    destruct (o_decomposer opts) eqn:Ed; [| |congruence].
    - destruct (solve_none_both scale free c s1) as (s' & Es); auto.
      exists (rng1, s'). eapply (both_bind _ _ (fun _ s => Done (rng1, s)) (fun _ s => Done (rng1, s))); [exact Es|apply both_done].
    - destruct (single_pass_both scale free s1) as (s' & Es); auto.
      exists (rng1, s'). eapply (both_bind _ _ (fun _ s => Done (rng1, s)) (fun _ s => Done (rng1, s))); [exact Es|apply both_done].
  Qed.

  Lemma Forall2_diag {A} (l : list A) : Forall2 eq l l.
  Proof. induction l; constructor; auto. Qed.

  Theorem solve_both opts s sk : models s sk -> limited K s ->
    (N.of_nat (length (sys_expressions s)) < 2 ^ 32)%N -> o_optimizer opts = LevenbergMarquardt ->
    o_decomposer opts <> RecursiveAssembly -> exists s', both (fun k => solve (E k) opts s) (fun k => solve (E' k) opts s) s'.
  Proof.
    intros M HL HR Ho Hd. unfold solve, scale_system.
    match goal with |- context [with_transformed ?a ?b s] => set (s0 := with_transformed a b s) end.
    assert (O0 : run_ok s0). { eapply models_run_ok; eauto. apply map_length. }
    destruct (both_fold (fun st => rewritten (fun _ => True) s0 (snd st)) eq
      (fun k => solve_component (E k) opts (calculate_system_scale s))
      (fun k => solve_component (E' k) opts (calculate_system_scale s)) (components (sys_graph s0)) (components (sys_graph s0))
      (Forall2_diag _)) with (s := (42%N, s0))
      as ([rng' s'] & Es & _).
    - intros c c' [rng s1] Hc _ <- R. simpl in R. assert (O1 : run_ok s1) by (eapply rewritten_run_ok; eauto).
      assert (Hc1 : In c (components (sys_graph s1))) by (destruct R as (vs & vt & -> & _); auto).
      destruct (solve_component_both opts (calculate_system_scale s) rng s1 c O1 (rewritten_limited _ _ _ _ R HL) Ho Hd Hc1) as ([rng2 s2] & Ev).
      exists (rng2, s2). split; [exact Ev|]. destruct Ev as ((n & Ev) & _). specialize (Ev (S n) (le_n _)).
      simpl. eapply rewritten_trans; eauto. eapply rewritten_weaken; [|
        eapply solve_component_sound; eauto; apply O1]. auto.
    - apply rewritten_refl.
    - exists s'. eapply (both_bind _ _ (fun _ '(_, s) => Done s) (fun _ '(_, s) => Done s)); [exact Es|apply both_done].
  Qed.

  Lemma solve_both_small env id l s opts : env_ok env -> history env id l s -> small l ->
    (N.of_nat (length (created_elements l)) <= K)%N -> (N.of_nat (length (created_constraints l)) <= K)%N ->
    o_optimizer opts = LevenbergMarquardt -> o_decomposer opts <> RecursiveAssembly ->
    exists s', both (fun k => solve (E k) opts s) (fun k => solve (E' k) opts s) s'.
  Proof.
    intros EOK H S S1 S2 Ho Hd. destruct (history_inv _ _ _ _ EOK H) as [sk I].
    eapply solve_both; eauto; [apply (iv_models _ _ _ _ I)|eapply inv_limited; eauto|].
    pose proof (small_room _ _ _ _ I S) as HR. unfold room in HR. lia.
  Qed.
End Two.
