(** A sketch that is solved well enough is left as it is by every decomposer,
    in exact arithmetic and without perturbation. *)
From Coq Require Import List Arith NArith ZArith Lia Permutation Reals Lra.
From Verif Require Import Num NumR Outcome Lib ModelExpr ModelGraph ModelSystem ModelMatching ModelSolve ModelApi ModelLm ModelLbfgs ModelOptimize ModelAssembly
  Spec_Sketch Spec_Graph Spec_Matching Spec_Groups Spec_Solver Spec_History Spec_Components Spec_Pass Spec_Descent Spec_Gradient Spec_Whole
  Proofs_Graph Proofs_System Proofs_Calls Proofs_Solve Proofs_Safe Proofs_Step Proofs_History Proofs_Api
  Proofs_Components Proofs_Real Proofs_Motion Proofs_Whole Proofs_WholeR Proofs_Assembly Proofs_AssemblyFrame Proofs_Pass
  Proofs_Groups Proofs_PassWhole Proofs_Lm Proofs_Gradient Proofs_Steps.
Import ListNotations.
Local Open Scope nat_scope.
Local Notation Rsum := (fold_right Rplus 0%R).
Local Notation sq := (fun x : R => (x * x)%R).

Lemma lset_same {A} (l : list A) : forall i x, nth_error l i = Some x -> lset l i x = l.
Proof.
  induction l as [|y l IH]; intros [|i] x H; simpl in *; try discriminate.
  - now apply some_inj in H; subst.
  - f_equal. auto.
Qed.
Lemma lookup_In {A} (m : fmap A) k v : lookup k m = Some v -> In (k, v) m.
Proof.
  unfold lookup. destruct (find (fun kv => k =? fst kv) m) as [[k' v']|] eqn:E; [|discriminate].
  intros H. apply some_inj in H. apply find_some in E. destruct E as [E1 E2]. simpl in *. apply Nat.eqb_eq in E2. now subst.
Qed.
Lemma put_In {A} (m : fmap A) k v k' v' : In (k', v') (put k v m) -> (k' = k /\ v' = v) \/ In (k', v') m.
Proof.
  unfold put. destruct (lookup k m).
  - intros Hin. apply in_map_iff in Hin. destruct Hin as ([k'' v''] & E & Hin). simpl in E.
    destruct (Nat.eqb_spec k k''); inversion E; subst; auto.
  - intros Hin. apply in_app_iff in Hin. destruct Hin as [Hin|[E|[]]]; auto. inversion E; auto.
Qed.

Lemma NoDup_right {A} (l m : list A) : NoDup (l ++ m) -> NoDup m.
Proof. induction l as [|x l IH]; [auto|]. simpl. intros N. apply NoDup_cons_iff in N. now apply IH. Qed.
Lemma NoDup_left {A} (l m : list A) : NoDup (l ++ m) -> NoDup l.
Proof.
  induction l as [|x l IH]; [constructor|]. simpl. intros N. apply NoDup_cons_iff in N. destruct N as [N1 N2].
  constructor; [|auto]. intros Hx. apply N1. apply in_app_iff. auto.
Qed.
(** Some of several terms none of which is negative *)
Lemma Rsum_some {A} (f : A -> R) : (forall a, (0 <= f a)%R) -> forall l m, NoDup l -> incl l m ->
  (Rsum (map f l) <= Rsum (map f m))%R.
Proof.
  intros P. induction l as [|x l IH]; intros m N I; [now apply Rsum_pos|].
  apply NoDup_cons_iff in N. destruct N as [N1 N2].
  destruct (in_split x m (I x (or_introl eq_refl))) as (m1 & m2 & ->).
  assert (Q : (Rsum (map f l) <= Rsum (map f (m1 ++ m2)))%R).
  { apply IH; [auto|]. intros y Hy. pose proof (I y (or_intror Hy)) as Hi. apply in_app_iff in Hi. apply in_app_iff.
    destruct Hi as [Hi|[<-|Hi]]; auto. contradiction. }
  rewrite map_app, Rsum_app in *. cbn [map fold_right]. lra.
Qed.

(** The residuals of a problem at the values it starts from *)
Lemma start_of (vt : list R) ex free es values :
  (forall x v, In x ex -> In v (variable_indices x) -> v < length vt) -> NoDup free ->
  omap (oget vt) free = Done values ->
  calculate_residuals (subsystem_problem (subsystem_new vt ex free es)) values =
  omap (fun e => let! x := oget ex e in calculate_residual (identity_map vt) x) es.
Proof.
  intros Rg N Hv. simpl. unfold ss_residuals. simpl.
  apply omap_ext. intros e He.
  destruct (oget ex e) as [x| |] eqn:Ex; [|reflexivity|reflexivity]. cbn [obind].
  apply oget_done in Ex. apply residual_map. intros v Hvx.
  assert (Hlt : v < length vt) by (eapply Rg; [eapply nth_error_In; exact Ex|exact Hvx]).
  unfold ss_map, index_set_map, identity_map. simpl.
  rewrite index_set_nodup by auto. destruct (nth_error_ex _ _ Hlt) as [y Hy].
  destruct (index_of free v) as [i|] eqn:Ei.
  - apply index_of_some in Ei. destruct (omap_nth' _ _ _ Hv _ _ Ei) as (z & Hz & Hvz). apply oget_done in Hvz.
    unfold oget. rewrite Hz, Hvz. cbn [obind]. do 2 eexists. split; [reflexivity|]. split; reflexivity.
  - unfold oget. rewrite Hy. cbn [obind]. do 2 eexists. split; [reflexivity|]. split; reflexivity.
Qed.

Section Idle.
  Variables (s : system R) (sk : sketch R) (u a : R).
  Hypotheses (Hu : (0 < u)%R) (M : models s sk).
  Hypothesis Ha : Rsum (map (share u s) (seq 0 (length (sk_relations sk)))) = a.
  Notation s0 := (scale_system u s).
  Notation vt0 := (sys_variables_transformed s0).

  Lemma scaled_value idx x : nth_error vt0 idx = Some x -> nth_error (sys_variables s) idx = Some (u * x)%R.
  Proof. intros H. rewrite <- (scaled_values s u Hu), nth_error_map, H. reflexivity. Qed.

  Lemma write_same idx x s' : write_variable u s0 idx x = Done s' -> nth_error vt0 idx = Some x -> s' = s0.
  Proof.
    intros H Hx. unfold write_variable in H.
    apply obind_done in H. destruct H as (vt & Ht & H). apply obind_done in H. destruct H as (vs & Hv & H).
    apply oset_done in Ht. apply oset_done in Hv. destruct Ht as [_ ->], Hv as [_ ->].
    rewrite (lset_same _ _ _ Hx) in H. change (sys_variables s0) with (sys_variables s) in H.
    change (nmul u x) with (u * x)%R in H. rewrite (lset_same _ _ _ (scaled_value _ _ Hx)) in H.
    change (Done s0 = Done s') in H. now injection H.
  Qed.

  (** ** The terms *)
  Lemma clean_shares cs : clean (length (sk_relations sk)) cs ->
    exists rs, omap (residual_in s0) (flat_map (own_expressions s) cs) = Done rs /\ (Rsum (map sq rs) <= a)%R.
  Proof.
    intros [N Rg]. destruct (group_shares u s sk Hu M cs Rg) as (rs & H1 & H2). exists rs. split; [exact H1|].
    rewrite H2, <- Ha. apply Rsum_some; [intros; apply share_pos|exact N|].
    intros c Hc. apply in_seq. specialize (Rg c Hc). lia.
  Qed.

  Lemma omap_values {A} (f : A -> outcome R) l rs : omap f l = Done rs ->
    map sq rs = map (fun e => match f e with Done r => (r * r)%R | _ => 0%R end) l.
  Proof.
    revert rs. induction l as [|e l IH]; intros rs H; cbn [omap] in H; [inversion H; reflexivity|].
    apply obind_done in H. destruct H as (r & Hr & H). apply obind_done in H. destruct H as (rs' & Hrs & H).
    inversion H; subst rs. cbn [map]. rewrite Hr. f_equal. now apply IH.
  Qed.

  Lemma any_expressions es rs : NoDup es -> omap (residual_in s0) es = Done rs -> (Rsum (map sq rs) <= a)%R.
  Proof.
    intros N H. rewrite (omap_values _ _ _ H).
    destruct (group_shares u s sk Hu M (seq 0 (length (sk_relations sk)))) as (ws & W1 & W2).
    { intros i Hi. apply in_seq in Hi. lia. }
    rewrite <- Ha, <- W2, (omap_values _ _ _ W1). apply Rsum_some; [|exact N|].
    - intros e. destruct (residual_in s0 e); try lra. apply Rle_0_sqr.
    - intros e He. apply In_nth_error in He. destruct He as [j Hj].
      destruct (omap_nth' _ _ _ H _ _ Hj) as (r & _ & Hr). unfold residual_in in Hr.
      apply obind_done in Hr. destruct Hr as (x & Hx & _). apply oget_done in Hx.
      unfold scale_system in Hx. cbn [sys_expressions_transformed with_transformed] in Hx. rewrite nth_error_map in Hx.
      destruct (nth_error (sys_expressions s) e) as [x'|] eqn:Ex; [|discriminate].
      destruct (m_expr _ _ M _ _ Ex) as (i & r' & idx & es' & k & Hr' & Hec & Hes & Hk & ->).
      apply in_flat_map. exists i. split; [apply in_seq; apply nth_error_lt in Hr'; lia|].
      unfold own_expressions. rewrite Hec. apply in_map_iff. exists k. split; [reflexivity|].
      apply in_seq. apply nth_error_lt in Hk. rewrite (compile_length _ _ _ Hes) in Hk. simpl. lia.
  Qed.

  (** Whatever has to do with at most [a] is left alone *)
  Definition lazy (opt : problem R -> list R -> outcome (list R)) : Prop :=
    forall p x y, consistent p -> dense_consistent p -> (forall b, objective p x = Some b -> (b <= a)%R) -> opt p x = Done y -> y = x.

  (** ** Single pass *)
  Lemma group_start g values : run_ok s0 -> NoDup (group_free_variables g) ->
    omap (oget vt0) (group_free_variables g) = Done values ->
    let p := subsystem_problem (subsystem_new vt0 (sys_expressions_transformed s0) (group_free_variables g) (group_expressions g)) in
    calculate_residuals p values = omap (residual_in s0) (group_expressions g).
  Proof.
    intros O N Hv. apply start_of; [|exact N|exact Hv].
    intros x v Hx Hin. rewrite (ro_vt _ O). eapply (ro_ex _ O); eauto.
  Qed.

  Lemma group_idle env opt g s' : run_ok s0 -> lazy (env_optimize env opt) -> NoDup (group_free_variables g) ->
    NoDup (group_expressions g) -> solve_group env opt u s0 g = Done s' -> s' = s0.
  Proof.
    intros O La N Ne H. unfold solve_group in H.
    apply obind_done in H. destruct H as (values & Hv & H). cbv zeta in H.
    apply obind_done in H. destruct H as (values' & Ho & H).
    apply obind_done in H. destruct H as (vt & Ht & H).
    apply obind_done in H. destruct H as (vs & Hw & H).
    assert (E : values' = values).
    { apply (La _ _ _ (Proofs_Lm.subsystem_consistent _) (subsystem_dense_consistent _)) in Ho; [exact Ho|]. intros b Hb.
      pose proof (group_start g values O N Hv) as Er. cbv zeta in Er.
      unfold objective in Hb. rewrite Er in Hb.
      destruct (omap (residual_in s0) (group_expressions g)) as [rs| |] eqn:Eo; try discriminate.
      pose proof (objective_sum _ _ rs Er) as Hb'. unfold objective in Hb'. rewrite Er, Hb in Hb'. apply some_inj in Hb'.
      subst b. now apply (any_expressions (group_expressions g)). }
    subst values'. unfold write_back in Hw. unfold write_back_transformed in Ht. simpl in Hw, Ht.
    rewrite index_set_nodup in Hw, Ht by auto.
    apply (write_spec (fun x => (u * x)%R)) in Hw. destruct Hw as (L1 & U1 & W1).
    apply (write_spec (fun x => x)) in Ht. destruct Ht as (L2 & U2 & W2).
    assert (Evt : vt = vt0).
    { apply nth_error_ext. intros v. destruct (in_dec Nat.eq_dec v (group_free_variables g)) as [Hi|Hn]; [|now apply U2].
      apply In_nth_error in Hi. destruct Hi as [i Hi]. destruct (W2 N _ _ Hi) as (x & X1 & X2). simpl in X1.
      destruct (omap_nth' _ _ _ Hv _ _ Hi) as (z & Hz & Hvz). apply oget_done in Hvz. rewrite X1 in Hz.
      apply some_inj in Hz. subst z. etransitivity; [exact X2|symmetry; exact Hvz]. }
    assert (Evs : vs = sys_variables s).
    { apply nth_error_ext. intros v. destruct (in_dec Nat.eq_dec v (group_free_variables g)) as [Hi|Hn]; [|now apply U1].
      apply In_nth_error in Hi. destruct Hi as [i Hi]. destruct (W1 N _ _ Hi) as (x & X1 & X2). simpl in X1.
      destruct (omap_nth' _ _ _ Hv _ _ Hi) as (z & Hz & Hvz). apply oget_done in Hvz. rewrite X1 in Hz.
      apply some_inj in Hz. subst z. etransitivity; [exact X2|symmetry; now apply scaled_value]. }
    subst vt vs. change (Done s0 = Done s') in H. now injection H.
  Qed.

  Lemma pass_idle env opt free s' : (forall l, Permutation (env_order env l) l) ->
    run_ok s0 -> lazy (env_optimize env opt) -> NoDup free ->
    (forall v, In v free -> v < length (sys_variables s)) ->
    solve_single_pass env opt u free s0 = Done s' -> s' = s0.
  Proof.
    intros EO O La N Rg H. unfold solve_single_pass in H. apply obind_done in H. destruct H as (gs & Hg & H).
    destruct (ro_eq _ O) as [E1 E2].
    destruct (groups_ordered (sys_eqgraph s0) free (env_order env) N) as (m & gs' & _ & Hg' & GO).
    - intros v Hv. rewrite E1. now apply Rg.
    - exact E2.
    - apply (ro_room _ O).
    - exact EO.
    - rewrite Hg' in Hg. injection Hg as ->.
      apply (ofold_inv (fun s1 => s1 = s0)) in H; [exact H| |reflexivity].
      intros s1 g s2 Hin -> Hs. eapply group_idle; eauto.
      + exact (go_vonce _ _ _ _ GO g Hin).
      + pose proof (go_once _ _ _ _ GO) as Nd. apply in_split in Hin. destruct Hin as (g1 & g2 & ->).
        rewrite map_app, concat_app in Nd. apply NoDup_right in Nd. cbn [map concat] in Nd.
        now apply NoDup_left in Nd.
  Qed.

  (** ** Recursive assembly *)
  Lemma identity_pose p : transform_point (pose_from_array 0%R 0%R 0%R) p = p.
  Proof.
    destruct p as [x y]. unfold transform_point, pose_from_array. cbn.
    rewrite sin_0, cos_0. f_equal; ring.
  Qed.

  Lemma build_start st c values : clustered_build s0 st = Done (c, values) ->
    component_expressions s0 (st_constraints st) = Done (cs_expressions c) /\
    (forall idx i, In (idx, i) (cs_mapping c) -> exists x, nth_error values i = Some x /\ nth_error vt0 idx = Some x) /\
    (forall id idx i, nth_error (sys_elements s) id = Some (EPoint idx) -> In (idx, i) (cs_mapping c) ->
       exists y, nth_error values (i + 1) = Some y /\ nth_error vt0 (idx + 1) = Some y) /\
    (forall j, j < 3 * length (cs_clusters c) -> nth_error values j = Some 0%R).
  Proof.
    intros H. unfold clustered_build in H.
    apply obind_done in H. destruct H as (es & Hes & H). apply obind_done in H. destruct H as (reachable & _ & H).
    apply obind_done in H. destruct H as (elements & Hr & H).
    apply obind_done in H. destruct H as ([clusters n] & _ & H).
    apply obind_done in H. destruct H as ([mapping vs] & Hm & H). injection H as <- <-. cbn [cs_mapping cs_expressions cs_clusters].
    split; [exact Hes|].
    pose proof (ofold_inv (fun acc : fmap nat * list R =>
      (forall idx i, In (idx, i) (fst acc) -> exists x, nth_error (snd acc) i = Some x /\ nth_error vt0 idx = Some x) /\
      (forall id idx i, nth_error (sys_elements s) id = Some (EPoint idx) -> In (idx, i) (fst acc) ->
         exists y, nth_error (snd acc) (i + 1) = Some y /\ nth_error vt0 (idx + 1) = Some y) /\
      (forall j, j < 3 * length clusters -> nth_error (snd acc) j = Some 0%R)) (element_values s0) elements) as Q.
    apply Q in Hm; [exact Hm| |].
    2:{ split; [intros idx i []|]. split; [intros id idx i _ []|]. cbn [snd]. intros j Hj. change (nzero (F := R)) with 0%R.
        rewrite nth_error_repeat, (proj2 (Nat.ltb_lt _ _)) by lia. reflexivity. }
    clear Q Hm. intros [m ws] id [m' ws'] _ (K & K2 & Z) H. cbn [fst snd] in *. unfold element_values in H.
    assert (App : forall zs i (x : R), nth_error ws i = Some x -> nth_error (ws ++ zs) i = Some x).
    { intros zs i x Hx. rewrite nth_error_app1; [exact Hx|]. now apply nth_error_lt in Hx. }
    assert (Ext1 : forall zs idx i, In (idx, i) m -> exists x, nth_error (ws ++ zs) i = Some x /\ nth_error vt0 idx = Some x).
    { intros zs idx i Hi. destruct (K _ _ Hi) as (x & X1 & X2). exists x. auto. }
    assert (Ext2 : forall zs id idx i, nth_error (sys_elements s) id = Some (EPoint idx) -> In (idx, i) m ->
       exists y, nth_error (ws ++ zs) (i + 1) = Some y /\ nth_error vt0 (idx + 1) = Some y).
    { intros zs id' idx i He Hi. destruct (K2 _ _ _ He Hi) as (x & X1 & X2). exists x. auto. }
    assert (Ext3 : forall zs j, j < 3 * length clusters -> nth_error (ws ++ zs) j = Some 0%R) by auto.
    apply obind_done in H. destruct H as (e & He & H). apply oget_done in He. change (sys_elements s0) with (sys_elements s) in He.
    destruct e as [idx|idx|p q|p q]; try (injection H as <- <-; auto; fail).
    - apply obind_done in H. destruct H as (x & Hx & H). injection H as <- <-. apply oget_done in Hx.
      split; [|split; [|apply Ext3]].
      + intros idx' i Hi. apply put_In in Hi. destruct Hi as [[-> ->]|Hi]; [|now apply Ext1].
        exists x. split; [|exact Hx]. rewrite nth_error_app2 by lia. now rewrite Nat.sub_diag.
      + intros id' idx' i He' Hi. apply put_In in Hi. destruct Hi as [[-> ->]|Hi]; [|now apply (Ext2 _ id')].
        exfalso. assert (E : (id, 0) = (id', 0)).
        { eapply (addr_inj (sys_elements s) (sys_variable_to_primitive s)); [apply (m_prim _ _ M)| |];
            unfold addr; simpl fst; simpl snd; [rewrite He|rewrite He']; reflexivity. }
        injection E as <-. rewrite He in He'. discriminate.
    - apply obind_done in H. destruct H as (x & Hx & H). apply obind_done in H. destruct H as (y & Hy & H).
      injection H as <- <-. apply oget_done in Hx. apply oget_done in Hy.
      assert (At0 : nth_error (ws ++ [x; y]) (length ws) = Some x) by (rewrite nth_error_app2 by lia; now rewrite Nat.sub_diag).
      assert (At1 : nth_error (ws ++ [x; y]) (length ws + 1) = Some y).
      { rewrite nth_error_app2 by lia. now replace (length ws + 1 - length ws) with 1 by lia. }
      split; [|split; [|apply Ext3]].
      + intros idx' i Hi. apply put_In in Hi. destruct Hi as [[-> ->]|Hi]; [eauto|].
        apply put_In in Hi. destruct Hi as [[-> ->]|Hi]; [eauto|now apply Ext1].
      + intros id' idx' i He' Hi. apply put_In in Hi. destruct Hi as [[-> ->]|Hi].
        { exfalso. assert (E : (id, 1) = (id', 0)).
          { eapply (addr_inj (sys_elements s) (sys_variable_to_primitive s)); [apply (m_prim _ _ M)| |];
              unfold addr; simpl fst; simpl snd; [rewrite He|rewrite He']; f_equal; lia. }
          discriminate. }
        apply put_In in Hi. destruct Hi as [[-> ->]|Hi]; [eauto|now apply (Ext2 _ id')].
  Qed.

  Lemma pose_start c values i : (forall j, j < 3 * length (cs_clusters c) -> nth_error values j = Some 0%R) ->
    i < length (cs_clusters c) -> cluster_pose values i = Done (pose_from_array 0%R 0%R 0%R).
  Proof.
    intros Z Hi. unfold cluster_pose, oget. rewrite !Z by lia. reflexivity.
  Qed.

  (** The misfit of a step at its start is that of its constraints. *)
  Lemma step_start st c values b : clean (length (sk_relations sk)) (st_constraints st) ->
    clustered_build s0 st = Done (c, values) ->
    objective (clustered_problem s0 c (length values)) values = Some b -> (b <= a)%R.
  Proof.
    intros C Hb Ho. destruct (build_start _ _ _ Hb) as (He & Km & Kp & Kz).
    destruct (clean_shares _ C) as (rs & Hrs & Hle).
    assert (Ee : cs_expressions c = flat_map (own_expressions s) (st_constraints st)) by (now apply group_expressions_own).
    destruct (calculate_residuals (clustered_problem s0 c (length values)) values) as [ws| |] eqn:Ew;
      [|unfold objective in Ho; rewrite Ew in Ho; discriminate|unfold objective in Ho; rewrite Ew in Ho; discriminate].
    rewrite (objective_sum _ _ _ Ew) in Ho. apply some_inj in Ho. subst b.
    cbn [calculate_residuals clustered_problem] in Ew.
    apply obind_done in Ew. destruct Ew as ([ps es] & Hrow & Ew). injection Ew as <-.
    unfold clustered_rows in Hrow. apply obind_done in Hrow. destruct Hrow as (es' & Hes & Hrow).
    apply obind_done in Hrow. destruct Hrow as (ps' & Hps & Hrow). injection Hrow as -> ->.
    rewrite map_app, Rsum_app.
    assert (Zp : forall r, In r (map fst ps) -> r = 0%R).
    { unfold coincidences in Hps. apply obind_done in Hps. destruct Hps as (rows & Hrows & Hps). injection Hps as <-.
      intros r Hr. apply in_map_iff in Hr. destruct Hr as ([r0 g0] & <- & Hr). cbn [fst].
      apply in_concat in Hr. destruct Hr as (row & Hrow & Hr).
      apply In_nth_error in Hrow. destruct Hrow as [k Hk]. destruct (omap_nth _ _ _ Hrows _ _ Hk) as ([i [key pts]] & Hi & Hf).
      assert (Li : i < length (cs_clusters c)).
      { apply nth_error_In, in_combine_l in Hi. apply in_seq in Hi. lia. }
      rewrite (pose_start c values i Kz Li) in Hf. cbn [obind] in Hf.
      apply obind_done in Hf. destruct Hf as (two & Htwo & Hf). injection Hf as <-.
      apply in_concat in Hr. destruct Hr as (pair & Hpair & Hr).
      apply In_nth_error in Hpair. destruct Hpair as [k2 Hk2]. destruct (omap_nth _ _ _ Htwo _ _ Hk2) as (id & _ & Hco).
      unfold coincidence in Hco. apply obind_done in Hco. destruct Hco as (((x, z), w) & Hfp & Hco).
      rewrite identity_pose in Hco. cbv beta iota zeta in Hco.
      apply obind_done in Hco. destruct Hco as (ux & Hux & Hco). apply obind_done in Hco. destruct Hco as (uz & Huz & Hco).
      destruct (gradient_chain_rule_point _ (x, z) (nunit, nzero)) as [[gx0 gx1] gx2].
      destruct (gradient_chain_rule_point _ (x, z) (nzero, nunit)) as [[gy0 gy1] gy2].
      apply oget_done in Hux. apply oget_done in Huz. injection Hco as <-.
      unfold frontier_point in Hfp. apply obind_done in Hfp. destruct Hfp as (e & Hel & Hfp). apply oget_done in Hel.
      destruct e as [idx|idx|p q|p q]; try discriminate.
      apply obind_done in Hfp. destruct Hfp as (x1 & Hx1 & Hfp). apply obind_done in Hfp. destruct Hfp as (z1 & Hz1 & Hfp).
      apply obind_done in Hfp. destruct Hfp as (w1 & Hw1 & Hfp). apply oget_done in Hx1. apply oget_done in Hz1.
      assert (Ex : x1 = x /\ z1 = z /\ w1 = w) by (injection Hfp; auto). destruct Ex as (-> & -> & ->). clear Hfp.
      apply ounwrap_done, lookup_In in Hw1.
      destruct (Km _ _ Hw1) as (x2 & X1 & X2). destruct (Kp _ _ _ Hel Hw1) as (z2 & Z1 & Z2).
      rewrite Hux in X1. rewrite Hx1 in X2. rewrite Huz in Z1. rewrite Hz1 in Z2.
      apply some_inj in X1. apply some_inj in X2. apply some_inj in Z1. apply some_inj in Z2. subst.
      destruct Hr as [E|[E|[]]]; apply (f_equal fst) in E; cbn [fst] in E; rewrite <- E; cbn; ring. }
    assert (Zs : Rsum (map sq (map fst ps)) = 0%R).
    { clear -Zp. induction (map fst ps) as [|r l IH]; [reflexivity|]. cbn [map fold_right].
      rewrite IH by (intros; apply Zp; simpl; auto). rewrite (Zp r) by (simpl; auto). ring. }
    rewrite Zs.
    assert (Es : map fst es = rs).
    { rewrite Ee in Hes. clear -Hes Hrs Km M Hu. revert es rs Hes Hrs.
      induction (flat_map (own_expressions s) (st_constraints st)) as [|e l IH]; intros es rs Hes Hrs; cbn [omap] in Hes, Hrs.
      - injection Hes as <-. injection Hrs as <-. reflexivity.
      - apply obind_done in Hes. destruct Hes as (row & Hrow & Hes). apply obind_done in Hes. destruct Hes as (rows & Hrows & Hes).
        injection Hes as <-. apply obind_done in Hrs. destruct Hrs as (r & Hr & Hrs). apply obind_done in Hrs.
        destruct Hrs as (rs' & Hrs' & Hrs). injection Hrs as <-. cbn [map]. f_equal; [|now apply IH].
        unfold expression_row in Hrow. unfold residual_in in Hr.
        apply obind_done in Hrow. destruct Hrow as (x & Hx & Hrow). rewrite Hx in Hr. cbn [obind] in Hr.
        apply obind_done in Hrow. destruct Hrow as (xs & Hxs & Hrow).
        assert (Eq : calculate_residual (clustered_map c values) x = Done r).
        { rewrite <- Hr. apply residual_map. intros v Hv. unfold gather in Hxs.
          apply In_nth_error in Hv. destruct Hv as [j Hj]. destruct (omap_nth' _ _ _ Hxs _ _ Hj) as (y & _ & Hy).
          exists y. unfold clustered_map in Hy |- *. assert (Hy' := Hy).
          apply obind_done in Hy. destruct Hy as (i & Hi & Hy). apply obind_done in Hy. destruct Hy as (z & Hz & Hy).
          injection Hy as <-. apply ounwrap_done, lookup_In in Hi. apply oget_done in Hz.
          destruct (Km _ _ Hi) as (z' & Z1 & Z2). rewrite Hz in Z1. apply some_inj in Z1. subst z'.
          eexists. split; [exact Hy'|]. split; [unfold identity_map, oget; rewrite Z2; reflexivity|reflexivity]. }
        unfold calculate_residual in Eq. rewrite Hxs in Eq. cbn [obind] in Eq.
        destruct (compute_rg x (buffer xs)) as [r' g']. cbn [fst] in Eq. injection Hrow as <-. cbn [fst]. now injection Eq. }
    rewrite Es. lra.
  Qed.

  Lemma clustered_consistent (s1 : system R) c n : consistent (clustered_problem s1 c n).
  Proof.
    intros x rs ts H. cbn [calculate_residuals_and_sparse_jacobian calculate_residuals clustered_problem] in *.
    apply obind_done in H. destruct H as ([ps es] & Hr & H). rewrite Hr. cbn [obind]. now injection H as <- _.
  Qed.

  Lemma clustered_dense (s1 : system R) c n : dense_consistent (clustered_problem s1 c n).
  Proof.
    intros x jac rs jac' H _. cbn [calculate_residuals_and_jacobian calculate_residuals clustered_problem] in *.
    apply obind_done in H. destruct H as ([ps es] & Hr & H). rewrite Hr. cbn [obind].
    apply obind_done in H. destruct H as (jac2 & _ & H). now injection H as <- _.
  Qed.

  Lemma element_idle c s' id : move_element u c (pose_from_array 0%R 0%R 0%R) s0 id = Done s' -> s' = s0.
  Proof.
    unfold move_element. destruct (mem id (cs_elements c)); [intros H; now injection H|].
    intros H. apply obind_done in H. destruct H as (e & _ & H).
    destruct e as [idx|idx|p q|p q]; try (now injection H).
    apply obind_done in H. destruct H as (x & Hx & H). apply obind_done in H. destruct H as (y & Hy & H).
    rewrite identity_pose in H. apply oget_done in Hx. apply oget_done in Hy.
    apply obind_done in H. destruct H as (s1 & H1 & H). apply (write_same _ _ _ H1) in Hx. subst s1.
    exact (write_same _ _ _ H Hy).
  Qed.

  Lemma step_idle opt st s' : lazy opt -> clean (length (sk_relations sk)) (st_constraints st) ->
    solve_step opt u s0 st = Done s' -> s' = s0.
  Proof.
    intros La C H. unfold solve_step in H.
    apply obind_done in H. destruct H as ([c values] & Hc & H).
    apply obind_done in H. destruct H as (values' & Ho & H).
    assert (E : values' = values).
    { apply (La _ _ _ (clustered_consistent _ _ _) (clustered_dense _ _ _)) in Ho; [exact Ho|]. intros b. exact (step_start _ _ _ _ C Hc). }
    subst values'. destruct (build_start _ _ _ Hc) as (_ & Km & _ & Kz).
    apply obind_done in H. destruct H as (s1 & H1 & H).
    assert (E1 : s1 = s0).
    { apply (ofold_inv (fun s2 => s2 = s0)) in H1; [exact H1| |reflexivity].
      intros s2 [idx i] s3 Hin -> H2. apply obind_done in H2. destruct H2 as (x & Hx & H2). apply oget_done in Hx.
      destruct (Km _ _ Hin) as (x' & X1 & X2). rewrite Hx in X1. apply some_inj in X1. subst x'.
      exact (write_same _ _ _ H2 X2). }
    subst s1. apply (ofold_inv (fun s2 => s2 = s0)) in H; [exact H| |reflexivity].
    intros s2 [i [key pts]] s3 Hin -> H2. unfold move_cluster in H2.
    apply in_combine_l, in_seq in Hin. rewrite (pose_start c values i Kz) in H2 by lia. cbn [obind] in H2.
    apply (ofold_inv (fun s4 => s4 = s0)) in H2; [exact H2| |reflexivity].
    intros s4 id s5 _ -> H5. eapply element_idle; exact H5.
  Qed.

  Lemma assembly_idle opt order fuel search es cs s' : (forall l, Permutation (order l) l) -> lazy opt -> NoDup cs ->
    recursive_assembly opt order fuel search u es cs s0 = Done s' -> s' = s0.
  Proof.
    intros O La N H. unfold recursive_assembly in H. apply obind_done in H. destruct H as (plan & Hp & H).
    apply decompose_tidy in Hp; [|exact O|exact N]. change (sys_graph s0) with (sys_graph s) in Hp.
    rewrite (m_gclen _ _ M) in Hp. rewrite Forall_forall in Hp.
    apply (ofold_inv (fun s1 => s1 = s0)) in H; [exact H| |reflexivity].
    intros s1 st s2 Hin -> Hs. eapply step_idle; eauto.
  Qed.
End Idle.

(** ** Solving *)
Theorem solve_lazy (optimize : optimizer -> problem R -> list R -> outcome (list R)) order fuel search opts id l (s : system R) s' a :
  let env := SolverEnv (F := R) optimize order (recursive_assembly (optimize LevenbergMarquardt) order fuel search) in
  (forall vs, Permutation (order vs) vs) -> history env id l s -> small l ->
  (0 < calculate_system_scale s)%R -> o_perturb opts = false -> o_decomposer opts <> DecomposeNone ->
  lazy a (optimize (o_optimizer opts)) ->
  (o_decomposer opts = RecursiveAssembly -> lazy a (optimize LevenbergMarquardt)) ->
  misfit (calculate_system_scale s) s (created_constraints l) = Done a ->
  solve env opts s = Done s' ->
  s' = scale_system (calculate_system_scale s) s.
Proof.
  intros env O H Sm Hs Eb Ed La Ll Ha Hv.
  assert (EO : env_ok env).
  { split; [exact O|]. intros scale es cs s1 s2 H2. simpl in H2. now apply recursive_assembly_frame in H2. }
  destruct (history_inv _ _ _ _ EO H) as [sk I]. assert (M := iv_models _ _ _ _ I).
  rewrite (iv_ch _ _ _ _ I), (misfit_shares _ _ _ Hs M) in Ha.
  apply (f_equal (fun o => match o with Done z => z | _ => a end)) in Ha. cbv beta iota in Ha.
  set (u := calculate_system_scale s) in *.
  assert (Ro : run_ok (scale_system u s)).
  { unfold scale_system. apply (models_run_ok _ _ _ _ M); [now rewrite map_length|apply (small_room _ _ _ _ I Sm)]. }
  unfold solve in Hv. cbv zeta in Hv. fold u in Hv. apply obind_done in Hv. destruct Hv as ([rng s1] & Hf & Hv). injection Hv as <-.
  apply (ofold_inv (fun st : N * system R => snd st = scale_system u s)) in Hf; [exact Hf| |reflexivity].
  clear Hf. intros [rng0 s2] c [rng1 s3] Hc E H3. cbn [snd] in *. subst s2. unfold solve_component in H3.
  destruct (c_elements c) as [|e0 es0] eqn:Ec; [now injection H3 as _ <-|]. rewrite <- Ec in *.
  apply obind_done in H3. destruct H3 as (free & Hfr & H3). rewrite Eb in H3. cbn [obind] in H3.
  apply obind_done in H3. destruct H3 as (s4 & H4 & H3). injection H3 as _ <-.
  change (with_values (sys_variables (scale_system u s)) (sys_variables_transformed (scale_system u s)) (scale_system u s))
    with (scale_system u s) in H4.
  destruct (o_decomposer opts) eqn:Edc; [congruence| |].
  - pose proof (component_free_spec _ _ _ Hfr) as [N Hfree].
    eapply (pass_idle s sk u a Hs M Ha env); [exact O|exact Ro|exact La|exact N| |exact H4].
    intros v Hv. apply Hfree in Hv. destruct Hv as (i & e & Hi & Hel & Hve & _).
    change (components (sys_graph (scale_system u s))) with (components (sys_graph s)) in Hc.
    pose proof (group_variable _ _ _ _ _ _ M Hc Hi Hel Hve) as Q. apply nth_error_lt in Q. now rewrite (m_plen _ _ M) in Q.
  - eapply (assembly_idle s sk u a Hs M Ha); [exact O|exact (Ll eq_refl)| |exact H4]. exact (ro_once _ Ro c Hc).
Qed.

(** Levenberg-Marquardt returns at once from a misfit below its threshold. *)
Lemma lm_lazy colamd sort fuel a : (a < 1 / 10 ^ 8)%R -> lazy a (optimize colamd sort fuel LevenbergMarquardt).
Proof.
  intros Ha p x y C _ Hb H. cbn in H.
  assert (E : exists b, objective p x = Some b).
  { assert (H' := H). unfold levenberg_marquardt, lm_trace in H'. apply obind_done in H'. destruct H' as (trace & Ht & _).
    apply obind_done in Ht. destruct Ht as ([rs ts] & He & _). eexists. exact (evaluate_objective orderly_R _ C _ _ _ He). }
  destruct E as [b Eb]. specialize (Hb b Eb).
  apply (lm_solved orderly_R (qr_solver colamd sort) _ C fuel x b y Eb); [|exact H].
  cbn. destruct (Proofs_Real.Rltb_spec b (1 / 100000000)) as [|N]; [reflexivity|]. exfalso. apply N.
  replace 100000000%R with (10 ^ 8)%R by ring. lra.
Qed.

(** L-BFGS does from a larger one. *)
Lemma lbfgs_lazy colamd sort fuel a : (a < 1 / 10 ^ 4)%R -> lazy a (optimize colamd sort fuel LBfgs).
Proof.
  intros Ha p x y _ DC Hb H. cbn in H. unfold lbfgs, lbfgs_trace in H.
  apply obind_done in H. destruct H as ([x' rounds] & H & E). injection E as <-.
  apply obind_done in H. destruct H as ([rs jac] & Hr & H). cbv zeta in H.
  assert (Er : calculate_residuals p x = Done rs) by (apply (DC _ _ _ _ Hr); apply repeat_length).
  assert (Hlt : nltb (sum_squares rs) (tenm 4) = true).
  { pose proof (objective_sum _ _ _ Er) as Eo. specialize (Hb _ Eo). unfold objective in Eo. rewrite Er in Eo. apply some_inj in Eo.
    change (fold_left (fun sum r => nadd sum (nmul r r)) rs nzero) with (sum_squares rs) in Eo. rewrite <- Eo in Hb.
    cbn [nltb NumR]. match goal with |- Rltb ?v ?w = true => destruct (Proofs_Real.Rltb_spec v w) as [|N]; [reflexivity|]; exfalso; apply N end.
    apply Rle_lt_trans with a; [exact Hb|]. cbn. lra. }
  rewrite Hlt in H. now injection H.
Qed.
