(** Solving without a decomposer in exact arithmetic: proofs for C50-C52. *)
From Coq Require Import List Arith NArith Lia Permutation Reals Lra.
From Verif Require Import Num NumR Outcome Lib ModelExpr ModelGraph ModelSystem ModelSolve ModelApi ModelLm
  Spec_Sketch Spec_Graph Spec_Solver Spec_History Spec_Components Spec_Pass Spec_Descent Spec_Whole
  Proofs_Graph Proofs_System Proofs_Calls Proofs_Solve Proofs_Safe Proofs_Step Proofs_History Proofs_Api
  Proofs_Components Proofs_Real Proofs_Motion Proofs_Whole.
Import ListNotations.
Local Open Scope nat_scope.
Local Notation Rsum := (fold_right Rplus 0%R).
Local Notation sq := (fun x : R => (x * x)%R).

Lemma some_inj {A} (a b : A) : Some a = Some b -> a = b.
Proof. congruence. Qed.

(** ** Sums *)
Lemma fold_left_squares (l : list R) : forall a,
  fold_left (fun sum r => (sum + r * r)%num) l a = (a + Rsum (map sq l))%R.
Proof.
  induction l as [|x l IH]; intros a; simpl; [ring|]. rewrite IH. cbn. ring.
Qed.
Lemma objective_sum (p : problem R) x rs : calculate_residuals p x = Done rs ->
  objective p x = Some (Rsum (map sq rs)).
Proof. intros H. unfold objective. rewrite H. f_equal. rewrite fold_left_squares. cbn. ring. Qed.
Lemma Rsum_app l m : Rsum (l ++ m) = (Rsum l + Rsum m)%R.
Proof. induction l as [|x l IH]; simpl; [ring|]. rewrite IH. ring. Qed.
Lemma Rsum_squares_pos l : (0 <= Rsum (map sq l))%R.
Proof. induction l as [|x l IH]; simpl; [lra|]. pose proof (Rle_0_sqr x). unfold Rsqr in *. lra. Qed.
Lemma Rsum_squares_in l x : In x l -> (x * x <= Rsum (map sq l))%R.
Proof.
  induction l as [|y l IH]; simpl; [intros []|]. pose proof (Rsum_squares_pos l). pose proof (Rle_0_sqr y).
  unfold Rsqr in *. intros [->|Q]; [lra|]. specialize (IH Q). lra.
Qed.
Lemma Rsum_perm l m : Permutation l m -> Rsum l = Rsum m.
Proof. induction 1; simpl; lra. Qed.
Lemma omap_app {A B} (f : A -> outcome B) l m bs cs : omap f l = Done bs -> omap f m = Done cs ->
  omap f (l ++ m) = Done (bs ++ cs).
Proof.
  revert bs. induction l as [|a l IH]; simpl; intros bs H1 H2.
  - inversion H1; subst. simpl. auto.
  - apply obind_done in H1. destruct H1 as (b & Hb & H1). apply obind_done in H1. destruct H1 as (bs' & Hbs & H1).
    inversion H1; subst. rewrite Hb. simpl. rewrite (IH _ Hbs H2). reflexivity.
Qed.

(** ** The residuals of the scaled system and of the client *)
(** The expressions of constraint [k] *)
Definition own_expressions (s : system R) (i : nat) : list nat :=
  match nth_error (sys_constraints s) i with
  | Some ec => map (fun o => expressions_idx ec + o) (seq 0 (tag_valency (ec_tag ec)))
  | None => []
  end.
(** What constraint number [i] adds to the sum of squares *)
Definition share (u : R) (s : system R) (i : nat) : R :=
  match omap (residual_in (scale_system u s)) (own_expressions s i) with
  | Done rs => Rsum (map sq rs)
  | _ => 0%R
  end.

Lemma scaled_expression u (s : system R) sk j e : (0 < u)%R -> models s sk ->
  nth_error (sys_expressions s) j = Some e ->
  exists r, residual_in (scale_system u s) j = Done r /\
    calculate_residual (identity_map (sys_variables s)) e = Done (u ^ degree e * r)%R.
Proof.
  intros Hu M He. unfold residual_in.
  rewrite (proj2 (oget_done _ _ _) (scale_system_expr u s j e He)). cbn [obind].
  set (xs := sys_variables_transformed (scale_system u s)).
  assert (Hr : exists r, calculate_residual (identity_map xs) (transform (1 / u)%R e) = Done r).
  { unfold calculate_residual, gather. rewrite transform_indices.
    destruct (omap_ok (identity_map xs) (variable_indices e)) as [ys Hys].
    { intros v Hv. assert (L := expr_vars_range _ _ _ _ _ M He Hv). unfold identity_map.
      destruct (oget_ok xs v) as [y Hy]; [|rewrite Hy; simpl; eauto].
      unfold xs, scale_system. simpl. now rewrite map_length. }
    rewrite Hys. simpl. eauto. }
  destruct Hr as [r Hr]. exists r. split; [exact Hr|].
  rewrite <- (scaled_residual e xs u r Hu Hr). f_equal. f_equal. symmetry. now apply scaled_values.
Qed.

Lemma relation_degree els (r : relation R) es e : compile els r = Some es -> In e es ->
  degree e = dimension (relation_tag r).
Proof.
  intros H He. destruct r; simpl in H;
  repeat match goal with
  | H : match pt_at ?els ?p with _ => _ end = _ |- _ =>
      let E := fresh "E" in destruct (pt_at els p) eqn:E; [|discriminate]
  | H : match line_at ?els ?p with _ => _ end = _ |- _ =>
      let E := fresh "E" in destruct (line_at els p) as [[? ?]|] eqn:E; [|discriminate]
  | H : match circle_at ?els ?p with _ => _ end = _ |- _ =>
      let E := fresh "E" in destruct (circle_at els p) as [[? ?]|] eqn:E; [|discriminate]
  end; injection H as <-; simpl in He;
  repeat match goal with H : _ \/ _ |- _ => destruct H as [H|H] | H : False |- _ => destruct H end;
  subst e; reflexivity.
Qed.

Lemma own_residuals u (s : system R) sk i r : (0 < u)%R -> models s sk ->
  nth_error (sk_relations sk) i = Some r ->
  exists rs, omap (residual_in (scale_system u s)) (own_expressions s i) = Done rs.
Proof.
  intros Hu M Hr. destruct (m_rel _ _ M _ _ Hr) as (idx & es & Hc & Hes & Hk).
  unfold own_expressions. rewrite Hc. simpl. apply omap_ok. intros j Hj.
  apply in_map_iff in Hj. destruct Hj as (o & <- & Ho). apply in_seq in Ho.
  assert (Lo : o < length es) by (rewrite (compile_length _ _ _ Hes); lia).
  destruct (nth_error_ex _ _ Lo) as [e He]. destruct (Hk _ _ He) as [He' _].
  destruct (scaled_expression u s sk _ _ Hu M He') as (x & Hx & _). eauto.
Qed.

(** The share of a constraint is the square of its relative residual. *)
Lemma share_residual u (s : system R) sk h r : (0 < u)%R -> models s sk ->
  nth_error (sk_relations sk) (ch_id h) = Some r -> ch_system h = sk_id sk -> ch_tag h = relation_tag r ->
  exists y, relative_residual u s h = Done y /\ (y * y)%R = share u s (ch_id h).
Proof.
  intros Hu M Hr Hs Ht. destruct (residual_eq _ _ _ _ M Hr Hs Ht) as (x & _ & Hx).
  unfold relative_residual. rewrite Hx. cbn [obind]. eexists. split; [reflexivity|].
  destruct (m_rel _ _ M _ _ Hr) as (idx & es & Hc & Hes & Hk).
  assert (Pu : forall n, (u ^ n <> 0)%R) by (intros n; apply pow_nonzero; lra).
  unfold share, own_expressions. rewrite Hc. cbn [ec_tag expressions_idx].
  unfold constraint_residual in Hx. rewrite (m_id _ _ M), Hs, N.eqb_refl in Hx. cbn [oassert obind] in Hx.
  rewrite (proj2 (oget_done _ _ _) Hc) in Hx. cbn [obind expressions_idx] in Hx. rewrite Ht in *.
  assert (Lv := compile_length _ _ _ Hes).
  assert (D : forall o e, nth_error es o = Some e -> degree e = dimension (relation_tag r)).
  { intros o e He. eapply relation_degree; eauto. eapply nth_error_In; eauto. }
  destruct (tag_valency (relation_tag r)) as [|[|[|n]]] eqn:Ev.
  - destruct r; discriminate.
  - simpl in Hx. destruct (nth_error_ex es 0) as [e He]; [lia|].
    destruct (Hk _ _ He) as [He' _]. rewrite Nat.add_0_r in He'.
    destruct (scaled_expression u s sk _ _ Hu M He') as (y & Hy & Hy').
    rewrite (proj2 (oget_done _ _ _) He') in Hx. cbn [obind] in Hx. rewrite Hx in Hy'. injection Hy' as ->.
    simpl seq. simpl map. rewrite Nat.add_0_r. simpl omap. rewrite Hy. simpl. rewrite (D _ _ He). field. apply Pu.
  - simpl in Hx. destruct (nth_error_ex es 0) as [e He]; [lia|]. destruct (nth_error_ex es 1) as [e1 He1]; [lia|].
    destruct (Hk _ _ He) as [He' _]. destruct (Hk _ _ He1) as [He1' _].
    destruct (scaled_expression u s sk _ _ Hu M He') as (y & Hy & Hy').
    destruct (scaled_expression u s sk _ _ Hu M He1') as (y1 & Hy1 & Hy1').
    rewrite (proj2 (oget_done _ _ _) He'), (proj2 (oget_done _ _ _) He1') in Hx. cbn [obind] in Hx.
    rewrite Hy', Hy1' in Hx. simpl in Hx. injection Hx as <-.
    simpl seq. simpl map. simpl omap. rewrite Hy, Hy1. simpl. rewrite (D _ _ He), (D _ _ He1).
    cbn. set (w := (u ^ dimension (relation_tag r))%R) in *.
    assert (Pw : (w <> 0)%R) by apply Pu.
    set (q := (0 + w * y * (w * y) + w * y1 * (w * y1))%R).
    assert (Pq : (0 <= q)%R).
    { unfold q. pose proof (Rle_0_sqr (w * y)). pose proof (Rle_0_sqr (w * y1)). unfold Rsqr in *. lra. }
    replace (sqrt q / w * (sqrt q / w))%R with ((sqrt q * sqrt q) / (w * w))%R by (field; auto).
    rewrite sqrt_sqrt by auto. unfold q. field. auto.
  - destruct r; discriminate.
Qed.

(** ** Groups *)
Lemma group_expressions_own (s : system R) : forall cs es, component_expressions s cs = Done es ->
  es = flat_map (own_expressions s) cs.
Proof.
  unfold component_expressions. induction cs as [|c cs IH]; intros es H.
  - simpl in H. inversion H. reflexivity.
  - apply obind_done in H. destruct H as (ess & Hm & H). inversion H; subst; clear H.
    simpl in Hm. apply obind_done in Hm. destruct Hm as (l & Hl & Hm).
    apply obind_done in Hm. destruct Hm as (ess' & Hm' & Hm). inversion Hm; subst; clear Hm.
    apply obind_done in Hl. destruct Hl as (ec & Hec & Hl). inversion Hl; subst; clear Hl. apply oget_done in Hec.
    simpl. unfold own_expressions at 1. rewrite Hec. f_equal. apply IH. rewrite Hm'. reflexivity.
Qed.
Lemma group_shares u (s : system R) sk : (0 < u)%R -> models s sk -> forall cs,
  (forall i, In i cs -> i < length (sk_relations sk)) ->
  exists rs, omap (residual_in (scale_system u s)) (flat_map (own_expressions s) cs) = Done rs /\
    Rsum (map sq rs) = Rsum (map (share u s) cs).
Proof.
  intros Hu M cs. induction cs as [|i cs IH]; intros Hr.
  - exists []. auto.
  - destruct IH as (rs & H1 & H2); [intros j Hj; apply Hr; simpl; auto|].
    assert (Li : i < length (sk_relations sk)) by (apply Hr; simpl; auto).
    destruct (nth_error_ex _ _ Li) as [r Hi].
    destruct (own_residuals u s sk i r Hu M Hi) as [rs0 H0].
    exists (rs0 ++ rs). simpl. split; [now apply omap_app|].
    rewrite map_app, Rsum_app, H2. f_equal. unfold share. now rewrite H0.
Qed.

Lemma end_residuals env opts scale (s : system R) sk s' vs vt0 c free es vt values y : (0 < scale)%R ->
  models s sk -> gathered (sys_graph s) -> In c (components (sys_graph s)) ->
  s' = with_values vs vt0 (scale_system scale s) -> length vs = length (sys_variables s) ->
  (forall v, ~ writable s v -> nth_error vs v = nth_error (sys_variables s) v) ->
  handled env opts scale (scale_system scale s) vs c free es vt values y ->
  calculate_residuals (subsystem_problem (Subsystem vt (sys_expressions_transformed (scale_system scale s)) es free)) y
  = omap (residual_in (scale_system scale s')) es.
Proof.
  intros Hs M C Hc -> Lvs U H. simpl. unfold ss_residuals. simpl. apply omap_ext. intros e He. unfold residual_in.
  change (sys_expressions_transformed (scale_system scale (with_values vs vt0 (scale_system scale s))))
    with (map (transform (1 / scale)%R) (sys_expressions s)).
  change (nunit / scale)%num with (1 / scale)%R.
  destruct (oget (map (transform (1 / scale)%R) (sys_expressions s)) e) as [x| |] eqn:Ex; auto. cbn [obind].
  apply oget_done in Ex. rewrite nth_error_map in Ex.
  destruct (nth_error (sys_expressions s) e) as [x0|] eqn:Ex0; [|discriminate]. injection Ex as <-.
  apply residual_map. intros v Hv. rewrite transform_indices in Hv.
  assert (Lv := expr_vars_range _ _ _ _ _ M Ex0 Hv).
  destruct (group_expression_variables _ _ _ _ _ _ _ M C Hc (hd_es _ _ _ _ _ _ _ _ _ _ _ H) He Ex0 Hv)
    as (id & el & G1 & G2 & G3).
  pose proof (group_free_or_fixed _ _ _ _ _ _ _ M Hc (hd_free _ _ _ _ _ _ _ _ _ _ _ H) G1 G2 G3) as FF.
  unfold ss_map, index_set_map, identity_map. cbn [ss_free_variables ss_variables].
  change (sys_variables_transformed (scale_system scale (with_values vs vt0 (scale_system scale s))))
    with (map (fun w : R => (w * (1 / scale))%R) vs).
  destruct (index_of free v) as [i|] eqn:Ei.
  - apply index_of_some in Ei. destruct (hd_written _ _ _ _ _ _ _ _ _ _ _ H _ _ Ei) as (a & Ha & Hva).
    unfold oget. rewrite Ha, nth_error_map, Hva. cbn [option_map obind]. do 2 eexists. split; [reflexivity|]. split; [reflexivity|].
    cbn. field. lra.
  - apply index_of_none in Ei. destruct FF as [FF|FF]; [tauto|].
    assert (Vt := hd_vt _ _ _ _ _ _ _ _ _ _ _ H v FF).
    unfold oget. rewrite Vt, nth_error_map, (U v FF).
    change (sys_variables_transformed (scale_system scale s)) with (map (fun w : R => (w * (1 / scale))%R) (sys_variables s)).
    rewrite nth_error_map. destruct (nth_error_ex _ _ Lv) as [a ->]. cbn [option_map obind].
    do 2 eexists. split; [reflexivity|]. split; reflexivity.
Qed.

(** The group of a constraint: the optimizer's residuals at the point it
    returned are the shares at the end; without perturbation, those at the
    point it started from are the shares at the beginning. *)
Lemma group_account env opts (s : system R) sk s' sk' c : (0 < calculate_system_scale s)%R ->
  models s sk -> models s' sk' -> length (sk_relations sk') = length (sk_relations sk) ->
  o_decomposer opts = DecomposeNone -> solve env opts s = Done s' ->
  In c (components (sys_graph s)) -> c_elements c <> [] ->
  exists ss x y, env_optimize env (o_optimizer opts) (subsystem_problem ss) x = Done y /\
    (gathered (sys_graph s) -> objective (subsystem_problem ss) y =
       Some (Rsum (map (share (calculate_system_scale s) s') (c_constraints c)))) /\
    (o_perturb opts = false -> objective (subsystem_problem ss) x =
       Some (Rsum (map (share (calculate_system_scale s) s) (c_constraints c)))) /\
    (o_perturb opts = false -> x = y -> forall v id e, In id (c_elements c) ->
       nth_error (sys_elements s) id = Some e -> In v (element_variables e) ->
       nth_error (sys_variables s') v = nth_error (sys_variables s) v).
Proof.
  intros Hs M M' Er Ed H Hc Ne. set (scale := calculate_system_scale s) in *.
  destruct (solve_handled _ _ _ _ _ Ed M H) as (vs & vt & Es & Lv & U & Hd). fold scale in Es, Hd.
  destruct (Hd c Hc Ne) as (free & es & vt' & values & y & Hh).
  exists (Subsystem vt' (sys_expressions_transformed (scale_system scale s)) es free), values, y.
  split; [exact (hd_call _ _ _ _ _ _ _ _ _ _ _ Hh)|].
  assert (Ees : es = flat_map (own_expressions s) (c_constraints c)).
  { apply group_expressions_own. exact (hd_es _ _ _ _ _ _ _ _ _ _ _ Hh). }
  assert (Rg : forall i, In i (c_constraints c) -> i < length (sk_relations sk)).
  { intros i Hi. rewrite <- (m_gclen _ _ M). apply (p_ccov _ _ _ _ (wg_part _ (m_graph _ _ M))).
    apply In_nth_error in Hc. destruct Hc as [ci Hci]. eauto. }
  split; [|split].
  - intros C. destruct (group_shares scale s' sk' Hs M' (c_constraints c)) as (rs & R1 & R2).
    { rewrite Er. exact Rg. }
    rewrite <- R2. apply objective_sum.
    rewrite (end_residuals _ _ _ _ _ _ _ _ _ _ _ _ _ _ Hs M C Hc Es Lv U Hh). rewrite <- R1, Ees.
    f_equal. subst s'. reflexivity.
  - intros Eb. destruct (group_shares scale s sk Hs M (c_constraints c) Rg) as (rs & R1 & R2).
    rewrite <- R2. apply objective_sum. rewrite (start_residuals _ _ _ _ _ _ _ _ _ _ _ _ M Eb Hc Hh).
    now rewrite <- R1, Ees.
  - intros Eb Exy v id e Hid He Hv.
    pose proof (hd_plain _ _ _ _ _ _ _ _ _ _ _ Hh Eb) as Ep. subst vt' y s'. cbn [sys_variables with_values].
    destruct (group_free_or_fixed _ _ _ _ _ _ _ M Hc (hd_free _ _ _ _ _ _ _ _ _ _ _ Hh) Hid He Hv) as [Fv|Fv]; [|now apply U].
    apply In_nth_error in Fv. destruct Fv as [i Hi].
    destruct (hd_written _ _ _ _ _ _ _ _ _ _ _ Hh _ _ Hi) as (a & Ha & Hva). rewrite Hva.
    destruct (omap_nth' _ _ _ (hd_values _ _ _ _ _ _ _ _ _ _ _ Hh) _ _ Hi) as (b & Hb & Hvb).
    rewrite Ha in Hb. injection Hb as <-. apply oget_done in Hvb.
    change (sys_variables_transformed (scale_system scale s)) with (map (fun w : R => (w * (1 / scale))%R) (sys_variables s)) in Hvb.
    rewrite nth_error_map in Hvb. destruct (nth_error (sys_variables s) v) as [w|]; [|discriminate].
    injection Hvb as <-. f_equal. clearbody scale. cbn. field. lra.
Qed.

Lemma share_pos u s i : (0 <= share u s i)%R.
Proof. unfold share. destruct (omap _ _); [apply Rsum_squares_pos|lra|lra]. Qed.
Lemma Rsum_pos {A} (f : A -> R) l : (forall a, (0 <= f a)%R) -> (0 <= Rsum (map f l))%R.
Proof. intros H. induction l as [|a l IH]; simpl; [lra|]. specialize (H a). lra. Qed.
Lemma Rsum_member {A} (f : A -> R) l a : (forall a, (0 <= f a)%R) -> In a l -> (f a <= Rsum (map f l))%R.
Proof.
  intros H. induction l as [|b l IH]; simpl; [intros []|]. pose proof (Rsum_pos f l H). pose proof (H b).
  intros [->|Q]; [lra|]. specialize (IH Q). lra.
Qed.

(** ** Histories *)
Lemma solve_models env opts id l (s : system R) sk s' : env_ok env -> history env id l s -> inv id l s sk ->
  solve env opts s = Done s' -> exists sk', models s' sk' /\ sk_id sk' = sk_id sk /\
    constraint_handles sk' = constraint_handles sk /\ length (sk_relations sk') = length (sk_relations sk).
Proof.
  intros EO H I Hs.
  assert (H' : history env id ((Solve opts, RUnit) :: l) s').
  { econstructor; [exact H| |]. { repeat split; simpl; intros; contradiction. }
    simpl. unfold ret_unit. rewrite Hs. reflexivity. }
  destruct (history_inv _ _ _ _ EO H') as [sk' I']. exists sk'. split; [apply (iv_models _ _ _ _ I')|].
  split; [now rewrite (iv_id _ _ _ _ I), (iv_id _ _ _ _ I')|].
  assert (E : constraint_handles sk' = constraint_handles sk).
  { rewrite <- (iv_ch _ _ _ _ I), <- (iv_ch _ _ _ _ I'), created_constraints_cons. apply app_nil_r. }
  split; [exact E|]. apply (f_equal (@length _)) in E. unfold constraint_handles in E.
  now rewrite !map_length, !seq_length in E.
Qed.

Lemma handle_share u (s : system R) sk h : (0 < u)%R -> models s sk -> In h (constraint_handles sk) ->
  exists y, relative_residual u s h = Done y /\ (y * y)%R = share u s (ch_id h).
Proof.
  intros Hu M K. apply in_constraint_handles in K. destruct K as (r & Hr & Hs & Ht).
  eapply share_residual; eauto.
Qed.

Lemma together_gathered env id l (s : system R) sk : env_ok env -> history env id l s -> inv id l s sk ->
  together l s -> gathered (sys_graph s).
Proof.
  intros EO H I T ci k es e Hh Hy He. assert (M := iv_models _ _ _ _ I).
  assert (Lk : k < length (sk_relations sk)).
  { rewrite <- (m_gclen _ _ M). unfold hyperedges in Hy. rewrite nth_error_map in Hy.
    destruct (nth_error (g_constraints (sys_graph s)) k) eqn:E; [|discriminate]. eapply nth_error_lt; eauto. }
  destruct (nth_error_ex _ _ Lk) as [r Hr].
  set (h := {| ch_system := sk_id sk; ch_id := k; ch_tag := relation_tag r |}).
  assert (Kh : In h (constraint_handles sk)) by (apply in_constraint_handles; exists r; auto).
  rewrite <- (iv_ch _ _ _ _ I), in_created_constraints in Kh. apply in_map_iff in Kh.
  destruct Kh as ((c & r') & Er & Hin). simpl in Er. subst r'.
  pose proof (constraint_edge _ _ _ _ _ _ I Hin) as Hy'. simpl in Hy'. rewrite Hy in Hy'. injection Hy' as ->.
  apply in_map_iff in He. destruct He as (p & <- & Hp). exact (T _ _ _ _ Hin Hp Hh).
Qed.
Lemma never_merges_together env id l (s : system R) : env_ok env -> history env id l s -> never_merges l -> together l s.
Proof. intros EO H N c k p g. exact (proj2 (groups_exact _ _ _ _ EO H N) c k p g). Qed.

Theorem solved_within eps env opts id l (s : system R) s' k : env_ok env -> history env id l s ->
  together l s -> (0 < calculate_system_scale s)%R -> o_decomposer opts = DecomposeNone ->
  (0 <= eps)%R -> reaches eps env (o_optimizer opts) -> solve env opts s = Done s' ->
  In (RConstraint k) (map snd l) ->
  exists x, constraint_residual k s' = Done x /\
    (Rabs x <= eps * calculate_system_scale s ^ dimension (ch_tag k))%R.
Proof.
  intros EO H Nm Hs Ed He Re Hv K. destruct (history_inv _ _ _ _ EO H) as [sk I].
  assert (M := iv_models _ _ _ _ I). assert (C := together_gathered _ _ _ _ _ EO H I Nm).
  destruct (solve_models _ _ _ _ _ _ _ EO H I Hv) as (sk' & M' & Eid & Eh & El).
  assert (Kc := known_own_c _ _ _ _ _ I K). rewrite <- Eh in Kc.
  destruct (handle_share _ _ _ _ Hs M' Kc) as (y & Hy & Hsh).
  destruct (groups_always _ _ _ _ EO H) as (_ & _ & _ & A4 & _).
  destruct (A4 k K) as (g & c & Hc & Hk). apply nth_error_In in Hc.
  assert (Ne := group_not_empty _ _ _ _ M C Hc Hk).
  destruct (group_account _ _ _ _ _ _ _ Hs M M' El Ed Hv Hc Ne) as (ss & x0 & y0 & Ho & Hend & _).
  destruct (Re _ _ _ Ho) as (a & Ha & Hle). rewrite (Hend C) in Ha. injection Ha as Ha.
  unfold relative_residual in Hy. apply obind_done in Hy. destruct Hy as (x & Hx & Hy).
  apply (f_equal (fun o => match o with Done z => z | _ => y end)) in Hy. cbv beta iota in Hy.
  exists x. split; [exact Hx|].
  set (w := (calculate_system_scale s ^ dimension (ch_tag k))%R) in *.
  assert (Pw : (0 < w)%R) by now apply pow_lt. clearbody w.
  assert (Le : (y * y <= eps * eps)%R).
  { rewrite Hsh. eapply Rle_trans; [|exact Hle]. rewrite <- Ha.
    apply Rsum_member; [apply share_pos|exact Hk]. }
  assert (Ey : (x = y * w)%R) by (rewrite <- Hy; field; lra).
  rewrite Ey, Rabs_mult, (Rabs_right w) by lra. apply Rmult_le_compat_r; [lra|].
  apply Rsqr_incr_0; [unfold Rsqr; rewrite <- Rabs_mult, Rabs_right; [exact Le|apply Rle_ge; apply Rle_0_sqr]|apply Rabs_pos|exact He].
Qed.

(** ** The sum over all constraints *)
Lemma misfit_shares u (s : system R) sk : (0 < u)%R -> models s sk ->
  misfit u s (constraint_handles sk) = Done (Rsum (map (share u s) (seq 0 (length (sk_relations sk))))).
Proof.
  intros Hu M. unfold misfit.
  assert (G : forall hs, (forall h, In h hs -> In h (constraint_handles sk)) ->
    exists ys, omap (relative_residual u s) hs = Done ys /\ map sq ys = map (fun h => share u s (ch_id h)) hs).
  { induction hs as [|h hs IH]; intros Hin; [exists []; auto|].
    destruct IH as (ys & H1 & H2); [intros; apply Hin; simpl; auto|].
    destruct (handle_share u s sk h Hu M) as (y & Hy & E); [apply Hin; simpl; auto|].
    exists (y :: ys). simpl. rewrite Hy, H1. simpl. now rewrite E, H2. }
  destruct (G (constraint_handles sk)) as (ys & H1 & H2); [auto|]. rewrite H1. cbn [obind]. rewrite H2.
  unfold constraint_handles. now rewrite map_map.
Qed.
Lemma concat_disjoint {A} (ls : list (list A)) : (forall l, In l ls -> NoDup l) ->
  (forall i j l m x, nth_error ls i = Some l -> nth_error ls j = Some m -> In x l -> In x m -> i = j) ->
  NoDup (concat ls).
Proof.
  induction ls as [|l ls IH]; intros N D; simpl; [constructor|].
  assert (N1 : NoDup (concat ls)).
  { apply IH; [intros; apply N; simpl; auto|]. intros i j l1 l2 x H1 H2 H3 H4.
    assert (S i = S j) by (eapply (D (S i) (S j)); eauto). lia. }
  assert (N0 : NoDup l) by (apply N; simpl; auto).
  assert (Dj : forall x, In x l -> ~ In x (concat ls)).
  { intros x Hx Hc. apply in_concat in Hc. destruct Hc as (m & Hm & Hxm). apply In_nth_error in Hm. destruct Hm as [j Hj].
    assert (0 = S j) by exact (D 0 (S j) l m x eq_refl Hj Hx Hxm). lia. }
  clear - N0 N1 Dj. induction l as [|x l IH]; simpl; [auto|]. apply NoDup_cons_iff in N0. destruct N0 as [Nx N0].
  constructor.
  - intros Hin. apply in_app_iff in Hin. destruct Hin as [Hin|Hin]; [auto|]. apply (Dj x); simpl; auto.
  - apply IH; [auto|]. intros y Hy. apply Dj. simpl; auto.
Qed.
Lemma constraints_partition (s : system R) sk : models s sk ->
  Permutation (flat_map c_constraints (components (sys_graph s))) (seq 0 (length (sk_relations sk))).
Proof.
  intros M. assert (P := wg_part _ (m_graph _ _ M)). rewrite (m_gclen _ _ M) in P.
  apply NoDup_Permutation.
  - rewrite flat_map_concat_map. apply concat_disjoint.
    + intros l Hl. apply in_map_iff in Hl. destruct Hl as (c & <- & Hc). apply In_nth_error in Hc. destruct Hc as [ci Hci].
      apply ssorted_nodup. now apply (p_sorted _ _ _ _ P _ _ Hci).
    + intros i j l m x Hi Hj Hx Hx'. rewrite nth_error_map in Hi, Hj.
      destruct (nth_error (components (sys_graph s)) i) as [c|] eqn:Ei; [|discriminate]. injection Hi as <-.
      destruct (nth_error (components (sys_graph s)) j) as [c'|] eqn:Ej; [|discriminate]. injection Hj as <-.
      exact (p_cdisj _ _ _ _ P _ _ _ _ _ Ei Ej Hx Hx').
  - apply seq_NoDup.
  - intros k. rewrite in_flat_map, in_seq. split.
    + intros (c & Hc & Hk). apply In_nth_error in Hc. destruct Hc as [ci Hci].
      assert (k < length (sk_relations sk)) by (apply (p_ccov _ _ _ _ P); eauto). lia.
    + intros Hk. assert (Lk : k < length (sk_relations sk)) by lia. apply (p_ccov _ _ _ _ P) in Lk.
      destruct Lk as (ci & c & Hc & Hin). exists c. split; [eapply nth_error_In; eauto|auto].
Qed.
Lemma Rsum_flat_map {A B} (f : B -> R) (g : A -> list B) l :
  Rsum (map f (flat_map g l)) = Rsum (map (fun a => Rsum (map f (g a))) l).
Proof. induction l as [|a l IH]; simpl; [auto|]. now rewrite map_app, Rsum_app, IH. Qed.
Lemma misfit_groups u (s : system R) sk : models s sk ->
  Rsum (map (share u s) (seq 0 (length (sk_relations sk)))) =
  Rsum (map (fun c => Rsum (map (share u s) (c_constraints c))) (components (sys_graph s))).
Proof.
  intros M. rewrite <- Rsum_flat_map. apply Rsum_perm, Permutation_map, Permutation_sym. now apply constraints_partition.
Qed.
(** Solving does not make the sum larger. *)
Theorem solve_improves env opts id l (s : system R) s' : env_ok env -> history env id l s -> together l s ->
  (0 < calculate_system_scale s)%R -> o_decomposer opts = DecomposeNone -> o_perturb opts = false ->
  (forall ss x y, env_optimize env (o_optimizer opts) (subsystem_problem ss) x = Done y ->
     y = x \/ better (subsystem_problem ss) y x) ->
  solve env opts s = Done s' ->
  exists a b, misfit (calculate_system_scale s) s (created_constraints l) = Done a /\
    misfit (calculate_system_scale s) s' (created_constraints l) = Done b /\ (b <= a)%R.
Proof.
  intros EO H Nm Hs Ed Eb Im Hv. destruct (history_inv _ _ _ _ EO H) as [sk I].
  assert (M := iv_models _ _ _ _ I). assert (C := together_gathered _ _ _ _ _ EO H I Nm).
  destruct (solve_models _ _ _ _ _ _ _ EO H I Hv) as (sk' & M' & Eid & Eh & El).
  do 2 eexists. split; [rewrite (iv_ch _ _ _ _ I); now apply misfit_shares|].
  split; [rewrite (iv_ch _ _ _ _ I), <- Eh; now apply misfit_shares|].
  rewrite !misfit_groups by auto.
  assert (Eg : components (sys_graph s') = components (sys_graph s)).
  { destruct (solve_handled _ _ _ _ _ Ed M Hv) as (vs & vt & -> & _). reflexivity. }
  rewrite Eg.
  assert (G : forall c, In c (components (sys_graph s)) ->
    (Rsum (map (share (calculate_system_scale s) s') (c_constraints c)) <=
     Rsum (map (share (calculate_system_scale s) s) (c_constraints c)))%R).
  { intros c Hc. destruct (c_constraints c) as [|k ks] eqn:Ek; [simpl; lra|]. rewrite <- Ek.
    assert (Ne : c_elements c <> []) by (eapply (group_not_empty _ _ _ k M C Hc); rewrite Ek; simpl; auto).
    destruct (group_account _ _ _ _ _ _ _ Hs M M' El Ed Hv Hc Ne) as (ss & x0 & y0 & Ho & Hend & Hstart & _).
    destruct (Im _ _ _ Ho) as [->|(a & b & Ha & Hb & Hlt)].
    - rewrite (Hend C) in Hstart. specialize (Hstart Eb). apply some_inj in Hstart. lra.
    - rewrite (Hend C) in Ha. rewrite (Hstart Eb) in Hb. apply some_inj in Ha, Hb. subst a b.
      change (Rltb (Rsum (map (share (calculate_system_scale s) s') (c_constraints c)))
        (Rsum (map (share (calculate_system_scale s) s) (c_constraints c))) = true) in Hlt.
      match type of Hlt with Rltb ?a ?b = true => destruct (Rltb_spec a b); [lra|discriminate] end. }
  revert G. generalize (components (sys_graph s)). intros cs. induction cs as [|c cs IH]; intros G; [simpl; lra|].
  pose proof (G c (or_introl eq_refl)). pose proof (IH (fun c' H' => G c' (or_intror H'))).
  cbn [map fold_right]. lra.
Qed.

(** A sketch the optimizer has nothing to do for is left as it is. *)
Theorem solve_idle env opts id l (s : system R) s' a : env_ok env -> history env id l s ->
  (0 < calculate_system_scale s)%R -> o_decomposer opts = DecomposeNone -> o_perturb opts = false ->
  (forall ss x y b, objective (subsystem_problem ss) x = Some b -> (b <= a)%R ->
     env_optimize env (o_optimizer opts) (subsystem_problem ss) x = Done y -> y = x) ->
  misfit (calculate_system_scale s) s (created_constraints l) = Done a ->
  solve env opts s = Done s' ->
  (forall h, get_value h s' = get_value h s) /\ forall k, constraint_residual k s' = constraint_residual k s.
Proof.
  intros EO H Hs Ed Eb Im Ha Hv. destruct (history_inv _ _ _ _ EO H) as [sk I].
  assert (M := iv_models _ _ _ _ I).
  destruct (solve_models _ _ _ _ _ _ _ EO H I Hv) as (sk' & M' & Eid & Eh & El).
  rewrite (iv_ch _ _ _ _ I), (misfit_shares _ _ _ Hs M), (misfit_groups _ _ _ M) in Ha.
  apply (f_equal (fun o => match o with Done z => z | _ => a end)) in Ha. cbv beta iota in Ha.
  assert (Ev : sys_variables s' = sys_variables s).
  { apply nth_error_ext. intros v.
    destruct (solve_handled _ _ _ _ _ Ed M Hv) as (vs & vt & Es & Lv & U & Hd).
    destruct (le_lt_dec (length (sys_variables s)) v) as [Lo|Lo].
    { rewrite (proj2 (nth_error_None _ _) Lo). apply nth_error_None. subst s'. simpl. lia. }
    destruct (nth_error (sys_variable_to_primitive s) v) as [id0|] eqn:Ep.
    2:{ apply nth_error_None in Ep. rewrite (m_plen _ _ M) in Ep. lia. }
    assert (Dec : writable s v \/ ~ writable s v).
    { destruct (m_surj _ _ M v Lo) as ([i k] & Hc). assert (Q := m_prim _ _ M _ _ Hc). simpl in Q.
      destruct (in_dec Nat.eq_dec v (sys_fixed s)) as [Fx|Fx];
        [right; intros (c' & id' & e' & _ & _ & _ & _ & Nf); auto|].
      destruct (in_dec Nat.eq_dec i (flat_map c_elements (components (sys_graph s)))) as [In|Nin].
      - left. apply in_flat_map in In. destruct In as (c & Hcc & Hi). unfold addr in Hc. simpl in Hc.
        destruct (nth_error (sys_elements s) i) as [e|] eqn:Ee; [|discriminate].
        exists c, i, e. repeat split; auto.
        destruct e, k as [|[|]]; try discriminate; injection Hc as <-; simpl; auto.
      - right. intros (c & id' & e & Hcc & Hid & He & Hin & _). apply Nin. apply in_flat_map. exists c. split; [auto|].
        pose proof (group_variable _ _ _ _ _ _ M Hcc Hid He Hin) as Q'. rewrite Q in Q'. injection Q' as ->. auto. }
    destruct Dec as [(c & id' & e & Hc & Hid & He & Hin & _)|Nw]; [|subst s'; simpl; now apply U].
    assert (Ne : c_elements c <> []) by (intros E; rewrite E in Hid; destruct Hid).
    destruct (group_account _ _ _ _ _ _ _ Hs M M' El Ed Hv Hc Ne) as (ss & x0 & y0 & Ho & _ & Hstart & Hsame).
    apply (Hsame Eb) with (id := id') (e := e); auto. symmetry.
    eapply Im; [apply (Hstart Eb)| |exact Ho]. rewrite <- Ha.
    apply (Rsum_member (fun c => Rsum (map (share (calculate_system_scale s) s) (c_constraints c)))); [|auto].
    intros c0. apply Rsum_pos. intros i. apply share_pos. }
  destruct (solve_handled _ _ _ _ _ Ed M Hv) as (vs & vt & Es & _).
  assert (vs = sys_variables s) by (rewrite <- Ev; subst s'; reflexivity). subst vs.
  split; [intros h|intros k]; subst s'; reflexivity.
Qed.
