(** Changing the unit of length, over the real numbers. *)
From Coq Require Import List Arith NArith ZArith Bool Reals Lra Psatz.
From Verif Require Import Lib Num NumR Outcome ModelExpr ModelGraph ModelMatching ModelSystem ModelSolve ModelApi
  ModelAssembly ModelOptimize Spec_Units.
Import ListNotations.
Local Open Scope R_scope.

Definition ov {A B} (f : A -> B) (m : outcome A) : outcome B :=
  match m with Done a => Done (f a) | Panic => Panic | Timeout => Timeout end.
Lemma ov_bind {A A' B B'} (f : A -> A') (g : B -> B') (m : outcome A) (k : A -> outcome B) (k' : A' -> outcome B') :
  (forall a, k' (f a) = ov g (k a)) -> obind (ov f m) k' = ov g (obind m k).
Proof. intros H. destruct m; cbn; auto. Qed.
(** The first step is the same in both units. *)
Lemma ov_same {A B B'} (g : B -> B') (m : outcome A) (k : A -> outcome B) (k' : A -> outcome B') :
  (forall a, k' a = ov g (k a)) -> obind m k' = ov g (obind m k).
Proof. intros H. destruct m; cbn; auto. Qed.
Lemma ov_fold {A S S'} (f : S -> S') (g : S -> A -> outcome S) (g' : S' -> A -> outcome S') l :
  (forall s a, g' (f s) a = ov f (g s a)) -> forall s, ofold g' l (f s) = ov f (ofold g l s).
Proof.
  intros H. induction l as [|a l IH]; intros s; cbn; [reflexivity|]. rewrite H. apply ov_bind. exact IH.
Qed.
Lemma oget_map {A B} (f : A -> B) l i : oget (map f l) i = ov f (oget l i).
Proof. unfold oget. rewrite nth_error_map. destruct (nth_error l i); reflexivity. Qed.
Lemma lset_map {A B} (f : A -> B) l i a : lset (map f l) i (f a) = map f (lset l i a).
Proof. revert i. induction l as [|b l IH]; intros [|i]; cbn; congruence. Qed.
Lemma oset_map {A B} (f : A -> B) l i a : oset (map f l) i (f a) = ov (map f) (oset l i a).
Proof. unfold oset. rewrite map_length. destruct (_ <? _)%nat; cbn; [|reflexivity]. now rewrite lset_map. Qed.

Section Units.
  Variable k : R.

  Definition expr_units (e : expr R) : expr R :=
    match e with
    | PointPointDistance a b d => PointPointDistance a b (k * d)
    | PointLineDistance a b c d => PointLineDistance a b c (k * d)
    | e => e
    end.
  (** The state of a sketch drawn in the other unit *)
  Definition units (s : system R) : system R :=
    System (sys_id s) (sys_graph s) (sys_eqgraph s) (sys_elements s)
           (map (Rmult k) (sys_variables s)) (sys_variables_transformed s)
           (sys_variable_to_primitive s) (sys_fixed s) (sys_constraints s)
           (map expr_units (sys_expressions s)) (sys_expressions_transformed s)
           (sys_expression_to_constraint s).

  Lemma expr_units_indices e : variable_indices (expr_units e) = variable_indices e.
  Proof. destruct e; reflexivity. Qed.

  (** ** Creating and changing things *)
  Definition upair {A} (p : system R * A) : system R * A := (units (fst p), snd p).

  Lemma add_element_units tag vs enc s :
    add_element tag (map (Rmult k) vs) enc (units s) = ov upair (add_element tag vs enc s).
  Proof.
    unfold add_element. cbn [sys_elements sys_variables units]. rewrite map_length.
    apply ov_same. intros i. apply ov_same. intros j.
    cbn [ov]. unfold upair, units. cbn [fst snd sys_id sys_graph sys_eqgraph sys_elements sys_variables sys_variables_transformed
      sys_variable_to_primitive sys_fixed sys_constraints sys_expressions sys_expressions_transformed sys_expression_to_constraint].
    rewrite map_length, map_app. reflexivity.
  Qed.
  Lemma push_units id es : forall s,
    push_expressions id (map expr_units es) (units s) = ov units (push_expressions id es s).
  Proof.
    induction es as [|e es IH]; intros s; [reflexivity|].
    unfold push_expressions in *. cbn [ofold map]. rewrite expr_units_indices.
    cbn [sys_eqgraph units]. destruct (insert_expression (variable_indices e) (sys_eqgraph s)) as [eg| |]; [|reflexivity|reflexivity].
    cbn [obind]. rewrite <- IH. f_equal. unfold units. cbn. rewrite map_app. reflexivity.
  Qed.
  Lemma add_constraint_units tag es s :
    add_constraint tag (map expr_units es) (units s) = ov upair (add_constraint tag es s).
  Proof.
    unfold add_constraint. cbn [sys_constraints sys_expressions units]. rewrite map_length.
    apply ov_same. intros i. apply ov_same. intros j.
    set (s1 := System (sys_id s) (sys_graph s) _ _ (sys_variables s) _ _ _ _ _ _ _).
    change (System _ _ _ _ _ _ _ _ _ _ _ _) with (units s1).
    rewrite push_units. apply ov_bind. reflexivity.
  Qed.
  Lemma with_graph_units v es s : with_graph_constraint v es (units s) = ov units (with_graph_constraint v es s).
  Proof. unfold with_graph_constraint. apply ov_same. reflexivity. Qed.
  (** A constraint is created from what the elements say, which has no unit. *)
  Lemma constrain_units v els tag es s :
    (let! s := with_graph_constraint v els (units s) in add_constraint tag (map expr_units es) s) =
    ov upair (let! s := with_graph_constraint v els s in add_constraint tag es s).
  Proof. rewrite with_graph_units. apply ov_bind. intros. apply add_constraint_units. Qed.

  Lemma ret_element_units m : ret_element (ov upair m) = ov upair (ret_element (F := R) m).
  Proof. destruct m as [[s h]| |]; reflexivity. Qed.
  Lemma ret_constraint_units m : ret_constraint (ov upair m) = ov upair (ret_constraint (F := R) m).
  Proof. destruct m as [[s h]| |]; reflexivity. Qed.
  Lemma ret_unit_units m : ret_unit (ov units m) = ov upair (ret_unit (F := R) m).
  Proof. destruct m as [s| |]; reflexivity. Qed.

  Lemma set_parameter_units tag x e :
    set_parameter tag (if length_like tag then k * x else x) (expr_units e) = ov expr_units (set_parameter tag x e).
  Proof. destruct tag, e; reflexivity. Qed.

  Lemma read_point_units vs i :
    read_point (map (Rmult k) vs) i = ov (fun p => (k * fst p, k * snd p)) (read_point vs i).
  Proof. unfold read_point. rewrite oget_map. apply ov_bind. intros a. rewrite oget_map. apply ov_bind. reflexivity. Qed.
  Lemma get_value_units h s : get_value h (units s) = ov (rescaled_value k) (get_value h s).
  Proof.
    unfold get_value. apply ov_same. intros _. apply ov_same. intros e. cbn [sys_variables units].
    destruct e as [i|i|i j|i j]; cbn [from_encoded_element].
    - rewrite oget_map. apply ov_bind. reflexivity.
    - rewrite read_point_units. apply ov_bind. reflexivity.
    - rewrite read_point_units. apply ov_bind. intros. rewrite read_point_units. apply ov_bind. reflexivity.
    - rewrite read_point_units. apply ov_bind. intros. rewrite oget_map. apply ov_bind. reflexivity.
  Qed.

  (** ** Solving *)
  Hypothesis K : 0 < k.

  Lemma sum_squares_from l a : fold_left (fun acc v => acc + v * v) (map (Rmult k) l) (k * k * a) =
    k * k * fold_left (fun acc v => acc + v * v) l a.
  Proof.
    revert a. induction l as [|x l IH]; intros a; cbn; [reflexivity|].
    rewrite <- IH. f_equal. ring.
  Qed.
  Lemma sum_squares_ge l : forall a, a <= fold_left (fun acc v => acc + v * v) l a.
  Proof.
    induction l as [|x l IH]; intros a; cbn; [lra|]. specialize (IH (a + x * x)). pose proof (Rle_0_sqr x).
    unfold Rsqr in *. lra.
  Qed.
  Lemma sum_squares_zero l : forall a, 0 <= a -> fold_left (fun acc v => acc + v * v) l a = 0 ->
    a = 0 /\ forall x, In x l -> x = 0.
  Proof.
    induction l as [|x l IH]; cbn; intros a A E; [split; [auto|intros ? []]|].
    pose proof (Rle_0_sqr x) as P. unfold Rsqr in P.
    destruct (IH (a + x * x)) as [Q I]; [lra|auto|].
    assert (x * x = 0) by lra. split; [lra|]. intros y [<-|J]; [nra|auto].
  Qed.
  Lemma lengths_units es : flat_map length_parameter (map expr_units es) = map (Rmult k) (flat_map length_parameter es).
  Proof. induction es as [|e es IH]; [reflexivity|]. cbn. rewrite IH, map_app. destruct e; reflexivity. Qed.
  Lemma scale_units s : calculate_system_scale (units s) = k * calculate_system_scale s.
  Proof.
    unfold calculate_system_scale, root_mean_squares, mean_squares, sum_squares.
    cbn [sys_variables sys_expressions units]. rewrite lengths_units, <- map_app, map_length.
    cbn [nsqrt ndiv nadd nmul nzero NumR nofZ].
    replace 0 with (k * k * 0) at 1 by ring. rewrite sum_squares_from. unfold Rdiv.
    rewrite Rmult_assoc, sqrt_mult_alt by nra. rewrite sqrt_square by lra. reflexivity.
  Qed.
  Lemma scale_zero s : calculate_system_scale s = 0 ->
    (forall x, In x (sys_variables s) -> x = 0) /\
    (forall e x, In e (sys_expressions s) -> In x (length_parameter e) -> x = 0).
  Proof.
    unfold calculate_system_scale, root_mean_squares, mean_squares, sum_squares.
    cbn [nsqrt ndiv nadd nmul nzero NumR nofZ]. set (l := sys_variables s ++ _). intros E.
    assert (Z : l = [] \/ fold_left (fun acc v => acc + v * v) l 0 = 0).
    { destruct l as [|x t] eqn:L; [auto|]. right.
      pose proof (sum_squares_ge (x :: t) 0) as P.
      assert (Q : 0 < IZR (Z.of_nat (length (x :: t)))) by (apply IZR_lt; cbn; lia).
      apply sqrt_eq_0 in E; [|apply Rmult_le_pos; [exact P|apply Rlt_le, Rinv_0_lt_compat, Q]].
      unfold Rdiv in E. apply Rmult_integral in E. destruct E as [E|E]; [exact E|].
      exfalso. pose proof (Rinv_0_lt_compat _ Q). lra. }
    assert (A : forall x, In x l -> x = 0).
    { destruct Z as [Z|Z]; [rewrite Z; intros ? []|]. apply (sum_squares_zero l 0); [lra|auto]. }
    split; [intros x I|intros e x Ie Ix]; apply A, in_or_app; [auto|right]. apply in_flat_map. eauto.
  Qed.
  Lemma scale_system_units s :
    scale_system (calculate_system_scale (units s)) (units s) = units (scale_system (calculate_system_scale s) s).
  Proof.
    rewrite scale_units. unfold scale_system, with_transformed, units. cbn. f_equal.
    - rewrite map_map. apply map_ext_in. intros x I.
      destruct (Req_EM_T (calculate_system_scale s) 0) as [Z|Z].
      + rewrite (proj1 (scale_zero s Z) x I). ring.
      + field. split; [auto|lra].
    - rewrite map_map. apply map_ext_in. intros e I.
      assert (D : forall d, length_parameter e = [d] ->
        1 / (k * calculate_system_scale s) * (k * d) = 1 / calculate_system_scale s * d).
      { intros d E. destruct (Req_EM_T (calculate_system_scale s) 0) as [Z|Z].
        - rewrite (proj2 (scale_zero s Z) e d I); [ring|]. rewrite E. left. reflexivity.
        - field. split; [auto|lra]. }
      destruct e; cbn in *; try reflexivity; rewrite D; reflexivity.
  Qed.

  Lemma write_back_units scale free values : forall vs,
    write_back (k * scale) free values (map (Rmult k) vs) = ov (map (Rmult k)) (write_back scale free values vs).
  Proof.
    intros vs. unfold write_back. apply ov_fold. intros s [i v]. apply ov_same. intros x.
    cbn [nmul NumR]. rewrite Rmult_assoc. apply oset_map.
  Qed.
  Lemma solve_none_units env opt scale free cs s :
    solve_none env opt (k * scale) free cs (units s) = ov units (solve_none env opt scale free cs s).
  Proof.
    unfold solve_none. apply ov_same. intros values. apply ov_same. intros es. apply ov_same. intros values'.
    cbn [sys_variables units]. rewrite write_back_units. apply ov_bind. reflexivity.
  Qed.
  Lemma solve_group_units env opt scale s g :
    solve_group env opt (k * scale) (units s) g = ov units (solve_group env opt scale s g).
  Proof.
    unfold solve_group. apply ov_same. intros values. apply ov_same. intros es. apply ov_same. intros values'.
    cbn [sys_variables units]. rewrite write_back_units. apply ov_bind. reflexivity.
  Qed.
  Lemma single_pass_units env opt scale free s :
    solve_single_pass env opt (k * scale) free (units s) = ov units (solve_single_pass env opt scale free s).
  Proof. unfold solve_single_pass. apply ov_same. intros gs. apply ov_fold. intros. apply solve_group_units. Qed.

  (** Recursive assembly that does not mind the unit *)
  Definition assembly_units (env : solver_env R) : Prop := forall scale es cs s,
    env_assembly env (k * scale) es cs (units s) = ov units (env_assembly env scale es cs s).

  Lemma component_units env opts scale st c : assembly_units env ->
    solve_component env opts (k * scale) (fst st, units (snd st)) c =
    ov (fun st => (fst st, units (snd st))) (solve_component env opts scale st c).
  Proof.
    intros A. destruct st as [rng s]. cbn [fst snd]. unfold solve_component.
    destruct (c_elements c) as [|e es] eqn:Ec; [reflexivity|].
    apply ov_same. intros free. apply ov_same. intros [rng' vt].
    set (s1 := with_values (sys_variables s) vt s).
    change (with_values (sys_variables (units s)) vt (units s)) with (units s1).
    destruct (o_decomposer opts).
    - rewrite solve_none_units. apply ov_bind. reflexivity.
    - rewrite single_pass_units. apply ov_bind. reflexivity.
    - rewrite A. apply ov_bind. reflexivity.
  Qed.
  Lemma solve_units env opts s : assembly_units env ->
    solve env opts (units s) = ov units (solve env opts s).
  Proof.
    intros A. unfold solve. rewrite scale_system_units, scale_units.
    set (s1 := scale_system _ s).
    change (sys_graph (units s1)) with (sys_graph s1).
    pose proof (ov_fold (fun st : N * system R => (fst st, units (snd st)))
      (solve_component env opts (calculate_system_scale s)) (solve_component env opts (k * calculate_system_scale s))
      (components (sys_graph s1)) (fun st c => component_units env opts _ st c A) (42%N, s1)) as E.
    cbn [fst snd] in E. rewrite E. apply ov_bind. intros [? ?]. reflexivity.
  Qed.

  (** ** Recursive assembly as modelled *)
  Lemma write_variable_units scale s idx x :
    write_variable (k * scale) (units s) idx x = ov units (write_variable scale s idx x).
  Proof.
    unfold write_variable. apply ov_same. intros vt. cbn [sys_variables units nmul NumR].
    rewrite Rmult_assoc, oset_map. apply ov_bind. reflexivity.
  Qed.
  Lemma move_element_units scale c p s id :
    move_element (k * scale) c p (units s) id = ov units (move_element scale c p s id).
  Proof.
    unfold move_element. destruct (mem id (cs_elements c)); [reflexivity|].
    apply ov_same. intros e. destruct e; try reflexivity.
    apply ov_same. intros x. apply ov_same. intros y. destruct (transform_point p (x, y)) as [x' y'].
    rewrite write_variable_units. apply ov_bind. intros. apply write_variable_units.
  Qed.
  Lemma move_cluster_units scale st c values s ik :
    move_cluster (k * scale) st c values (units s) ik = ov units (move_cluster scale st c values s ik).
  Proof.
    destruct ik as [i [key l]]. unfold move_cluster. apply ov_same. intros p. apply ov_fold.
    intros. apply move_element_units.
  Qed.
  Lemma reach_loop_units fuel : forall i s st r es,
    reach_loop fuel i (units s) st r es = reach_loop fuel i s st r es.
  Proof.
    induction fuel as [|fuel IH]; intros i s st r es; cbn; [reflexivity|].
    destruct (nth_error r i) as [c|]; [|reflexivity].
    destruct (ounwrap (lookup c (st_frontier st))); cbn; [|reflexivity|reflexivity].
    change (reach_frontier (units s) st) with (reach_frontier s st).
    destruct (ofold _ _ _) as [[r' es']| |]; cbn; auto.
  Qed.
  Lemma clustered_build_units s st : clustered_build (units s) st = clustered_build s st.
  Proof.
    unfold clustered_build.
    change (component_expressions (units s)) with (component_expressions s).
    destruct (component_expressions s (st_constraints st)); cbn [obind]; [|reflexivity|reflexivity].
    change (reach (units s)) with (reach s).
    destruct (ofold (reach s st) (st_elements st) []); cbn [obind]; [|reflexivity|reflexivity].
    rewrite reach_loop_units. reflexivity.
  Qed.
  Lemma solve_step_units opt scale s st :
    solve_step opt (k * scale) (units s) st = ov units (solve_step opt scale s st).
  Proof.
    unfold solve_step.
    rewrite clustered_build_units.
    apply ov_same. intros [c values].
    change (clustered_problem (units s) c) with (clustered_problem s c).
    apply ov_same. intros values'.
    rewrite (ov_fold units (fun s '(idx, i) => let! x := oget values' i in write_variable scale s idx x)).
    - apply ov_bind. intros s'. apply ov_fold. intros. apply move_cluster_units.
    - intros s' [idx i]. apply ov_same. intros x. apply write_variable_units.
  Qed.
  Lemma assembly_units_whole colamd sort fuel search order :
    assembly_units (whole_env colamd sort fuel search order).
  Proof.
    intros scale es cs s. cbn [env_assembly whole_env fiksi_env]. unfold recursive_assembly.
    apply ov_same. intros steps. apply ov_fold. intros. apply solve_step_units.
  Qed.
End Units.
