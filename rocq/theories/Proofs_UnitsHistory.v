(** Changing the unit of length: histories *)
From Coq Require Import List Arith NArith ZArith Bool Reals Lra Lia Permutation.
From Verif Require Import Lib Num NumR Outcome ModelExpr ModelGraph ModelSystem ModelSolve ModelApi
  ModelAssembly ModelOptimize Spec_History Spec_Solver Spec_Units Proofs_Units Proofs_AssemblyFrame.
From Verif Require Proofs_History Proofs_Api Proofs_Motion Proofs_Real.
Import ListNotations.
Local Open Scope R_scope.

Section History.
  Variable k : R.
  Hypothesis K : 0 < k.

  (** ** Residuals *)
  Lemma call_residual_units c t (val : ehandle -> option (element_value R)) : Proofs_History.call_tag c = Some t ->
    call_residual (rescaled k c) (fun h => option_map (rescaled_value k) (val h)) =
    option_map (rescaled_residual k t) (call_residual c val).
  Proof.
    assert (A : forall a b c d, atan2 (k * a - k * b) (k * c - k * d) = atan2 (a - b) (c - d)).
    { clear c. intros a b c d. rewrite <- (Proofs_Motion.atan2_scale k (a - b) (c - d)) by auto. f_equal; ring. }
    assert (D := fun a b c d => Proofs_Motion.dist_scale k a b c d K).
    intros T. destruct c; cbn in T; try discriminate; injection T as <-; cbn [rescaled call_residual].
    - destruct (val point1) as [[|[x1 y1]| |]|]; try reflexivity.
      destruct (val point2) as [[|[x2 y2]| |]|]; try reflexivity.
      cbn. f_equal. rewrite !Rplus_0_l. apply D.
    - destruct (val point1) as [[|[x1 y1]| |]|]; try reflexivity.
      destruct (val point2) as [[|[x2 y2]| |]|]; try reflexivity.
      cbn. f_equal. rewrite D. ring.
    - destruct (val point1) as [[|[x1 y1]| |]|]; try reflexivity.
      destruct (val point2) as [[|[x2 y2]| |]|]; try reflexivity.
      destruct (val point3) as [[|[x3 y3]| |]|]; try reflexivity.
      cbn. rewrite !A. reflexivity.
    - destruct (val point) as [[|[x1 y1]| |]|]; try reflexivity.
      destruct (val line) as [[| |[x2 y2] [x3 y3]|]|]; try reflexivity.
      cbn. f_equal. ring.
    - destruct (val point) as [[|[x1 y1]| |]|]; try reflexivity.
      destruct (val line) as [[| |[x2 y2] [x3 y3]|]|]; try reflexivity.
      cbn. f_equal. rewrite D.
      set (q := (x3 - x2) * (x3 - x2) + (y3 - y2) * (y3 - y2)).
      destruct (Req_dec (sqrt q) 0) as [Z|Z].
      + assert (Q : q = 0).
        { apply sqrt_eq_0; auto. unfold q. pose proof (Rle_0_sqr (x3 - x2)). pose proof (Rle_0_sqr (y3 - y2)). unfold Rsqr in *; lra. }
        apply Proofs_Real.norm_zero in Q. destruct Q as [Q1 Q2].
        assert (x3 = x2) as -> by lra. assert (y3 = y2) as -> by lra.
        generalize (1 / (k * sqrt q)) (1 / sqrt q). intros. ring.
      + field. lra.
    - destruct (val point) as [[|[x1 y1]| |]|]; try reflexivity.
      destruct (val circle) as [[| | |[x2 y2] r]|]; try reflexivity.
      cbn. f_equal. rewrite D. ring.
    - destruct (val a) as [[|[x1 y1]| |]|]; try reflexivity.
      destruct (val b) as [[|[x2 y2]| |]|]; try reflexivity.
      destruct (val c) as [[|[x3 y3]| |]|]; try reflexivity.
      destruct (val d) as [[|[x4 y4]| |]|]; try reflexivity.
      cbn. f_equal. rewrite !D. ring.
    - destruct (val line1) as [[| |[x1 y1] [x2 y2]|]|]; try reflexivity.
      destruct (val line2) as [[| |[x3 y3] [x4 y4]|]|]; try reflexivity.
      cbn. rewrite !A. reflexivity.
    - destruct (val line1) as [[| |[x1 y1] [x2 y2]|]|]; try reflexivity.
      destruct (val line2) as [[| |[x3 y3] [x4 y4]|]|]; try reflexivity.
      cbn. f_equal. ring.
    - destruct (val line1) as [[| |[x1 y1] [x2 y2]|]|]; try reflexivity.
      destruct (val line2) as [[| |[x3 y3] [x4 y4]|]|]; try reflexivity.
      cbn. f_equal. ring.
    - destruct (val line) as [[| |[x1 y1] [x2 y2]|]|]; try reflexivity.
      destruct (val circle) as [[| | |[xc yc] r]|]; try reflexivity.
      cbn. f_equal. rewrite D.
      set (q := sqrt _).
      destruct (Proofs_Real.Reqb_spec q 0) as [Z|Z]; destruct (Proofs_Real.Reqb_spec (k * q) 0) as [Z'|Z'].
      + ring.
      + rewrite Z in Z'. lra.
      + exfalso. apply Z. apply Rmult_integral in Z'. destruct Z'; lra.
      + replace (k * x1 * (k * y2 - k * yc) + k * x2 * (k * yc - k * y1) + k * xc * (k * y1 - k * y2))
          with (k * k * (x1 * (y2 - yc) + x2 * (yc - y1) + xc * (y1 - y2))) by ring.
        rewrite Rabs_mult, (Rabs_right (k * k)) by nra. field. lra.
  Qed.

  (** ** The calls that would create the constraints as they are now *)
  Lemma current_tag env id l s h : env_ok env -> history env id l s -> In (RConstraint h) (map snd l) ->
    exists c, current_call l h = Some c /\ Proofs_History.call_tag c = Some (ch_tag h).
  Proof.
    intros EO H I. destruct (Proofs_Api.history_relations env id l s EO H) as (sk & V & Q).
    pose proof (Proofs_History.known_own_c id l s sk h V I) as O.
    pose proof (proj1 (Proofs_History.in_constraint_handles sk h) O) as (r & R1 & _ & R2).
    destruct (Q h r O R1) as (c & C1 & C2 & _). exists c. split; [exact C1|]. rewrite R2.
    destruct c; cbn in C2; try discriminate; injection C2 as <-; reflexivity.
  Qed.
  Lemma new_parameter_units c t x : Proofs_History.call_tag c = Some t ->
    with_new_parameter (rescaled k c) (if length_like t then k * x else x) = option_map (rescaled k) (with_new_parameter c x).
  Proof. intros T. destruct c; cbn in T; try discriminate; injection T as <-; reflexivity. Qed.
  Lemma current_call_units env id l s h : env_ok env -> history env id l s ->
    current_call (rescaled_log k l) h = option_map (rescaled k) (current_call l h).
  Proof.
    intros EO H. induction H as [|l s c s' r H IH A Hs]; [reflexivity|].
    cbn [rescaled_log map]. fold (rescaled_log k l).
    destruct c; cbn [rescaled]; try (destruct r; cbn; try rewrite IH; try reflexivity; destruct (chandle_dec _ h); reflexivity).
    - rename h0 into h'. cbn [current_call]. destruct (chandle_dec h' h) as [->|]; [|exact IH].
      rewrite IH. destruct A as (_ & A & _). destruct (current_tag _ _ _ _ h EO H) as (c & C1 & C2).
      { apply A. left. reflexivity. }
      rewrite C1. cbn [option_map]. exact (new_parameter_units c (ch_tag h) x C2).
  Qed.

  Lemma returned_units l r : (forall v, r <> RValue v) -> (forall x, r <> RNumber x) ->
    In r (map snd l) -> In r (map snd (rescaled_log k l)).
  Proof.
    intros V N I. apply in_map_iff in I. destruct I as ([c r'] & E & I). cbn in E. subst r'.
    apply in_map_iff. exists (rescaled k c, rescaled_ret k c r). split.
    - cbn. destruct c, r; try reflexivity; exfalso; [eapply V|eapply N]; reflexivity.
    - unfold rescaled_log. apply in_map_iff. exists (c, r). auto.
  Qed.
  Lemma allowed_units l c : allowed l c -> allowed (rescaled_log k l) (rescaled k c).
  Proof.
    intros (A & B & C). split; [|split].
    - intros h t I. assert (I' : In (h, t) (call_elements c)) by (destruct c; exact I).
      destruct (A h t I') as [J T]. split; [|exact T]. apply returned_units; [congruence|congruence|exact J].
    - intros h I. assert (I' : In h (call_constraints c)) by (destruct c; exact I).
      apply returned_units; [congruence|congruence|]. apply B. exact I'.
    - destruct c; exact C.
  Qed.

  Lemma read_units s h : read (units k s) h = option_map (rescaled_value k) (read s h).
  Proof. unfold read. rewrite get_value_units. destruct (get_value h s); reflexivity. Qed.

  (** ** One call *)
  Ltac constrain :=
    match goal with |- _ = ov _ (obind (with_graph_constraint ?v ?els _) (fun s => add_constraint ?tag ?es s)) =>
      exact (constrain_units k v els tag es _) end.
  Lemma step_units env id l s c : env_ok env -> assembly_units k env -> history env id l s -> history env id (rescaled_log k l) (units k s) ->
    allowed l c -> c <> Analyze ->
    step env (rescaled k c) (units k s) = ov (fun p => (units k (fst p), rescaled_ret k c (snd p))) (step env c s).
  Proof.
    intros EO AU H H' A NA.
    destruct c; cbn [step rescaled].
    all: try (match goal with |- ret_element ?a = ov _ (ret_element ?b) => assert (E : a = ov (upair k) b) end;
      [|rewrite E, ret_element_units;
        match goal with |- _ = ov _ ?m => destruct m as [[? ?]| |]; reflexivity end]).
    all: try (match goal with |- ret_constraint ?a = ov _ (ret_constraint ?b) => assert (E : a = ov (upair k) b) end;
      [|rewrite E, ret_constraint_units;
        match goal with |- _ = ov _ ?m => destruct m as [[? ?]| |]; reflexivity end]).
    all: try (match goal with |- ret_unit ?a = ov _ (ret_unit ?b) => assert (E : a = ov (units k) b) end;
      [|rewrite E, ret_unit_units;
        match goal with |- _ = ov _ ?m => destruct m as [[? ?]| |]; reflexivity end]).
    - apply (add_element_units k TLength [_]).
    - apply (add_element_units k TPoint [_; _]).
    - unfold line_create. do 2 (apply ov_same; intros). apply (add_element_units k TLine []).
    - unfold circle_create. do 2 (apply ov_same; intros). apply (add_element_units k TCircle []).
    - unfold coincidence_create. do 2 (apply ov_same; intros). constrain.
    - unfold ppd_create. do 2 (apply ov_same; intros). constrain.
    - unfold pppa_create. do 3 (apply ov_same; intros). constrain.
    - unfold pli_create. apply ov_same; intros. apply ov_same; intros [? ?]. do 2 (apply ov_same; intros). constrain.
    - unfold pld_create. apply ov_same; intros. apply ov_same; intros [? ?]. do 2 (apply ov_same; intros). constrain.
    - unfold pci_create. apply ov_same; intros. apply ov_same; intros [? ?]. do 2 (apply ov_same; intros). constrain.
    - unfold ssle_create. do 8 (apply ov_same; intros). constrain.
    - unfold lla_create, line_line_create. do 2 (apply ov_same; intros [? ?]). do 4 (apply ov_same; intros). constrain.
    - unfold llp_create, line_line_create. do 2 (apply ov_same; intros [? ?]). do 4 (apply ov_same; intros). constrain.
    - unfold llperp_create, line_line_create. do 2 (apply ov_same; intros [? ?]). do 4 (apply ov_same; intros). constrain.
    - unfold lct_create. do 2 (apply ov_same; intros [? ?]). do 4 (apply ov_same; intros). constrain.
    - unfold fix_element. apply ov_same; intros. reflexivity.
    - unfold unfix_element. apply ov_same; intros. reflexivity.
    - unfold point_update_value. apply ov_same; intros. cbn [sys_variables units nmul NumR]. rewrite oset_map. apply ov_bind. intros vs.
      rewrite oset_map. apply ov_bind. reflexivity.
    - unfold length_update_value. apply ov_same; intros. cbn [sys_variables units nmul NumR]. rewrite oset_map. apply ov_bind. reflexivity.
    - unfold update_parameter. apply ov_same; intros. cbn [sys_expressions units]. rewrite oget_map. apply ov_bind. intros e.
      cbn [nmul NumR]. rewrite set_parameter_units. apply ov_bind. intros e'. rewrite oset_map. apply ov_bind. reflexivity.
    - rewrite get_value_units. destruct (get_value h s); reflexivity.
    - destruct A as (_ & A & _). assert (I : In (RConstraint h) (map snd l)) by (apply A; left; reflexivity).
      destruct (current_tag _ _ _ _ h EO H I) as (c & C1 & C2).
      destruct (Proofs_Api.residual_meaning env id l s h EO H I) as (c0 & x & E1 & E2 & E3).
      rewrite C1 in E1. injection E1 as <-.
      destruct (Proofs_Api.residual_meaning env id _ _ h EO H') as (c0 & x' & F1 & F2 & F3).
      { apply returned_units; [congruence|congruence|exact I]. }
      rewrite (current_call_units _ _ _ _ h EO H), C1 in F1. cbn in F1. injection F1 as <-.
      assert (E : call_residual (rescaled k c) (read (units k s)) = option_map (rescaled_residual k (ch_tag h)) (call_residual c (read s))).
      { rewrite <- (call_residual_units c (ch_tag h) (read s) C2).
        assert (Ext : forall v v', (forall h, v h = v' h) -> call_residual (rescaled k c) v = call_residual (rescaled k c) v').
        { intros v v' W. destruct (rescaled k c); cbn; rewrite ?W; reflexivity. }
        apply Ext. intros h'. apply read_units. }
      rewrite E, E2 in F2. cbn in F2. rewrite E3, F3. cbn. injection F2 as <-. reflexivity.
    - reflexivity.
    - reflexivity.
    - congruence.
    - apply solve_units; assumption.
  Qed.

  Lemma history_units env id l s : env_ok env -> assembly_units k env -> history env id l s ->
    ~ In Analyze (map fst l) -> history env id (rescaled_log k l) (units k s).
  Proof.
    intros EO AU H. induction H as [|l s c s' r H IH A Hs]; intros N.
    - apply h_new.
    - assert (IH' := IH (fun I => N (or_intror I))). cbn. apply h_call with (s := units k s); [exact IH'| |].
      + apply allowed_units. exact A.
      + rewrite (step_units env id l s c EO AU H IH' A); [|intros ->; apply N; left; reflexivity].
        rewrite Hs. reflexivity.
  Qed.
End History.
