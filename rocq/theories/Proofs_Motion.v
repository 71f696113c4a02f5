(** Rigid motions, changes of scale, poses and attainable angles. *)
From Coq Require Import List Reals Lra Psatz Bool Arith.
From Coquelicot Require Import Coquelicot.
From Verif Require Import Num NumR Outcome Lib ModelExpr ModelGraph ModelSystem ModelSolve ModelApi
  Spec_Solver Spec_History Spec_Geometry Proofs_Api Proofs_Real Proofs_Geometry Proofs_Derive.
Import ListNotations.
Local Open Scope R_scope.

(** ** Rigid motions *)
Lemma rot_dot a x1 y1 x2 y2 :
  (cos a * x1 - sin a * y1) * (cos a * x2 - sin a * y2) + (sin a * x1 + cos a * y1) * (sin a * x2 + cos a * y2)
  = x1 * x2 + y1 * y2.
Proof.
  pose proof (sin2_cos2 a) as S. unfold Rsqr in S.
  transitivity ((sin a * sin a + cos a * cos a) * (x1 * x2 + y1 * y2)); [ring|]. rewrite S. ring.
Qed.
Lemma rot_cross a x1 y1 x2 y2 :
  (cos a * x1 - sin a * y1) * (sin a * x2 + cos a * y2) - (sin a * x1 + cos a * y1) * (cos a * x2 - sin a * y2)
  = x1 * y2 - y1 * x2.
Proof.
  pose proof (sin2_cos2 a) as S. unfold Rsqr in S.
  transitivity ((sin a * sin a + cos a * cos a) * (x1 * y2 - y1 * x2)); [ring|]. rewrite S. ring.
Qed.
Lemma move_fst a t p q : fst (move a t p) - fst (move a t q) = cos a * (fst p - fst q) - sin a * (snd p - snd q).
Proof. unfold move, rotate. simpl. ring. Qed.
Lemma move_snd a t p q : snd (move a t p) - snd (move a t q) = sin a * (fst p - fst q) + cos a * (snd p - snd q).
Proof. unfold move, rotate. simpl. ring. Qed.

Lemma turn_move a ux uy vx vy : (ux <> 0 \/ uy <> 0) -> (vx <> 0 \/ vy <> 0) ->
  ~ opposite (ux, uy) (vx, vy) ->
  wrapR (atan2 (sin a * vx + cos a * vy) (cos a * vx - sin a * vy) -
         atan2 (sin a * ux + cos a * uy) (cos a * ux - sin a * uy)) =
  wrapR (atan2 vy vx - atan2 uy ux).
Proof.
  intros Hu Hv Hop. rewrite (opposite_iff (ux, uy) (vx, vy) Hu) in Hop. simpl in Hop.
  assert (Nz : forall x y, (x <> 0 \/ y <> 0) -> cos a * x - sin a * y <> 0 \/ sin a * x + cos a * y <> 0).
  { intros x y H. destruct (Req_dec (cos a * x - sin a * y) 0) as [Z1|]; [|auto]. right. intros Z2.
    pose proof (rot_dot a x y x y) as D. rewrite Z1, Z2 in D. pose proof (norm_pos x y H). lra. }
  rewrite (turn_atan2 _ _ _ _ (Nz _ _ Hu) (Nz _ _ Hv)); rewrite rot_cross, rot_dot; [|auto].
  now rewrite (turn_atan2 _ _ _ _ Hu Hv).
Qed.

Theorem motion (a : R) (t : point) (c : call R) val :
  legs_nonzero c val -> ~ legs_opposite c val ->
  call_residual c (fun h => option_map (moved a t) (val h)) = call_residual c val.
Proof.
  intros G O.
  assert (Q : forall p q : point, (fst (move a t p) - fst (move a t q)) * (fst (move a t p) - fst (move a t q)) +
      (snd (move a t p) - snd (move a t q)) * (snd (move a t p) - snd (move a t q)) =
      (fst p - fst q) * (fst p - fst q) + (snd p - snd q) * (snd p - snd q)).
  { intros p q. rewrite move_fst, move_snd. apply rot_dot. }
  assert (X : forall p q r s : point, (fst (move a t p) - fst (move a t q)) * (snd (move a t r) - snd (move a t s)) -
      (snd (move a t p) - snd (move a t q)) * (fst (move a t r) - fst (move a t s)) =
      (fst p - fst q) * (snd r - snd s) - (snd p - snd q) * (fst r - fst s)).
  { intros p q r s. rewrite !move_fst, !move_snd. apply rot_cross. }
  assert (Dd : forall p q r s : point, (fst (move a t p) - fst (move a t q)) * (fst (move a t r) - fst (move a t s)) +
      (snd (move a t p) - snd (move a t q)) * (snd (move a t r) - snd (move a t s)) =
      (fst p - fst q) * (fst r - fst s) + (snd p - snd q) * (snd r - snd s)).
  { intros p q r s. rewrite !move_fst, !move_snd. apply rot_dot. }
  destruct c; try reflexivity; cbn [call_residual legs_nonzero legs_opposite] in *.
  - destruct (val point1) as [[| [x1 y1] | |]|]; try reflexivity.
    destruct (val point2) as [[| [x2 y2] | |]|]; try reflexivity.
    pose proof (Q (x2, y2) (x1, y1)) as E. simpl in E. cbn. rewrite !Rplus_0_l. do 2 f_equal. exact E.
  - destruct (val point1) as [[| [x1 y1] | |]|]; try reflexivity.
    destruct (val point2) as [[| [x2 y2] | |]|]; try reflexivity.
    pose proof (Q (x1, y1) (x2, y2)) as E. simpl in E. cbn. do 3 f_equal. exact E.
  - destruct (val point1) as [[| [x1 y1] | |]|] eqn:E1; try reflexivity.
    destruct (val point2) as [[| [x2 y2] | |]|] eqn:E2; try reflexivity.
    destruct (val point3) as [[| [x3 y3] | |]|] eqn:E3; try reflexivity.
    destruct G as (G1 & G2). cbn. rewrite !wrap_formula. do 2 f_equal.
    pose proof (move_fst a t (x1, y1) (x2, y2)) as M1. pose proof (move_snd a t (x1, y1) (x2, y2)) as M2.
    pose proof (move_fst a t (x3, y3) (x2, y2)) as M3. pose proof (move_snd a t (x3, y3) (x2, y2)) as M4.
    simpl in M1, M2, M3, M4. rewrite M1, M2, M3, M4. apply turn_move.
    + apply (point_neq (x2, y2) (x1, y1)). congruence.
    + apply (point_neq (x2, y2) (x3, y3)). congruence.
    + intros H. apply O. exists (x1, y1), (x2, y2), (x3, y3). auto.
  - destruct (val point) as [[| [x0 y0] | |]|]; try reflexivity.
    destruct (val line) as [[| | [x1 y1] [x2 y2] |]|]; try reflexivity.
    pose proof (X (x2, y2) (x1, y1) (x0, y0) (x1, y1)) as E. simpl in E. cbn. f_equal. exact E.
  - destruct (val point) as [[| [x0 y0] | |]|]; try reflexivity.
    destruct (val line) as [[| | [x1 y1] [x2 y2] |]|]; try reflexivity.
    pose proof (X (x2, y2) (x1, y1) (x0, y0) (x1, y1)) as E.
    pose proof (Q (x2, y2) (x1, y1)) as E'. simpl in E, E'. cbn. rewrite E, E'. reflexivity.
  - destruct (val point) as [[| [x0 y0] | |]|]; try reflexivity.
    destruct (val circle) as [[| | | [xc yc] r]|]; try reflexivity.
    pose proof (Q (x0, y0) (xc, yc)) as E. simpl in E. cbn. rewrite E. reflexivity.
  - destruct (val a0) as [[| [xa ya] | |]|]; try reflexivity.
    destruct (val b) as [[| [xb yb] | |]|]; try reflexivity.
    destruct (val c) as [[| [xc yc] | |]|]; try reflexivity.
    destruct (val d) as [[| [xd yd] | |]|]; try reflexivity.
    pose proof (Q (xa, ya) (xb, yb)) as E. pose proof (Q (xc, yc) (xd, yd)) as E'.
    simpl in E, E'. cbn. rewrite E, E'. reflexivity.
  - destruct (val line1) as [[| | [x1 y1] [x2 y2] |]|] eqn:E1; try reflexivity.
    destruct (val line2) as [[| | [x3 y3] [x4 y4] |]|] eqn:E2; try reflexivity.
    destruct G as (G1 & G2). cbn. rewrite !wrap_formula. do 2 f_equal.
    assert (N1 : (x1, y1) <> (x2, y2)) by (intros Z; rewrite Z in G1; eapply G1; eauto).
    assert (N2 : (x3, y3) <> (x4, y4)) by (intros Z; rewrite Z in G2; eapply G2; eauto).
    pose proof (move_fst a t (x2, y2) (x1, y1)) as M1. pose proof (move_snd a t (x2, y2) (x1, y1)) as M2.
    pose proof (move_fst a t (x4, y4) (x3, y3)) as M3. pose proof (move_snd a t (x4, y4) (x3, y3)) as M4.
    simpl in M1, M2, M3, M4. rewrite M1, M2, M3, M4. apply turn_move.
    + apply (point_neq _ _ N1).
    + apply (point_neq _ _ N2).
    + intros H. apply O. exists (x1, y1), (x2, y2), (x3, y3), (x4, y4). auto.
  - destruct (val line1) as [[| | [x1 y1] [x2 y2] |]|]; try reflexivity.
    destruct (val line2) as [[| | [x3 y3] [x4 y4] |]|]; try reflexivity.
    pose proof (X (x4, y4) (x3, y3) (x2, y2) (x1, y1)) as E. simpl in E. cbn. f_equal. exact E.
  - destruct (val line1) as [[| | [x1 y1] [x2 y2] |]|]; try reflexivity.
    destruct (val line2) as [[| | [x3 y3] [x4 y4] |]|]; try reflexivity.
    pose proof (Dd (x4, y4) (x3, y3) (x2, y2) (x1, y1)) as E. simpl in E. cbn. f_equal. exact E.
  - destruct (val line) as [[| | [x1 y1] [x2 y2] |]|]; try reflexivity.
    destruct (val circle) as [[| | | [xc yc] r]|]; try reflexivity.
    pose proof (Q (x1, y1) (x2, y2)) as E.
    pose proof (X (x2, y2) (x1, y1) (xc, yc) (x1, y1)) as E'. simpl in E, E'. cbn. rewrite E.
    assert (Ar : forall a1 b1 a2 b2 a3 b3, a1 * (b2 - b3) + a2 * (b3 - b1) + a3 * (b1 - b2) =
      (a2 - a1) * (b3 - b1) - (b2 - b1) * (a3 - a1)) by (intros; ring).
    rewrite !Ar, E'. reflexivity.
Qed.

(** ** Changes of scale *)
Lemma atan2_scale s y x : 0 < s -> atan2 (s * y) (s * x) = atan2 y x.
Proof.
  intros Hs. destruct (Req_dec x 0) as [Zx|Nx]; [destruct (Req_dec y 0) as [Zy|Ny]|].
  - subst. now rewrite !Rmult_0_r.
  - destruct (atan2_polar y x (or_intror Ny)) as (P1 & P2 & P3).
    apply (atan2_unique _ _ (s * sqrt (x * x + y * y))); auto.
    + apply Rmult_lt_0_compat; auto. apply sqrt_lt_R0, norm_pos. auto.
    + rewrite P1 at 1. ring.
    + rewrite P2 at 1. ring.
  - destruct (atan2_polar y x (or_introl Nx)) as (P1 & P2 & P3).
    apply (atan2_unique _ _ (s * sqrt (x * x + y * y))); auto.
    + apply Rmult_lt_0_compat; auto. apply sqrt_lt_R0, norm_pos. auto.
    + rewrite P1 at 1. ring.
    + rewrite P2 at 1. ring.
Qed.
Lemma sqrt_scale s q : 0 < s -> 0 <= q -> sqrt (s * s * q) = s * sqrt q.
Proof. intros Hs Hq. rewrite sqrt_mult; [|apply Rle_0_sqr|auto]. now rewrite sqrt_square by lra. Qed.
Lemma dist_scale s a b c d : 0 < s ->
  sqrt ((s * a - s * b) * (s * a - s * b) + (s * c - s * d) * (s * c - s * d)) =
  s * sqrt ((a - b) * (a - b) + (c - d) * (c - d)).
Proof.
  intros Hs. rewrite <- sqrt_scale; [f_equal; ring|auto|].
  assert (H1 := Rle_0_sqr (a - b)). assert (H2 := Rle_0_sqr (c - d)). unfold Rsqr in *. lra.
Qed.

(** Degree of the residual in the lengths *)
Definition degree (e : expr R) : nat :=
  match e with
  | PointPointPointAngle _ _ _ _ | LineLineAngle _ _ _ _ _ => 0
  | PointLineIncidence _ _ _ | LineLineParallelism _ _ _ _ | LineLinePerpendicularity _ _ _ _ => 2
  | _ => 1
  end.

Lemma compute_scale s e (v : nat -> R) : 0 < s ->
  fst (compute_rg e (fun i => s * v i)) = s ^ degree e * fst (compute_rg (transform (1 / s) e) v).
Proof.
  intros Hs.
  assert (A : forall a b c d, atan2 (s * a - s * b) (s * c - s * d) = atan2 (a - b) (c - d)).
  { intros. rewrite <- (atan2_scale s (a - b) (c - d)) by auto. f_equal; ring. }
  destruct e; cbn -[pow]; unfold bpt; cbn -[pow]; cbn [pow].
  - ring.
  - unfold square. cbn. rewrite dist_scale by auto. field. lra.
  - unfold vatan2. cbn. rewrite !A. ring.
  - unfold cross. cbn. ring.
  - unfold cross, hypot2, dot. cbn. rewrite dist_scale by auto.
    set (q := (v 4%nat - v 2%nat) * (v 4%nat - v 2%nat) + (v 5%nat - v 3%nat) * (v 5%nat - v 3%nat)).
    destruct (Req_dec (sqrt q) 0) as [Z|Z].
    + assert (q = 0). { apply sqrt_eq_0; auto. unfold q. assert (H1 := Rle_0_sqr (v 4%nat - v 2%nat)). assert (H2 := Rle_0_sqr (v 5%nat - v 3%nat)). unfold Rsqr in *; lra. }
      apply norm_zero in H. destruct H as [H1 H2].
      assert (v 4%nat = v 2%nat) as -> by lra. assert (v 5%nat = v 3%nat) as -> by lra.
      generalize (1 / (s * sqrt q)) (1 / sqrt q). intros. field. lra.
    + field. lra.
  - unfold ppd_rg, square. cbn. rewrite dist_scale by auto. ring.
  - unfold ppd_rg, square. cbn. rewrite !dist_scale by auto. ring.
  - unfold vatan2. cbn. rewrite !A. ring.
  - unfold cross. cbn. ring.
  - unfold dot. cbn. ring.
  - unfold lct_rg, hypot2, dot. cbn. rewrite dist_scale by auto.
    set (q := (v 0%nat - v 2%nat) * (v 0%nat - v 2%nat) + (v 1%nat - v 3%nat) * (v 1%nat - v 3%nat)).
    destruct (Reqb_spec (sqrt q) 0) as [Z|Z]; destruct (Reqb_spec (s * sqrt q) 0) as [Z'|Z'].
    + cbn. ring.
    + rewrite Z in Z'. lra.
    + exfalso. apply Z. nra.
    + cbn.
      replace (s * v 0%nat * (s * v 3%nat - s * v 5%nat) + s * v 2%nat * (s * v 5%nat - s * v 1%nat) + s * v 4%nat * (s * v 1%nat - s * v 3%nat))
        with (s * s * (v 0%nat * (v 3%nat - v 5%nat) + v 2%nat * (v 5%nat - v 1%nat) + v 4%nat * (v 1%nat - v 3%nat))) by ring.
      rewrite Rabs_mult, (Rabs_right (s * s)) by nra. field. lra.
Qed.

Lemma compute_ext (e : expr R) v v' : (forall i, v i = v' i) -> compute_rg e v = compute_rg e v'.
Proof. intros H. destruct e; cbn; unfold bpt; rewrite !H; reflexivity. Qed.
Lemma omap_identity (xs : list R) l ys : omap (identity_map xs) l = Done ys ->
  forall f : R -> R, exists zs, omap (identity_map (map f xs)) l = Done zs /\ map variable_value zs = map f (map variable_value ys).
Proof.
  revert ys. induction l as [|i l IH]; simpl; intros ys H f.
  - injection H as <-. exists []. auto.
  - unfold identity_map in H at 1. unfold identity_map at 1.
    unfold oget in *. destruct (nth_error xs i) eqn:E; [|discriminate]. simpl in H.
    destruct (omap (identity_map xs) l) as [ys'| |] eqn:E'; try discriminate.
    injection H as <-. rewrite nth_error_map, E. simpl.
    destruct (IH _ eq_refl f) as (zs & Z1 & Z2). rewrite Z1. simpl. eexists. split; [reflexivity|].
    simpl. now rewrite Z2.
Qed.

Lemma transform_indices (e : expr R) k : variable_indices (transform k e) = variable_indices e.
Proof. destruct e; reflexivity. Qed.

Theorem scaled_residual (e : expr R) (xs : list R) (s : R) r : 0 < s ->
  calculate_residual (identity_map xs) (transform (1 / s) e) = Done r ->
  calculate_residual (identity_map (map (Rmult s) xs)) e = Done (s ^ degree e * r).
Proof.
  intros Hs. unfold calculate_residual, gather. rewrite transform_indices.
  destruct (omap (identity_map xs) (variable_indices e)) as [ys| |] eqn:E; try discriminate.
  simpl. intros H. injection H as <-.
  destruct (omap_identity _ _ _ E (Rmult s)) as (zs & Z1 & Z2). rewrite Z1. simpl.
  f_equal. rewrite <- compute_scale by auto. f_equal. apply compute_ext. intros i. unfold buffer. rewrite Z2.
  rewrite <- (Rmult_0_r s) at 1. apply (map_nth (Rmult s)).
Qed.

Lemma scale_system_expr scale (s : system R) i e : nth_error (sys_expressions s) i = Some e ->
  nth_error (sys_expressions_transformed (scale_system scale s)) i = Some (transform (1 / scale) e).
Proof.
  intros H. unfold scale_system. simpl. 
  rewrite nth_error_map, H. reflexivity.
Qed.

(** ** Poses *)
Lemma pose_is_move (a : R) (t p : point) : transform_point (Pose a t) p = move a t p.
Proof. destruct p. unfold transform_point, move, rotate. cbn. f_equal; ring. Qed.

Theorem pose_chain (f : R -> R -> R) a tx ty u v gx gy :
  let p := transform_point (Pose a (tx, ty)) (u, v) in
  let '(da, dx, dy) := gradient_chain_rule_point (Pose a (tx, ty)) (u, v) (gx, gy) in
  differentiable_pt_lim f (fst p) (snd p) gx gy ->
  derivable_pt_lim (fun b => let p := transform_point (Pose b (tx, ty)) (u, v) in f (fst p) (snd p)) a da /\
  derivable_pt_lim (fun b => let p := transform_point (Pose a (b, ty)) (u, v) in f (fst p) (snd p)) tx dx /\
  derivable_pt_lim (fun b => let p := transform_point (Pose a (tx, b)) (u, v) in f (fst p) (snd p)) ty dy.
Proof.
  cbn. intros H. split; [|split].
  - replace ((- (u * sin a) - v * cos a) * gx + (u * cos a - v * sin a) * gy) with
      (gx * (- (u * sin a) - v * cos a) + gy * (u * cos a - v * sin a)) by ring.
    apply (derivable_pt_lim_comp_2d f (fun b => tx + u * cos b - v * sin b) (fun b => ty + u * sin b + v * cos b)); auto.
    + apply is_derive_Reals. auto_derive; auto. ring.
    + apply is_derive_Reals. auto_derive; auto. ring.
  - replace gx with (gx * 1 + gy * 0) at 1 by ring.
    apply (derivable_pt_lim_comp_2d f (fun b => b + u * cos a - v * sin a) (fun b => ty + u * sin a + v * cos a)); auto.
    + apply is_derive_Reals. auto_derive; auto.
    + apply is_derive_Reals. auto_derive; auto.
  - replace gy with (gx * 0 + gy * 1) at 1 by ring.
    apply (derivable_pt_lim_comp_2d f (fun b => tx + u * cos a - v * sin a) (fun b => b + u * sin a + v * cos a)); auto.
    + apply is_derive_Reals. auto_derive; auto.
    + apply is_derive_Reals. auto_derive; auto.
Qed.

(** ** Attainable angles *)
Lemma atan2_bounds y x : - PI < atan2 y x <= PI.
Proof.
  pose proof PI_RGT_0.
  destruct (Req_dec x 0) as [Zx|Nx]; [destruct (Req_dec y 0) as [Zy|Ny]|].
  - subst. unfold atan2. destruct (Rlt_dec 0 0); [lra|]. lra.
  - now destruct (atan2_polar y x (or_intror Ny)) as (_ & _ & ?).
  - now destruct (atan2_polar y x (or_introl Nx)) as (_ & _ & ?).
Qed.
Lemma wrap_range a b c d : - PI <= wrapR (atan2 a b - atan2 c d) <= PI.
Proof. apply wrapR_bounds. pose proof (atan2_bounds a b). pose proof (atan2_bounds c d). lra. Qed.

Theorem angle_range (c : call R) val a : call_residual c val = Some 0 ->
  (exists p q r, c = CreatePointPointPointAngle p q r a) \/ (exists k l, c = CreateLineLineAngle k l a) ->
  - PI <= a <= PI.
Proof.
  intros H [(p & q & r & ->)|(k & l & ->)]; cbn [call_residual] in H.
  - destruct (val p) as [[| [x1 y1] | |]|]; try discriminate.
    destruct (val q) as [[| [x2 y2] | |]|]; try discriminate.
    destruct (val r) as [[| [x3 y3] | |]|]; try discriminate.
    injection H as H. cbn in H. rewrite wrap_formula in H.
    pose proof (wrap_range (y3 - y2) (x3 - x2) (y1 - y2) (x1 - x2)). lra.
  - destruct (val k) as [[| | [x1 y1] [x2 y2] |]|]; try discriminate.
    destruct (val l) as [[| | [x3 y3] [x4 y4] |]|]; try discriminate.
    injection H as H. cbn in H. rewrite wrap_formula in H.
    pose proof (wrap_range (y4 - y3) (x4 - x3) (y2 - y1) (x2 - x1)). lra.
Qed.

Lemma wrap_attain a : - PI <= a <= PI -> exists x y,
  (x <> 0 \/ y <> 0) /\ exists x' y', (x' <> 0 \/ y' <> 0) /\ wrapR (atan2 y' x' - atan2 y x) = a.
Proof.
  intros H. pose proof PI_RGT_0.
  assert (A0 : atan2 0 1 = 0).
  { apply (atan2_unique 0 1 1 0); [lra|lra|rewrite cos_0|rewrite sin_0]; lra. }
  assert (AP : atan2 0 (-1) = PI).
  { apply (atan2_unique 0 (-1) 1 PI); [lra|lra|rewrite cos_PI|rewrite sin_PI]; lra. }
  destruct (Req_dec a (- PI)) as [->|N].
  - exists (-1), 0. split; [left; lra|]. exists 1, 0. split; [left; lra|]. rewrite A0, AP. unfold wrapR.
    destruct (Rltb_spec PI (0 - PI)); [lra|]. destruct (Rltb_spec (0 - PI) (- PI)); lra.
  - exists 1, 0. split; [left; lra|]. exists (cos a), (sin a). split.
    + destruct (Req_dec (cos a) 0); [|auto]. right. intros Z. pose proof (sin2_cos2 a) as S. unfold Rsqr in S. nra.
    + rewrite A0. rewrite (atan2_unique (sin a) (cos a) 1 a) by lra. unfold wrapR.
      destruct (Rltb_spec PI (a - 0)); [lra|]. destruct (Rltb_spec (a - 0) (- PI)); lra.
Qed.
Theorem angle_attained p q r k l a : - PI <= a <= PI -> p <> q -> q <> r -> p <> r -> k <> l ->
  (exists val, call_residual (CreatePointPointPointAngle p q r a) val = Some 0) /\
  (exists val, call_residual (CreateLineLineAngle k l a) val = Some 0).
Proof.
  intros Ha Hpq Hqr Hpr Hkl. destruct (wrap_attain a Ha) as (x & y & N & x' & y' & N' & W). split.
  - exists (fun h => if ehandle_dec h p then Some (VPoint (x, y)) else
                     if ehandle_dec h q then Some (VPoint (0, 0)) else Some (VPoint (x', y'))).
    cbn [call_residual].
    destruct (ehandle_dec p p); [|congruence]. destruct (ehandle_dec q p); [congruence|].
    destruct (ehandle_dec q q); [|congruence]. destruct (ehandle_dec r p); [congruence|].
    destruct (ehandle_dec r q); [congruence|]. cbn. rewrite wrap_formula, !Rminus_0_r, W. f_equal. ring.
  - exists (fun h => if ehandle_dec h k then Some (VLine (0, 0) (x, y)) else Some (VLine (0, 0) (x', y'))).
    cbn [call_residual].
    destruct (ehandle_dec k k); [|congruence]. destruct (ehandle_dec l k); [congruence|].
    cbn. rewrite wrap_formula, !Rminus_0_r, W. f_equal. ring.
Qed.

(** ** Statements as they appear in the properties *)
Theorem scaling (s : system R) (scale : R) (xs : list R) i e r : 0 < scale ->
  nth_error (sys_expressions s) i = Some e ->
  forall e', nth_error (sys_expressions_transformed (scale_system scale s)) i = Some e' ->
  calculate_residual (identity_map xs) e' = Done r ->
  exists r0, calculate_residual (identity_map (map (Rmult scale) xs)) e = Done r0 /\ (r0 = 0 <-> r = 0).
Proof.
  intros Hs He e' He' Hr. rewrite (scale_system_expr _ _ _ _ He) in He'. injection He' as <-.
  eexists. split; [eapply scaled_residual; eauto|].
  pose proof (pow_lt scale (degree e) Hs). split; [|intros ->; ring]. intros H0.
  apply Rmult_integral in H0. destruct H0; [lra|auto].
Qed.
Theorem scaled_values (s : system R) (scale : R) : 0 < scale ->
  map (Rmult scale) (sys_variables_transformed (scale_system scale s)) = sys_variables s.
Proof.
  intros Hs. unfold scale_system. cbn. rewrite map_map. rewrite <- (map_id (sys_variables s)) at 2.
  apply map_ext. intros x. cbn. field. lra.
Qed.

Theorem motion_refuted : exists (a : R) (t : point) (c : call R) val x y,
  legs_nonzero c val /\ call_residual c val = Some x /\
  call_residual c (fun h => option_map (moved a t) (val h)) = Some y /\ x <> y.
Proof.
  pose proof PI_RGT_0.
  assert (A0 : atan2 0 1 = 0).
  { apply (atan2_unique 0 1 1 0); [lra|lra|rewrite cos_0|rewrite sin_0]; lra. }
  assert (AP : atan2 0 (-1) = PI).
  { apply (atan2_unique 0 (-1) 1 PI); [lra|lra|rewrite cos_PI|rewrite sin_PI]; lra. }
  set (k := EHandle 0%N 0 TLine). set (l := EHandle 0%N 1 TLine).
  exists PI, (0, 0), (CreateLineLineAngle k l 0),
    (fun h => if ehandle_dec h k then Some (VLine (0, 0) (1, 0)) else Some (VLine (0, 0) (-1, 0))), PI, (- PI).
  cbn [legs_nonzero call_residual].
  destruct (ehandle_dec k k); [|congruence]. destruct (ehandle_dec l k) as [C|]; [discriminate|].
  split; [split|split; [|split]].
  - intros A E. injection E as E1 E2. rewrite <- E2 in E1. injection E1. lra.
  - intros A E. injection E as E1 E2. rewrite <- E2 in E1. injection E1. lra.
  - cbn. rewrite wrap_formula, !Rminus_0_r, A0, AP. f_equal. unfold wrapR.
    destruct (Rltb_spec PI (PI - 0)); [lra|]. destruct (Rltb_spec (PI - 0) (- PI)); lra.
  - unfold moved, move, rotate. cbn. rewrite cos_PI, sin_PI, wrap_formula.
    replace (0 + (0 * -1 + -1 * 0) - (0 + (0 * 0 + -1 * 0))) with 0 by ring.
    replace (0 + (-1 * -1 - 0 * 0) - (0 + (-1 * 0 - 0 * 0))) with 1 by ring.
    replace (0 + (0 * 1 + -1 * 0) - (0 + (0 * 0 + -1 * 0))) with 0 by ring.
    replace (0 + (-1 * 1 - 0 * 0) - (0 + (-1 * 0 - 0 * 0))) with (-1) by ring.
    rewrite A0, AP. f_equal. unfold wrapR.
    destruct (Rltb_spec PI (0 - PI)); [lra|]. destruct (Rltb_spec (0 - PI) (- PI)); lra.
  - lra.
Qed.

Theorem pose_rigid (s : pose R) (p q r : point) :
  let T := transform_point s in
  dist (T p) (T q) = dist p q /\
  (forall x, turned (minus q p) (minus r p) x -> turned (minus (T q) (T p)) (minus (T r) (T p)) x).
Proof.
  destruct s as [a t]. cbv zeta. rewrite !pose_is_move. split.
  - unfold dist. f_equal. rewrite move_fst, move_snd.
    pose proof (rot_dot a (fst p - fst q) (snd p - snd q) (fst p - fst q) (snd p - snd q)) as E.
    etransitivity; [|etransitivity; [exact E|]]; ring.
  - intros x (k & K & E). exists k. split; [auto|].
    unfold minus in *. rewrite !move_fst, !move_snd. unfold rotate in *. simpl in *.
    injection E as E1 E2. rewrite E1, E2. f_equal; ring.
Qed.

Theorem angle_unattainable (env : solver_env R) id (l : log R) s k c a :
  Spec_Solver.env_ok env -> history env id l s -> current_call l k = Some c -> In (RConstraint k) (map snd l) ->
  (exists p q r, c = CreatePointPointPointAngle p q r a) \/ (exists k l, c = CreateLineLineAngle k l a) ->
  PI < Rabs a -> constraint_residual k s <> Done 0.
Proof.
  intros He Hh Hc Hk Hform Ha H0.
  destruct (Proofs_Api.residual_meaning env id l s k He Hh Hk) as (c' & x & H1 & H2 & H3).
  rewrite Hc in H1. injection H1 as <-. rewrite H3 in H0. injection H0 as ->.
  pose proof (angle_range c (read s) a H2 Hform) as B. pose proof PI_RGT_0.
  unfold Rabs in Ha. destruct (Rcase_abs a); lra.
Qed.
