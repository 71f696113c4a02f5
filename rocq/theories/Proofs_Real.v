(** Facts about [atan2] and the comparisons of [NumR]. *)
From Coq Require Import Reals ZArith Bool Lra Psatz.
From Coquelicot Require Import Coquelicot.
From Verif Require Import Num NumR.
Local Open Scope R_scope.

Lemma Rltb_spec x y : reflect (x < y) (Rltb x y).
Proof. unfold Rltb. destruct (Rlt_dec x y); constructor; auto. Qed.
Lemma Rleb_spec x y : reflect (x <= y) (Rleb x y).
Proof. unfold Rleb. destruct (Rle_dec x y); constructor; auto. Qed.
Lemma Reqb_spec x y : reflect (x = y) (Reqb x y).
Proof. unfold Reqb. destruct (Req_EM_T x y); constructor; auto. Qed.

Lemma norm_pos x y : x <> 0 \/ y <> 0 -> 0 < x * x + y * y.
Proof. intros [H|H]; nra. Qed.
Lemma norm_zero x y : x * x + y * y = 0 -> x = 0 /\ y = 0.
Proof. intros H. split; nra. Qed.

Lemma cos_atan_pos t : 0 < cos (atan t).
Proof. destruct (atan_bound t). apply cos_gt_0; lra. Qed.
Lemma sin_atan_cos t : sin (atan t) = t * cos (atan t).
Proof.
  pose proof (tan_atan t) as H. unfold tan in H. pose proof (cos_atan_pos t).
  rewrite <- H at 2. field. lra.
Qed.

(** The first chart: positive multiples of the direction of [atan t] *)
Lemma atan2_polar y x : x <> 0 \/ y <> 0 ->
  x = sqrt (x * x + y * y) * cos (atan2 y x) /\ y = sqrt (x * x + y * y) * sin (atan2 y x) /\
  - PI < atan2 y x <= PI.
Proof.
  intros H. assert (Hn := norm_pos x y H). pose proof PI_RGT_0 as HP.
  assert (A : forall t k, 0 < k -> k * cos (atan t) = x \/ k * cos (atan t) = - x ->
    k * sin (atan t) = y \/ k * sin (atan t) = - y -> k = sqrt (x * x + y * y)).
  { intros t k Hk H1 H2. symmetry. rewrite <- (sqrt_square k) by lra. f_equal.
    pose proof (sin2_cos2 (atan t)) as S. unfold Rsqr in S.
    assert (k * k = (k * sin (atan t)) * (k * sin (atan t)) + (k * cos (atan t)) * (k * cos (atan t))) by nra.
    destruct H1 as [-> | ->] in H0; destruct H2 as [-> | ->] in H0; lra. }
  unfold atan2. destruct (Rlt_dec 0 x) as [Hx|Hx].
  - assert (Ht : y = y / x * x) by (field; lra). revert Ht. set (t := y / x). intros Ht. pose proof (cos_atan_pos t) as C. destruct (atan_bound t).
    assert (K : x / cos (atan t) = sqrt (x * x + y * y)).
    { apply (A t); [apply Rdiv_lt_0_compat; auto|left; field; lra|left].
      rewrite sin_atan_cos. rewrite Ht. field. lra. }
    rewrite <- K. split; [field; lra|]. split; [|lra]. rewrite sin_atan_cos. rewrite Ht. field. lra.
  - destruct (Rlt_dec x 0) as [Hx'|Hx'].
    + assert (Ht : y = y / x * x) by (field; lra). revert Ht. set (t := y / x). intros Ht. pose proof (cos_atan_pos t) as C. destruct (atan_bound t).
      assert (K : (- x) / cos (atan t) = sqrt (x * x + y * y)).
      { apply (A t); [apply Rdiv_lt_0_compat; lra|right; field; lra|right].
        rewrite sin_atan_cos. rewrite Ht. field. lra. }
      rewrite <- K.
      assert (Y : (- x / cos (atan t)) * sin (atan t) = - y) by (rewrite sin_atan_cos; rewrite Ht; field; lra).
      destruct (Rle_dec 0 y) as [Hy|Hy].
      * rewrite neg_cos, neg_sin. split; [field; lra|]. split; [lra|].
        assert (atan t <= 0). { rewrite <- atan_0. destruct (Req_dec t 0) as [->|]; [lra|]. left. apply atan_increasing.
          unfold t in *. assert (y / x <= 0); [|lra]. unfold Rdiv. assert (/ x < 0) by (apply Rinv_lt_0_compat; auto). nra. }
        lra.
      * replace (atan t - PI) with (atan t + PI - 2 * INR 1 * PI) by (simpl; lra).
        unfold Rminus. replace (- (2 * INR 1 * PI)) with (-(2*PI)) by (simpl; lra).
        assert (E : forall a, cos (a + - (2 * PI)) = cos a /\ sin (a + - (2*PI)) = sin a).
        { intros a. pose proof (cos_period (a + - (2 * PI)) 1) as P1. pose proof (sin_period (a + - (2 * PI)) 1) as P2.
          simpl in P1, P2. replace (a + - (2 * PI) + 2 * 1 * PI) with a in P1, P2 by lra. auto. }
        destruct (E (atan t + PI)) as [-> ->]. rewrite neg_cos, neg_sin. split; [field; lra|]. split; [lra|].
        assert (0 < t). { unfold t, Rdiv. assert (/ x < 0) by (apply Rinv_lt_0_compat; auto). nra. }
        assert (0 < atan t) by (rewrite <- atan_0; apply atan_increasing; auto). lra.
    + assert (x = 0) by lra. subst x.
      assert (K : sqrt (0 * 0 + y * y) = Rabs y).
      { replace (0 * 0 + y * y) with (Rsqr y) by (unfold Rsqr; lra). apply sqrt_Rsqr_abs. }
      rewrite K. destruct (Rlt_dec 0 y).
      * rewrite cos_PI2, sin_PI2, Rabs_right by lra. lra.
      * destruct (Rlt_dec y 0); [|destruct H; lra].
        rewrite cos_neg, sin_neg, cos_PI2, sin_PI2, Rabs_left by lra. lra.
Qed.

Lemma cos_one_small x : - (2 * PI) < x < 2 * PI -> cos x = 1 -> x = 0.
Proof.
  intros H C. replace x with (2 * (x / 2)) in C by lra. rewrite cos_2a_sin in C.
  assert (S : sin (x / 2) = 0) by nra.
  destruct (Rtotal_order x 0) as [Hx|[Hx|Hx]]; auto.
  - assert (0 < sin (- (x / 2))) by (apply sin_gt_0; lra). rewrite sin_neg in H0. lra.
  - assert (0 < sin (x / 2)) by (apply sin_gt_0; lra). lra.
Qed.
Lemma angle_unique a b : - PI < a <= PI -> - PI < b <= PI -> cos a = cos b -> sin a = sin b -> a = b.
Proof.
  intros Ha Hb C S. assert (a - b = 0); [|lra]. apply cos_one_small; [lra|].
  rewrite cos_minus, C, S. pose proof (sin2_cos2 b). unfold Rsqr in *. lra.
Qed.
(** [atan2] is the only angle in range that points in the direction *)
Lemma atan2_unique y x r a : 0 < r -> - PI < a <= PI -> x = r * cos a -> y = r * sin a -> atan2 y x = a.
Proof.
  intros Hr Ha Hx Hy. pose proof (sin2_cos2 a) as S. unfold Rsqr in S.
  assert (N : x * x + y * y = r * r) by (subst; nra).
  assert (H : x <> 0 \/ y <> 0). { destruct (Req_dec x 0); [|auto]. right. intros ->. subst. nra. }
  destruct (atan2_polar y x H) as (P1 & P2 & P3).
  rewrite N, sqrt_square in P1, P2 by lra.
  apply angle_unique; auto; [apply (Rmult_eq_reg_l r); lra|apply (Rmult_eq_reg_l r); lra].
Qed.

(** Bring a difference of angles back to one turn *)
Definition wrapR (a : R) : R :=
  if Rltb PI a then a - 2 * PI else if Rltb a (- PI) then a + 2 * PI else a.
Lemma trig_turn a : cos (a - 2 * PI) = cos a /\ sin (a - 2 * PI) = sin a /\
  cos (a + 2 * PI) = cos a /\ sin (a + 2 * PI) = sin a.
Proof.
  pose proof (cos_period (a - 2 * PI) 1) as P1. pose proof (sin_period (a - 2 * PI) 1) as P2.
  pose proof (cos_period a 1) as P3. pose proof (sin_period a 1) as P4. simpl in *.
  replace (a - 2 * PI + 2 * 1 * PI) with a in * by lra.
  replace (a + 2 * 1 * PI) with (a + 2 * PI) in * by lra. auto.
Qed.
Lemma wrapR_bounds a : - (2 * PI) < a < 2 * PI -> - PI <= wrapR a <= PI.
Proof.
  intros H. unfold wrapR. destruct (Rltb_spec PI a); [lra|]. destruct (Rltb_spec a (- PI)); lra.
Qed.
Lemma wrapR_trig a : cos (wrapR a) = cos a /\ sin (wrapR a) = sin a.
Proof.
  unfold wrapR. pose proof (trig_turn a). destruct (Rltb PI a); [tauto|]. destruct (Rltb a (- PI)); tauto.
Qed.

(** The turn from [u] to [v] *)
Section Turn.
  Variables ux uy vx vy : R.
  Hypothesis Hu : ux <> 0 \/ uy <> 0.
  Hypothesis Hv : vx <> 0 \/ vy <> 0.
  Let cr := ux * vy - uy * vx.
  Let dt := ux * vx + uy * vy.
  Let a := atan2 vy vx - atan2 uy ux.
  Let r := sqrt (ux * ux + uy * uy) * sqrt (vx * vx + vy * vy).

  Lemma turn_r : 0 < r.
  Proof. apply Rmult_lt_0_compat; apply sqrt_lt_R0, norm_pos; auto. Qed.
  Lemma turn_trig : dt = r * cos (wrapR a) /\ cr = r * sin (wrapR a).
  Proof.
    destruct (wrapR_trig a) as [-> ->]. unfold a. rewrite cos_minus, sin_minus.
    destruct (atan2_polar uy ux Hu) as (U1 & U2 & _). destruct (atan2_polar vy vx Hv) as (V1 & V2 & _).
    unfold dt, cr, r. set (nu := sqrt (ux * ux + uy * uy)) in *. set (nv := sqrt (vx * vx + vy * vy)) in *.
    set (tu := atan2 uy ux) in *. set (tv := atan2 vy vx) in *. clearbody nu nv tu tv. subst. split; ring.
  Qed.
  Lemma turn_range : - PI <= wrapR a <= PI.
  Proof.
    apply wrapR_bounds. destruct (atan2_polar uy ux Hu) as (_ & _ & U). destruct (atan2_polar vy vx Hv) as (_ & _ & V).
    unfold a. lra.
  Qed.
  (** Not pointing opposite ways: the wrapped difference is the angle of
      (u.v, u x v) *)
  Lemma turn_atan2 : ~ (cr = 0 /\ dt < 0) -> wrapR a = atan2 cr dt.
  Proof.
    intros H. destruct turn_trig as [T1 T2]. pose proof turn_range as T3. pose proof turn_r as Hr.
    symmetry. apply (atan2_unique cr dt r); auto. destruct T3 as [[T3|T3] T4]; [lra|].
    exfalso. apply H. rewrite T1, T2, <- T3, cos_neg, sin_neg, cos_PI, sin_PI. lra.
  Qed.
  Lemma turn_open : ~ (cr = 0 /\ dt < 0) -> - PI < wrapR a < PI.
  Proof.
    intros H. destruct turn_trig as [T1 T2]. pose proof turn_range as [T3 T4]. pose proof turn_r as Hr.
    split; [destruct T3 as [T3|T3]; auto|destruct T4 as [T4|T4]; auto]; exfalso; apply H.
    - rewrite T1, T2, <- T3, cos_neg, sin_neg, cos_PI, sin_PI. lra.
    - rewrite T1, T2, T4, cos_PI, sin_PI. lra.
  Qed.
End Turn.

(** ** Derivative of [atan2] along a path *)
Lemma atan2_chart_right y x : 0 < x -> atan2 y x = atan (y / x).
Proof. intros H. unfold atan2. destruct (Rlt_dec 0 x); [auto|lra]. Qed.
Lemma atan2_chart_up y x : 0 < y -> atan2 y x = PI / 2 - atan (x / y).
Proof.
  intros H. pose proof PI_RGT_0. destruct (atan_bound (x / y)). pose proof (cos_atan_pos (x / y)) as C.
  apply (atan2_unique y x (y / cos (atan (x / y)))); [apply Rdiv_lt_0_compat; auto|lra| |].
  - rewrite cos_shift, sin_atan_cos. field. split; lra.
  - rewrite sin_shift. field. lra.
Qed.
Lemma atan2_chart_down y x : y < 0 -> atan2 y x = - (PI / 2) - atan (x / y).
Proof.
  intros H. pose proof PI_RGT_0. destruct (atan_bound (x / y)). pose proof (cos_atan_pos (x / y)) as C.
  replace (- (PI / 2) - atan (x / y)) with (- (PI / 2 - (- atan (x / y)))) by lra.
  apply (atan2_unique y x ((- y) / cos (atan (x / y)))); [apply Rdiv_lt_0_compat; lra|lra| |].
  - rewrite cos_neg, cos_shift, sin_neg, sin_atan_cos. field. split; lra.
  - rewrite sin_neg, sin_shift, cos_neg. field. lra.
Qed.

Lemma is_derive_atan2 (f g : R -> R) t f' g' : is_derive f t f' -> is_derive g t g' ->
  ~ (f t = 0 /\ g t <= 0) ->
  is_derive (fun t => atan2 (f t) (g t)) t ((f' * g t - g' * f t) / (g t * g t + f t * f t)).
Proof.
  intros Hf Hg H.
  assert (Cf : continuous f t) by (apply (ex_derive_continuous f); eexists; eauto).
  assert (Cg : continuous g t) by (apply (ex_derive_continuous g); eexists; eauto).
  assert (Hq : forall (p q : R -> R) p' q', is_derive p t p' -> is_derive q t q' -> q t <> 0 ->
    is_derive (fun t => atan (p t / q t)) t ((p' * q t - q' * p t) / (q t * q t + p t * p t))).
  { intros p q p' q' Hp Hq Nq. evar_last.
    - apply (is_derive_comp atan (fun t => p t / q t)).
      + apply is_derive_Reals. apply derivable_pt_lim_atan.
      + apply (is_derive_div p q); eauto.
    - unfold scal; simpl; unfold mult; simpl. unfold Rsqr. field. split; [|auto].
      assert (0 < q t * q t) by nra. nra. }
  destruct (Rlt_dec 0 (g t)) as [P|P].
  - apply is_derive_ext_loc with (fun t => atan (f t / g t)).
    + assert (L : locally t (fun s => 0 < g s)) by (apply (Cg (fun x => 0 < x)); apply open_gt; auto).
      eapply filter_imp; [|exact L]. intros s Hs. simpl. now rewrite atan2_chart_right.
    + apply Hq; auto. lra.
  - destruct (Rlt_dec 0 (f t)) as [P1|P1]; [|destruct (Rlt_dec (f t) 0) as [P2|P2]].
    + apply is_derive_ext_loc with (fun t => PI / 2 - atan (g t / f t)).
      * assert (L : locally t (fun s => 0 < f s)) by (apply (Cf (fun x => 0 < x)); apply open_gt; auto).
        eapply filter_imp; [|exact L]. intros s Hs. simpl. now rewrite atan2_chart_up.
      * evar_last; [apply (is_derive_minus (fun _ => PI / 2) (fun t => atan (g t / f t)));
          [apply is_derive_const|apply Hq; eauto; lra]|].
        unfold minus, plus, opp, zero; simpl. field. nra.
    + apply is_derive_ext_loc with (fun t => - (PI / 2) - atan (g t / f t)).
      * assert (L : locally t (fun s => f s < 0)) by (apply (Cf (fun x => x < 0)); apply open_lt; auto).
        eapply filter_imp; [|exact L]. intros s Hs. simpl. now rewrite atan2_chart_down.
      * evar_last; [apply (is_derive_minus (fun _ => - (PI / 2)) (fun t => atan (g t / f t)));
          [apply is_derive_const|apply Hq; eauto; lra]|].
        unfold minus, plus, opp, zero; simpl. field. nra.
    + exfalso. apply H. lra.
Qed.
