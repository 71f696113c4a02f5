(** Levenberg-Marquardt with sparse QR is the textbook's, in exact arithmetic. *)
From Coq Require Import List Arith ZArith Lia Reals Lra Bool Permutation.
From Verif Require Import Num NumR Outcome Lib ModelSystem ModelSolve ModelLm ModelSparse ModelForest ModelCholesky ModelQr ModelOptimize
  Spec_Solver Spec_Sparse Spec_Linear Spec_Qr Spec_Jacobian Spec_Descent Spec_Gradient Spec_Lm
  Proofs_Real Proofs_Linear Proofs_Triangular Proofs_QrSolve Proofs_Lm Proofs_Optimize Proofs_LmExact.
Import ListNotations.
Local Open Scope R_scope.

(** ** Damped steps *)
Lemma damped_ext m n J J' r r' lambda d :
  (forall i, (i < m)%nat -> r i = r' i) -> (forall i j, (i < m)%nat -> (j < n)%nat -> J i j = J' i j) ->
  damped m n J r lambda d = damped m n J' r' lambda d.
Proof.
  intros Hr HJ. unfold damped. f_equal. apply rsum_ext. intros i Hi. apply in_seq in Hi.
  rewrite Hr by lia. f_equal. f_equal. unfold product. apply rsum_ext. intros j Hj. apply in_seq in Hj.
  rewrite HJ by lia. reflexivity.
Qed.

(** [x + t y], coordinate by coordinate *)
Definition axpy (n : nat) (t : R) (x y : list R) : list R := map (fun j => nth j x 0 + t * nth j y 0) (seq 0 n).
Lemma axpy_length n t x y : length (axpy n t x y) = n.
Proof. unfold axpy. now rewrite map_length, seq_length. Qed.
Lemma axpy_nth n t x y j : (j < n)%nat -> nth j (axpy n t x y) 0 = nth j x 0 + t * nth j y 0.
Proof.
  intros Hj. unfold axpy. rewrite (nth_indep _ 0 (nth 0 x 0 + t * nth 0 y 0)) by (now rewrite map_length, seq_length).
  rewrite (map_nth (fun j => nth j x 0 + t * nth j y 0)), seq_nth by exact Hj. reflexivity.
Qed.
Lemma axpy_product n J t x y i : product n J (axpy n t x y) i = product n J x i + t * product n J y i.
Proof.
  unfold product. rewrite <- rsum_scal, <- rsum_plus. apply rsum_ext. intros j Hj. apply in_seq in Hj.
  rewrite axpy_nth by lia. ring.
Qed.
Lemma product_congr n J x y i : (forall j, (j < n)%nat -> nth j x 0 = nth j y 0) -> product n J x i = product n J y i.
Proof. intros H. unfold product. apply rsum_ext. intros j Hj. apply in_seq in Hj. rewrite H by lia. reflexivity. Qed.

(** The damped objective along a line *)
Lemma damped_line m n J r lambda x y t :
  damped m n J r lambda (axpy n t x y) = damped m n J r lambda x +
    2 * t * (rsum (fun i => (r i + product n J x i) * product n J y i) (seq 0 m) +
             lambda * rsum (fun j => nth j x 0 * nth j y 0) (seq 0 n)) +
    t * t * (rsum (fun i => product n J y i ^ 2) (seq 0 m) + lambda * rsum (fun j => nth j y 0 ^ 2) (seq 0 n)).
Proof.
  unfold damped.
  rewrite (rsum_ext (fun i => (r i + product n J (axpy n t x y) i) ^ 2)
    (fun i => (r i + product n J x i) ^ 2 + (2 * t) * ((r i + product n J x i) * product n J y i) + (t * t) * product n J y i ^ 2))
    by (intros i _; rewrite axpy_product; ring).
  rewrite (rsum_ext (fun j => nth j (axpy n t x y) 0 ^ 2)
    (fun j => nth j x 0 ^ 2 + (2 * t) * (nth j x 0 * nth j y 0) + (t * t) * nth j y 0 ^ 2))
    by (intros j Hj; apply in_seq in Hj; rewrite axpy_nth by lia; ring).
  rewrite !rsum_plus, !rsum_scal. ring.
Qed.

Lemma quadratic_zero g h : 0 <= h -> (forall t, 0 <= 2 * t * g + t * t * h) -> g = 0.
Proof.
  intros Hh H. destruct (Req_dec g 0) as [|Hg]; [assumption|]. exfalso.
  specialize (H (- g / (h + 1))).
  assert (E : 2 * (- g / (h + 1)) * g + - g / (h + 1) * (- g / (h + 1)) * h = - (g * g) * (h + 2) / ((h + 1) * (h + 1)))
    by (field; lra).
  rewrite E in H. assert (Hp : 0 < g * g) by (apply Rsqr_pos_lt in Hg; exact Hg).
  assert (0 < (g * g) * (h + 2) / ((h + 1) * (h + 1))).
  { apply Rdiv_lt_0_compat; apply Rmult_lt_0_compat; lra. }
  replace (- (g * g) * (h + 2) / ((h + 1) * (h + 1))) with (- ((g * g) * (h + 2) / ((h + 1) * (h + 1)))) in H by (field; lra).
  lra.
Qed.

Definition unit_at (n j : nat) : list R := map (fun k => delta k j) (seq 0 n).
Lemma unit_at_nth n j k : (k < n)%nat -> nth k (unit_at n j) 0 = delta k j.
Proof.
  intros Hk. unfold unit_at. rewrite (nth_indep _ 0 (delta 0 j)) by (now rewrite map_length, seq_length).
  rewrite (map_nth (fun k => delta k j)), seq_nth by exact Hk. reflexivity.
Qed.

Section Steps.
  Variable p : problem R.
  Let m := num_residuals p.
  Let n := num_variables p.

  (** Stationarity along every direction *)
  Lemma step_along x lambda d y : step p x lambda d -> 0 <= lambda ->
    rsum (fun i => (residuals_at p x i + product n (jacobian_at p x) d i) * product n (jacobian_at p x) y i) (seq 0 m) +
      lambda * rsum (fun j => nth j d 0 * nth j y 0) (seq 0 n) = 0.
  Proof.
    intros [Ld Hd] Hl.
    apply (quadratic_zero _ (rsum (fun i => product n (jacobian_at p x) y i ^ 2) (seq 0 m) + lambda * rsum (fun j => nth j y 0 ^ 2) (seq 0 n))).
    - apply Rplus_le_le_0_compat; [apply rsum_nonneg; intros; apply pow2_ge_0|].
      apply Rmult_le_pos; [exact Hl|]. apply rsum_nonneg; intros; apply pow2_ge_0.
    - intros t. specialize (Hd (axpy n t d y) (axpy_length _ _ _ _)). fold m n in Hd. rewrite damped_line in Hd. lra.
  Qed.
  (** The normal equations *)
  Lemma step_normal x lambda d j : step p x lambda d -> 0 <= lambda -> (j < n)%nat ->
    rsum (fun i => jacobian_at p x i j * (residuals_at p x i + product n (jacobian_at p x) d i)) (seq 0 m) + lambda * nth j d 0 = 0.
  Proof.
    intros S Hl Hj. etransitivity; [|exact (step_along x lambda d (unit_at n j) S Hl)]. f_equal.
    - apply rsum_ext. intros i _. rewrite Rmult_comm. f_equal. unfold product.
      rewrite (rsum_ext _ (fun k => jacobian_at p x i k * delta k j)).
      + rewrite (rsum_delta_r n j (fun k => jacobian_at p x i k)); [reflexivity|exact Hj].
      + intros k Hk. apply in_seq in Hk. now rewrite unit_at_nth by lia.
    - f_equal. rewrite (rsum_ext (fun k => nth k d 0 * nth k (unit_at n j) 0) (fun k => nth k d 0 * delta k j)).
      + rewrite (rsum_delta_r n j (fun k => nth k d 0)); [reflexivity|exact Hj].
      + intros k Hk. apply in_seq in Hk. now rewrite unit_at_nth by lia.
  Qed.
  (** The step goes downhill. *)
  Lemma step_downhill x lambda d : step p x lambda d -> 0 < lambda -> 0 < length_squared p d ->
    rsum (fun i => residuals_at p x i * product n (jacobian_at p x) d i) (seq 0 m) < 0.
  Proof.
    intros S Hl Hd. pose proof (step_along x lambda d d S (Rlt_le _ _ Hl)) as E.
    rewrite (rsum_ext (fun i => (residuals_at p x i + product n (jacobian_at p x) d i) * product n (jacobian_at p x) d i)
      (fun i => residuals_at p x i * product n (jacobian_at p x) d i + product n (jacobian_at p x) d i ^ 2)) in E by (intros; ring).
    rewrite rsum_plus in E. unfold length_squared in Hd. fold n in Hd.
    rewrite (rsum_ext (fun j => nth j d 0 * nth j d 0) (fun j => nth j d 0 ^ 2)) in E by (intros; ring).
    assert (0 <= rsum (fun i => product n (jacobian_at p x) d i ^ 2) (seq 0 m)) by (apply rsum_nonneg; intros; apply pow2_ge_0).
    assert (0 < lambda * rsum (fun j => nth j d 0 ^ 2) (seq 0 n)) by (now apply Rmult_lt_0_compat). lra.
  Qed.
  Lemma squares_zero (d : list R) k : length d = k -> rsum (fun j => nth j d 0 ^ 2) (seq 0 k) <= 0 -> d = repeat 0 k.
  Proof.
    intros <-. induction d as [|x d IH]; intros H; [reflexivity|]. cbn [length seq] in H. rewrite rsum_cons, rsum_shift in H.
    cbn [nth] in H. assert (H0 : 0 <= rsum (fun j => nth j d 0 ^ 2) (seq 0 (length d))) by (apply rsum_nonneg; intros; apply pow2_ge_0).
    pose proof (pow2_ge_0 x) as Hx. cbn [length repeat]. f_equal.
    - assert (E : x * x = 0) by (replace (x * x) with (x ^ 2) by ring; lra). apply Rmult_integral in E. tauto.
    - apply IH. lra.
  Qed.
  Lemma step_unique x lambda d d' : 0 < lambda -> step p x lambda d -> step p x lambda d' -> d = d'.
  Proof.
    intros Hl S S'. pose proof S as [Ld Hd]. pose proof S' as [Ld' Hd'].
    pose proof (step_along x lambda d (axpy n (-1) d' d) S (Rlt_le _ _ Hl)) as E.
    specialize (Hd' d Ld). pose proof (Hd d' Ld') as Hd1.
    set (e := axpy n (-1) d' d) in *.
    assert (Ee : damped m n (jacobian_at p x) (residuals_at p x) lambda (axpy n 1 d e) = damped m n (jacobian_at p x) (residuals_at p x) lambda d').
    { unfold damped. f_equal.
      - apply rsum_ext. intros i _. do 2 f_equal. apply product_congr. intros j Hj. unfold e. rewrite !axpy_nth by exact Hj. ring.
      - f_equal. apply rsum_ext. intros j Hj. apply in_seq in Hj. unfold e. rewrite !axpy_nth by lia. ring. }
    rewrite damped_line in Ee. rewrite E in Ee. fold m n in Hd', Hd1.
    assert (H1 : 0 <= rsum (fun i => product n (jacobian_at p x) e i ^ 2) (seq 0 m)) by (apply rsum_nonneg; intros; apply pow2_ge_0).
    assert (H2 : 0 <= rsum (fun j => nth j e 0 ^ 2) (seq 0 n)) by (apply rsum_nonneg; intros; apply pow2_ge_0).
    assert (H3 : lambda * rsum (fun j => nth j e 0 ^ 2) (seq 0 n) <= 0) by lra.
    assert (H4 : rsum (fun j => nth j e 0 ^ 2) (seq 0 n) <= 0).
    { apply Rmult_le_reg_l with lambda; [exact Hl|]. lra. }
    pose proof (squares_zero e n (axpy_length _ _ _ _) H4) as Ez.
    apply (nth_ext d d' 0 0); [congruence|]. intros j Hj. rewrite Ld in Hj. fold n in Hj.
    assert (Hz : nth j e 0 = 0) by (rewrite Ez; apply nth_repeat). unfold e in Hz. rewrite axpy_nth in Hz by exact Hj. lra.
  Qed.
  (** At a stationary point the step is nothing. *)
  Lemma step_stationary x lambda d : 0 < lambda -> step p x lambda d ->
    (forall j, (j < n)%nat -> rsum (fun i => jacobian_at p x i j * residuals_at p x i) (seq 0 m) = 0) -> length_squared p d = 0.
  Proof.
    intros Hl S Hs.
    destruct (Rle_lt_dec (length_squared p d) 0) as [H0|Hpos].
    - apply Rle_antisym; [exact H0|]. apply rsum_nonneg; intros; apply pow2_ge_0.
    - exfalso. pose proof (step_downhill x lambda d S Hl Hpos) as H. unfold product in H.
      rewrite (rsum_ext _ (fun i => rsum (fun j => jacobian_at p x i j * residuals_at p x i * nth j d 0) (seq 0 n))) in H.
      2:{ intros i _. rewrite <- rsum_scal. apply rsum_ext. intros. ring. }
      rewrite rsum_swap, rsum_zero in H; [lra|]. intros j Hj. apply in_seq in Hj.
      rewrite rsum_scal_r, Hs by lia. ring.
  Qed.

  (** ** Runs are unique *)
  Lemma rejected_step x lambda d : 0 < lambda -> rejected p x lambda -> step p x lambda d ->
    / 10 ^ 12 <= length_squared p d /\ squares p x <= squares p (displaced x d 1).
  Proof. intros Hl (d' & S' & H) S. now rewrite (step_unique x lambda d d' Hl S S'). Qed.
  Lemma first_step_unique x lambda l1 l2 d1 d2 : 0 < lambda ->
    first_step p x lambda l1 d1 -> first_step p x lambda l2 d2 ->
    (length_squared p d1 < / 10 ^ 12 \/ squares p (displaced x d1 1) < squares p x) ->
    (length_squared p d2 < / 10 ^ 12 \/ squares p (displaced x d2 1) < squares p x) -> l1 = l2 /\ d1 = d2.
  Proof.
    intros Hl (a1 & E1 & S1 & R1) (a2 & E2 & S2 & R2) H1 H2.
    assert (Hp : forall a, 0 < lambda * 2 ^ a) by (intros a; apply Rmult_lt_0_compat; [exact Hl|apply pow_lt; lra]).
    destruct (Nat.lt_trichotomy a1 a2) as [Hlt|[->|Hgt]].
    - exfalso. specialize (R2 a1 Hlt). rewrite E1 in S1. pose proof (rejected_step x _ d1 (Hp a1) R2 S1). lra.
    - split; [congruence|]. rewrite E1 in S1. rewrite E2 in S2. exact (step_unique x _ d1 d2 (Hp a2) S1 S2).
    - exfalso. specialize (R1 a2 Hgt). rewrite E2 in S2. pose proof (rejected_step x _ d2 (Hp a2) R1 S2). lra.
  Qed.
  Lemma squares_nonneg x : 0 <= squares p x.
  Proof.
    unfold squares, objective. destruct (calculate_residuals p x) as [rs| |]; try lra.
    change (0 <= norm_squared rs). rewrite norm_squared_rsum. apply rsum_nonneg. intros. apply Rle_0_sqr.
  Qed.
  Lemma run_unique k lambda x l : run p k lambda x l -> 0 < lambda -> forall l', run p k lambda x l' -> l' = l.
  Proof.
    assert (P6 : 0 < / 10 ^ 6) by lra.
    induction 1 as [k lambda x H|lambda x|k lambda x lambda' d H1 F H2|k lambda x lambda' d H1 F H2 H3 H4|k lambda x lambda' d l H1 F H2 H3 R IH];
      intros Hl l' R'.
    - inversion R'; subst; try reflexivity; lra.
    - inversion R'; subst; reflexivity.
    - pose proof (squares_nonneg x) as N. pose proof (Rmult_le_pos _ _ (Rlt_le _ _ P6) N) as N'.
      inversion R' as [| |? ? ? l2 d2 H1' F' H2'|? ? ? l2 d2 H1' F' H2' H3' H4'|? ? ? l2 d2 r H1' F' H2' H3' R2]; subst; try reflexivity;
        destruct (first_step_unique x lambda lambda' l2 d d2 Hl F F') as [_ <-]; try lra; auto; right; lra.
    - pose proof (squares_nonneg x) as N. pose proof (Rmult_le_pos _ _ (Rlt_le _ _ P6) N) as N'.
      inversion R' as [|? ?|? ? ? l2 d2 H1' F' H2'|? ? ? l2 d2 H1' F' H2' H3' H4'|? ? ? l2 d2 r H1' F' H2' H3' R2]; subst; try lra;
        (destruct (first_step_unique x lambda lambda' l2 d d2 Hl F F') as [_ <-]; [auto|first [left; lra|right; lra]|]); try lra; reflexivity.
    - pose proof (squares_nonneg x) as N. pose proof (Rmult_le_pos _ _ (Rlt_le _ _ P6) N) as N'.
      assert (D : squares p (displaced x d 1) < squares p x) by lra.
      inversion R' as [|? ?|? ? ? l2 d2 H1' F' H2'|? ? ? l2 d2 H1' F' H2' H3' H4'|? ? ? l2 d2 r H1' F' H2' H3' R2]; subst; try lra;
        (destruct (first_step_unique x lambda lambda' l2 d d2 Hl F F') as [<- <-]; [auto|first [left; lra|right; lra]|]); try lra.
      f_equal. apply IH; [|exact R2]. eapply Rlt_le_trans; [|apply Rmax_r]. apply Rinv_0_lt_compat. apply pow_lt. lra.
  Qed.
End Steps.

(** ** The program's runs *)
Lemma displaced_one (x d : list R) : displaced x d 1 = map (fun '(v, w) => v + w) (combine x d).
Proof. unfold displaced. apply map_ext. intros [v w]. ring. Qed.
Lemma tenm_inv k : (0 <= k)%Z -> (tenm k : R) = / 10 ^ Z.to_nat k.
Proof.
  intros Hk. unfold tenm. cbn [nofZ ndiv NumR]. rewrite <- (Z2Nat.id k) at 1 by exact Hk.
  rewrite <- pow_IZR. unfold Rdiv. now rewrite Rmult_1_l.
Qed.

Section Textbook.
  Variable colamd : structure -> outcome (list nat).
  Variable sort : (nat -> nat * nat) -> list nat -> list nat.
  Hypothesis Hsort : sorting sort.
  Variable p : problem R.
  Hypothesis Hcolamd : orders_for colamd sort p.
  Hypothesis Hp : problem_ok p.
  Hypothesis Cp : consistent p.
  Let nrows := num_residuals p.
  Let ncols := num_variables p.
  Let slv : damped_solver R symbolic_qr := qr_solver colamd sort.

  Record at_point (st : lm_state R) (x : list R) (lambda : R) : Prop := {
    ap_variables : lm_variables st = x;
    ap_length : length x = ncols;
    ap_values : exists rs ts, calculate_residuals_and_sparse_jacobian p x = Done (rs, ts) /\ length rs = nrows /\
      lm_residuals st = map nneg rs /\ lm_jacobian st = augment nrows ncols ts;
    ap_ssr : lm_ssr st = squares p x;
    ap_lambda : lm_lambda st = lambda;
    ap_pos : 0 < lambda
  }.

  (** How a round ends, when its step is [d] with damping [lambda] *)
  Definition ends (x : list R) (lambda : R) (d : list R) (v : lm_verdict R) : Prop :=
    match v with
    | LmRetry l => l = lambda * 2 /\ / 10 ^ 12 <= length_squared p d /\ squares p x <= squares p (displaced x d 1)
    | LmStall => length_squared p d < / 10 ^ 12
    | LmConverged y => y = displaced x d 1 /\ / 10 ^ 12 <= length_squared p d /\
        squares p (displaced x d 1) < squares p x /\
        squares p x - squares p (displaced x d 1) <= / 10 ^ 6 * squares p x
    | LmAccepted st' => at_point st' (displaced x d 1) (Rmax (lambda / 8) (/ 10 ^ 50)) /\ / 10 ^ 12 <= length_squared p d /\
        / 10 ^ 6 * squares p x < squares p x - squares p (displaced x d 1)
    end.

  Lemma squares_norm x rs : calculate_residuals p x = Done rs -> norm_squared rs = squares p x.
  Proof. intros H. unfold squares, objective. now rewrite H. Qed.

  Lemma evaluate_at x lambda s : length x = ncols -> 0 < lambda -> s = squares p x -> exists rs ts,
    lm_evaluate p x = Done (rs, ts) /\ norm_squared rs = squares p x /\ at_point (LmState x rs ts s lambda) x lambda.
  Proof.
    intros Lx Hl ->. destruct (po_sparse _ Hp x Lx) as (rs & ts & E & Lrs & _). unfold lm_evaluate. rewrite E. cbn [obind].
    exists (map nneg rs), (augment nrows ncols ts). split; [reflexivity|]. split.
    - rewrite (norm_neg orderly_R). apply squares_norm. now apply (Cp x rs ts).
    - constructor; cbn [lm_variables lm_residuals lm_jacobian lm_ssr lm_lambda]; auto. exists rs, ts. auto.
  Qed.

  Lemma try_step sq st x lambda : fits sort p sq -> at_point st x lambda ->
    exists d v, step p x lambda d /\ lm_try slv p sq st = Done v /\ ends x lambda d v.
  Proof.
    intros Hf [Ex Lx (rs & ts & Ev & Lrs & Er & Ej) Es El Hl].
    unfold lm_try. cbv zeta. fold nrows ncols. rewrite Ex, Er, Ej, Es, El.
    assert (G : given p ts) by (exists x, rs; auto).
    assert (Hd : sqrt lambda <> 0) by (pose proof (sqrt_lt_R0 _ Hl); lra).
    assert (Ln : length (map (@nneg R NumR) rs) = nrows) by (now rewrite map_length).
    destruct (damped_step colamd sort Hsort p Hp sq ts (sqrt lambda) (map nneg rs) Hf G Hd Ln) as (y & Ey & Ly & _ & Hmin).
    change (nsqrt lambda) with (sqrt lambda). change (@nzero R NumR) with 0. fold slv nrows ncols in Ey, Ly, Hmin.
    rewrite Ey. cbn [obind]. set (d := firstn ncols y) in *.
    rewrite sqrt_sqrt in Hmin by lra.
    assert (Ld : length d = ncols) by (unfold d; rewrite firstn_length; lia).
    assert (S : step p x lambda d).
    { split; [exact Ld|]. intros z Lz. fold nrows ncols.
      rewrite !(damped_ext nrows ncols (jacobian_at p x) (Spec_Jacobian.entry ts) (residuals_at p x) (fun i => - nth i (map nneg rs) 0)).
      - now apply Hmin.
      - intros i Hi. unfold residuals_at, residual_at. rewrite (Cp x rs ts Ev).
        rewrite (nth_indep (map nneg rs) 0 (nneg 0)) by (rewrite map_length; lia). rewrite map_nth. cbn. lra.
      - intros i j _ _. unfold jacobian_at. now rewrite Ev.
      - intros i Hi. unfold residuals_at, residual_at. rewrite (Cp x rs ts Ev).
        rewrite (nth_indep (map nneg rs) 0 (nneg 0)) by (rewrite map_length; lia). rewrite map_nth. cbn. lra.
      - intros i j _ _. unfold jacobian_at. now rewrite Ev. }
    exists d. assert (Eq : norm_squared d = length_squared p d).
    { rewrite norm_squared_rsum, Ld. unfold length_squared. apply rsum_ext. intros. ring. }
    rewrite Eq. replace (map (fun '(v, d0) => nadd v d0) (combine x d)) with (displaced x d 1) by apply displaced_one.
    assert (Lx' : length (displaced x d 1) = ncols).
    { rewrite displaced_one, map_length, combine_length, Lx, Ld. apply Nat.min_id. }
    rewrite (tenm_inv 12), (tenm_inv 6), (tenm_inv 50) by lia.
    change (Z.to_nat 12) with 12%nat. change (Z.to_nat 6) with 6%nat. change (Z.to_nat 50) with 50%nat.
    cbn [nltb nleb nsub ndiv nmul nunit NumR]. unfold Rltb at 1.
    destruct (Rlt_dec (length_squared p d) (/ 10 ^ 12)) as [Hs|Hs].
    { exists LmStall. split; [exact S|]. split; [reflexivity|]. exact Hs. }
    assert (Hs' : / 10 ^ 12 <= length_squared p d) by lra.
    destruct (po_residuals _ Hp _ Lx') as (rs' & Er' & _). rewrite Er'. cbn [obind].
    rewrite (squares_norm _ _ Er'). unfold Rltb at 1.
    destruct (Rlt_dec (squares p (displaced x d 1)) (squares p x)) as [Hb|Hb].
    2:{ eexists. split; [exact S|]. split; [reflexivity|]. cbn [ends]. split; [reflexivity|]. split; [exact Hs'|]. lra. }
    pose proof (squares_nonneg p (displaced x d 1)) as Hnn. assert (Hpos : 0 < squares p x) by lra.
    unfold Rleb. destruct (Rle_dec _ _) as [Hc|Hc].
    { eexists. split; [exact S|]. split; [reflexivity|]. cbn [ends]. split; [reflexivity|]. split; [exact Hs'|]. split; [exact Hb|].
      apply Rmult_le_reg_r with (/ squares p x); [now apply Rinv_0_lt_compat|].
      replace (/ 10 ^ 6 * squares p x * / squares p x) with (/ 10 ^ 6) by (field; lra). exact Hc. }
    set (lambda2 := if Rltb (lambda * (1 / lit 8)) (/ 10 ^ 50) then / 10 ^ 50 else lambda * (1 / lit 8)).
    assert (E2 : lambda2 = Rmax (lambda / 8) (/ 10 ^ 50)).
    { assert (E8 : lambda * (1 / lit 8) = lambda / 8) by (unfold lit; cbn; lra).
      unfold lambda2. rewrite E8. unfold Rltb. destruct (Rlt_dec (lambda / 8) (/ 10 ^ 50)) as [Hlt|Hge].
      - rewrite Rmax_right; [reflexivity|apply Rlt_le, Hlt].
      - rewrite Rmax_left; [reflexivity|apply Rnot_lt_le, Hge]. }
    assert (H2 : 0 < lambda2).
    { rewrite E2. eapply Rlt_le_trans; [|apply Rmax_r]. apply Rinv_0_lt_compat, pow_lt. lra. }
    destruct (evaluate_at (displaced x d 1) lambda2 _ Lx' H2 eq_refl) as (rs2 & ts2 & -> & _ & A). cbn [obind].
    eexists. split; [exact S|]. split; [reflexivity|]. cbn [ends]. rewrite <- E2. split; [exact A|]. split; [exact Hs'|].
    apply Rnot_le_lt in Hc. apply Rmult_lt_reg_r with (/ squares p x); [now apply Rinv_0_lt_compat|].
    replace (/ 10 ^ 6 * squares p x * / squares p x) with (/ 10 ^ 6) by (field; lra). exact Hc.
  Qed.

  Lemma first_step_here x lambda d : step p x lambda d -> first_step p x lambda lambda d.
  Proof. intros S. exists 0%nat. cbn. rewrite Rmult_1_r. split; [reflexivity|]. split; [exact S|]. intros b Hb. lia. Qed.
  Lemma first_step_later x lambda lambda' d : rejected p x lambda -> first_step p x (lambda * 2) lambda' d -> first_step p x lambda lambda' d.
  Proof.
    intros Hr (a & E & S & Hb). exists (Datatypes.S a). split; [rewrite E; cbn; ring|]. split; [exact S|]. intros [|b] Hlt.
    - cbn. now rewrite Rmult_1_r.
    - cbn [pow]. replace (lambda * (2 * 2 ^ b)) with (lambda * 2 * 2 ^ b) by ring. apply Hb. lia.
  Qed.

  Lemma inner_step sq : fits sort p sq -> forall k st x lambda, at_point st x lambda ->
    squares p x < lambda * 2 ^ k * / 10 ^ 12 ->
    exists lambda' d v, first_step p x lambda lambda' d /\ ends x lambda' d v /\
      match v with LmRetry _ => False | _ => True end /\
      forall fuel, (k < fuel)%nat -> lm_inner slv p fuel sq st = Done v.
  Proof.
    intros Hf. induction k as [|k IH]; intros st x lambda A Hb.
    - destruct (try_step sq st x lambda Hf A) as (d & v & S & E & En). exists lambda, d, v. split; [now apply first_step_here|].
      split; [exact En|].
      assert (Hr : match v with LmRetry _ => False | _ => True end).
      { destruct v as [l| |y|st']; try exact I. destruct En as (-> & H1 & H2).
        (* the step is no longer than the damping allows *)
        destruct S as [Ld Hd]. specialize (Hd (repeat 0 ncols) (repeat_length _ _)). unfold damped in Hd. fold nrows ncols in Hd.
        pose proof A as [_ Lx (rs & ts & Ev & Lrs & _) _ _ Hl].
        rewrite (rsum_ext (fun i => (residuals_at p x i + product ncols (jacobian_at p x) (repeat 0 ncols) i) ^ 2)
          (fun i => nth i rs 0 * nth i rs 0)) in Hd.
        2:{ intros i _. unfold product. rewrite rsum_zero by (intros; rewrite nth_repeat; ring).
            unfold residuals_at, residual_at. rewrite (Cp x rs ts Ev). ring. }
        rewrite (rsum_zero (fun j => nth j (repeat 0 ncols) 0 ^ 2)) in Hd by (intros; rewrite nth_repeat; ring).
        rewrite <- Lrs in Hd at 2. rewrite <- norm_squared_rsum, (squares_norm x rs (Cp x rs ts Ev)) in Hd.
        match type of Hd with ?t + _ <= _ => assert (0 <= t) by (apply rsum_nonneg; intros; apply pow2_ge_0) end.
        fold (length_squared p d) in Hd. cbn [pow] in Hb. rewrite Rmult_1_r in Hb.
        change (rsum (fun j => nth j d 0 ^ 2) (seq 0 ncols)) with (length_squared p d) in Hd.
        pose proof (Rmult_le_compat_l lambda _ _ (Rlt_le _ _ Hl) H1). lra. }
      split; [exact Hr|]. intros [|fuel] Hfu; [lia|]. cbn [lm_inner]. rewrite E. cbn [obind]. destruct v; [contradiction|reflexivity..].
    - destruct (try_step sq st x lambda Hf A) as (d & v & S & E & En). destruct v as [l| |y|st'].
      + destruct En as (-> & H1 & H2).
        assert (A' : at_point (with_lambda (lambda * 2) st) x (lambda * 2)).
        { destruct A. constructor; auto. lra. }
        destruct (IH _ _ _ A') as (lambda' & d' & v & F & En & Hr & Hv); [cbn [pow] in Hb; lra|].
        exists lambda', d', v. split; [apply first_step_later; [exists d; auto|exact F]|]. split; [exact En|]. split; [exact Hr|].
        intros [|fuel] Hfu; [lia|]. cbn [lm_inner]. rewrite E. cbn [obind]. apply Hv. lia.
      + exists lambda, d, LmStall. split; [now apply first_step_here|]. split; [exact En|]. split; [exact I|].
        intros [|fuel] Hfu; [lia|]. cbn [lm_inner]. now rewrite E.
      + exists lambda, d, (LmConverged y). split; [now apply first_step_here|]. split; [exact En|]. split; [exact I|].
        intros [|fuel] Hfu; [lia|]. cbn [lm_inner]. now rewrite E.
      + exists lambda, d, (LmAccepted st'). split; [now apply first_step_here|]. split; [exact En|]. split; [exact I|].
        intros [|fuel] Hfu; [lia|]. cbn [lm_inner]. now rewrite E.
  Qed.

  Lemma outer_step sq : fits sort p sq -> forall k st x lambda trace, at_point st x lambda ->
    exists n l, run p k lambda x (x :: l) /\
      forall fuel, (n < fuel)%nat -> lm_outer slv p fuel k sq st trace = Done (rev l ++ trace).
  Proof.
    intros Hf. induction k as [|k IH]; intros st x lambda trace A.
    - exists 0%nat, []. split; [apply run_out|reflexivity].
    - cbn [lm_outer]. rewrite (ap_ssr _ _ _ A), (tenm_inv 8) by lia. change (Z.to_nat 8) with 8%nat.
      cbn [nltb NumR]. unfold Rltb. destruct (Rlt_dec (squares p x) (/ 10 ^ 8)) as [Hs|Hs].
      + exists 0%nat, []. split; [now constructor|reflexivity].
      + apply Rnot_lt_le in Hs.
        destruct (doublings (lambda * / 10 ^ 12) (squares p x)) as (n & Hn).
        { apply Rmult_lt_0_compat; [apply A|]. apply Rinv_0_lt_compat, pow_lt. lra. }
        destruct (inner_step sq Hf n st x lambda A) as (lambda' & d & v & F & En & Hr & Hv).
        { eapply Rlt_le_trans; [exact Hn|]. right. ring. }
        destruct v as [l| |y|st']; cbn [ends] in En.
        * contradiction.
        * exists n, []. split; [eapply run_short; eauto|]. intros fuel Hfu. rewrite Hv by exact Hfu. reflexivity.
        * destruct En as (-> & H1 & H2 & H3). exists n, [displaced x d 1]. split; [eapply run_slow; eauto|].
          intros fuel Hfu. rewrite Hv by exact Hfu. reflexivity.
        * destruct En as (A' & H1 & H2).
          destruct (IH st' (displaced x d 1) _ (lm_variables st' :: trace) A') as (n' & l & R & Ho).
          exists (Nat.max n n'), (displaced x d 1 :: l). split; [eapply run_on; eauto|].
          intros fuel Hfu. rewrite Hv by lia. cbn [obind]. rewrite Ho by lia. rewrite (ap_variables _ _ _ A'). cbn [rev].
          now rewrite <- app_assoc.
  Qed.

  Theorem lm_textbook x : length x = ncols ->
    exists n l, run p 100 (/ 2) x l /\ forall fuel, (n < fuel)%nat -> levenberg_marquardt slv p fuel x = Done (last l x).
  Proof.
    intros Lx. unfold levenberg_marquardt, lm_trace. generalize 100%nat as rounds. intros rounds.
    assert (Hh : 0 < / 2) by lra.
    destruct (evaluate_at x (/ 2) _ Lx Hh eq_refl) as (rs & ts & E & En & A). rewrite E. cbn [obind].
    destruct (ap_values _ _ _ A) as (rs' & ts' & Ev & _ & _ & Ej). cbn [lm_jacobian] in Ej.
    destruct (build_fits colamd sort Hsort p Hcolamd Hp ts') as (sq & Eb & Hf); [exists x, rs'; auto|].
    fold slv nrows ncols in Eb |- *. rewrite Ej, Eb. cbn [obind]. rewrite En.
    replace (nunit / lit 2)%num with (/ 2) by (unfold lit; cbn; lra). rewrite <- Ej.
    destruct (outer_step sq Hf rounds _ x (/ 2) [x] A) as (n & l & R & Ho).
    exists n, (x :: l). split; [exact R|]. intros fuel Hfu. rewrite Ho by exact Hfu. cbn [obind]. f_equal.
    clear. destruct l as [|y l] using rev_ind; [reflexivity|]. rewrite rev_app_distr. cbn [rev app hd].
    change (x :: l ++ [y]) with ((x :: l) ++ [y]). now rewrite last_last.
  Qed.
End Textbook.
