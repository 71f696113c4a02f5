(** Zero residual means the geometric relation holds (over the reals). *)
From Coq Require Import List Reals Lra Psatz Bool.
From Verif Require Import Num NumR ModelExpr ModelSystem ModelSolve ModelApi
  Spec_History Spec_Geometry Proofs_Real.
Import ListNotations.
Local Open Scope R_scope.

Lemma point_neq (A B : point) : A <> B -> fst B - fst A <> 0 \/ snd B - snd A <> 0.
Proof.
  destruct A as [x y], B as [z w]; simpl; intros H.
  destruct (Req_dec (z - x) 0); [|auto]. right. intros E. apply H. f_equal; lra.
Qed.
Lemma sqrt_eq_0' x : 0 <= x -> (sqrt x = 0 <-> x = 0).
Proof. intros H. split; [now apply sqrt_eq_0|intros ->; apply sqrt_0]. Qed.

Section Pair.
  Variables u v : point.
  Hypothesis Hu : fst u <> 0 \/ snd u <> 0.
  Let n2 := fst u * fst u + snd u * snd u.
  Let cr := fst u * snd v - snd u * fst v.
  Let dt := fst u * fst v + snd u * snd v.
  Lemma n2_pos : 0 < n2. Proof. now apply norm_pos. Qed.
  (** [v] in the frame of [u] *)
  Lemma frame : fst v = dt / n2 * fst u - cr / n2 * snd u /\ snd v = dt / n2 * snd u + cr / n2 * fst u.
  Proof. pose proof n2_pos. unfold dt, cr, n2 in *. split; field; lra. Qed.
  Lemma parallel_iff : parallel u v <-> cr = 0.
  Proof.
    split.
    - intros [k E]. unfold cr. rewrite E. simpl. ring.
    - intros H. exists (dt / n2). destruct frame as [F1 F2]. rewrite H in F1, F2.
      rewrite (surjective_pairing v). f_equal; [rewrite F1|rewrite F2]; unfold Rdiv; ring.
  Qed.
  Lemma perpendicular_iff : perpendicular u v <-> dt = 0.
  Proof.
    split.
    - intros [k E]. unfold dt. rewrite E. simpl. ring.
    - intros H. exists (cr / n2). destruct frame as [F1 F2]. rewrite H in F1, F2.
      rewrite (surjective_pairing v). f_equal; [rewrite F1|rewrite F2]; unfold Rdiv; ring.
  Qed.
  Lemma opposite_iff : opposite u v <-> cr = 0 /\ dt < 0.
  Proof.
    pose proof n2_pos as N. split.
    - intros [k [K E]]. unfold cr, dt. rewrite E. simpl. split; [ring|]. unfold n2 in N. nra.
    - intros [H D]. exists (dt / n2). split.
      + unfold Rdiv. assert (0 < / n2) by (now apply Rinv_0_lt_compat). nra.
      + destruct frame as [F1 F2]. rewrite H in F1, F2.
        rewrite (surjective_pairing v). f_equal; [rewrite F1|rewrite F2]; unfold Rdiv; ring.
  Qed.
  Hypothesis Hv : fst v <> 0 \/ snd v <> 0.
  Lemma turned_iff a : - PI < a < PI ->
    (turned u v a <-> wrapR (atan2 (snd v) (fst v) - atan2 (snd u) (fst u)) = a).
  Proof.
    intros Ha. pose proof n2_pos as N.
    pose proof (turn_trig _ _ _ _ Hu Hv) as [T1 T2]. pose proof (turn_r _ _ _ _ Hu Hv) as Hr.
    pose proof (turn_range _ _ _ _ Hu Hv) as T3.
    set (w := wrapR _) in *. set (r := sqrt _ * sqrt _) in *.
    split.
    - intros [k [K E]]. pose proof (sin2_cos2 a) as S. unfold Rsqr in S.
      assert (R2 : r * r = (k * n2) * (k * n2)).
      { unfold r. transitivity ((sqrt (fst u * fst u + snd u * snd u) * sqrt (fst u * fst u + snd u * snd u)) *
          (sqrt (fst v * fst v + snd v * snd v) * sqrt (fst v * fst v + snd v * snd v))); [ring|].
        rewrite !sqrt_sqrt; [|apply Rlt_le, norm_pos; auto|apply Rlt_le; auto].
        rewrite E. simpl. unfold n2.
        transitivity (k * k * (fst u * fst u + snd u * snd u) * (fst u * fst u + snd u * snd u) * (sin a * sin a + cos a * cos a)); [ring|].
        rewrite S. ring. }
      assert (Rk : r = k * n2). { assert (0 < k * n2) by (apply Rmult_lt_0_compat; auto). nra. }
      assert (C : cos w = cos a). { apply (Rmult_eq_reg_l r); [|lra]. rewrite <- T1, Rk, E. simpl. unfold n2. ring. }
      assert (S' : sin w = sin a). { apply (Rmult_eq_reg_l r); [|lra]. rewrite <- T2, Rk, E. simpl. unfold n2. ring. }
      destruct (Req_dec w (- PI)) as [W|W].
      + exfalso. rewrite W, cos_neg in C. rewrite W, sin_neg, sin_PI in S'. rewrite Ropp_0, <- sin_PI in S'.
        assert (PI = a) by (apply angle_unique; lra || auto). lra.
      + apply angle_unique; auto; lra.
    - intros W. exists (r / n2). split; [now apply Rdiv_lt_0_compat|].
      destruct frame as [F1 F2]. unfold dt, cr in F1, F2. rewrite T1, T2, W in F1, F2.
      rewrite (surjective_pairing v). unfold rotate. simpl. f_equal; [rewrite F1|rewrite F2]; field; lra.
  Qed.
End Pair.

Section Line.
  Variables p a b : point.
  Hypothesis Hab : a <> b.
  Let ux := fst b - fst a.
  Let uy := snd b - snd a.
  Let vx := fst p - fst a.
  Let vy := snd p - snd a.
  Let n2 := ux * ux + uy * uy.
  Let D := ux * vy - uy * vx.
  Let N2 : 0 < n2. Proof. apply norm_pos. now apply point_neq. Qed.
  Lemma on_line_iff : on_line p a b <-> D = 0.
  Proof.
    split.
    - intros [t [E1 E2]]. unfold D, vx, vy. rewrite E1, E2. fold ux uy. ring.
    - intros H. exists ((ux * vx + uy * vy) / n2). fold ux uy. split.
      + assert (vx = (ux * vx + uy * vy) / n2 * ux - D / n2 * uy) by (unfold D, n2 in *; field; lra).
        rewrite H in H0. unfold vx at 1 in H0. unfold Rdiv in *. lra.
      + assert (vy = (ux * vx + uy * vy) / n2 * uy + D / n2 * ux) by (unfold D, n2 in *; field; lra).
        rewrite H in H0. unfold vy at 1 in H0. unfold Rdiv in *. lra.
  Qed.
  Lemma left_of_iff : left_of p a b <-> 0 < D.
  Proof.
    split.
    - intros [t [k [K [E1 E2]]]]. fold ux uy in E1, E2.
      assert (D = k * n2). { unfold D, vx, vy. rewrite E1, E2. unfold n2. ring. }
      rewrite H. now apply Rmult_lt_0_compat.
    - intros H. exists ((ux * vx + uy * vy) / n2), (D / n2). fold ux uy.
      split; [now apply Rdiv_lt_0_compat|]. split.
      + assert (vx = (ux * vx + uy * vy) / n2 * ux - D / n2 * uy) by (unfold D, n2 in *; field; lra).
        unfold vx at 1 in H0. lra.
      + assert (vy = (ux * vx + uy * vy) / n2 * uy + D / n2 * ux) by (unfold D, n2 in *; field; lra).
        unfold vy at 1 in H0. lra.
  Qed.
  Lemma abs_D_n : Rabs D / sqrt n2 = sqrt (D * D / n2).
  Proof. rewrite sqrt_div; [|nra|auto]. now rewrite <- sqrt_Rsqr_abs. Qed.
  Lemma line_distance_iff d : line_distance p a b d <-> d = Rabs D / sqrt n2.
  Proof.
    rewrite abs_D_n.
    assert (Foot : exists q, on_line q a b /\ dist p q = sqrt (D * D / n2)).
    { set (t := (ux * vx + uy * vy) / n2).
      exists (fst a + t * ux, snd a + t * uy). split; [exists t; auto|].
      unfold dist. simpl. f_equal.
      replace (fst p - (fst a + t * ux)) with (vx - t * ux) by (unfold vx; ring).
      replace (snd p - (snd a + t * uy)) with (vy - t * uy) by (unfold vy; ring).
      unfold t, D. unfold n2 in *. field. lra. }
    assert (Low : forall q, on_line q a b -> sqrt (D * D / n2) <= dist p q).
    { intros q [t [E1 E2]]. unfold dist. apply sqrt_le_1_alt. rewrite E1, E2. fold ux uy.
      replace (fst p - (fst a + t * ux)) with (vx - t * ux) by (unfold vx; ring).
      replace (snd p - (snd a + t * uy)) with (vy - t * uy) by (unfold vy; ring).
      apply (Rmult_le_reg_r n2); auto. replace (D * D / n2 * n2) with (D * D) by (field; lra).
      assert (((vx - t * ux) ^ 2 + (vy - t * uy) ^ 2) * n2 =
        D * D + (ux * vx + uy * vy - t * n2) * (ux * vx + uy * vy - t * n2)) by (unfold D, n2; ring).
      rewrite H. assert (0 <= (ux * vx + uy * vy - t * n2) * (ux * vx + uy * vy - t * n2)) by apply Rle_0_sqr. lra. }
    split.
    - intros [[q [Q1 Q2]] L]. destruct Foot as [f [F1 F2]].
      apply Rle_antisym; [rewrite <- F2; auto|rewrite <- Q2; auto].
    - intros ->. split; auto.
  Qed.
End Line.

Lemma signed_iff p a b d : a <> b ->
  let D := (fst b - fst a) * (snd p - snd a) - (snd b - snd a) * (fst p - fst a) in
  let n2 := (fst b - fst a) * (fst b - fst a) + (snd b - snd a) * (snd b - snd a) in
  (signed_line_distance p a b d <-> 1 / sqrt n2 * D - d = 0).
Proof.
  intros H D n2. assert (N : 0 < n2) by (apply norm_pos; now apply point_neq).
  assert (S : 0 < sqrt n2) by (now apply sqrt_lt_R0).
  unfold signed_line_distance. rewrite (line_distance_iff p a b H). rewrite (left_of_iff p a b H).
  rewrite (left_of_iff p b a) by auto. fold D n2.
  assert (E : (fst a - fst b) * (snd p - snd b) - (snd a - snd b) * (fst p - fst b) = - D) by (unfold D; ring).
  rewrite E. assert (I : 0 < 1 / sqrt n2) by (apply Rdiv_lt_0_compat; lra).
  assert (M : Rabs D / sqrt n2 = Rabs (1 / sqrt n2 * D)).
  { rewrite Rabs_mult, (Rabs_right (1 / sqrt n2)) by lra. unfold Rdiv. ring. }
  rewrite M. set (x := 1 / sqrt n2) in *. clearbody x. split.
  - intros (A & P & Q). assert (x * D = d \/ x * D = - d).
    { unfold Rabs in A. destruct (Rcase_abs d), (Rcase_abs (x * D)); lra. }
    destruct H0; [lra|]. destruct (Rtotal_order d 0) as [L|[L|L]]; [specialize (Q L); nra|lra|specialize (P L); nra].
  - intros A. assert (x * D = d) by lra. subst d. split; [auto|]. split; intros; nra.
Qed.

Lemma dist_formula (A B : point) :
  sqrt ((fst A - fst B) * (fst A - fst B) + (snd A - snd B) * (snd A - snd B)) = dist A B.
Proof. unfold dist. f_equal. ring. Qed.

Lemma wrap_formula (a : R) :
  (if Rltb PI a then a - 2 * PI else if Rltb a (- PI) then a + 2 * PI else a) = wrapR a.
Proof. reflexivity. Qed.

Lemma line_neq (A B : point) (val : ehandle -> option (element_value R)) l :
  val l = Some (VLine A B) -> (forall A, val l <> Some (VLine A A)) -> A <> B.
Proof. intros E H ->. eapply H; eauto. Qed.

Ltac ddval H := repeat match type of H with
  | context [match ?x with Some _ => _ | None => _ end] => let E := fresh "E" in destruct x as [[| | |]|] eqn:E; try discriminate
  | context [let (_, _) := ?p in _] => destruct p
  end.
Ltac exv := repeat match goal with
  | H : exists _, _ |- _ => destruct H
  | H : _ /\ _ |- _ => destruct H
  | H : Some _ = Some _ |- _ => injection H; clear H; intros; subst
  | E : ?v ?h = Some ?a, E' : ?v ?h = Some ?b |- _ => rewrite E in E'
  end.

Theorem residual_zero (c : call R) val x : call_residual c val = Some x -> general c val ->
  (x = 0 <-> satisfied c val).
Proof.
  intros H G. destruct c; try discriminate; cbn [call_residual satisfied general] in *.
  - (* coincidence *)
    destruct (val point1) as [[| [x1 y1] | |]|] eqn:E1; try discriminate.
    destruct (val point2) as [[| [x2 y2] | |]|] eqn:E2; try discriminate.
    injection H; clear H; intros <-. cbn.
    assert (0 <= (x2 - x1) * (x2 - x1)) by apply Rle_0_sqr.
    assert (0 <= (y2 - y1) * (y2 - y1)) by apply Rle_0_sqr.
    rewrite sqrt_eq_0' by lra. split.
    + intros Z. destruct (norm_zero (x2 - x1) (y2 - y1)); [lra|].
      exists (x1, y1). split; [auto|]. repeat f_equal; lra.
    + intros (P & Z1 & Z2). injection Z1 as <-. injection Z2 as -> ->. ring.
  - (* distance *)
    destruct (val point1) as [[| [x1 y1] | |]|] eqn:E1; try discriminate.
    destruct (val point2) as [[| [x2 y2] | |]|] eqn:E2; try discriminate.
    injection H; clear H; intros <-. cbn.
    change (sqrt ((x1 - x2) * (x1 - x2) + (y1 - y2) * (y1 - y2))) with
      (sqrt ((fst (x1, y1) - fst (x2, y2)) * (fst (x1, y1) - fst (x2, y2)) + (snd (x1, y1) - snd (x2, y2)) * (snd (x1, y1) - snd (x2, y2)))).
    rewrite dist_formula. split.
    + intros Z. exists (x1, y1), (x2, y2). split; [auto|]. split; [auto|]. lra.
    + intros (P & Q & Z1 & Z2 & Z). injection Z1 as <-. injection Z2 as <-. lra.
  - (* angle at a point *)
    destruct (val point1) as [[| [x1 y1] | |]|] eqn:E1; try discriminate.
    destruct (val point2) as [[| [x2 y2] | |]|] eqn:E2; try discriminate.
    destruct (val point3) as [[| [x3 y3] | |]|] eqn:E3; try discriminate.
    injection H; clear H; intros <-. destruct G as (G1 & G2 & G3).
    assert (U : fst (minus (x1, y1) (x2, y2)) <> 0 \/ snd (minus (x1, y1) (x2, y2)) <> 0).
    { simpl. apply (point_neq (x2, y2) (x1, y1)). congruence. }
    assert (V : fst (minus (x3, y3) (x2, y2)) <> 0 \/ snd (minus (x3, y3) (x2, y2)) <> 0).
    { simpl. apply (point_neq (x2, y2) (x3, y3)). congruence. }
    pose proof (turned_iff _ _ U V angle G3) as T. simpl in T.
    cbn. rewrite wrap_formula. split.
    + intros Z. exists (x1, y1), (x2, y2), (x3, y3). repeat (split; [auto|]). apply T. lra.
    + intros (P & Q & S & Z1 & Z2 & Z3 & Z). injection Z1 as <-. injection Z2 as <-. injection Z3 as <-.
      apply T in Z. lra.
  - (* incidence *)
    destruct (val point) as [[| [x0 y0] | |]|] eqn:E1; try discriminate.
    destruct (val line) as [[| | [x1 y1] [x2 y2] |]|] eqn:E2; try discriminate.
    injection H; clear H; intros <-. cbn.
    assert (N : (x1, y1) <> (x2, y2)) by (intros Z; rewrite Z in G; eapply G; eauto).
    pose proof (on_line_iff (x0, y0) _ _ N) as T. simpl in T. split.
    + intros Z. exists (x0, y0), (x1, y1), (x2, y2). repeat (split; [auto|]). now apply T.
    + intros (P & A & B & Z1 & Z2 & Z). injection Z1 as <-. injection Z2 as <- <-. now apply T.
  - (* signed distance *)
    destruct (val point) as [[| [x0 y0] | |]|] eqn:E1; try discriminate.
    destruct (val line) as [[| | [x1 y1] [x2 y2] |]|] eqn:E2; try discriminate.
    injection H; clear H; intros <-. cbn.
    assert (N : (x1, y1) <> (x2, y2)) by (intros Z; rewrite Z in G; eapply G; eauto).
    pose proof (signed_iff (x0, y0) _ _ distance N) as T. simpl in T. split.
    + intros Z. exists (x0, y0), (x1, y1), (x2, y2). split; [auto|]. split; [auto|]. now apply T.
    + intros (P & A & B & Z1 & Z2 & W). injection Z1 as <-. injection Z2 as <- <-. now apply T.
  - (* on circle *)
    destruct (val point) as [[| [x0 y0] | |]|] eqn:E1; try discriminate.
    destruct (val circle) as [[| | | [xc yc] r]|] eqn:E2; try discriminate.
    injection H; clear H; intros <-. cbn.
    pose proof (dist_formula (x0, y0) (xc, yc)) as T. simpl in T. rewrite T. split.
    + intros Z. exists (x0, y0), (xc, yc), r. repeat (split; [auto|]). lra.
    + intros (P & C & r' & Z1 & Z2 & Z). injection Z1 as <-. injection Z2 as <- <-. lra.
  - (* equal lengths *)
    destruct (val a) as [[| [xa ya] | |]|] eqn:E1; try discriminate.
    destruct (val b) as [[| [xb yb] | |]|] eqn:E2; try discriminate.
    destruct (val c) as [[| [xc yc] | |]|] eqn:E3; try discriminate.
    destruct (val d) as [[| [xd yd] | |]|] eqn:E4; try discriminate.
    injection H; clear H; intros <-. cbn.
    pose proof (dist_formula (xa, ya) (xb, yb)) as T. simpl in T. rewrite T. clear T.
    pose proof (dist_formula (xc, yc) (xd, yd)) as T. simpl in T. rewrite T. split.
    + intros Z. exists (xa, ya), (xb, yb), (xc, yc), (xd, yd). repeat (split; [auto|]). lra.
    + intros (A & B & C & D & Z1 & Z2 & Z3 & Z4 & Z).
      injection Z1 as <-. injection Z2 as <-. injection Z3 as <-. injection Z4 as <-. lra.
  - (* angle of lines *)
    destruct (val line1) as [[| | [x1 y1] [x2 y2] |]|] eqn:E1; try discriminate.
    destruct (val line2) as [[| | [x3 y3] [x4 y4] |]|] eqn:E2; try discriminate.
    injection H; clear H; intros <-. destruct G as (G1 & G2 & G3).
    assert (N1 : (x1, y1) <> (x2, y2)) by (intros Z; rewrite Z in G1; eapply G1; eauto).
    assert (N2 : (x3, y3) <> (x4, y4)) by (intros Z; rewrite Z in G2; eapply G2; eauto).
    pose proof (turned_iff (minus (x2, y2) (x1, y1)) (minus (x4, y4) (x3, y3)) (point_neq _ _ N1) (point_neq _ _ N2) angle G3) as T. simpl in T.
    cbn. rewrite wrap_formula. split.
    + intros Z. exists (x1, y1), (x2, y2), (x3, y3), (x4, y4). repeat (split; [auto|]). apply T. lra.
    + intros (A & B & C & D & Z1 & Z2 & Z). injection Z1 as <- <-. injection Z2 as <- <-. apply T in Z. lra.
  - (* parallel *)
    destruct (val line1) as [[| | [x1 y1] [x2 y2] |]|] eqn:E1; try discriminate.
    destruct (val line2) as [[| | [x3 y3] [x4 y4] |]|] eqn:E2; try discriminate.
    injection H; clear H; intros <-. cbn.
    assert (N : (x1, y1) <> (x2, y2)) by (intros Z; rewrite Z in G; eapply G; eauto).
    pose proof (parallel_iff (minus (x2, y2) (x1, y1)) (minus (x4, y4) (x3, y3)) (point_neq _ _ N)) as T. simpl in T. split.
    + intros Z. exists (x1, y1), (x2, y2), (x3, y3), (x4, y4). repeat (split; [auto|]). apply T. lra.
    + intros (A & B & C & D & Z1 & Z2 & Z). injection Z1 as <- <-. injection Z2 as <- <-. apply T in Z. lra.
  - (* perpendicular *)
    destruct (val line1) as [[| | [x1 y1] [x2 y2] |]|] eqn:E1; try discriminate.
    destruct (val line2) as [[| | [x3 y3] [x4 y4] |]|] eqn:E2; try discriminate.
    injection H; clear H; intros <-. cbn.
    assert (N : (x1, y1) <> (x2, y2)) by (intros Z; rewrite Z in G; eapply G; eauto).
    pose proof (perpendicular_iff (minus (x2, y2) (x1, y1)) (minus (x4, y4) (x3, y3)) (point_neq _ _ N)) as T. simpl in T. split.
    + intros Z. exists (x1, y1), (x2, y2), (x3, y3), (x4, y4). repeat (split; [auto|]). apply T. lra.
    + intros (A & B & C & D & Z1 & Z2 & Z). injection Z1 as <- <-. injection Z2 as <- <-. apply T in Z. lra.
  - (* tangent *)
    destruct (val line) as [[| | [x1 y1] [x2 y2] |]|] eqn:E1; try discriminate.
    destruct (val circle) as [[| | | [xc yc] r]|] eqn:E2; try discriminate.
    injection H; clear H; intros <-. cbn.
    assert (N : (x1, y1) <> (x2, y2)) by (intros Z; rewrite Z in G; eapply G; eauto).
    assert (P : 0 < (x2 - x1) * (x2 - x1) + (y2 - y1) * (y2 - y1)) by (apply norm_pos; apply (point_neq _ _ N)).
    pose proof (line_distance_iff (xc, yc) _ _ N r) as T. simpl in T.
    replace ((x1 - x2) * (x1 - x2) + (y1 - y2) * (y1 - y2)) with ((x2 - x1) * (x2 - x1) + (y2 - y1) * (y2 - y1)) by ring.
    replace (x1 * (y2 - yc) + x2 * (yc - y1) + xc * (y1 - y2)) with ((x2 - x1) * (yc - y1) - (y2 - y1) * (xc - x1)) by ring.
    destruct (Reqb_spec (sqrt ((x2 - x1) * (x2 - x1) + (y2 - y1) * (y2 - y1))) 0) as [Z|Z];
      [apply sqrt_eq_0 in Z; lra|].
    assert (E : 1 / sqrt ((x2 - x1) * (x2 - x1) + (y2 - y1) * (y2 - y1)) * Rabs ((x2 - x1) * (yc - y1) - (y2 - y1) * (xc - x1)) =
      Rabs ((x2 - x1) * (yc - y1) - (y2 - y1) * (xc - x1)) / sqrt ((x2 - x1) * (x2 - x1) + (y2 - y1) * (y2 - y1))) by (unfold Rdiv; ring).
    rewrite E. split.
    + intros Y. exists (x1, y1), (x2, y2), (xc, yc), r. split; [auto|]. split; [auto|]. apply T. lra.
    + intros (A & B & C & r' & Z1 & Z2 & W). injection Z1 as <- <-. injection Z2 as <- <-. apply T in W. lra.
Qed.
