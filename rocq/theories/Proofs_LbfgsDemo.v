(** A run of the L-BFGS optimizer in exact arithmetic whose second round ignores
    the first round's pair *)
From Coq Require Import List Reals Arith Lia Lra Bool.
From Verif Require Import Num NumR Outcome Lib ModelSystem ModelSolve ModelLbfgs Spec_Solver Spec_Linear Spec_Bfgs
  Spec_Lbfgs Proofs_Triangular Proofs_Linear Proofs_Lbfgs Proofs_Bfgs.
Import ListNotations.
Local Open Scope R_scope.

(** The residuals [(49/50) x] and [y] *)
Definition diagonal : problem R :=
  let rs x := [49 / 50 * nth 0 x 0; nth 1 x 0] in
  Problem 2 2 (fun x => Done (rs x)) (fun x _ => Done (rs x, [[49 / 50; 0]; [0; 1]]))
    (fun x => Done (rs x, [(0%nat, 0%nat, 49 / 50); (1%nat, 1%nat, 1)])).

Lemma diagonal_ok : problem_ok diagonal.
Proof.
  constructor; cbn.
  - intros x _. eexists. split; [reflexivity|reflexivity].
  - intros x jac _ _ _. eexists _, _. split; [reflexivity|]. split; [reflexivity|]. split; [reflexivity|].
    intros row [<-|[<-|[]]]; reflexivity.
  - intros x _. eexists _, _. split; [reflexivity|]. split; [reflexivity|].
    intros i j d [H|[H|[]]]; injection H as <- <- _; lia.
  - intros x x' rs ts rs' ts' _ _ [= _ <-] [= _ <-]. reflexivity.
Qed.

Lemma Done_eq {A} (a b : A) : a = b -> Done a = Done b.
Proof. now intros ->. Qed.

Lemma diagonal_phi u v d1 d2 b t X Y P D G1 :
  X = u + t * d1 -> Y = v + t * d2 -> P = (49 / 50 * X) * (49 / 50 * X) + Y * Y -> G1 = 2401 / 2500 * X ->
  D = G1 * d1 + Y * d2 ->
  calculate_phi diagonal [u; v] [d1; d2] b t
  = Done (Param t P D, Buffers [X; Y] [49 / 50 * X; Y] [[49 / 50; 0]; [0; 1]] [G1; Y]).
Proof.
  intros HX HY HP HG HD.
  assert (E1 : compute_gradient 2 [[49 / 50; 0]; [0; 1]] [49 / 50 * X; Y] = [G1; Y]).
  { unfold compute_gradient. cbn. f_equal; [lra|]. f_equal. lra. }
  assert (E2 : dot_product [G1; Y] [d1; d2] = D) by (unfold dot_product; cbn; lra).
  assert (E3 : sum_squares [49 / 50 * X; Y] = P) by (unfold sum_squares; cbn; lra).
  unfold calculate_phi. cbn [combine map nadd nmul NumR]. rewrite <- HX, <- HY.
  cbn [calculate_residuals_and_jacobian diagonal obind nth num_variables].
  rewrite E1, E2, E3. reflexivity.
Qed.

Lemma wolfe_true phi0 dphi0 t P D : P <= phi0 + t * (1 / 10000 * dphi0) -> 9 / 10 * dphi0 <= D ->
  satisfies_wolfe phi0 dphi0 (Param t P D) = true.
Proof.
  intros H1 H2. unfold satisfies_wolfe. cbn [phi dphi pp]. apply orb_true_iff. left. apply andb_true_iff.
  unfold hz_delta, hz_sigma, tenm, lit. cbn [nleb nadd nmul ndiv nofZ nunit NumR]. unfold Rleb.
  split; destruct (Rle_dec _ _) as [|C]; auto; exfalso; apply C; cbn; lra.
Qed.

Section Demo.
  Variable fuel : nat.
  Let J : list (list R) := [[49 / 50; 0]; [0; 1]].
  Let A : R := 2401 / 2500.
  Let p1 : R := (49 / 50 * (1 - A)) * (49 / 50 * (1 - A)).
  Let sy : R := A * A * A + 1.
  Let yy : R := A * A * A * A + 1.
  Let g1 : R := A * (1 - A).
  Let x2 : R := 1 - A - sy / yy * g1.

  Lemma step0 alpha : step_direction 0 (zero_history diagonal) alpha [A; 1] = Done ([- A; -1], alpha).
  Proof.
    unfold step_direction. cbn -[lit]. apply Done_eq. f_equal. f_equal; [|f_equal]; unfold lit; cbn; lra.
  Qed.

  Let h1 : history R := History [[- A; -1]; [0; 0]; [0; 0]; [0; 0]; [0; 0]]
    [[- (A * A); -1]; [0; 0]; [0; 0]; [0; 0]; [0; 0]] [1 / sy; 0; 0; 0; 0].

  Definition alpha0 : list R := [0; 0; 0; 0; 0].
  Let st0 := LbfgsState [1; 1] (Buffers [1; 1] [49 / 50; 1] J [A; 1]) (zero_history diagonal) alpha0 (A + 1).
  Let st1 := LbfgsState [1 - A; 0] (Buffers [1 - A; 0] [49 / 50 * (1 - A); 0] J [g1; 0]) h1 alpha0 p1.
  Let r0 := Round [1; 1] [A; 1] [- A; -1] 1 [g1; 0] [1 - A; 0].

  Lemma tenm10 : (tenm 10 : R) = 1 / 10000000000. Proof. unfold tenm, lit. cbn. lra. Qed.
  Lemma tenm6 : (tenm 6 : R) = 1 / 1000000. Proof. unfold tenm, lit. cbn. lra. Qed.
  Lemma tenm4 : (tenm 4 : R) = 1 / 10000. Proof. unfold tenm, lit. cbn. lra. Qed.

  Lemma round0 : lbfgs_round fuel diagonal 0 st0 = Done (true, st1, r0).
  Proof.
    unfold lbfgs_round. subst st0. cbn [l_history l_buffers b_gradient l_alpha l_variables l_ssr].
    rewrite step0. cbn [obind]. unfold line_search. cbn [b_gradient].
    assert (E0 : dot_product [A; 1] [- A; -1] = - (A * A + 1)) by (unfold dot_product; cbn; lra).
    rewrite E0. unfold hz_run.
    rewrite (diagonal_phi 1 1 (- A) (-1) _ nunit (1 - A) 0 p1 (- g1 * A) g1);
      [|cbn; lra|cbn; lra|unfold p1; lra|unfold g1, A; lra|lra].
    cbn [obind]. rewrite wolfe_true by (cbn; unfold p1, g1, A; lra). cbn [obind].
    cbn [pp phi b_gradient b_variables combine map nmul nsub NumR nunit].
    assert (E1 : dot_product [1 * - A; 1 * -1] [g1 - A; 0 -1] = sy).
    { unfold dot_product, sy, g1. cbn. lra. }
    rewrite E1.
    unfold zero_history. cbn [h_s h_y h_rho repeat max_history num_variables diagonal Nat.modulo Nat.divmod Nat.sub fst snd oset length Nat.ltb Nat.leb obind lset].
    apply Done_eq. rewrite tenm10, tenm6. cbn [nltb nabs nsub NumR].
    assert (B : negb (Rltb (Rabs (A + 1 - p1)) (1 / 10000000000) || Rltb p1 (1 / 1000000)) = true).
    { unfold Rltb. rewrite Rabs_right by (unfold p1, A; lra).
      destruct (Rlt_dec _ _) as [C|_]; [exfalso; unfold p1, A in C; lra|].
      destruct (Rlt_dec _ _) as [C|_]; [exfalso; unfold p1, A in C; lra|reflexivity]. }
    rewrite B. unfold st1, r0. f_equal. f_equal. f_equal. unfold h1. f_equal.
    - f_equal. f_equal; [lra|]. f_equal. lra.
    - f_equal. f_equal; [unfold g1; lra|]. f_equal. lra.
  Qed.

  Lemma step1 alpha : length alpha = 5%nat -> exists alpha',
    step_direction 1 h1 alpha [g1; 0] = Done ([- (sy / yy * g1); 0], alpha').
  Proof.
    intros Ha. destruct alpha as [|a0 [|a1 [|a2 [|a3 [|a4 [|]]]]]]; try discriminate.
    exists [0; a1; a2; a3; a4]. unfold step_direction, first_loop, second_loop, scale_direction, history_get, dot_product, h1.
    cbn -[lit nltb Rdiv].
    assert (B : nltb 0 (0 + - (A * A) * - (A * A) + -1 * -1) = true).
    { cbn. unfold Rltb. destruct (Rlt_dec _ _) as [|C]; [reflexivity|]. exfalso. apply C. unfold A. lra. }
    assert (Es : 0 + - A * - (A * A) + -1 * -1 = sy) by (unfold sy; lra).
    assert (Ey : 0 + - (A * A) * - (A * A) + -1 * -1 = yy) by (unfold yy; lra).
    rewrite ?Es, ?Ey. 
    replace (nltb 0 yy) with true. 2:{ symmetry. cbn. unfold Rltb. destruct (Rlt_dec _ _) as [|C]; [reflexivity|].
      exfalso. apply C. unfold yy, A. lra. }
    cbn -[lit Rdiv]. apply Done_eq. f_equal.
    - unfold lit. cbn -[Rdiv]. f_equal; [lra|]. f_equal. lra.
    - f_equal. lra.
  Qed.

  Let c : R := sy / yy.
  Lemma c_value : c = sy / yy. Proof. reflexivity. Qed.
  Lemma c_bounds : 1018 / 1000 < c < 102 / 100.
  Proof.
    assert (0 < yy) by (unfold yy, A; lra).
    assert (E : c * yy = sy) by (unfold c; field; lra).
    split; apply Rmult_lt_reg_r with yy; auto; rewrite E; unfold sy, yy, A; lra.
  Qed.

  Lemma round1 : exists st2 r1, lbfgs_round fuel diagonal 1 st1 = Done (false, st2, r1) /\
    r_gradient r1 = [g1; 0] /\ r_direction r1 = [- (c * g1); 0].
  Proof.
    unfold lbfgs_round, st1. cbn [l_history l_buffers b_gradient l_alpha l_variables l_ssr].
    destruct (step1 alpha0 eq_refl) as [alpha' E1]. rewrite E1. fold c. cbn [obind]. unfold line_search. cbn [b_gradient].
    assert (E0 : dot_product [g1; 0] [- (c * g1); 0] = - (c * g1 * g1)) by (unfold dot_product; cbn; lra).
    rewrite E0. unfold hz_run. pose proof c_bounds as Hc.
    assert (Hg : g1 = 237699 / 6250000) by (unfold g1, A; lra).
    assert (E2 : x2 = 1 - A - c * g1) by reflexivity. clearbody c g1.
    assert (Hx : 0 < x2 < 9 / 10000) by (rewrite E2; unfold A; split; rewrite Hg; lra).
    assert (Hxx : 0 <= x2 * x2 <= 81 / 100000000) by (clear - Hx; clearbody x2; split; nra).
    rewrite (diagonal_phi (1 - A) 0 (- (c * g1)) 0 _ nunit x2 0 (49 / 50 * x2 * (49 / 50 * x2)) (- (A * x2 * (c * g1))) (A * x2));
      [|cbn; lra|cbn; lra|lra|unfold A; lra|lra].
    cbn [obind]. rewrite wolfe_true.
    2:{ cbn. unfold p1. rewrite Hg. clear - Hxx Hc. clearbody x2. unfold A. nra. }
    2:{ rewrite Hg. clear - Hx Hc. clearbody x2. unfold A. nra. }
    cbn [obind]. cbn [pp phi b_gradient b_variables combine map nmul nsub NumR nunit].
    unfold h1. cbn [h_s h_y h_rho repeat max_history num_variables diagonal Nat.modulo Nat.divmod Nat.sub fst snd oset length Nat.ltb Nat.leb obind lset].
    rewrite tenm10, tenm6. cbn [nltb nabs nsub NumR].
    assert (B : Rltb (49 / 50 * x2 * (49 / 50 * x2)) (1 / 1000000) = true).
    { unfold Rltb. destruct (Rlt_dec _ _) as [|C]; [reflexivity|]. exfalso. apply C. clear - Hxx. clearbody x2. lra. }
    rewrite B, orb_true_r. eexists _, _. split; [reflexivity|]. split; reflexivity.
  Qed.

  Lemma demo_trace : exists out r1, lbfgs_trace fuel diagonal [1; 1] = Done (out, [r0; r1]) /\
    r_gradient r1 = [g1; 0] /\ r_direction r1 = [- (c * g1); 0].
  Proof.
    destruct round1 as (st2 & r1 & E & H1 & H2). exists (l_variables st2), r1. split; [|auto].
    unfold lbfgs_trace. change 100%nat with (S (S 98)). generalize 98%nat as k. intros k.
    cbn [calculate_residuals_and_jacobian diagonal obind nth].
    assert (Es : sum_squares [49 / 50 * 1; 1] = A + 1) by (unfold sum_squares, A; cbn; lra).
    rewrite Es, tenm4. cbn [nltb NumR]. unfold Rltb. destruct (Rlt_dec _ _) as [C|_]; [exfalso; unfold A in C; lra|].
    match goal with |- lbfgs_rounds _ _ _ _ ?st _ = _ => replace st with st0 end.
    2:{ unfold st0. f_equal. rewrite Rmult_1_r. f_equal. unfold compute_gradient. cbn. f_equal; [unfold A; lra|]. f_equal. lra. }
    cbn [lbfgs_rounds]. rewrite round0. cbn [obind]. cbn [lbfgs_rounds]. rewrite E. reflexivity.
  Qed.

  Lemma demo_wrong : exists out r1, lbfgs_trace fuel diagonal [1; 1] = Done (out, [r0; r1]) /\
    nth 1 (r_direction r1) 0 <> - apply 2 (lbfgs_matrix 2 (recent_pairs 1 [r0; r1])) (coords (r_gradient r1)) 1.
  Proof.
    destruct demo_trace as (out & r1 & E & H1 & H2). exists out, r1. split; [exact E|]. rewrite H1, H2.
    unfold lbfgs_matrix, recent_pairs. cbn [Nat.sub firstn skipn map last].
    change [pair_of r0] with ([] ++ [pair_of r0]). unfold pair_of. rewrite bfgs_matrix_snoc, bfgs_apply by lia.
    cbn zeta.
    assert (Ei : forall x y, inner 2 x y = x 0%nat * y 0%nat + x 1%nat * y 1%nat) by (intros; unfold inner; cbn; lra).
    assert (Ea : forall c v i, (i < 2)%nat -> apply 2 (bfgs_matrix 2 c []) v i = c * v i).
    { intros c' v i Hi. unfold bfgs_matrix, apply. cbn [fold_left].
      rewrite (rsum_ext _ (fun j => delta i j * (c' * v j))) by (intros; lra). now rewrite rsum_delta_l. }
    unfold r0. cbn [r_variables r_variables' r_gradient r_gradient'].
    unfold bfgs_scale. rewrite !Ei, !Ea by lia. unfold coords. cbn [nth].
    replace ((1 - A - 1) * (g1 - A) + (0 - 1) * (0 - 1)) with sy by (unfold sy, g1; lra).
    replace ((g1 - A) * (g1 - A) + (0 - 1) * (0 - 1)) with yy by (unfold yy, g1; lra).
    destruct (Rlt_dec 0 yy) as [_|C]; [|exfalso; unfold yy, A in C; lra]. fold c.
    intros C. unfold c, sy, yy, g1, A in C. lra.
  Qed.
End Demo.
