(** A run of the L-BFGS optimizer in exact arithmetic that lasts six rounds, so
    that the history is full in the last one.  The residual is given by a table
    of its values at the points the run visits. *)
From Coq Require Import List Reals Arith Lia Lra Bool.
From Verif Require Import Num NumR Outcome Lib ModelSystem ModelSolve ModelLbfgs Spec_Solver Spec_Linear Spec_Bfgs
  Spec_Lbfgs Proofs_Triangular Proofs_Linear Proofs_Lbfgs Proofs_Bfgs Proofs_LbfgsDemo.
Import ListNotations.
Local Open Scope R_scope.

(** The residual and its derivative *)
Definition table (x : R) : R * R :=
  if Req_EM_T x 0 then (7, -1 / 7)
  else if Req_EM_T x 1 then (6, -1 / 12)
  else if Req_EM_T x 2 then (5, -1 / 20)
  else if Req_EM_T x 3 then (4, -1 / 32)
  else if Req_EM_T x (13 / 4) then (3, -1 / 48)
  else if Req_EM_T x (15 / 4) then (2, -1 / 64)
  else (0, 0).
Definition tabulated : problem R :=
  let r x := fst (table (nth 0 x 0)) in
  let j x := snd (table (nth 0 x 0)) in
  Problem 1 1 (fun x => Done [r x]) (fun x _ => Done ([r x], [[j x]])) (fun x => Done ([r x], [(0%nat, 0%nat, j x)])).

Lemma tabulated_ok : problem_ok tabulated.
Proof.
  constructor; cbn.
  - intros x _. eexists. split; [reflexivity|reflexivity].
  - intros x jac _ _ _. eexists _, _. split; [reflexivity|]. split; [reflexivity|]. split; [reflexivity|].
    intros row [<-|[]]; reflexivity.
  - intros x _. eexists _, _. split; [reflexivity|]. split; [reflexivity|].
    intros i j d [H|[]]; injection H as <- <- _; lia.
  - intros x x' rs ts rs' ts' _ _ [= _ <-] [= _ <-]. reflexivity.
Qed.

(** One round that accepts the full step *)
Lemma table_round fuel k x b h alpha ssr g d alpha' X rX jX gX s y :
  step_direction k h alpha [g] = Done ([d], alpha') -> b_gradient b = [g] ->
  X = x + d -> table X = (rX, jX) -> gX = jX * rX -> s = d -> y = gX - g ->
  rX * rX <= ssr + 1 * (1 / 10000 * (g * d)) -> 9 / 10 * (g * d) <= gX * d ->
  1 / 1000000 <= rX * rX -> rX * rX + 1 <= ssr ->
  length (h_s h) = 5%nat -> length (h_y h) = 5%nat -> length (h_rho h) = 5%nat ->
  lbfgs_round fuel tabulated k (LbfgsState [x] b h alpha ssr)
  = Done (true,
      LbfgsState [X] (Buffers [X] [rX] [[jX]] [gX])
        (History (lset (h_s h) (k mod 5) [s]) (lset (h_y h) (k mod 5) [y]) (lset (h_rho h) (k mod 5) (1 / (s * y))))
        alpha' (rX * rX),
      Round [x] [g] [d] 1 [gX] [X]).
Proof.
  intros Hd Hb HX HT Hg Hs Hy W1 W2 P1 P2 L1 L2 L3. unfold lbfgs_round.
  cbn [l_history l_buffers l_alpha l_variables l_ssr]. rewrite Hb, Hd. cbn [obind].
  unfold line_search, hz_run. rewrite Hb.
  assert (E0 : dot_product [g] [d] = g * d) by (unfold dot_product; cbn; lra). rewrite E0.
  assert (Ep : calculate_phi tabulated [x] [d] b nunit = Done (Param 1 (rX * rX) (gX * d), Buffers [X] [rX] [[jX]] [gX])).
  { unfold calculate_phi. cbn [combine map nadd nmul NumR nunit]. replace (x + 1 * d) with X by lra.
    cbn [calculate_residuals_and_jacobian tabulated obind nth num_variables]. rewrite HT. cbn [fst snd].
    assert (E1 : compute_gradient 1 [[jX]] [rX] = [gX]) by (unfold compute_gradient; cbn; f_equal; lra).
    assert (E2 : sum_squares [rX] = rX * rX) by (unfold sum_squares; cbn; lra).
    assert (E3 : dot_product [gX] [d] = gX * d) by (unfold dot_product; cbn; lra).
    rewrite E1, E2, E3. reflexivity. }
  rewrite Ep. cbn [obind]. rewrite wolfe_true by auto. cbn [obind].
  cbn [pp phi b_gradient b_variables combine map nmul nsub NumR].
  replace (1 * d) with s by lra. rewrite <- Hy.
  assert (E4 : dot_product [s] [y] = s * y) by (unfold dot_product; cbn; lra). rewrite E4.
  assert (Hm : (k mod max_history < 5)%nat) by (apply Nat.mod_upper_bound; discriminate).
  rewrite !oset_ok by lia. cbn [obind]. apply Done_eq. rewrite tenm10, tenm6. cbn [nltb nabs NumR].
  unfold Rltb. rewrite Rabs_right by lra.
  destruct (Rlt_dec _ _) as [C|_]; [exfalso; lra|]. destruct (Rlt_dec _ _) as [C|_]; [exfalso; lra|]. reflexivity.
Qed.

(** The last round *)
Lemma table_stop fuel k x b h alpha ssr g d alpha' X :
  step_direction k h alpha [g] = Done ([d], alpha') -> b_gradient b = [g] ->
  X = x + d -> table X = (0, 0) -> g * d <= 0 -> 1 <= ssr + 1 * (1 / 10000 * (g * d)) ->
  length (h_s h) = 5%nat -> length (h_y h) = 5%nat -> length (h_rho h) = 5%nat ->
  exists st', lbfgs_round fuel tabulated k (LbfgsState [x] b h alpha ssr)
  = Done (false, st', Round [x] [g] [d] 1 [0] [X]) /\ l_variables st' = [X].
Proof.
  intros Hd Hb HX HT Hg W1 L1 L2 L3. unfold lbfgs_round.
  cbn [l_history l_buffers l_alpha l_variables l_ssr]. rewrite Hb, Hd. cbn [obind].
  unfold line_search, hz_run. rewrite Hb.
  assert (E0 : dot_product [g] [d] = g * d) by (unfold dot_product; cbn; lra). rewrite E0.
  assert (Ep : calculate_phi tabulated [x] [d] b nunit = Done (Param 1 0 0, Buffers [X] [0] [[0]] [0])).
  { unfold calculate_phi. cbn [combine map nadd nmul NumR nunit]. replace (x + 1 * d) with X by lra.
    cbn [calculate_residuals_and_jacobian tabulated obind nth num_variables]. rewrite HT. cbn [fst snd].
    assert (E1 : compute_gradient 1 [[0]] [0] = [0]) by (unfold compute_gradient; cbn; f_equal; lra).
    assert (E2 : sum_squares [0] = 0) by (unfold sum_squares; cbn; lra).
    assert (E3 : dot_product [0] [d] = 0) by (unfold dot_product; cbn; lra).
    rewrite E1, E2, E3. reflexivity. }
  rewrite Ep. cbn [obind]. rewrite wolfe_true by lra. cbn [obind].
  cbn [pp phi b_gradient b_variables combine map nmul nsub NumR].
  assert (Hm : (k mod max_history < 5)%nat) by (apply Nat.mod_upper_bound; discriminate).
  rewrite !oset_ok by lia. cbn [obind]. rewrite tenm10, tenm6. cbn [nltb nabs NumR].
  assert (B : Rltb 0 (1 / 1000000) = true).
  { unfold Rltb. destruct (Rlt_dec _ _) as [|C]; [reflexivity|exfalso; lra]. }
  rewrite B, orb_true_r. eexists. split; reflexivity.
Qed.

(** The two loops with one variable *)
Ltac crunch := unfold step_direction, first_loop, second_loop, scale_direction, history_get, dot_product;
  cbn -[lit nltb Rdiv].
Ltac pos := match goal with |- context [nltb (Num:=_) ?a ?b] => replace (nltb a b) with true
   by (symmetry; cbn; unfold Rltb; destruct (Rlt_dec _ _) as [|C]; [reflexivity|exfalso; apply C; lra]) end.
Ltac at_point := unfold table; repeat (destruct (Req_EM_T _ _) as [?C|?C]; [try (exfalso; lra)|try (exfalso; lra)]); try reflexivity.
Definition z4 : list (list R) := [[0]; [0]; [0]; [0]].

Ltac dir g d :=
  match goal with |- context [lbfgs_round ?fuel tabulated ?k (LbfgsState ?x ?b ?h ?alpha ?ssr)] =>
    let H := fresh in
    assert (H : exists a0 a1 a2 a3 a4, step_direction k h alpha [g] = Done ([d], [a0; a1; a2; a3; a4]));
    [eexists _, _, _, _, _; crunch; pos; cbn -[lit Rdiv]; apply Done_eq; f_equal; f_equal; unfold lit; cbn -[Rdiv]; lra
    |destruct H as (?a & ?a & ?a & ?a & ?a & D)]
  end.

Lemma long_trace fuel : exists rs, lbfgs_trace fuel tabulated [0] = Done ([17 / 4], rs) /\ length rs = 6%nat.
Proof.
  eexists. split.
  - unfold lbfgs_trace. change 100%nat with (6 + 94)%nat. generalize 94%nat as k. intros k.
    cbn [calculate_residuals_and_jacobian tabulated obind nth].
    assert (T0 : table 0 = (7, -1 / 7)) by at_point. rewrite T0. cbn [fst snd].
    assert (Es : sum_squares [7] = 49) by (unfold sum_squares; cbn; lra).
    rewrite Es, tenm4. cbn [nltb NumR]. unfold Rltb. destruct (Rlt_dec _ _) as [C|_]; [exfalso; lra|].
    assert (Eg : compute_gradient 1 [[-1 / 7]] [7] = [-1]) by (unfold compute_gradient; cbn; f_equal; lra).
    cbn [num_variables tabulated]. rewrite Eg. cbn [Nat.add lbfgs_rounds repeat max_history].
    (* round 0 *)
    rewrite (table_round fuel 0 0 _ _ _ 49 (-1) 1 [0; 0; 0; 0; 0] 1 6 (-1 / 12) (-1 / 2) 1 (1 / 2));
      [|crunch; apply Done_eq; f_equal; f_equal; unfold lit; cbn; lra|reflexivity|lra|at_point|lra|lra|lra|lra|lra|lra|lra|reflexivity|reflexivity|reflexivity].
    cbn [obind]. cbn [lset h_s h_y h_rho Nat.modulo Nat.divmod Nat.sub fst snd app].
    (* round 1 *)
    dir (-1 / 2) 1.
    rewrite (table_round fuel 1 1 _ _ _ _ (-1 / 2) 1 _ 2 5 (-1 / 20) (-1 / 4) 1 (1 / 4) D);
      [|reflexivity|lra|at_point|lra|lra|lra|lra|lra|lra|lra|reflexivity|reflexivity|reflexivity]. clear D.
    cbn [obind]. cbn [lset h_s h_y h_rho Nat.modulo Nat.divmod Nat.sub fst snd app].
    (* round 2 *)
    dir (-1 / 4) 1.
    rewrite (table_round fuel 2 2 _ _ _ _ (-1 / 4) 1 _ 3 4 (-1 / 32) (-1 / 8) 1 (1 / 8) D);
      [|reflexivity|lra|at_point|lra|lra|lra|lra|lra|lra|lra|reflexivity|reflexivity|reflexivity]. clear D.
    cbn [obind]. cbn [lset h_s h_y h_rho Nat.modulo Nat.divmod Nat.sub fst snd app].
    (* round 3 *)
    dir (-1 / 8) (1 / 4).
    rewrite (table_round fuel 3 3 _ _ _ _ (-1 / 8) (1 / 4) _ (13 / 4) 3 (-1 / 48) (-1 / 16) (1 / 4) (1 / 16) D);
      [|reflexivity|lra|at_point|lra|lra|lra|lra|lra|lra|lra|reflexivity|reflexivity|reflexivity]. clear D.
    cbn [obind]. cbn [lset h_s h_y h_rho Nat.modulo Nat.divmod Nat.sub fst snd app].
    (* round 4 *)
    dir (-1 / 16) (1 / 2).
    rewrite (table_round fuel 4 (13 / 4) _ _ _ _ (-1 / 16) (1 / 2) _ (15 / 4) 2 (-1 / 64) (-1 / 32) (1 / 2) (1 / 32) D);
      [|reflexivity|lra|at_point|lra|lra|lra|lra|lra|lra|lra|reflexivity|reflexivity|reflexivity]. clear D.
    cbn [obind]. cbn [lset h_s h_y h_rho Nat.modulo Nat.divmod Nat.sub fst snd app].
    (* round 5 *)
    dir (-1 / 32) (1 / 2).
    match goal with |- context [lbfgs_round fuel tabulated ?k (LbfgsState [?x] ?b ?h ?alpha ?ssr)] =>
      destruct (table_stop fuel k x b h alpha ssr (-1 / 32) (1 / 2) _ (17 / 4) D) as (st' & E & V);
      [reflexivity|lra|at_point|lra|lra|reflexivity|reflexivity|reflexivity|] end.
    rewrite E. cbn [obind app]. rewrite V. reflexivity.
  - reflexivity.
Qed.
