(** What a solution of a recursive-assembly step is, in exact arithmetic. *)
From Coq Require Import List Arith NArith ZArith Lia Permutation Reals Lra.
From Verif Require Import Num NumR Outcome Lib ModelExpr ModelGraph ModelSystem ModelSolve ModelApi ModelAssembly
  Spec_Descent Spec_Whole Proofs_WholeR.
Import ListNotations.
Local Open Scope nat_scope.

Lemma objective_zero (p : problem R) y a : objective p y = Some a -> (a <= 0)%R ->
  exists rs, calculate_residuals p y = Done rs /\ forall r, In r rs -> r = 0%R.
Proof.
  intros H Ha. unfold objective in H. destruct (calculate_residuals p y) as [rs| |] eqn:E; [|discriminate|discriminate].
  exists rs. split; [reflexivity|]. intros r Hr. pose proof (objective_sum p y rs E) as S. unfold objective in S.
  rewrite E in S. rewrite H in S. apply some_inj in S. pose proof (Rsum_squares_in rs r Hr) as Q.
  assert (r * r <= 0)%R by lra. pose proof (Rle_0_sqr r). unfold Rsqr in *.
  destruct (Req_dec r 0) as [|N]; [assumption|]. apply Rsqr_pos_lt in N. unfold Rsqr in N. lra.
Qed.

(** The poses take the points of their clusters where they end up, and the
    expressions of the step vanish. *)
Lemma clustered_solved (s : system R) c n y a : objective (clustered_problem s c n) y = Some a -> (a <= 0)%R ->
  (forall i key points id, nth_error (cs_clusters c) i = Some (key, points) -> In id points ->
     exists p x z u, cluster_pose y i = Done p /\ frontier_point s c id = Done (x, z, u) /\
       nth_error y u = Some (fst (transform_point p (x, z))) /\
       nth_error y (u + 1) = Some (snd (transform_point p (x, z)))) /\
  (forall e, In e (cs_expressions c) -> exists ex, nth_error (sys_expressions_transformed s) e = Some ex /\
     calculate_residual (clustered_map c y) ex = Done 0%R).
Proof.
  intros H Ha. destruct (objective_zero _ _ _ H Ha) as (rs & Hrs & Z). clear H Ha.
  unfold clustered_problem in Hrs. cbn [calculate_residuals] in Hrs.
  apply obind_done in Hrs. destruct Hrs as ((ps, es) & Hrows & Hrs). injection Hrs as <-.
  unfold clustered_rows in Hrows. apply obind_done in Hrows. destruct Hrows as (es' & Hes & Hrows).
  apply obind_done in Hrows. destruct Hrows as (ps' & Hps & Hrows). injection Hrows as -> ->.
  split.
  - intros i key points id Hi Hid. unfold coincidences in Hps.
    apply obind_done in Hps. destruct Hps as (rows & Hrows & Hps). injection Hps as <-.
    assert (Hc : nth_error (combine (seq 0 (length (cs_clusters c))) (cs_clusters c)) i = Some (i, (key, points))).
    { clear -Hi. assert (L := nth_error_lt _ _ _ Hi).
      rewrite (nth_error_nth' _ (0, (key, points))) by (rewrite combine_length, seq_length; lia).
      rewrite combine_nth by apply seq_length. rewrite seq_nth by lia.
      now rewrite (nth_error_nth _ _ _ Hi). }
    destruct (omap_nth' _ _ _ Hrows _ _ Hc) as (row & Hrow & Hf). cbv beta iota in Hf.
    apply obind_done in Hf. destruct Hf as (p & Hp & Hf). apply obind_done in Hf. destruct Hf as (rs & Hrs & Hf).
    injection Hf as <-. apply In_nth_error in Hid. destruct Hid as [j Hj].
    destruct (omap_nth' _ _ _ Hrs _ _ Hj) as (two & Htwo & Hco). unfold coincidence in Hco.
    apply obind_done in Hco. destruct Hco as (((x, z), u) & Hfp & Hco).
    destruct (transform_point p (x, z)) as [tx tz] eqn:Et. cbv beta iota zeta in Hco.
    apply obind_done in Hco. destruct Hco as (ux & Hux & Hco). apply obind_done in Hco. destruct Hco as (uz & Huz & Hco).
    destruct (gradient_chain_rule_point p (x, z) (nunit, nzero)) as [[gx0 gx1] gx2].
    destruct (gradient_chain_rule_point p (x, z) (nzero, nunit)) as [[gy0 gy1] gy2].
    apply oget_done in Hux. apply oget_done in Huz.
    assert (Two : forall r, In r two -> fst r = 0%R).
    { intros r Hr. apply Z. apply in_app_iff. left. apply in_map. apply in_concat. exists (concat rs). split.
      - eapply nth_error_In; exact Hrow.
      - apply in_concat. exists two. split; [eapply nth_error_In; exact Htwo|exact Hr]. }
    injection Hco as <-. exists p, x, z, u. rewrite Et. split; [exact Hp|]. split; [exact Hfp|].
    pose proof (Two _ (or_introl eq_refl)) as T1. pose proof (Two _ (or_intror (or_introl eq_refl))) as T2.
    cbn [fst snd] in T1, T2 |- *.
    split.
    + rewrite Hux. f_equal. apply eq_sym. apply Rminus_diag_uniq. exact T1.
    + rewrite Huz. f_equal. apply eq_sym. apply Rminus_diag_uniq. exact T2.
  - intros e He. apply In_nth_error in He. destruct He as [j Hj].
    destruct (omap_nth' _ _ _ Hes _ _ Hj) as ([r g] & Hr & Hf). unfold expression_row in Hf.
    apply obind_done in Hf. destruct Hf as (ex & Hex & Hf). apply oget_done in Hex. exists ex. split; [exact Hex|].
    apply obind_done in Hf. destruct Hf as (xs & Hxs & Hf). unfold calculate_residual. rewrite Hxs. cbn [obind].
    destruct (compute_rg ex (buffer xs)) as [r' g'] eqn:Er. injection Hf as -> <-. cbn [fst]. f_equal.
    apply Z. apply in_app_iff. right. apply nth_error_In in Hr. apply in_map_iff. eexists. split; [|exact Hr]. reflexivity.
Qed.
