(** As long as the steps are proper, L-BFGS goes downhill. *)
From Coq Require Import List Reals Arith Lia Lra Bool.
From Verif Require Import Num NumR Outcome Lib ModelSystem ModelSolve ModelLbfgs Spec_Solver Spec_Linear Spec_Bfgs Spec_Lbfgs
  Spec_Gradient Spec_Downhill Proofs_Triangular Proofs_Linear Proofs_Householder Proofs_QrSolve Proofs_Lbfgs Proofs_Bfgs Proofs_Gradient.
Import ListNotations.
Local Open Scope R_scope.

(** ** The approximation of the inverse Hessian is positive definite. *)
Definition definite (n : nat) (H : nat -> nat -> R) : Prop :=
  forall v, 0 <= inner n v (apply n H v) /\ (inner n v (apply n H v) = 0 -> forall i, (i < n)%nat -> v i = 0).

Lemma scaled_identity n c v i : (i < n)%nat -> apply n (fun i j => c * delta i j) v i = c * v i.
Proof.
  intros Hi. unfold apply. rewrite (rsum_ext _ (fun j => delta i j * (c * v j))) by (intros; lra).
  now rewrite rsum_delta_l.
Qed.
Lemma identity_definite n c : 0 < c -> definite n (fun i j => c * delta i j).
Proof.
  intros Hc v. assert (E : inner n v (apply n (fun i j => c * delta i j) v) = c * inner n v v).
  { rewrite <- inner_scal_r. apply inner_ext; [reflexivity|]. intros i Hi. now apply scaled_identity. }
  rewrite E. pose proof (inner_pos n v). split; [nra|]. intros Z i Hi. apply (inner_null 0 0 (le_n 0) n v); [nra|exact Hi].
Qed.
Lemma apply_ext n H v w i : (forall j, (j < n)%nat -> v j = w j) -> apply n H v i = apply n H w i.
Proof. intros E. unfold apply. apply rsum_ext. intros j Hj. apply in_seq in Hj. rewrite E by lia. reflexivity. Qed.

(** A pair that keeps it so *)
Definition good_pair (n : nat) (sy : (nat -> R) * (nat -> R)) : Prop :=
  0 < inner n (fst sy) (snd sy).

Lemma update_definite n H s y : definite n H -> good_pair n (s, y) -> definite n (bfgs_update n H s y).
Proof.
  intros D G v. set (rho := 1 / inner n s y). set (q := fun j => v j - rho * inner n s v * y j).
  set (r := apply n H q).
  assert (E : inner n v (apply n (bfgs_update n H s y) v) = inner n q r + rho * (inner n s v * inner n s v)).
  { rewrite (inner_ext n v (apply n (bfgs_update n H s y) v) v
      (fun i => r i + (rho * inner n s v - rho * inner n y r) * s i)).
    2: reflexivity. 2:{ intros i Hi. rewrite bfgs_apply by exact Hi. reflexivity. }
    rewrite inner_plus_r, inner_scal_r. unfold q. rewrite inner_minus_l, inner_scal_l.
    rewrite (inner_sym n v s). ring. }
  rewrite E. destruct (D q) as [D1 D2]. fold r in D1, D2. unfold good_pair in G. cbn [fst snd] in G.
  assert (Hr : 0 < rho) by (unfold rho; apply Rdiv_lt_0_compat; lra).
  assert (0 <= rho * (inner n s v * inner n s v)).
  { apply Rmult_le_pos; [lra|]. pose proof (Rle_0_sqr (inner n s v)) as S. exact S. }
  split; [lra|]. intros Z i Hi. assert (Z1 : rho * (inner n s v * inner n s v) = 0) by lra.
  assert (Z2 : inner n s v = 0).
  { apply Rmult_integral in Z1. destruct Z1 as [Z1|Z1]; [lra|]. now apply Rsqr_0_uniq. } assert (Z3 : q i = 0) by (apply D2; [lra|exact Hi]).
  unfold q in Z3. rewrite Z2 in Z3. lra.
Qed.
Lemma matrix_definite n c pairs : 0 < c -> (forall sy, In sy pairs -> good_pair n sy) -> definite n (bfgs_matrix n c pairs).
Proof.
  intros Hc. unfold bfgs_matrix. generalize (identity_definite n c Hc). generalize (fun i j => c * delta i j).
  induction pairs as [|[s y] l IH]; intros H D G; [exact D|]. cbn [fold_left]. apply IH.
  - apply update_definite; [exact D|]. apply G. simpl. auto.
  - intros sy Hin. apply G. simpl. auto.
Qed.
Lemma scale_positive n sy : good_pair n sy -> 0 < bfgs_scale n (Some sy).
Proof.
  destruct sy as [s y]. unfold good_pair. cbn [fst snd]. intros G. unfold bfgs_scale.
  destruct (Rlt_dec 0 (inner n y y)) as [L|L]; [apply Rdiv_lt_0_compat; lra|lra].
Qed.

(** ** Rounds *)
Section Rounds.
  Variable p : problem R.
  Hypothesis OK : problem_ok p.
  Variables (fuel : nat) (x out : list R) (rs : list (round R)).
  Hypothesis Hx : length x = num_variables p.
  Hypothesis Run : lbfgs_trace fuel p x = Done (out, rs).
  Let n := num_variables p.

  (** Where a round starts, its direction and the matrix *)
  Lemma direction_of k r i : nth_error rs k = Some r -> (i < n)%nat ->
    nth i (r_direction r) 0 = - apply n
      (bfgs_matrix n (bfgs_scale n (newest_pair k rs)) (pairs_at rs (pairs_used k))) (coords (r_gradient r)) i.
  Proof. intros. now apply (directions p OK fuel x out rs). Qed.

  Lemma moved r i : In r rs -> (i < n)%nat ->
    nth i (r_variables' r) 0 - nth i (r_variables r) 0 = r_step r * nth i (r_direction r) 0.
  Proof.
    intros Hin Hi. destruct (moves p OK fuel x out rs Hx Run r Hin) as (L1 & L2 & E). rewrite E.
    assert (N : nth_error (map (fun '(v, d) => nadd v (nmul (r_step r) d)) (combine (r_variables r) (r_direction r))) i
      = Some (nth i (r_variables r) 0 + r_step r * nth i (r_direction r) 0)).
    { rewrite nth_error_map. rewrite (nth_error_nth' _ (0, 0)) by (rewrite combine_length, L1, L2; unfold n in Hi; lia).
      rewrite combine_nth by congruence. reflexivity. }
    rewrite (nth_error_nth _ _ _ N). lra.
  Qed.

  Lemma proper_pair r : In r rs -> proper_step p r -> slope_before n r < 0 -> good_pair n (pair_of r).
  Proof.
    intros Hr [Ht Hw] Hs. destruct Hw as [Hw _]. unfold good_pair, pair_of. cbn [fst snd].
    rewrite (inner_ext n _ _ (fun i => r_step r * coords (r_direction r) i)
      (fun i => coords (r_gradient' r) i - coords (r_gradient r) i)).
    2:{ intros i Hi. now apply moved. }
    2: reflexivity.
    rewrite inner_scal_l, inner_minus_r. unfold slope_before in *. cbv zeta in Hw. fold n in Hw.
    rewrite (inner_sym n (coords (r_direction r)) (coords (r_gradient' r))),
      (inner_sym n (coords (r_direction r)) (coords (r_gradient r))). nra.
  Qed.

  Lemma pairs_used_before k m : In m (pairs_used k) -> (m < k)%nat.
  Proof.
    destruct k as [|[|[|[|[|k]]]]]; cbn [pairs_used In]; try lia. intros H. apply in_seq in H. lia.
  Qed.

  Theorem downhill k : forall r, nth_error rs k = Some r ->
    (forall m r', (m < k)%nat -> nth_error rs m = Some r' -> proper_step p r' /\ ~ stationary n r') ->
    ~ stationary n r -> slope_before n r < 0.
  Proof.
    induction k as [k IH] using lt_wf_ind. intros r Hr Hp Hs.
    assert (Good : forall m, (m < k)%nat -> good_pair n (pair_of (nth m rs no_round))).
    { intros m Hm. destruct (nth_error rs m) as [r'|] eqn:N.
      2:{ apply nth_error_None in N. assert (k < length rs)%nat by (apply nth_error_Some; congruence). lia. }
      rewrite (nth_error_nth _ _ _ N). destruct (Hp m r' Hm N) as [P S]. apply proper_pair; [now apply nth_error_In in N|exact P|].
      apply (IH m Hm r' N); [|exact S]. intros m' r'' Hm'. apply Hp. lia. }
    set (H := bfgs_matrix n (bfgs_scale n (newest_pair k rs)) (pairs_at rs (pairs_used k))).
    assert (D : definite n H).
    { apply matrix_definite.
      - destruct k as [|k]; cbn [newest_pair]; [unfold bfgs_scale; lra|]. apply scale_positive. apply Good. lia.
      - intros sy Hin. unfold pairs_at in Hin. apply in_map_iff in Hin. destruct Hin as (m & <- & Hm).
        apply Good. now apply pairs_used_before. }
    destruct (D (coords (r_gradient r))) as [D1 D2].
    assert (E : slope_before n r = - inner n (coords (r_gradient r)) (apply n H (coords (r_gradient r)))).
    { unfold slope_before. rewrite (inner_ext n _ (coords (r_direction r)) (coords (r_gradient r))
        (fun i => (-1) * apply n H (coords (r_gradient r)) i)).
      - rewrite inner_scal_r. lra.
      - reflexivity.
      - intros i Hi. unfold coords at 1. rewrite (direction_of k r i Hr Hi). fold H. lra. }
    rewrite E. destruct (Req_dec (inner n (coords (r_gradient r)) (apply n H (coords (r_gradient r)))) 0) as [Z|Z]; [|lra].
    exfalso. apply Hs. exact (D2 Z).
  Qed.
End Rounds.

(** ** The tests of the line search *)
Section Tests.
  Variable p : problem R.
  Hypothesis OK : problem_ok p.
  Hypothesis DC : dense_consistent p.
  Let n := num_variables p.
  Notation shaped := (shaped p any_jacobian).
  Notation evaluated := (evaluated p any_jacobian).
  Notation state_ok := (state_ok p any_jacobian).

  Lemma evaluated_squares x b : evaluated x b -> sum_squares (b_residuals b) = squares p x.
  Proof.
    intros (_ & _ & _ & _ & jac & (Sh & _) & E & _). pose proof (DC _ _ _ _ E Sh) as Er.
    unfold squares, Spec_Descent.objective. rewrite Er. reflexivity.
  Qed.
  Lemma evaluated_gradient_at x b : evaluated x b -> gradient_at p x (b_gradient b).
  Proof.
    intros (_ & _ & (SJ & _) & Lr & jac & _ & E & Eg). split; [rewrite Eg; apply gradient_length|].
    exists jac, (b_residuals b), (b_jacobian b). split; [exact E|]. intros j Hj. rewrite Eg, gradient_value by (try exact Hj; congruence).
    now rewrite Lr.
  Qed.

  Section Line.
    Variables x d : list R.
    Hypothesis Lx : length x = n.
    Hypothesis Ld : length d = n.
    Variable s0 : R.
    Let phi0 := squares p x.

    Definition valid (c : param R) : Prop := phi c = squares p (displaced x d (pp c)).
    Lemma phi_valid b t : shaped (b_jacobian b) ->
      safe (fun '(c, b') => pp c = t /\ at_step p any_jacobian x d c b' /\ valid c /\
              dphi c = inner n (coords (b_gradient b')) (coords d))
        (calculate_phi p x d b t).
    Proof.
      intros Sh. eapply safe_weaken; [apply (phi_ok p OK any_jacobian (fun _ _ _ _ _ _ _ _ _ => Logic.I) x d Lx Ld b t Sh)|].
      intros [c b'] (E & A & P & D). split; [exact E|]. split; [exact A|]. split.
      - unfold valid. rewrite P. exact (evaluated_squares _ _ A).
      - rewrite D. apply dot_inner; [|exact Ld]. eapply evaluated_gradient; exact A.
    Qed.

    Lemma test_wolfe c b : at_step p any_jacobian x d c b -> valid c -> dphi c = inner n (coords (b_gradient b)) (coords d) ->
      satisfies_wolfe phi0 s0 c = true <-> wolfe_at p x d s0 (pp c) (b_gradient b).
    Proof.
      intros _ V D. unfold wolfe_at. fold n. cbv zeta. rewrite <- D, <- V. fold phi0.
      assert (RL : forall a b, Rleb a b = true <-> a <= b).
      { intros u v. unfold Rleb. destruct (Rle_dec u v); split; auto; intros; try discriminate; contradiction. }
      unfold satisfies_wolfe, hz_delta, hz_sigma, hz_epsilon, tenm, lit. cbn [nleb nadd nmul ndiv nofZ nsub nunit NumR].
      rewrite orb_true_iff, !andb_true_iff, !RL.
      replace (IZR (10 ^ 4)) with 10000 by reflexivity. replace (IZR (10 ^ 6)) with 1000000 by reflexivity.
      split.
      - intros [[A B]|[[A B] C]]; (split; [lra|]); [left|right]; lra.
      - intros [A [B|[B C]]]; [left|right]; repeat split; lra.
    Qed.

    (** What the line search returns: an evaluated step; it passed the test, or the full step failed it. *)
    Definition result_ok (cb : param R * buffers R) : Prop :=
      let '(c, b) := cb in at_step p any_jacobian x d c b /\ valid c.
    Notation trivial_step := (fun _ _ _ _ _ _ _ _ _ => Logic.I).

    Lemma secant_again_valid fuel buf a_ b_ u v : shaped (b_jacobian buf) ->
      safe (fun '(r, b) => match r with Satisfied c => result_ok (c, b) | Unsatisfied _ _ => shaped (b_jacobian b) end)
        (secant_again p x d phi0 s0 fuel buf a_ b_ u v).
    Proof.
      intros H. unfold secant_again. eapply safe_bind; [apply phi_valid, H|].
      intros [c b'] (_ & A & V & _). destruct (satisfies_wolfe _ _ _); [split; [exact A|exact V]|].
      eapply safe_bind; [apply (update_ok p OK any_jacobian trivial_step x d Lx Ld phi0); exact (at_shaped p any_jacobian x d _ _ A)|].
      intros [[y z] b''] B. exact B.
    Qed.
    Lemma secant2_valid fuel buf a b : shaped (b_jacobian buf) ->
      safe (fun '(r, b) => match r with Satisfied c => result_ok (c, b) | Unsatisfied _ _ => shaped (b_jacobian b) end)
        (secant2 p x d phi0 s0 fuel buf a b).
    Proof.
      intros H. unfold secant2. eapply safe_bind; [apply phi_valid, H|].
      intros [c b'] (_ & A & V & _). destruct (satisfies_wolfe _ _ _); [split; [exact A|exact V]|].
      eapply safe_bind; [apply (update_ok p OK any_jacobian trivial_step x d Lx Ld phi0); exact (at_shaped p any_jacobian x d _ _ A)|].
      intros [[y z] b''] B.
      destruct (neqb _ (pp z)); [now apply secant_again_valid|].
      destruct (neqb _ (pp y)); [now apply secant_again_valid|]. exact B.
    Qed.
    Lemma search_valid fuel k : forall buf a b c, shaped (b_jacobian buf) -> valid c ->
      safe result_ok (search p x d phi0 s0 fuel k buf a b c).
    Proof.
      induction k as [|k IH]; intros buf a b c H V; cbn [search].
      - eapply safe_bind; [apply phi_valid, H|]. intros [c' b'] (E & A & _). cbn. split; [|exact V]. red. rewrite <- E. exact A.
      - eapply safe_bind; [apply secant2_valid, H|]. intros [r b'] A.
        destruct r as [c'|a_ b_]; [exact A|].
        destruct (nltb _ _); [|now apply IH].
        eapply safe_bind; [apply phi_valid, A|]. intros [c' b''] (_ & A' & V' & _).
        destruct (satisfies_wolfe _ _ _); [split; [exact A'|exact V']|].
        eapply safe_bind; [apply (update_ok p OK any_jacobian trivial_step x d Lx Ld phi0); exact (at_shaped p any_jacobian x d _ _ A')|].
        intros [[y z] b3] B. now apply IH.
    Qed.
    Lemma hz_run_valid fuel buf : shaped (b_jacobian buf) ->
      safe (fun '(c, b) => result_ok (c, b) /\
              (pp c = 1 /\ wolfe_at p x d s0 1 (b_gradient b) \/
               exists g, gradient_at p (displaced x d 1) g /\ ~ wolfe_at p x d s0 1 g))
        (hz_run p x d phi0 s0 fuel buf).
    Proof.
      intros H. unfold hz_run. generalize 100%nat as rounds. intros rounds. eapply safe_bind; [apply phi_valid, H|].
      intros [c b'] (Et & A & V & D). cbn [nunit NumR] in Et. pose proof (test_wolfe c b' A V D) as T. rewrite Et in T.
      destruct (satisfies_wolfe phi0 s0 c) eqn:E.
      - cbn. split; [split; [exact A|exact V]|]. left. split; [exact Et|]. now apply T.
      - eapply safe_bind; [apply phi_valid; exact (at_shaped p any_jacobian x d _ _ A)|]. intros [b b''] (_ & B & _).
        eapply safe_weaken; [apply search_valid; [exact (at_shaped p any_jacobian x d _ _ B)|exact V]|].
        intros [c' b3] R. split; [exact R|]. right. exists (b_gradient b'). split.
        + rewrite <- Et. exact (evaluated_gradient_at _ _ A).
        + intros W. apply T in W. discriminate.
    Qed.
  End Line.

  (** A round *)
  Definition tested (r : round R) : Prop :=
    (r_step r = 1 /\ wolfe p r) \/
    exists g, gradient_at p (displaced (r_variables r) (r_direction r) 1) g /\
      ~ wolfe_at p (r_variables r) (r_direction r) (slope_before n r) 1 g.
  Lemma round_tested fuel k st : state_ok st -> l_ssr st = squares p (l_variables st) ->
    safe (fun '(_, st', r) => state_ok st' /\ l_ssr st' = squares p (l_variables st') /\ tested r) (lbfgs_round fuel p k st).
  Proof.
    intros S Es. pose proof (round_ok p OK any_jacobian (fun _ _ _ _ _ _ _ _ _ => Logic.I) fuel k st S) as R.
    destruct S as (E & Hh & Ha). unfold lbfgs_round in *.
    destruct (direction_ok p k (l_history st) (l_alpha st) (b_gradient (l_buffers st)) Hh Ha)
      as (d & a & E1 & H1 & H2); [eapply evaluated_gradient; exact E|].
    rewrite E1 in R |- *. cbn [obind] in R |- *. assert (E' := E). destruct E' as (_ & Lx & Sj & _).
    unfold line_search in R |- *. rewrite Es in R |- *.
    assert (Ed : dot_product (b_gradient (l_buffers st)) d = inner n (coords (b_gradient (l_buffers st))) (coords d)).
    { apply dot_inner; [|exact H1]. eapply evaluated_gradient; exact E. }
    rewrite Ed in R |- *.
    pose proof (hz_run_valid (l_variables st) d Lx H1 (inner n (coords (b_gradient (l_buffers st))) (coords d)) fuel (l_buffers st) Sj) as T.
    destruct (hz_run p _ _ _ _ _ _) as [[c buf]| |]; [|contradiction|exact Logic.I].
    cbn [safe] in T. destruct T as ([A V] & T). cbn [obind] in *.
    destruct (oset (h_s (l_history st)) _ _) as [hs| |]; [|contradiction|exact Logic.I]. cbn [obind] in *.
    destruct (oset (h_y (l_history st)) _ _) as [hy| |]; [|contradiction|exact Logic.I]. cbn [obind] in *.
    destruct (oset (h_rho (l_history st)) _ _) as [hr| |]; [|contradiction|exact Logic.I]. cbn [obind] in *.
    cbn [safe] in *. destruct R as [S' _]. split; [exact S'|]. cbn [l_ssr l_variables].
    assert (Eb : b_variables buf = displaced (l_variables st) d (pp c)) by apply A.
    split; [rewrite Eb; exact V|]. unfold tested, wolfe, slope_before. cbn [r_step r_variables r_direction r_gradient r_gradient'].
    fold n. destruct T as [[T1 T2]|T]; [left|right; exact T]. split; [exact T1|]. rewrite T1. exact T2.
  Qed.
  Lemma rounds_tested fuel m : forall k st rs, state_ok st -> l_ssr st = squares p (l_variables st) ->
    (forall r, In r rs -> tested r) ->
    safe (fun '(_, rs') => forall r, In r rs' -> tested r) (lbfgs_rounds fuel p m k st rs).
  Proof.
    induction m as [|m IH]; intros k st rs S E H; cbn [lbfgs_rounds]; [exact H|].
    eapply safe_bind; [apply (round_tested fuel k st S E)|]. intros [[go st'] r] (S' & E' & T).
    assert (H' : forall r', In r' (rs ++ [r]) -> tested r').
    { intros r' Hin. apply in_app_or in Hin. destruct Hin as [Hin|[<-|[]]]; [now apply H|exact T]. }
    destruct go; [now apply IH|exact H'].
  Qed.
  Theorem all_tested fuel x out rs : length x = n -> lbfgs_trace fuel p x = Done (out, rs) ->
    forall r, In r rs -> tested r.
  Proof.
    intros Hx H. pose proof (trace_ok p OK any_jacobian Logic.I (fun _ _ _ _ _ _ _ _ _ => Logic.I) fuel x Hx) as _.
    unfold lbfgs_trace in H. revert H. generalize 100%nat as rounds. intros rounds H.
    apply obind_done in H. destruct H as ([res jac] & E & H).
    destruct (nltb _ _); [injection H as _ <-; intros r []|].
    match type of H with lbfgs_rounds _ _ _ _ ?st _ = _ => set (st0 := st) in * end.
    assert (Sh : shaped (repeat (repeat 0 n) (num_residuals p))).
    { split; [apply repeat_length|]. split; [|exact Logic.I]. intros row Hr. apply repeat_spec in Hr. subst. apply repeat_length. }
    destruct (po_dense p OK x (repeat (repeat 0 n) (num_residuals p)) Hx) as (rs1 & jac1 & E1 & L1 & L2 & L3); try apply Sh.
    assert (EE : Done (rs1, jac1) = Done (res, jac)) by (rewrite <- E1, <- E; reflexivity).
    injection EE as -> ->.
    assert (S0 : state_ok st0).
    { split; [|split; [|apply repeat_length]].
      - split; [reflexivity|]. split; [exact Hx|]. split; [split; [auto|]; split; [auto|exact Logic.I]|]. split; [exact L1|].
        exists (repeat (repeat 0 n) (num_residuals p)). split; [exact Sh|]. split; [exact E1|reflexivity].
      - subst st0. cbn [l_history]. repeat split; cbn [h_s h_y h_rho]; rewrite ?repeat_length; auto;
          apply Forall_forall; intros z Hz; apply repeat_spec in Hz; subst; apply repeat_length. }
    pose proof (rounds_tested fuel rounds 0 st0 [] S0) as T. rewrite H in T. cbn [safe] in T. apply T; [|intros r []].
    subst st0. cbn [l_ssr l_variables].
    change (sum_squares res) with (sum_squares (b_residuals (Buffers x res jac (compute_gradient n jac res)))).
    apply evaluated_squares. apply S0.
  Qed.
End Tests.
