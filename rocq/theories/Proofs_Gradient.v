(** The gradient the L-BFGS optimizer uses *)
From Coq Require Import List Reals Arith Lia Lra Bool.
From Verif Require Import Num NumR Outcome Lib ModelExpr ModelSystem ModelSolve ModelLbfgs Spec_Solver Spec_Geometry Spec_Jacobian
  Spec_Descent Spec_Linear Spec_Bfgs Spec_Lbfgs Spec_Gradient Proofs_Triangular Proofs_Linear Proofs_Jacobian Proofs_Safe
  Proofs_Lbfgs Proofs_Bfgs.
Import ListNotations.
Local Open Scope R_scope.

(** ** The product of the transposed Jacobian and the residuals *)
Lemma fold_column j jac : forall rs acc, length jac = length rs ->
  fold_left (fun g '(row, r) => nadd g (nmul (nth j row nzero) r)) (combine jac rs) acc
  = acc + rsum (fun c => nth j (nth c jac []) 0 * nth c rs 0) (seq 0 (length rs)).
Proof.
  induction jac as [|row jac IH]; intros [|r rs] acc Hl; try discriminate; cbn [combine fold_left length seq].
  - rewrite rsum_nil. lra.
  - rewrite IH by (cbn in Hl; lia). rewrite rsum_cons, rsum_shift. cbn [nth nadd nmul nzero NumR]. lra.
Qed.

Lemma gradient_value n jac rs j : length jac = length rs -> (j < n)%nat ->
  nth j (compute_gradient n jac rs) 0 = rsum (fun c => nth j (nth c jac []) 0 * nth c rs 0) (seq 0 (length rs)).
Proof.
  intros Hl Hj. unfold compute_gradient.
  rewrite nth_error_nth with (x := fold_left (fun g '(row, r) => nadd g (nmul (nth j row nzero) r)) (combine jac rs) nzero).
  - rewrite fold_column by exact Hl. cbn. lra.
  - rewrite nth_error_map, nth_error_seq. destruct (Nat.ltb_spec j n); [reflexivity|lia].
Qed.

(** ** Derivatives of sums of squares *)
Lemma derivable_squares (f : nat -> R -> R) (f' : nat -> R) t l :
  (forall c, In c l -> derivable_pt_lim (f c) t (f' c)) ->
  derivable_pt_lim (fun s => rsum (fun c => f c s * f c s) l) t (2 * rsum (fun c => f' c * f c t) l).
Proof.
  induction l as [|c l IH]; intros H.
  - replace (2 * _) with 0 by (rewrite rsum_nil; lra). apply (derivable_pt_lim_const 0).
  - rewrite rsum_cons.
    replace (2 * _) with ((f' c * f c t + f c t * f' c) + 2 * rsum (fun c => f' c * f c t) l) by lra.
    apply (derivable_pt_lim_plus (fun s => f c s * f c s) (fun s => rsum (fun c => f c s * f c s) l)).
    + apply (derivable_pt_lim_mult (f c) (f c)); apply H; now left.
    + apply IH. intros; apply H; now right.
Qed.

Lemma derivable_pt_lim_ext f g t l : (forall x, f x = g x) -> derivable_pt_lim f t l -> derivable_pt_lim g t l.
Proof.
  intros E H eps He. destruct (H eps He) as [d Hd]. exists d. intros h Hh Hl. rewrite <- !E. now apply Hd.
Qed.

Section Problem.
  Variable p : problem R.
  Hypothesis OK : problem_ok p.
  Let n := num_variables p.
  Let m := num_residuals p.

  Lemma squares_value x : length x = n ->
    squares p x = rsum (fun c => residual_at (calculate_residuals p) x c * residual_at (calculate_residuals p) x c) (seq 0 m).
  Proof.
    intros Hx. destruct (po_residuals p OK x Hx) as (rs & E & L).
    unfold squares, objective, residual_at. rewrite E. cbn [nadd nmul nzero NumR].
    rewrite fold_squares, L. unfold inner, coords. fold m. lra.
  Qed.

  Lemma lset_same {A} (l : list A) i a : nth_error l i = Some a -> lset l i a = l.
  Proof. revert i. induction l as [|x l IH]; intros [|i] H; cbn in *; try discriminate; [congruence|]. now rewrite IH. Qed.

  (** Along a coordinate *)
  Lemma coordinate_derivative x rs J j : length x = n -> (j < n)%nat ->
    calculate_residuals p x = Done rs -> length J = length rs ->
    (forall c, (c < m)%nat -> partial_derivative (calculate_residuals p) x c j (nth j (nth c J []) 0)) ->
    derivable_pt_lim (fun t => squares p (lset x j t)) (nth j x 0) (2 * nth j (compute_gradient n J rs) 0).
  Proof.
    intros Hx Hj E L H. rewrite gradient_value by auto.
    destruct (po_residuals p OK x Hx) as (rs' & E' & L'). assert (rs' = rs) by congruence. subst rs'.
    rewrite L'. fold m.
    pose proof (derivable_squares (fun c t => residual_at (calculate_residuals p) (lset x j t) c)
      (fun c => nth j (nth c J []) 0) (nth j x 0) (seq 0 m)) as D.
    assert (Ex : lset x j (nth j x 0) = x).
    { apply lset_same. apply nth_error_nth'. lia. }
    cbn beta in D. rewrite Ex in D.
    rewrite (rsum_ext _ (fun c => nth j (nth c J []) 0 * residual_at (calculate_residuals p) x c)).
    2:{ intros c _. unfold residual_at. now rewrite E. }
    eapply derivable_pt_lim_ext; [|apply D].
    - intros t. cbn beta. rewrite squares_value by now rewrite lset_length. reflexivity.
    - intros c Hc. apply in_seq in Hc. apply H. lia.
  Qed.

  (** Along a line *)
  Lemma line_derivative x d t rs J : length x = n -> length d = n ->
    calculate_residuals p (displaced x d t) = Done rs -> length J = length rs ->
    (forall c, (c < m)%nat -> derivable_pt_lim (fun s => residual_at (calculate_residuals p) (displaced x d s) c) t
       (rsum (fun j => nth j (nth c J []) 0 * nth j d 0) (seq 0 n))) ->
    derivable_pt_lim (fun s => squares p (displaced x d s)) t (2 * dot_product (compute_gradient n J rs) d).
  Proof.
    intros Hx Hd E L H.
    assert (Ld : forall s, length (displaced x d s) = n).
    { intros s. unfold displaced. rewrite map_length, combine_length. lia. }
    destruct (po_residuals p OK _ (Ld t)) as (rs' & E' & L'). assert (rs' = rs) by congruence. subst rs'.
    rewrite (dot_inner n) by (auto; unfold compute_gradient; now rewrite map_length, seq_length).
    replace (inner n _ _) with (rsum (fun c => rsum (fun j => nth j (nth c J []) 0 * nth j d 0) (seq 0 n) *
      residual_at (calculate_residuals p) (displaced x d t) c) (seq 0 m)).
    - eapply derivable_pt_lim_ext; [|apply (derivable_squares
        (fun c s => residual_at (calculate_residuals p) (displaced x d s) c)
        (fun c => rsum (fun j => nth j (nth c J []) 0 * nth j d 0) (seq 0 n)))].
      + intros s. cbn beta. now rewrite squares_value by auto.
      + intros c Hc. apply in_seq in Hc. apply H. lia.
    - unfold inner.
      rewrite (rsum_ext (fun i => coords (compute_gradient n J rs) i * coords d i)
        (fun j => rsum (fun c => nth j (nth c J []) 0 * nth j d 0 * nth c rs 0) (seq 0 m))).
      + rewrite rsum_swap. apply rsum_ext. intros c _. unfold residual_at. rewrite E. symmetry. apply rsum_scal_r.
      + intros j Hj. apply in_seq in Hj. unfold coords. rewrite gradient_value by (auto; lia).
        rewrite <- rsum_scal_r, L'. apply rsum_ext. intros; lra.
  Qed.

  Hypothesis DC : dense_consistent p.

  (** The gradients of a run *)
  Theorem run_gradient fuel x out rs : length x = n -> lbfgs_trace fuel p x = Done (out, rs) ->
    forall r, In r rs -> exists jac0 res J,
      calculate_residuals_and_jacobian p (r_variables r) jac0 = Done (res, J) /\
      calculate_residuals p (r_variables r) = Done res /\
      (forall j, (j < n)%nat -> nth j (r_gradient r) 0
         = rsum (fun c => nth j (nth c J []) 0 * nth c res 0) (seq 0 m)) /\
      (forall j, (j < n)%nat ->
         (forall c, (c < m)%nat -> partial_derivative (calculate_residuals p) (r_variables r) c j (nth j (nth c J []) 0)) ->
         derivable_pt_lim (fun t => squares p (lset (r_variables r) j t)) (nth j (r_variables r) 0)
           (2 * nth j (r_gradient r) 0)).
  Proof.
    intros Hx E r Hr. apply In_nth_error in Hr. destruct Hr as [k Hk].
    destruct (trace_runs p OK fuel x out rs Hx E) as [[-> ->]|(K & st0 & st & Rn & -> & HK & S0 & <- & _)];
      [destruct k; discriminate|].
    destruct (runs_round p any_jacobian K st0 rs st Rn k r Hk) as (s1 & s2 & go & A & D & _).
    pose proof (runs_ok _ _ _ _ _ _ S0 A) as (Ev & _ & _).
    destruct D as (_ & _ & D1 & D2 & _). rewrite D1, D2.
    destruct Ev as (_ & Lx & (SJ & _) & Lr & jac & (Sh & _) & Ec & Eg).
    exists jac, (b_residuals (l_buffers s1)), (b_jacobian (l_buffers s1)).
    split; [exact Ec|]. pose proof (DC _ _ _ _ Ec Sh) as Er. split; [exact Er|].
    assert (L : length (b_jacobian (l_buffers s1)) = length (b_residuals (l_buffers s1))) by congruence.
    rewrite Eg. split.
    - intros j Hj. rewrite gradient_value by auto. now rewrite Lr.
    - intros j Hj Hp. apply coordinate_derivative; auto.
  Qed.

  Theorem slope x d b t c b' : length x = n -> length d = n -> length (b_jacobian b) = m ->
    (forall row, In row (b_jacobian b) -> length row = n) ->
    calculate_phi p x d b t = Done (c, b') ->
    phi c = squares p (displaced x d t) /\
    ((forall k, (k < m)%nat -> derivable_pt_lim (fun s => residual_at (calculate_residuals p) (displaced x d s) k) t
        (rsum (fun j => nth j (nth k (b_jacobian b') []) 0 * nth j d 0) (seq 0 n))) ->
     derivable_pt_lim (fun s => squares p (displaced x d s)) t (2 * dphi c)).
  Proof.
    intros Hx Hd Hb Hr E.
    pose proof (phi_ok p OK any_jacobian (fun _ _ _ _ _ _ _ _ _ => Logic.I) x d Hx Hd b t) as P.
    rewrite E in P. cbn in P. destruct P as (P1 & (Ev & Lx & (SJ & _) & Lr & jac & (Sh & _) & Ec & Eg) & P3 & P4);
      [split; [exact Hb|]; split; [exact Hr|exact Logic.I]|].
    rewrite P1 in Ec. change (along x d t) with (displaced x d t) in Ec.
    pose proof (DC _ _ _ _ Ec Sh) as Er. split.
    - rewrite P3. unfold squares, objective. rewrite Er. reflexivity.
    - intros H. rewrite P4, Eg. apply line_derivative; auto. congruence.
  Qed.
End Problem.

(** ** The problems the program builds *)
Section Subsystem.
  Variable ss : subsystem R.
  Hypothesis O : ss_ok ss.
  Let p := subsystem_problem ss.

  Lemma subsystem_dense_consistent : dense_consistent p.
  Proof.
    intros x jac rs jac' H L. cbn in *. unfold ss_dense in H. unfold ss_residuals.
    apply obind_done in H. destruct H as (rows & H & E). injection E as <- <-.
    revert jac rows L H. induction (ss_expressions ss) as [|id ids IH]; intros [|row jac] rows L H; try discriminate.
    - cbn in H. injection H as <-. reflexivity.
    - cbn [combine omap] in H. apply obind_done in H. destruct H as (b & Hb & H). apply obind_done in H.
      destruct H as (bs & Hbs & H). injection H as <-. apply obind_done in Hb. destruct Hb as (e & He & Hb).
      unfold calculate_residual_and_gradient in Hb. apply obind_done in Hb. destruct Hb as (xs & Hxs & Hb).
      cbn [omap]. rewrite (IH jac bs) by (auto; cbn in L; lia). rewrite He. cbn [obind]. unfold calculate_residual.
      rewrite Hxs. cbn [obind map]. destruct (compute_rg e (buffer xs)) as [r g].
      apply obind_done in Hb. destruct Hb as (row' & _ & Hb). injection Hb as <-. reflexivity.
  Qed.

  (** The Jacobian is zero away from the variables of the expressions. *)
  Definition sparse_rows (J : list (list R)) : Prop :=
    forall i id e j, nth_error (ss_expressions ss) i = Some id -> nth_error (ss_all_expressions ss) id = Some e ->
      NoDup (variable_indices e) ->
      (forall v, In v (variable_indices e) -> index_of (ss_free_variables ss) v <> Some j) ->
      nth j (nth i J []) 0 = 0.

  Lemma sparse_rows_zero : sparse_rows (repeat (repeat 0 (length (ss_free_variables ss))) (length (ss_expressions ss))).
  Proof.
    intros i id e j _ _ _ _.
    destruct (nth_in_or_default i (repeat (repeat 0 (length (ss_free_variables ss))) (length (ss_expressions ss))) []) as [I| ->];
      [apply repeat_spec in I; rewrite I; apply nth_repeat|now destruct j].
  Qed.

  Lemma vars_gather xs e ys j : gather (ss_map ss xs) e = Done ys -> In j (vars_of ys) ->
    exists v, In v (variable_indices e) /\ index_of (ss_free_variables ss) v = Some j.
  Proof.
    unfold gather. revert ys. induction (variable_indices e) as [|v l IH]; intros ys H Hj; cbn [omap] in H.
    - injection H as <-. destruct Hj.
    - apply obind_done in H. destruct H as (y & Hy & H). apply obind_done in H. destruct H as (ys' & Hys & H).
      injection H as <-. unfold vars_of in Hj. cbn [flat_map] in Hj. apply in_app_or in Hj. destruct Hj as [Hj|Hj].
      + destruct y as [w k|w]; [|destruct Hj]. destruct Hj as [<-|[]]. exists v. split; [now left|].
        unfold ss_map, index_set_map in Hy. destruct (index_of (ss_free_variables ss) v) as [k'|].
        * apply obind_done in Hy. destruct Hy as (u & _ & Hy). injection Hy as _ <-. reflexivity.
        * apply obind_done in Hy. destruct Hy as (u & _ & Hy). discriminate.
      + destruct (IH ys' Hys Hj) as (v' & A & B). exists v'. split; [now right|exact B].
  Qed.
  Lemma gather_vars xs e ys v j : gather (ss_map ss xs) e = Done ys -> In v (variable_indices e) ->
    index_of (ss_free_variables ss) v = Some j -> In j (vars_of ys).
  Proof.
    unfold gather. revert ys. induction (variable_indices e) as [|u l IH]; intros ys H Hv Hj; [destruct Hv|].
    cbn [omap] in H. apply obind_done in H. destruct H as (y & Hy & H). apply obind_done in H. destruct H as (ys' & Hys & H).
    injection H as <-. unfold vars_of. cbn [flat_map]. apply in_or_app. destruct Hv as [->|Hv].
    - left. unfold ss_map, index_set_map in Hy. rewrite Hj in Hy. apply obind_done in Hy. destruct Hy as (w & _ & Hy).
      injection Hy as <-. now left.
    - right. now apply IH.
  Qed.

  Lemma sparse_rows_step x jac rs jac' : length jac = length (ss_expressions ss) -> sparse_rows jac ->
    ss_dense ss x jac = Done (rs, jac') -> sparse_rows jac'.
  Proof.
    intros L Z H i id e j Hi He Nd Hv. pose proof (Z i id e j Hi He Nd Hv) as Zi.
    unfold ss_dense in H. apply obind_done in H. destruct H as (rows & H & E). injection E as <- <-.
    pose proof (nth_error_lt _ _ _ Hi) as Li. rewrite <- L in Li. destruct (nth_error_ex _ _ Li) as [row Hrow].
    assert (C : nth_error (combine (ss_expressions ss) jac) i = Some (id, row)) by (rewrite nth_error_combine, Hi, Hrow; auto).
    destruct (omap_nth' _ _ _ H _ _ C) as ([r row'] & B1 & B2).
    rewrite (nth_error_nth (map snd rows) i [] (map_nth_error snd _ _ B1)). cbn [snd].
    rewrite (nth_error_nth jac i [] Hrow) in Zi.
    apply obind_done in B2. destruct B2 as (e' & He' & B2). apply oget_done in He'. assert (e' = e) by congruence. subst e'.
    unfold calculate_residual_and_gradient in B2. apply obind_done in B2. destruct B2 as (ys & Hys & B2).
    destruct (compute_rg e (buffer ys)) as [r0 g] eqn:Eg. apply obind_done in B2. destruct B2 as (row2 & B3 & B2).
    injection B2 as <- <-.
    assert (Lg : length g = length ys).
    { rewrite (gather_length Hys). replace g with (snd (compute_rg e (buffer ys))) by now rewrite Eg. apply gradient_length'. }
    destruct (assign_slots ys g row row2) as (_ & _ & A); [|exact Lg|exact B3|].
    { eapply gather_nodup; eauto. apply index_set_injective. }
    rewrite A; [exact Zi|]. intros C'. destruct (vars_gather _ _ _ _ Hys C') as (v & V1 & V2). exact (Hv v V1 V2).
  Qed.

  Theorem subsystem_gradient fuel x out rs : length x = num_variables p -> lbfgs_trace fuel p x = Done (out, rs) ->
    forall r, In r rs ->
    (forall id e, In id (ss_expressions ss) -> nth_error (ss_all_expressions ss) id = Some e ->
       regular (ss_map ss (r_variables r)) e /\ NoDup (variable_indices e)) ->
    forall j, (j < num_variables p)%nat ->
      derivable_pt_lim (fun t => squares p (lset (r_variables r) j t)) (nth j (r_variables r) 0)
        (2 * nth j (r_gradient r) 0).
  Proof.
    intros Hx E r Hr Hreg j Hj. apply In_nth_error in Hr. destruct Hr as [k Hk].
    pose proof (subsystem_ok ss O) as OK. fold p in OK.
    pose proof (trace_ok p OK sparse_rows sparse_rows_zero
      (fun x jac rs jac' _ L _ Z H => sparse_rows_step x jac rs jac' L Z H) fuel x Hx) as T.
    rewrite E in T. cbn [safe] in T.
    destruct T as [[-> ->]|(K & st0 & st & Rn & -> & HK & S0 & <- & _)]; [destruct k; discriminate|].
    destruct (runs_round p sparse_rows K st0 rs st Rn k r Hk) as (s1 & s2 & go & A & D & _).
    pose proof (runs_ok _ _ _ _ _ _ S0 A) as (Ev & _ & _).
    destruct D as (_ & _ & D1 & D2 & _). rewrite D1 in *. rewrite D2.
    destruct Ev as (_ & Lx & (SJ & _) & Lr & jac & (Sh & _ & Zj) & Ec & Eg).
    pose proof (subsystem_dense_consistent _ _ _ _ Ec Sh) as Er.
    rewrite Eg. apply coordinate_derivative; auto; [congruence|].
    intros c Hc. destruct (nth_error_ex (ss_expressions ss) c) as [id Hid]; [exact Hc|].
    assert (Hin : In id (ss_expressions ss)) by (eapply nth_error_In; eauto).
    destruct (nth_error_ex (ss_all_expressions ss) id) as [e He]; [now apply O|].
    destruct (Hreg id e Hin He) as ((ys & Hg & Hn) & Nd).
    eapply (dense_jacobian ss (l_variables s1) jac _ _ Ec Sh c id e ys); eauto.
    intros i Hi. apply (Zj c id e i Hid He Nd). intros v Hv C. apply Hi. eapply gather_vars; eauto.
  Qed.
End Subsystem.

(** ** Examples *)
(** The lines from (0,0) to (x,0) and from (5,5) to (6,7), [x] free *)
Definition ss_two_lines : subsystem R :=
  Subsystem [0; 0; 3; 0; 5; 5; 6; 7] [LineLinePerpendicularity 0 2 4 6] [0%nat] [2%nat].

From Verif Require Import Proofs_LbfgsDemo.
Lemma two_lines_run : exists out r, lbfgs_trace 0 (subsystem_problem ss_two_lines) [3] = Done (out, [r]) /\ r_variables r = [3].
Proof.
  assert (Ec : forall x jac, calculate_residuals_and_jacobian (subsystem_problem ss_two_lines) [x] [[jac]] = Done ([x], [[1]])).
  { intros x jac. cbn. repeat f_equal; lra. }
  assert (Eg : forall x, compute_gradient 1 [[1]] [x] = [x]) by (intros; unfold compute_gradient; cbn; f_equal; lra).
  assert (Es : forall x, sum_squares [x] = x * x) by (intros; unfold sum_squares; cbn; lra).
  assert (Ed : forall x y, dot_product [x] [y] = x * y) by (intros; unfold dot_product; cbn; lra).
  unfold lbfgs_trace. change 100%nat with (S 99). generalize 99%nat as k. intros k.
  change (num_variables (subsystem_problem ss_two_lines)) with 1%nat.
  change (num_residuals (subsystem_problem ss_two_lines)) with 1%nat. cbn [repeat].
  rewrite Ec. cbn [obind]. rewrite Es, Eg, tenm4. cbn [nltb NumR]. unfold Rltb. destruct (Rlt_dec _ _) as [C|_]; [exfalso; lra|].
  cbn [lbfgs_rounds]. unfold lbfgs_round. cbn [l_history l_buffers l_alpha l_variables l_ssr b_gradient].
  set (h := History _ _ _).
  assert (E0 : forall alpha, step_direction 0 h alpha [3] = Done ([-3], alpha)).
  { intros. unfold step_direction. cbn -[lit]. apply Done_eq. f_equal. f_equal. unfold lit. cbn. lra. }
  rewrite E0. cbn [obind]. unfold line_search, hz_run. cbn [b_gradient]. rewrite Ed.
  unfold calculate_phi at 1. cbn [combine map b_jacobian]. rewrite Ec. cbn [obind].
  change (num_variables (subsystem_problem ss_two_lines)) with 1%nat. rewrite Eg, Es, Ed.
  rewrite wolfe_true by (cbn; lra). cbn [obind].
  unfold h. cbn [h_s h_y h_rho repeat max_history Nat.modulo Nat.divmod Nat.sub fst snd oset length Nat.ltb Nat.leb obind lset].
  cbn [pp phi b_gradient b_variables l_variables]. rewrite tenm10, tenm6. cbn [nltb nabs nsub nmul nadd nunit NumR].
  assert (B : Rltb ((3 + 1 * -3) * (3 + 1 * -3)) (1 / 1000000) = true).
  { unfold Rltb. destruct (Rlt_dec _ _) as [|C]; [reflexivity|exfalso; lra]. }
  rewrite B, orb_true_r. cbn [negb l_variables app]. eexists _, _. split; [reflexivity|reflexivity].
Qed.

(** The lines AB and BC share B: A = (0,0), B = (x,0), C = (2,1) *)
Definition ss_shared : subsystem R :=
  Subsystem [0; 0; 1; 0; 2; 1] [LineLinePerpendicularity 0 2 2 4] [0%nat] [2%nat].
Lemma shared_wrong : exists rs J,
  calculate_residuals_and_jacobian (subsystem_problem ss_shared) [1] [[0]] = Done (rs, J) /\
  ~ derivable_pt_lim (fun t => squares (subsystem_problem ss_shared) (lset [1] 0 t)) 1
      (2 * nth 0 (compute_gradient 1 J rs) 0).
Proof.
  assert (Ec : calculate_residuals_and_jacobian (subsystem_problem ss_shared) [1] [[0]] = Done ([1], [[-1]])).
  { cbn. repeat f_equal; lra. }
  exists [1], [[-1]]. split; [exact Ec|]. intros H.
  replace (2 * _) with (-2) in H by (unfold compute_gradient; cbn; lra).
  assert (D : derivable_pt_lim (fun t => (t * (2 - t)) * (t * (2 - t))) 1 0).
  { replace 0 with ((1 * (2 - 1) + 1 * (0 - 1)) * (1 * (2 - 1)) + (1 * (2 - 1)) * (1 * (2 - 1) + 1 * (0 - 1))) by lra.
    assert (D1 : derivable_pt_lim (fun t => t * (2 - t)) 1 (1 * (2 - 1) + 1 * (0 - 1))).
    { apply (derivable_pt_lim_mult (fun t => t) (fun t => 2 - t)); [apply derivable_pt_lim_id|].
      apply (derivable_pt_lim_minus (fun _ => 2) (fun t => t)); [apply derivable_pt_lim_const|apply derivable_pt_lim_id]. }
    exact (derivable_pt_lim_mult _ _ _ _ _ D1 D1). }
  assert (E : forall t, squares (subsystem_problem ss_shared) (lset [1] 0 t) = (t * (2 - t)) * (t * (2 - t))).
  { intros t. unfold squares, objective. cbn. lra. }
  assert (X : -2 = 0); [|lra]. eapply uniqueness_limite; [|exact D]. eapply derivable_pt_lim_ext; [|exact H].
  intros t. apply E.
Qed.
