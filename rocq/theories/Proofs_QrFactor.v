(** What factorizing computes: [R^T R = P^T A^T A P] and [R^T Q^T b = P^T A^T b]. *)
From Coq Require Import List Arith Lia Reals Lra Bool Sorted Permutation.
From Verif Require Import Num NumR Outcome Lib ModelSparse ModelForest ModelCholesky ModelQr
  Spec_Sparse Spec_Linear Spec_Qr Proofs_Sparse Proofs_Format Proofs_Linear Proofs_Triangular Proofs_Householder
  Proofs_Elimination Proofs_Columns Proofs_Factorize Proofs_QrSolve.
Import ListNotations.
Local Open Scope R_scope.

Theorem factor_ok (s : structure) (sq : symbolic_qr) rho Rs Hs (a : matrix R) (A : nat -> nat -> R) :
  symbolic_ok s sq rho Rs Hs -> m_structure a = s -> well_formed_matrix a -> represents 0 a A ->
  let p j := nth j (sq_col_permutation sq) 0%nat in
  exists q U, factorize sq a = Done q /\
    s_nrows (sq_r_structure sq) = s_ncols s /\ s_ncols (sq_r_structure sq) = s_ncols s /\
    well_formed_matrix (Matrix (sq_r_structure sq) (qr_r_values q)) /\
    represents 0 (Matrix (sq_r_structure sq) (qr_r_values q)) U /\
    (forall i j, (j < i)%nat -> U i j = 0) /\ (forall j, (j < s_ncols s)%nat -> 0 <= U j j) /\
    (forall j k, (j < s_ncols s)%nat -> (k < s_ncols s)%nat ->
       inner (s_ncols s) (fun i => U i j) (fun i => U i k) = inner (s_nrows s) (fun i => A i (p j)) (fun i => A i (p k))) /\
    forall b, length b = s_nrows s -> exists y, q_tr_mul sq q b = Done y /\ length y = s_nrows s /\
      inner (s_nrows s) (coords y) (coords y) = inner (s_nrows s) (coords b) (coords b) /\
      forall j, (j < s_ncols s)%nat ->
        inner (s_ncols s) (fun i => U i j) (coords y) = inner (s_nrows s) (fun i => A i (p j)) (coords b).
Proof.
  intros SO Es W HA p.
  set (m := s_nrows s) in *. set (n := s_ncols s) in *. set (ord := sq_col_permutation sq) in *.
  set (cr := fun j => rows_of s (nth j ord 0%nat)).
  set (cv := fun j => match matrix_column a (nth j ord 0%nat) with Done (vs, _) => vs | _ => [] end).
  pose proof (so_ordering _ _ _ _ _ SO) as Ho. fold n ord in Ho.
  destruct (ordering_bound _ _ Ho) as (Lo & No & Bo).
  pose proof (so_shape _ _ _ _ _ SO) as Hmn. fold m n in Hmn.
  assert (Hord : forall j, (j < n)%nat -> nth_error ord j = Some (nth j ord 0%nat)) by (intros; apply nth_error_nth'; lia).
  assert (Hcol : forall j, (j < n)%nat -> exists c, oget ord j = Done c /\ matrix_column a c = Done (cv j, cr j) /\
     length (cv j) = length (cr j) /\ NoDup (cr j) /\ Forall (fun i => i < m)%nat (cr j) /\
     forall i, spread (cr j) (cv j) i = A i (nth j ord 0%nat)).
  { intros j Hj. exists (nth j ord 0%nat). split; [unfold oget; now rewrite Hord|].
    destruct (column_facts a A (nth j ord 0%nat) W HA) as (vs & rs & E1 & E2 & L & S1 & _ & B & V).
    { rewrite Es. apply (Bo j). now apply Hord. }
    rewrite Es in *. unfold cv, cr, rows_of. rewrite E1, E2. split; [reflexivity|]. split; [exact L|].
    split; [now apply sorted_lt_NoDup|]. split; [exact B|exact V]. }
  pose proof (so_inj _ _ _ _ _ SO) as Hinj. pose proof (so_row _ _ _ _ _ SO) as Hrow.
  destruct (factorize_ok m n Rs Hs sq a rho cv cr) as (rv & hv & betas & Ef & Lrv & Lhv & Lbe & Gor & Gcol & Gdiag);
    try first [exact (so_r _ _ _ _ _ SO) | exact (so_h _ _ _ _ _ SO) | exact (so_lr _ _ _ _ _ SO) | exact (so_lh _ _ _ _ _ SO) | exact (so_row _ _ _ _ _ SO) | exact (so_inj _ _ _ _ _ SO) | exact (so_hcol _ _ _ _ _ SO) | exact (so_rcol _ _ _ _ _ SO) | exact (so_above _ _ _ _ _ SO) | exact (so_below _ _ _ _ _ SO) | exact (so_apart _ _ _ _ _ SO)].
  { intros j Hj. destruct (Hcol j Hj) as (c & H1 & H2 & H3 & H4 & H5 & _). exists c. repeat split; assumption. }
  { now rewrite Es. }
  { exact Hmn. }
  assert (FR : Forall (fun c => StronglySorted lt c /\ Forall (fun r => r < n)%nat c) Rs).
  { apply Forall_forall. intros c Hc. apply In_nth_error in Hc. destruct Hc as (j & Hj).
    pose proof (nth_error_lt _ _ _ Hj) as Hj'. rewrite (so_lr _ _ _ _ _ SO) in Hj'.
    destruct (so_rcol _ _ _ _ _ SO j Hj') as (t & Et & St & Ft). rewrite Et in Hj. injection Hj as <-. split.
    - now apply Proofs_Convert.strongly_snoc.
    - apply Forall_app. split; [eapply Forall_impl; [|exact Ft]; cbn; intros; fold n in Hj'; lia|constructor; [exact Hj'|constructor]]. }
  set (U := fun i j => spread (nth j Rs []) (nth j rv []) i).
  destruct (layout_represents n Rs rv FR Lrv) as [WR RR0]. fold U in RR0.
  assert (Uup : forall i j, (j < i)%nat -> U i j = 0).
  { intros i j Hij. unfold U. apply spread_out. intros Hin.
    destruct (Nat.lt_ge_cases j n) as [Hj|Hj].
    - destruct (so_rcol _ _ _ _ _ SO j Hj) as (t & Et & _ & Ft). rewrite (nth_error_nth _ _ _ Et) in Hin.
      apply in_app_or in Hin as [Hin|[Hin|[]]]; [|lia]. rewrite Forall_forall in Ft. specialize (Ft _ Hin). lia.
    - rewrite nth_overflow in Hin; [destruct Hin|]. now rewrite (so_lr _ _ _ _ _ SO). }
  set (Qm := refls m Hs hv betas (seq 0 n)).
  set (col := acol rho cv cr).
  assert (Qort : orthogonal m Qm).
  { apply refls_orthogonal. intros k Hk. apply in_seq in Hk. apply Gor. lia. }
  assert (Qcol : forall j i, (j < n)%nat -> (i < m)%nat -> Qm (col j) i = U i j).
  { intros j i Hj Hi. apply Gcol; assumption. }
  assert (Hcola : forall i j, (i < m)%nat -> (j < n)%nat -> col j (rho i) = A i (p j)).
  { intros i j Hi Hj. destruct (Hcol j Hj) as (c & _ & _ & H3 & H4 & H5 & V). unfold p. rewrite <- V. unfold col, acol.
    rewrite Forall_forall in H5.
    assert (Nm : NoDup (map rho (cr j))).
    { clear - Hinj H4 H5. induction H4 as [|r l Hr _ IH]; cbn; constructor.
      - intros Hin. apply in_map_iff in Hin. destruct Hin as (r' & Er & Hr'). apply Hr.
        rewrite <- (Hinj r' r); auto; [apply H5; now right|apply H5; now left].
      - apply IH. intros r' Hr'. apply H5. now right. }
    destruct (in_dec Nat.eq_dec i (cr j)) as [Hin|Hout].
    - apply In_nth_error in Hin. destruct Hin as (k & Hk).
      destruct (nth_error_ex (cv j) k) as (v & Hv); [rewrite H3; eapply nth_error_lt; eauto|].
      rewrite (spread_in _ _ k i v H4 Hk Hv). apply (spread_in _ _ k); auto. now apply map_nth_error.
    - rewrite (spread_out (cr j)) by exact Hout. apply spread_out. intros Hin. apply in_map_iff in Hin.
      destruct Hin as (r' & Er & Hr'). apply Hout. rewrite <- (Hinj r' i); auto. }
  assert (Hinner : forall f : nat -> R, rsum f (seq 0 m) = rsum (fun i => f (rho i)) (seq 0 m)).
  { intros f. rewrite <- (rsum_map f rho). apply rsum_perm, Permutation_sym, injection_perm.
    - intros i Hi. now apply Hrow.
    - exact Hinj. }
  (* the rows from [n] on of the columns of U vanish *)
  assert (Hcut : forall j (w : nat -> R), (j < n)%nat -> inner m (fun i => U i j) w = inner n (fun i => U i j) w).
  { intros j w Hj. unfold inner. replace m with (n + (m - n))%nat by lia. rewrite seq_app, rsum_app.
    rewrite (rsum_zero _ (seq (0 + n) (m - n))); [lra|]. intros i Hi. apply in_seq in Hi. rewrite Uup by lia. lra. }
  assert (Er : Matrix (sq_r_structure sq) (concat rv) = Matrix (layout n Rs) (concat rv)).
  { now rewrite (so_r _ _ _ _ _ SO). }
  exists (Qr (concat rv) (concat hv) betas), U. cbn [qr_r_values].
  split; [exact Ef|]. split; [now rewrite (so_r _ _ _ _ _ SO)|].
  split; [rewrite (so_r _ _ _ _ _ SO); exact (so_lr _ _ _ _ _ SO)|].
  split; [rewrite Er; exact WR|]. split; [rewrite Er; exact RR0|]. split; [exact Uup|]. split; [exact Gdiag|]. split.
  - intros j k Hj Hk. rewrite <- Hcut by exact Hj.
    rewrite (inner_ext m _ _ (Qm (col j)) (Qm (col k))) by (intros; now rewrite Qcol).
    rewrite Qort. unfold inner. rewrite Hinner. apply rsum_ext. intros i Hi. apply in_seq in Hi.
    rewrite !Hcola by lia. reflexivity.
  - intros b Lb.
    destruct (q_tr_mul_ok m n Rs Hs sq a rho) with (rv := rv) (hv := hv) (betas := betas) (b := b)
      as (y0 & y & Ey & Ly & V0 & Vy); auto;
      try first [exact (so_r _ _ _ _ _ SO) | exact (so_h _ _ _ _ _ SO) | exact (so_lr _ _ _ _ _ SO) | exact (so_lh _ _ _ _ _ SO) | exact (so_row _ _ _ _ _ SO) | exact (so_inj _ _ _ _ _ SO) | exact (so_hcol _ _ _ _ _ SO) | exact (so_rcol _ _ _ _ _ SO) | exact (so_above _ _ _ _ _ SO) | exact (so_below _ _ _ _ _ SO) | exact (so_apart _ _ _ _ _ SO)].
    { now rewrite Es. }
    exists y. split; [exact Ey|]. split; [exact Ly|]. split.
    + rewrite (inner_ext m (coords y) (coords y) (Qm y0) (Qm y0)) by (intros; now apply Vy).
      rewrite Qort. unfold inner. rewrite Hinner. apply rsum_ext. intros i Hi. apply in_seq in Hi.
      rewrite !V0 by lia. reflexivity.
    + intros j Hj. rewrite <- Hcut by exact Hj.
      rewrite (inner_ext m _ (coords y) (Qm (col j)) (Qm y0)) by (intros; first [now rewrite Qcol|now apply Vy]).
      rewrite Qort. unfold inner. rewrite Hinner. apply rsum_ext. intros i Hi. apply in_seq in Hi.
      rewrite Hcola, V0 by lia. reflexivity.
Qed.
