(** Property C53: one symbolic factorization serves every matrix of its structure,
    and the factors multiply back to the matrix, in exact arithmetic.
    Statements use the model, [Spec_Sparse.v], [Spec_Linear.v] and [Spec_Qr.v]
    only. *)
From Coq Require Import List Reals Arith NArith Lia Lra Permutation.
From Verif Require Import Num NumR Outcome Lib ModelSparse ModelColamd Spec_Sparse ModelForest ModelCholesky ModelQr Spec_Linear Spec_Qr
  Proofs_Factorize Proofs_QrSolve Proofs_Symbolic Proofs_FullRank Proofs_QrFactor Props_Sparse Props_Colamd Props_Qr.
Import ListNotations.
Local Open Scope R_scope.

(** Let every column of the structure have an entry in a row of its own.  Then
    building the symbolic factorization, once, does not panic and fixes an order
    [p] of the columns: the given one if that was asked for.  From then on, for
    every matrix [A] of that structure, whatever its values:
    - factorizing does not panic, and [R], stored in the symbolic structure and the
      values returned, is a well-formed square upper triangular matrix whose
      diagonal is not negative;
    - [R^T R] is [A^T A] with its columns and rows in the order [p], so [A P = Q R]
      for some [Q] with orthonormal columns;
    - [Q^T b] has the length and the norm of [b], and [R^T Q^T b] is [A^T b] in the
      order [p]. *)
Theorem C53_factors : forall ordering s, well_formed s -> structural_full_rank s ->
  (ordering = Colamd -> orderable s) ->
  let m := s_nrows s in
  let n := s_ncols s in
  exists sq p, symbolic_build colamd_ordering s ordering = Done sq /\ is_ordering n p /\
    (ordering = Natural -> p = seq 0 n) /\
    forall (a : matrix R) A, m_structure a = s -> well_formed_matrix a -> represents 0 a A ->
      exists q U, factorize sq a = Done q /\
        let r := Matrix (sq_r_structure sq) (qr_r_values q) in
        well_formed_matrix r /\ s_nrows (m_structure r) = n /\ s_ncols (m_structure r) = n /\ represents 0 r U /\
        (forall i j, (j < i)%nat -> U i j = 0) /\ (forall j, (j < n)%nat -> 0 <= U j j) /\
        (forall j k, (j < n)%nat -> (k < n)%nat ->
           inner n (fun i => U i j) (fun i => U i k) =
           inner m (fun i => A i (nth j p 0%nat)) (fun i => A i (nth k p 0%nat))) /\
        forall b, length b = m -> exists y, q_tr_mul sq q b = Done y /\ length y = m /\
          inner m (coords y) (coords y) = inner m (coords b) (coords b) /\
          forall j, (j < n)%nat ->
            inner n (fun i => U i j) (coords y) = inner m (fun i => A i (nth j p 0%nat)) (coords b).
Proof.
  intros ordering s W FR Hc m n.
  destruct (symbolic_build_ok colamd_ordering s ordering W FR) as (sq & rho & Rs & Hs & E & SO).
  { intros Eo. apply colamd_orders; auto. }
  exists sq, (sq_col_permutation sq). split; [exact E|]. split; [exact (so_ordering _ _ _ _ _ SO)|]. split.
  { intros ->. revert E. unfold symbolic_build. cbv zeta.
    destruct (build_for_gather_permutation _) as [sequence| |]; cbn [obind]; [|discriminate|discriminate]. intros E.
    repeat match type of E with obind ?x _ = _ => destruct x; cbn [obind] in E; try discriminate end.
    injection E as <-. reflexivity. }
  intros a A Es Wa HA.
  destruct (factor_ok s sq rho Rs Hs a A SO Es Wa HA) as (q & U & Ef & En & Em & Wr & HU & Up & Dg & G & Q).
  exists q, U. split; [exact Ef|]. cbv zeta. split; [exact Wr|]. split; [exact En|]. split; [exact Em|].
  split; [exact HU|]. split; [exact Up|]. split; [exact Dg|]. split; [exact G|exact Q].
Qed.
Print Assumptions C53_factors.

(** The hypotheses are met by the structure of [three], which has three rows and
    two columns, and by every choice of its four values. *)
Example C53_example : well_formed (m_structure three) /\ structural_full_rank (m_structure three) /\
  orderable (m_structure three) /\
  forall v0 v1 v2 v3 : R, well_formed_matrix (Matrix (m_structure three) [v0; v1; v2; v3]).
Proof.
  destruct C37_example as (W & _ & FR & _). split; [apply W|]. split; [exact FR|].
  split; [vm_compute; repeat split; reflexivity|]. intros. constructor; [apply W|reflexivity].
Qed.
