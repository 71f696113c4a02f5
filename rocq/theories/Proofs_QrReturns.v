(** If solving with the factorization returns, every row was given a place within the matrix. *)
From Coq Require Import List Arith Bool Lia.
From Verif Require Import Num Outcome Lib ModelSparse Spec_Sparse ModelForest ModelCholesky ModelQr Spec_Qr
  Proofs_QrSolve Proofs_Symbolic.
Import ListNotations.
Local Open Scope nat_scope.

Lemma apply_householder_length {F} {NF : Num F} (x : list F) beta rows values y :
  apply_householder x beta rows values = Done y -> length y = length x.
Proof.
  unfold apply_householder. intros E. apply obind_done in E. destruct E as (tau & _ & E). cbv zeta in E.
  refine (ofold_inv (fun z : list F => length z = length x) _ _ _ _ _ eq_refl E).
  intros z [idx row] z' _ Hz Ez. apply obind_done in Ez. destruct Ez as (v & _ & Ez). apply obind_done in Ez.
  destruct Ez as (w & _ & Ez). apply oset_done in Ez. destruct Ez as [_ ->]. rewrite lset_length. exact Hz.
Qed.

Lemma solve_length {F} {NF : Num F} sq (q : qr F) b r : qr_solve sq q b = Done r -> length b = s_nrows (sq_h_structure sq).
Proof.
  intros E. unfold qr_solve in E. apply obind_done in E. destruct E as (y & Ey & _). unfold q_tr_mul in Ey. cbv zeta in Ey.
  apply obind_done in Ey. destruct Ey as ([] & Ea & _).
  unfold oassert in Ea. destruct (Nat.eqb_spec (length b) (s_nrows (sq_h_structure sq))); [assumption|discriminate].
Qed.

Lemma solve_in_range {F} {NF : Num F} sq (q : qr F) b r : qr_solve sq q b = Done r ->
  s_nrows (sq_r_structure sq) <= s_nrows (sq_h_structure sq) /\
  forall i p, i < s_nrows (sq_h_structure sq) -> permuted_row sq i = Done p -> p < s_nrows (sq_h_structure sq).
Proof.
  intros E. pose proof (solve_length sq q b r E) as Lb. unfold qr_solve in E. apply obind_done in E. destruct E as (y & Ey & E).
  apply obind_done in E. destruct E as (front & Ef & _). unfold q_tr_mul in Ey. cbv zeta in Ey.
  apply obind_done in Ey. destruct Ey as ([] & _ & Ey).
  apply obind_done in Ey. destruct Ey as (y0 & E0 & Ey). set (m := s_nrows (sq_h_structure sq)) in *.
  assert (C : (fun (pre : list nat) (z : list F) => length z = m /\ forall i p, In i pre -> permuted_row sq i = Done p -> p < m) (seq 0 m) y0).
  { refine (ofold_inv_prefix (fun (pre : list nat) (z : list F) => length z = m /\ forall i p, In i pre -> permuted_row sq i = Done p -> p < m)
      _ (seq 0 m) _ _ _ _ E0).
    - intros pre i suf z z' _ (L & H) Es. apply obind_done in Es. destruct Es as (p & Ep & Es).
      apply obind_done in Es. destruct Es as (v & _ & Es). apply oset_done in Es. destruct Es as [Hp ->].
      rewrite lset_length. split; [exact L|]. intros j p' Hj Ej. apply in_app_or in Hj. destruct Hj as [Hj|[<-|[]]]; [eapply H; eassumption|].
      assert (p' = p) by congruence. subst p'. lia.
    - split; [rewrite repeat_length; exact Lb|]. intros i p []. }
  cbn beta in C. destruct C as [L0 HC].
  assert (Ly : length y = m).
  { refine (ofold_inv (fun z : list F => length z = m) _ _ _ _ _ L0 Ey).
    intros z j z' _ Hz Ez. apply obind_done in Ez. destruct Ez as ([st sp] & _ & Ez).
    apply obind_done in Ez. destruct Ez as (rows & _ & Ez). apply obind_done in Ez. destruct Ez as (beta & _ & Ez).
    apply obind_done in Ez. destruct Ez as (vals & _ & Ez). apply apply_householder_length in Ez. congruence. }
  split.
  - unfold oslice in Ef. destruct (Nat.leb_spec (s_nrows (sq_r_structure sq)) (length y)) as [H|H]; [lia|].
    rewrite andb_false_r in Ef. discriminate.
  - intros i p Hi. apply HC. apply in_seq. lia.
Qed.

(** Whatever the rank: a run that returns had a well-formed symbolic factorization. *)
Theorem returns_symbolic {F} {NF : Num F} colamd ordering (a : matrix F) b r : well_formed (m_structure a) ->
  (ordering = Colamd -> exists p, colamd (m_structure a) = Done p /\ is_ordering (s_ncols (m_structure a)) p) ->
  qr_least_squares colamd ordering a b = Done r ->
  exists sq rho Rs Hs, symbolic_build colamd (m_structure a) ordering = Done sq /\ symbolic_ok (m_structure a) sq rho Rs Hs.
Proof.
  intros W Hc E. unfold qr_least_squares in E. apply obind_done in E. destruct E as (sq & Es & E).
  apply obind_done in E. destruct E as (q & _ & E). destruct (solve_in_range sq q b r E) as [Hn Hp].
  destruct (symbolic_build_core colamd (m_structure a) ordering W Hc) as (ps & fcs & _ & _ & H3).
  destruct (H3 sq Es) as (_ & Eh & Er). rewrite Eh in Hn, Hp. rewrite Er in Hn.
  destruct (symbolic_build_in_range colamd (m_structure a) ordering sq W Hc Es Hn Hp) as (rho & Rs & Hs & SO).
  exists sq, rho, Rs, Hs. auto.
Qed.
