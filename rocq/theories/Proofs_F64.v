(** Binary64 as in the model ([SpecFloat]) and as in Flocq: the operations
    agree, so Flocq's correctness theorems apply.  The first four lemmas follow
    Flocq's file IEEE754/PrimFloat.v, without primitive floats. *)
From Coq Require Import Reals ZArith NArith Lia Lra.
From Coq Require Import Floats.SpecFloat.
From Flocq Require Import Core.Core IEEE754.BinarySingleNaN.
From Verif Require Import Num ModelSolve.
Local Open Scope Z_scope.

Lemma prec_gt : Prec_gt_0 f64_prec.
Proof. reflexivity. Qed.
Lemma prec_lt : Prec_lt_emax f64_prec f64_emax.
Proof. reflexivity. Qed.
#[export] Existing Instance prec_gt.
#[export] Existing Instance prec_lt.

Notation b64 := (binary_float f64_prec f64_emax).

Lemma nearest_even_equiv s m l : round_nearest_even m l = choice_mode mode_NE s m l.
Proof.
  destruct l as [|c]; [reflexivity|]. destruct c; try reflexivity.
  simpl. unfold Round.cond_incr. now destruct (Z.even m).
Qed.
Lemma round_aux_equiv sx mx ex lx :
  SpecFloat.binary_round_aux f64_prec f64_emax sx mx ex lx
  = BinarySingleNaN.binary_round_aux f64_prec f64_emax mode_NE sx mx ex lx.
Proof.
  unfold SpecFloat.binary_round_aux, BinarySingleNaN.binary_round_aux.
  set (mrse' := shr_fexp _ _ _). destruct mrse' as [mrs' e']. simpl.
  now rewrite (nearest_even_equiv sx).
Qed.
Lemma round_equiv s m e :
  SpecFloat.binary_round f64_prec f64_emax s m e =
  BinarySingleNaN.binary_round f64_prec f64_emax mode_NE s m e.
Proof.
  unfold SpecFloat.binary_round, BinarySingleNaN.binary_round, shl_align_fexp.
  set (mez := shl_align _ _ _). destruct mez as [mz ez]. apply round_aux_equiv.
Qed.
Lemma normalize_equiv m e z :
  SpecFloat.binary_normalize f64_prec f64_emax m e z
  = B2SF (BinarySingleNaN.binary_normalize f64_prec f64_emax prec_gt prec_lt mode_NE m e z).
Proof.
  destruct m as [|p|p]; simpl; auto; rewrite B2SF_SF2B; apply round_equiv.
Qed.

Definition b64_ofZ (z : Z) : b64 :=
  BinarySingleNaN.binary_normalize f64_prec f64_emax prec_gt prec_lt mode_NE z 0 false.
Lemma ofZ_equiv z : f64_ofZ z = B2SF (b64_ofZ z).
Proof. apply normalize_equiv. Qed.

Lemma mul_equiv (x y : b64) :
  SFmul f64_prec f64_emax (B2SF x) (B2SF y) = B2SF (Bmult mode_NE x y).
Proof.
  destruct x as [sx|sx| |sx mx ex Bx], y as [sy|sy| |sy my ey By]; try reflexivity.
  simpl. rewrite B2SF_SF2B. apply round_aux_equiv.
Qed.
Lemma leb_equiv (x y : b64) : SFleb (B2SF x) (B2SF y) = Bleb x y.
Proof. reflexivity. Qed.

(** Small integers convert exactly *)
Lemma ofZ_exact z : Z.abs z <= 2 ^ 53 ->
  B2R (b64_ofZ z) = IZR z /\ is_finite (b64_ofZ z) = true.
Proof.
  intros Hz.
  pose proof (binary_normalize_correct f64_prec f64_emax prec_gt prec_lt mode_NE z 0 false) as H.
  cbv zeta in H.
  assert (E : F2R (Float radix2 z 0) = IZR z) by (unfold F2R; simpl; ring).
  rewrite E in H.
  assert (G : generic_format radix2 (SpecFloat.fexp f64_prec f64_emax) (IZR z)).
  { destruct (Z.eq_dec (Z.abs z) (2 ^ 53)) as [Q|Q].
    - assert (G0 : generic_format radix2 (SpecFloat.fexp f64_prec f64_emax) (bpow radix2 53)).
      { apply generic_format_bpow. vm_compute. discriminate. }
      destruct (Z.abs_spec z) as [[_ A]|[_ A]]; rewrite A in Q.
      + rewrite Q. exact G0.
      + replace z with (- 2 ^ 53) by lia. rewrite opp_IZR. apply generic_format_opp. exact G0.
    - rewrite <- E. apply generic_format_F2R. intros Nz.
      unfold cexp, SpecFloat.fexp, SpecFloat.emin.
      assert (L : mag radix2 (F2R (Float radix2 z 0)) <= 53).
      { apply mag_le_bpow.
        - rewrite E. intros C. apply eq_IZR in C. contradiction.
        - rewrite E, <- abs_IZR. change (bpow radix2 53) with (IZR (2 ^ 53)). apply IZR_lt. lia. }
      unfold f64_prec, f64_emax. lia. }
  rewrite round_generic in H by (auto with typeclass_instances).
  assert (B : (Rabs (IZR z) < bpow radix2 f64_emax)%R).
  { rewrite <- abs_IZR. apply Rle_lt_trans with (IZR (2 ^ 53)); [now apply IZR_le|].
    change (IZR (2 ^ 53)) with (bpow radix2 53). apply bpow_lt. reflexivity. }
  rewrite Rlt_bool_true in H by exact B. destruct H as (H1 & H2 & _).
  unfold b64_ofZ. auto.
Qed.

(** The factor [1. / u32::MAX as f64] is 2^-32 + 2^-64 *)
Definition draw_factor : b64 := @B754_finite f64_prec f64_emax false 4503599628419072 (-84) eq_refl.
Lemma draw_factor_equiv : ndiv nunit (nofZ (2 ^ 32 - 1)) = B2SF draw_factor.
Proof. vm_compute. reflexivity. Qed.
Lemma draw_factor_value : B2R draw_factor = (/ IZR (2 ^ 32) + / IZR (2 ^ 64))%R.
Proof.
  unfold draw_factor, B2R, F2R. simpl cond_Zopp. cbn [Fnum Fexp].
  change (bpow radix2 (-84)) with (/ IZR (2 ^ 84))%R.
  change (2 ^ 84)%Z with (4503599627370496 * 4294967296)%Z.
  change (2 ^ 64)%Z with (4294967296 * 4294967296)%Z. change (2 ^ 32)%Z with 4294967296%Z.
  rewrite !mult_IZR. field.
Qed.

Lemma next_f64_range (rng : N) :
  let x := snd (next_f64 rng) in
  SFleb (f64_ofZ 0) x = true /\ SFleb x (f64_ofZ 1) = true.
Proof.
  cbv zeta. unfold next_f64. cbn [snd]. set (v := lcg rng).
  assert (Hv : (v < 2 ^ 32)%N) by (unfold v, lcg; apply N.mod_lt; discriminate).
  rewrite draw_factor_equiv. change (nofZ (Z.of_N v)) with (f64_ofZ (Z.of_N v)).
  rewrite !ofZ_equiv.
  assert (X : forall a b : f64, nmul a b = SFmul f64_prec f64_emax a b) by reflexivity.
  rewrite X, mul_equiv.
  assert (Ha : Z.abs (Z.of_N v) <= 2 ^ 53) by (change (2 ^ 53) with 9007199254740992; lia).
  destruct (ofZ_exact _ Ha) as [Ev Fv].
  pose proof (Bmult_correct f64_prec f64_emax prec_gt prec_lt mode_NE draw_factor (b64_ofZ (Z.of_N v))) as H.
  rewrite Ev, draw_factor_value in H.
  set (r := ((/ IZR (2 ^ 32) + / IZR (2 ^ 64)) * IZR (Z.of_N v))%R) in *.
  assert (R0 : (0 <= r)%R).
  { unfold r. apply Rmult_le_pos; [|apply IZR_le; lia].
    assert (0 < / IZR (2 ^ 32))%R by (apply Rinv_0_lt_compat, IZR_lt; reflexivity).
    assert (0 < / IZR (2 ^ 64))%R by (apply Rinv_0_lt_compat, IZR_lt; reflexivity). lra. }
  assert (R1 : (r <= 1)%R).
  { assert (L : (IZR (Z.of_N v) <= 4294967295)%R) by (apply IZR_le; lia).
    unfold r. change (2 ^ 64)%Z with (4294967296 * 4294967296)%Z. change (2 ^ 32)%Z with 4294967296%Z.
    rewrite mult_IZR. lra. }
  set (fx := SpecFloat.fexp f64_prec f64_emax) in *.
  assert (G1 : generic_format radix2 fx 1).
  { change 1%R with (bpow radix2 0). apply generic_format_bpow. vm_compute. discriminate. }
  assert (S0 : (0 <= round radix2 fx (round_mode mode_NE) r)%R).
  { rewrite <- (round_0 radix2 fx (round_mode mode_NE)). apply round_le; auto with typeclass_instances.
    apply fexp_correct. exact prec_gt. }
  assert (S1 : (round radix2 fx (round_mode mode_NE) r <= 1)%R).
  { rewrite <- (round_generic radix2 fx (round_mode mode_NE) 1 G1). apply round_le; auto with typeclass_instances.
    apply fexp_correct. exact prec_gt. }
  rewrite Rlt_bool_true in H.
  2: { rewrite Rabs_pos_eq by auto. apply Rle_lt_trans with (bpow radix2 0); [exact S1|].
       apply bpow_lt. reflexivity. }
  destruct H as (H1 & H2 & _). rewrite Fv in H2. simpl andb in H2.
  rewrite !leb_equiv.
  destruct (ofZ_exact 0 ltac:(discriminate)) as [E0 F0]. destruct (ofZ_exact 1 ltac:(discriminate)) as [E1 F1].
  rewrite !Bleb_correct by auto. rewrite H1, E0, E1.
  split; apply Rle_bool_true; auto.
Qed.
