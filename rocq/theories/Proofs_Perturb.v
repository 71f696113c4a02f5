(** The perturbation over the reals and inside [solve]. *)
From Coq Require Import List Arith NArith ZArith Reals Lra Lia.
From Verif Require Import Num NumR Outcome Lib ModelGraph ModelSystem ModelSolve Proofs_Solve Proofs_Random.
Import ListNotations.

Lemma draw_range (rng : N) n : (0 <= draw rng n <= 1)%R.
Proof.
  unfold draw, next_f64. cbn [snd]. set (v := lcg _).
  assert (Hv : (v < 2 ^ 32)%N) by apply lcg_lt.
  change ((0 <= (1 / IZR (2 ^ 32 - 1)) * IZR (Z.of_N v) <= 1)%R).
  assert (L1 : (0 <= IZR (Z.of_N v))%R) by (apply IZR_le; lia).
  assert (L2 : (IZR (Z.of_N v) <= 4294967295)%R) by (apply IZR_le; lia).
  change (2 ^ 32 - 1)%Z with 4294967295%Z. lra.
Qed.

Lemma perturb_bound free rng vt rng' vt' : NoDup free ->
  perturb_variables free rng vt = Done (rng', vt') ->
  forall v x x', nth_error vt v = Some x -> nth_error vt' v = Some x' ->
    (Rabs (x' - x) <= Rabs x / 8196 + 1 / 65568)%R.
Proof.
  intros ND H v x x' Hx Hx'. destruct (perturb_spec _ _ _ _ _ ND H) as (_ & _ & Old & New).
  pose proof (Rabs_pos x) as Px.
  destruct (in_dec Nat.eq_dec v free) as [Hin|Hn].
  - apply In_nth_error in Hin. destruct Hin as [k Hk]. rewrite (New k v x Hk Hx) in Hx'.
    inversion Hx'; subst x'; clear Hx'.
    pose proof (draw_range rng (2 * k)) as D1. pose proof (draw_range rng (2 * k + 1)) as D2.
    set (d1 := draw rng (2 * k)) in *. set (d2 := draw rng (2 * k + 1)) in *.
    change ((Rabs (x + (x * (1 / 8196) * d1 + 1 / 65568 * d2) - x) <= Rabs x / 8196 + 1 / 65568)%R).
    replace (x + (x * (1 / 8196) * d1 + 1 / 65568 * d2) - x)%R with (x * d1 / 8196 + d2 / 65568)%R by field.
    eapply Rle_trans; [apply Rabs_triang|].
    assert (E1 : (Rabs (x * d1 / 8196) <= Rabs x / 8196)%R).
    { unfold Rdiv. rewrite !Rabs_mult. rewrite (Rabs_pos_eq d1), (Rabs_pos_eq (/ 8196)) by lra.
      apply Rmult_le_compat_r; [lra|]. rewrite <- (Rmult_1_r (Rabs x)) at 2. apply Rmult_le_compat_l; lra. }
    assert (E2 : (Rabs (d2 / 65568) <= 1 / 65568)%R) by (rewrite Rabs_pos_eq; lra).
    lra.
  - rewrite Old, Hx in Hx' by auto. inversion Hx'; subst. rewrite Rminus_diag_eq, Rabs_R0 by auto. lra.
Qed.

Section Stream.
  Context {F : Type} {NF : Num F}.
  (** A group takes up the stream where the group before it left off *)
  Lemma component_stream (env : solver_env F) opts scale rng s c rng' s' :
    solve_component env opts scale (rng, s) c = Done (rng', s') ->
    if o_perturb opts then
      exists free, component_free_variables s (c_elements c) = Done free /\ NoDup free /\
        rng' = Nat.iter (2 * length free) lcg rng
    else rng' = rng.
  Proof.
    unfold solve_component. destruct (c_elements c) as [|e0 es0] eqn:Ec.
    { intros H. inversion H; subst. destruct (o_perturb opts); [|auto].
      exists []. split; [reflexivity|]. split; [constructor|reflexivity]. }
    rewrite <- Ec. intros H.
    apply obind_done in H. destruct H as (free & Hf & H).
    apply obind_done in H. destruct H as ([rng1 vt] & Hp & H).
    apply obind_done in H. destruct H as (s2 & _ & H). inversion H; subst.
    pose proof (component_free_spec _ _ _ Hf) as [N _].
    destruct (o_perturb opts).
    - exists free. split; [auto|]. split; [auto|]. eapply Proofs_Random.perturb_spec; eauto.
    - now inversion Hp.
  Qed.
End Stream.
