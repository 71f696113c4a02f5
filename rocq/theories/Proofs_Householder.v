(** Householder reflections *)
From Coq Require Import List Reals Arith Lia Lra Bool.
From Verif Require Import Num NumR Outcome Lib ModelSparse ModelForest ModelCholesky ModelQr Spec_Linear Spec_Qr
  Proofs_Triangular Proofs_Linear.
Import ListNotations.
Local Open Scope R_scope.

Lemma spread_nil_r rows i : spread rows [] i = 0.
Proof. destruct rows; reflexivity. Qed.

Lemma spread_out rows values i : ~ In i rows -> spread rows values i = 0.
Proof.
  revert values. induction rows as [|r rows IH]; intros values Hi; [reflexivity|].
  destruct values as [|v values]; [reflexivity|]. cbn [spread].
  destruct (Nat.eqb_spec r i) as [->|Hr]; [exfalso; apply Hi; now left|].
  rewrite IH; [lra|]. intros H. apply Hi. now right.
Qed.

Lemma spread_in rows values k r v :
  NoDup rows -> nth_error rows k = Some r -> nth_error values k = Some v -> spread rows values r = v.
Proof.
  revert values k. induction rows as [|r0 rows IH]; intros values k Hn Hr Hv; [destruct k; discriminate|].
  destruct values as [|v0 values]; [destruct k; discriminate|]. cbn [spread].
  inversion Hn as [|? ? Hn1 Hn2]; subst.
  destruct k as [|k]; cbn [nth_error] in *.
  - injection Hr as ->. injection Hv as ->. rewrite Nat.eqb_refl, spread_out by assumption. lra.
  - destruct (Nat.eqb_spec r0 r) as [->|Hne].
    + exfalso. apply Hn1. eapply nth_error_In; eassumption.
    + rewrite (IH values k); auto. lra.
Qed.

Lemma inner_plus_l n x y z : inner n (fun i => x i + y i) z = inner n x z + inner n y z.
Proof. rewrite inner_sym, inner_plus_r, (inner_sym n z x), (inner_sym n z y). reflexivity. Qed.
Lemma inner_minus_l n x y z : inner n (fun i => x i - y i) z = inner n x z - inner n y z.
Proof. rewrite inner_sym, inner_minus_r, (inner_sym n z x), (inner_sym n z y). reflexivity. Qed.
Lemma inner_scal_l n c x y : inner n (fun i => c * x i) y = c * inner n x y.
Proof. rewrite inner_sym, inner_scal_r, inner_sym. reflexivity. Qed.
Lemma inner_zero_l n x y : (forall i, (i < n)%nat -> x i = 0 \/ y i = 0) -> inner n x y = 0.
Proof.
  intros H. apply rsum_zero. intros i Hi. apply in_seq in Hi. destruct (H i) as [-> | ->]; [lia|lra|lra].
Qed.

Lemma inner_spread n rows values x :
  Forall (fun r => r < n)%nat rows -> length values = length rows ->
  inner n (spread rows values) x = fold_right Rplus 0 (map (fun '(r, v) => v * x r) (combine rows values)).
Proof.
  revert values. induction rows as [|r rows IH]; intros values Hr Hl.
  - cbn. apply inner_zero_l. intros. left. reflexivity.
  - destruct values as [|v values]; [discriminate|]. cbn [combine map fold_right].
    inversion Hr as [|? ? Hr1 Hr2]; subst. rewrite <- IH by (auto; cbn in Hl; lia).
    change (spread (r :: rows) (v :: values)) with (fun i => (if Nat.eqb r i then v else 0) + spread rows values i).
    rewrite inner_plus_l. f_equal. unfold inner.
    rewrite <- (rsum_delta_l n r (fun i => v * x i)) by assumption.
    apply rsum_ext. intros i _. unfold delta. destruct (Nat.eqb r i); lra.
Qed.

(** A reflector is orthogonal when [beta] is 0 or 2 / |w|^2. *)
Lemma reflect_orthogonal n beta w :
  beta * (beta * inner n w w - 2) = 0 -> orthogonal n (reflect n beta w).
Proof.
  intros Hb x y. unfold reflect.
  assert (E : forall x y, inner n (fun i => x i - beta * inner n w x * w i) (fun i => y i - beta * inner n w y * w i)
    = inner n x y + (beta * (beta * inner n w w - 2)) * (inner n w x * inner n w y)).
  { intros x0 y0. rewrite inner_minus_r, !inner_minus_l, !inner_scal_r, !inner_scal_l.
    rewrite (inner_sym n x0 w). lra. }
  rewrite E, Hb. lra.
Qed.

Lemma reflect_ext n beta w w' x x' i :
  (i < n)%nat ->
  (forall i, (i < n)%nat -> w i = w' i) -> (forall i, (i < n)%nat -> x i = x' i) ->
  reflect n beta w x i = reflect n beta w' x' i.
Proof.
  intros Hi Hw Hx. unfold reflect. rewrite (inner_ext n w x w' x'), Hw, Hx by auto. reflexivity.
Qed.

Lemma reflect_trivial n beta w x i : inner n w x = 0 -> reflect n beta w x i = x i.
Proof. intros H. unfold reflect. rewrite H. lra. Qed.

Lemma inner_S n x y : inner (S n) x y = x 0%nat * y 0%nat + inner n (fun i => x (S i)) (fun i => y (S i)).
Proof. unfold inner. cbn [seq]. rewrite rsum_cons, rsum_shift. reflexivity. Qed.

Lemma norm_cons v0 tail :
  norm (v0 :: tail) = sqrt (v0 * v0 + inner (length tail) (coords tail) (coords tail)).
Proof. unfold norm. cbn [length]. rewrite inner_S. reflexivity. Qed.

(** The reflector computed for a vector *)
Lemma householder_ok v : v <> [] -> exists u nv beta,
  calculate_householder v = Done (u, nv, beta) /\ length u = length v /\ nv = norm v /\
  beta * (beta * inner (length v) (coords u) (coords u) - 2) = 0 /\
  forall i, (i < length v)%nat -> reflect (length v) beta (coords u) (coords v) i = nv * e1 i.
Proof.
  intros Hv. destruct v as [|v0 tail]; [contradiction|]. clear Hv.
  unfold calculate_householder.
  cbn [nzero nunit nadd nmul nsub ndiv nneg nabs nsqrt nleb neqb NumR].
  rewrite fold_squares, Rplus_0_l. set (sg := inner (length tail) (coords tail) (coords tail)).
  assert (Hsg : 0 <= sg) by apply inner_pos.
  cbn [length]. unfold Reqb, Rleb.
  destruct (Req_EM_T sg 0) as [E0|E0].
  - assert (Ht : forall i, (i < length tail)%nat -> coords tail i = 0).
    { intros i Hi. unfold sg, inner in E0.
      assert (P : forall l f, (forall j : nat, 0 <= f j) -> rsum f l = 0 -> forall j, In j l -> f j = 0).
      { clear. induction l as [|x l IH]; intros f Hf Hs j Hj; [destruct Hj|].
        rewrite rsum_cons in Hs. assert (0 <= rsum f l) by (apply rsum_nonneg; auto). pose proof (Hf x).
        destruct Hj as [<-|Hj]; [lra|]. apply IH; auto. lra. }
      specialize (P _ (fun i => coords tail i * coords tail i) (fun j => Rle_0_sqr _) E0 i).
      cbn beta in P. assert (coords tail i * coords tail i = 0) by (apply P; apply in_seq; lia). now apply Rsqr_0_uniq. }
    exists (1 :: tail), (Rabs v0), (if Rle_dec 0 v0 then 0 else 1 + 1).
    split; [destruct (Rle_dec 0 v0); reflexivity|]. split; [reflexivity|]. split.
    + rewrite norm_cons. fold sg. rewrite E0, Rplus_0_r. symmetry. apply sqrt_Rsqr_abs.
    + rewrite inner_S. change (fun i => coords (1 :: tail) (S i)) with (coords tail). fold sg.
      change (coords (1 :: tail) 0%nat) with 1. split; [rewrite E0; destruct (Rle_dec 0 v0); lra|].
      intros i Hi. unfold reflect. rewrite inner_S.
      change (fun i => coords (1 :: tail) (S i)) with (coords tail).
      change (fun i => coords (v0 :: tail) (S i)) with (coords tail). fold sg.
      change (coords (1 :: tail) 0%nat) with 1. change (coords (v0 :: tail) 0%nat) with v0. rewrite E0.
      unfold e1, delta. destruct i as [|i]; cbn [Nat.eqb].
      * change (coords (v0 :: tail) 0%nat) with v0. change (coords (1 :: tail) 0%nat) with 1.
        destruct (Rle_dec 0 v0).
        -- rewrite Rabs_right by lra. lra.
        -- rewrite Rabs_left by lra. lra.
      * change (coords (v0 :: tail) (S i)) with (coords tail i). change (coords (1 :: tail) (S i)) with (coords tail i).
        rewrite Ht by lia. lra.
  - set (nv := sqrt (sg + v0 * v0)).
    assert (Hp : 0 < sg + v0 * v0) by (pose proof (Rle_0_sqr v0); unfold Rsqr in *; lra).
    assert (Hnv : 0 < nv) by (apply sqrt_lt_R0; exact Hp).
    assert (Hsq : nv * nv = sg + v0 * v0) by (apply sqrt_sqrt; lra).
    set (v0' := if Rle_dec v0 0 then v0 - nv else - sg / (v0 + nv)).
    assert (Hv0 : v0' = v0 - nv).
    { unfold v0'. destruct (Rle_dec v0 0); [reflexivity|]. apply Rmult_eq_reg_r with (v0 + nv); [|lra].
      unfold Rdiv. rewrite Rmult_assoc, Rinv_l by lra. nra. }
    assert (Hne : v0 - nv <> 0).
    { intros H. assert (Q : v0 = nv) by lra. rewrite <- Q in Hsq. lra. }
    exists (v0' :: tail), nv, (- recip (nv * v0')).
    split; [unfold v0'; destruct (Rle_dec v0 0); reflexivity|]. split; [reflexivity|]. split.
    + rewrite norm_cons. fold sg. unfold nv. f_equal. lra.
    + unfold recip. cbn [nunit ndiv nmul NumR]. rewrite Hv0. set (beta := - (1 / (nv * (v0 - nv)))).
      assert (Hb : beta * (nv * (v0 - nv)) = -1) by (unfold beta; field; split; lra).
      rewrite inner_S. change (fun i => coords ((v0 - nv) :: tail) (S i)) with (coords tail). fold sg.
      change (coords (v0 - nv :: tail) 0%nat) with (v0 - nv).
      assert (S2 : (v0 - nv) * (v0 - nv) + sg = -2 * (nv * (v0 - nv))) by nra.
      split.
      * rewrite S2. replace (beta * (beta * (-2 * (nv * (v0 - nv))) - 2))
          with (-2 * beta * (beta * (nv * (v0 - nv)) + 1)) by ring. rewrite Hb. lra.
      * intros i Hi. unfold reflect. rewrite inner_S.
        change (fun i => coords ((v0 - nv) :: tail) (S i)) with (coords tail).
        change (fun i => coords (v0 :: tail) (S i)) with (coords tail). fold sg.
        change (coords (v0 - nv :: tail) 0%nat) with (v0 - nv). change (coords (v0 :: tail) 0%nat) with v0.
        assert (S3 : (v0 - nv) * v0 + sg = - (nv * (v0 - nv))) by nra. rewrite S3.
        replace (beta * - (nv * (v0 - nv))) with 1 by (rewrite <- Ropp_mult_distr_r, Hb; lra).
        unfold e1, delta. destruct i as [|i]; cbn [Nat.eqb].
        -- change (coords (v0 - nv :: tail) 0%nat) with (v0 - nv). change (coords (v0 :: tail) 0%nat) with v0. lra.
        -- change (coords (v0 - nv :: tail) (S i)) with (coords tail i).
           change (coords (v0 :: tail) (S i)) with (coords tail i). lra.
Qed.

(* ----- applying a reflector ----- *)

Lemma coords_nth_error x i v : nth_error x i = Some v -> coords x i = v.
Proof. intros H. unfold coords. now apply nth_error_nth. Qed.
Lemma coords_get x i : (i < length x)%nat -> nth_error x i = Some (coords x i).
Proof. intros H. unfold coords. now apply nth_error_nth'. Qed.
Lemma coords_out x i : (length x <= i)%nat -> coords x i = 0.
Proof. intros H. unfold coords. now apply nth_overflow. Qed.
Lemma coords_lset x i v j :
  (i < length x)%nat -> coords (lset x i v) j = if Nat.eqb i j then v else coords x j.
Proof.
  intros Hi. unfold coords. destruct (Nat.eqb_spec i j) as [<-|Hne].
  - apply nth_error_nth. now apply nth_error_lset_eq.
  - destruct (nth_error x j) eqn:E.
    + rewrite (nth_error_nth _ _ _ E). apply nth_error_nth. now rewrite nth_error_lset_ne.
    + apply nth_error_None in E. rewrite !nth_overflow; auto. now rewrite lset_length.
Qed.

Section Apply.
  Variables (values : list R).

  Lemma tau_fold (x : list R) rows : forall off vs tau,
    Forall (fun r => r < length x)%nat rows -> length vs = length rows ->
    (forall k, nth_error vs k = nth_error values (off + k)) ->
    ofold (fun tau '(idx, row) =>
        let! v := oget values idx in
        let! xr := oget x row in
        Done (tau + v * xr)) (combine (seq off (length rows)) rows) tau
    = Done (tau + fold_right Rplus 0 (map (fun '(r, v) => v * coords x r) (combine rows vs))).
  Proof.
    induction rows as [|r rows IH]; intros off vs tau Hr Hl Hv.
    - cbn. f_equal. lra.
    - destruct vs as [|v vs]; [discriminate|]. cbn [length seq combine ofold map fold_right].
      inversion Hr as [|? ? Hr1 Hr2]; subst.
      pose proof (Hv 0%nat) as Hv0. cbn in Hv0. rewrite Nat.add_0_r in Hv0.
      unfold oget at 1. rewrite <- Hv0. cbn [obind]. unfold oget at 1. rewrite (coords_get x r Hr1). cbn [obind].
      rewrite (IH (S off) vs); auto.
      + f_equal. lra.
      + intros k. specialize (Hv (S k)). cbn in Hv. rewrite Hv. f_equal. lia.
  Qed.

  Lemma update_fold (tau : R) rows : forall (x : list R) off vs,
    Forall (fun r => r < length x)%nat rows -> NoDup rows -> length vs = length rows ->
    (forall k, nth_error vs k = nth_error values (off + k)) ->
    exists x', ofold (fun x '(idx, row) =>
        let! v := oget values idx in
        let! xr := oget x row in
        oset x row (xr - v * tau)) (combine (seq off (length rows)) rows) x = Done x' /\
      length x' = length x /\ forall i, coords x' i = coords x i - tau * spread rows vs i.
  Proof.
    induction rows as [|r rows IH]; intros x off vs Hr Hn Hl Hv.
    - exists x. cbn. split; [reflexivity|]. split; [reflexivity|]. intros; lra.
    - destruct vs as [|v vs]; [discriminate|]. cbn [length seq combine ofold].
      inversion Hr as [|? ? Hr1 Hr2]; subst. inversion Hn as [|? ? Hn1 Hn2]; subst.
      pose proof (Hv 0%nat) as Hv0. cbn in Hv0. rewrite Nat.add_0_r in Hv0.
      unfold oget at 1. rewrite <- Hv0. cbn [obind]. unfold oget at 1. rewrite (coords_get x r Hr1). cbn [obind].
      rewrite oset_ok by assumption. cbn [obind].
      destruct (IH (lset x r (coords x r - v * tau)) (S off) vs) as (x' & E & L & C).
      + eapply Forall_impl; [|exact Hr2]. intros; rewrite lset_length; assumption.
      + assumption.
      + cbn in Hl; lia.
      + intros k. specialize (Hv (S k)). cbn in Hv. rewrite Hv. f_equal. lia.
      + exists x'. split; [exact E|]. split; [now rewrite L, lset_length|].
        intros i. rewrite C, coords_lset by assumption. cbn [spread].
        destruct (Nat.eqb_spec r i) as [<-|Hne]; [|lra]. rewrite spread_out by assumption. lra.
  Qed.
End Apply.

Lemma apply_householder_ok x beta rows values :
  Forall (fun r => r < length x)%nat rows -> NoDup rows -> length values = length rows ->
  exists x', apply_householder x beta rows values = Done x' /\ length x' = length x /\
    forall i, coords x' i = reflect (length x) beta (spread rows values) (coords x) i.
Proof.
  intros Hr Hn Hl. unfold apply_householder, enumerate. cbn [nzero nadd nmul nsub NumR].
  rewrite (tau_fold values x rows 0 values 0 Hr Hl (fun k => eq_refl)). cbn [obind].
  set (tau := (0 + _) * beta).
  destruct (update_fold values tau rows x 0 values Hr Hn Hl (fun k => eq_refl)) as (x' & E & L & C).
  exists x'. split; [exact E|]. split; [exact L|]. intros i. rewrite C. unfold reflect.
  rewrite inner_spread by assumption. unfold tau. lra.
Qed.

(** Inner products with a spread vector are inner products over its rows. *)
Lemma inner_rows n rows values x :
  Forall (fun r => r < n)%nat rows -> length values = length rows ->
  inner n (spread rows values) x = inner (length rows) (coords values) (fun k => x (nth k rows 0%nat)).
Proof.
  intros Hr Hl. rewrite inner_spread by assumption. clear Hr. revert values Hl.
  induction rows as [|r rows IH]; intros [|v values] Hl; try discriminate.
  - reflexivity.
  - cbn [combine map fold_right length]. rewrite inner_S, IH by (cbn in Hl; lia). reflexivity.
Qed.

Lemma spread_nth rows values k :
  NoDup rows -> length values = length rows -> (k < length rows)%nat -> spread rows values (nth k rows 0%nat) = coords values k.
Proof.
  intros Hn Hl Hk. apply (spread_in _ _ k); auto.
  - now apply nth_error_nth'.
  - apply coords_get. lia.
Qed.

(** The reflector of the entries of [x] in some rows, applied in place: the first
    of them becomes their norm, the others vanish, the rest stays. *)
Lemma eliminate_ok n x rows v u nv beta :
  Forall (fun r => r < n)%nat rows -> NoDup rows -> rows <> [] ->
  length v = length rows -> (forall k, (k < length rows)%nat -> coords v k = x (nth k rows 0%nat)) ->
  calculate_householder v = Done (u, nv, beta) ->
  length u = length rows /\ nv = norm v /\
  orthogonal n (reflect n beta (spread rows u)) /\
  (forall k, (k < length rows)%nat -> reflect n beta (spread rows u) x (nth k rows 0%nat) = nv * e1 k) /\
  (forall i, ~ In i rows -> reflect n beta (spread rows u) x i = x i).
Proof.
  intros Hr Hn Hne Hl Hx E.
  assert (Hv : v <> []) by (intros ->; destruct rows; [contradiction|discriminate]).
  destruct (householder_ok v Hv) as (u' & nv' & beta' & E' & Lu & Nv & Ob & Rv).
  rewrite E in E'. injection E' as <- <- <-.
  assert (Lu' : length u = length rows) by congruence.
  split; [exact Lu'|]. split; [exact Nv|]. split.
  { apply reflect_orthogonal. rewrite inner_rows by assumption.
    rewrite (inner_ext (length rows) _ _ (coords u) (coords u)); [now rewrite <- Hl| |]; intros k Hk; auto.
    now apply spread_nth. }
  split.
  - intros k Hk. unfold reflect. rewrite inner_rows, spread_nth by assumption.
    rewrite <- Hx by assumption. rewrite <- (Rv k) by lia. unfold reflect. rewrite Hl.
    rewrite (inner_ext _ _ _ (coords u) (coords v)); auto.
    intros i Hi. symmetry. now apply Hx.
  - intros i Hi. unfold reflect. rewrite spread_out by assumption. lra.
Qed.
