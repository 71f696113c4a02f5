(** Sums, inner products and matrices over the reals *)
From Coq Require Import List Reals Arith Lia Lra Bool.
From Verif Require Import Num NumR Outcome Lib Spec_Linear Proofs_Triangular.
Import ListNotations.
Local Open Scope R_scope.

Lemma rsum_cons f x l : rsum f (x :: l) = f x + rsum f l.
Proof. reflexivity. Qed.
Lemma rsum_nil f : rsum f [] = 0.
Proof. reflexivity. Qed.
Lemma rsum_plus f g l : rsum (fun i => f i + g i) l = rsum f l + rsum g l.
Proof. induction l as [|x l IH]; rewrite ?rsum_nil, ?rsum_cons; [lra|]. rewrite IH. lra. Qed.
Lemma rsum_minus f g l : rsum (fun i => f i - g i) l = rsum f l - rsum g l.
Proof. induction l as [|x l IH]; rewrite ?rsum_nil, ?rsum_cons; [lra|]. rewrite IH. lra. Qed.
Lemma rsum_scal c f l : rsum (fun i => c * f i) l = c * rsum f l.
Proof. induction l as [|x l IH]; rewrite ?rsum_nil, ?rsum_cons; [lra|]. rewrite IH. lra. Qed.
Lemma rsum_scal_r c f l : rsum (fun i => f i * c) l = rsum f l * c.
Proof. induction l as [|x l IH]; rewrite ?rsum_nil, ?rsum_cons; [lra|]. rewrite IH. lra. Qed.
Lemma rsum_swap f l l' : rsum (fun i => rsum (fun j => f i j) l') l = rsum (fun j => rsum (fun i => f i j) l) l'.
Proof.
  induction l as [|x l IH]; rewrite ?rsum_nil, ?rsum_cons.
  - symmetry. apply rsum_zero. reflexivity.
  - rewrite IH, <- rsum_plus. now apply rsum_ext.
Qed.
Lemma rsum_map f g l : rsum f (map g l) = rsum (fun i => f (g i)) l.
Proof. induction l as [|x l IH]; [reflexivity|]. cbn [map]. now rewrite !rsum_cons, IH. Qed.
Lemma rsum_shift f n : rsum f (seq 1 n) = rsum (fun i => f (S i)) (seq 0 n).
Proof. rewrite <- seq_shift. apply rsum_map. Qed.
Lemma rsum_delta_l n i f : (i < n)%nat -> rsum (fun j => delta i j * f j) (seq 0 n) = f i.
Proof.
  intros H. assert (E : seq 0 n = seq 0 i ++ i :: seq (S i) (n - S i)).
  { replace n with (i + S (n - S i))%nat at 1 by lia. now rewrite seq_app. }
  rewrite E, rsum_app, rsum_cons. unfold delta. rewrite Nat.eqb_refl.
  rewrite !rsum_zero; [lra| |]; intros j Hj; apply in_seq in Hj;
    (destruct (Nat.eqb_spec i j); [lia|lra]).
Qed.
Lemma delta_sym i j : delta i j = delta j i.
Proof. unfold delta. now rewrite Nat.eqb_sym. Qed.
Lemma rsum_delta_r n i f : (i < n)%nat -> rsum (fun j => f j * delta j i) (seq 0 n) = f i.
Proof.
  intros H. rewrite <- (rsum_delta_l n i f H). apply rsum_ext. intros j _. rewrite delta_sym. lra.
Qed.
Lemma rsum_nonneg f l : (forall i, In i l -> 0 <= f i) -> 0 <= rsum f l.
Proof.
  induction l as [|x l IH]; intros H; rewrite ?rsum_nil, ?rsum_cons; [lra|].
  specialize (H x (or_introl eq_refl)) as Hx.
  assert (0 <= rsum f l) by (apply IH; intros; apply H; now right). lra.
Qed.

Lemma inner_sym n x y : inner n x y = inner n y x.
Proof. apply rsum_ext. intros; lra. Qed.
Lemma inner_ext n x y x' y' :
  (forall i, (i < n)%nat -> x i = x' i) -> (forall i, (i < n)%nat -> y i = y' i) -> inner n x y = inner n x' y'.
Proof.
  intros Hx Hy. apply rsum_ext. intros i Hi. apply in_seq in Hi. rewrite Hx, Hy by lia. reflexivity.
Qed.
Lemma inner_plus_r n x y z : inner n x (fun i => y i + z i) = inner n x y + inner n x z.
Proof. unfold inner. rewrite <- rsum_plus. apply rsum_ext; intros; lra. Qed.
Lemma inner_minus_r n x y z : inner n x (fun i => y i - z i) = inner n x y - inner n x z.
Proof. unfold inner. rewrite <- rsum_minus. apply rsum_ext; intros; lra. Qed.
Lemma inner_scal_r n c x y : inner n x (fun i => c * y i) = c * inner n x y.
Proof. unfold inner. rewrite <- rsum_scal. apply rsum_ext; intros; lra. Qed.
Lemma inner_pos n x : 0 <= inner n x x.
Proof. apply rsum_nonneg. intros. apply Rle_0_sqr. Qed.

Lemma apply_ext n A A' x x' i :
  (i < n)%nat ->
  (forall i j, (i < n)%nat -> (j < n)%nat -> A i j = A' i j) ->
  (forall j, (j < n)%nat -> x j = x' j) -> apply n A x i = apply n A' x' i.
Proof.
  intros Hi HA Hx. apply rsum_ext. intros j Hj. apply in_seq in Hj. rewrite HA, Hx by lia. reflexivity.
Qed.

Lemma fold_dot a : forall b acc, length a = length b ->
  fold_left (fun s '(x, y) => s + x * y) (combine a b) acc
  = acc + inner (length a) (coords a) (coords b).
Proof.
  unfold inner, coords.
  induction a as [|x a IH]; intros [|y b] acc Hl; try discriminate; cbn [combine fold_left length seq].
  - rewrite rsum_nil. lra.
  - rewrite IH by (cbn in Hl; lia). rewrite rsum_cons, rsum_shift. cbn [nth]. lra.
Qed.

Lemma fold_squares a : forall acc,
  fold_left (fun s x => s + x * x) a acc = acc + inner (length a) (coords a) (coords a).
Proof.
  unfold inner, coords.
  induction a as [|x a IH]; intros acc; cbn [fold_left length seq].
  - rewrite rsum_nil. lra.
  - rewrite IH. rewrite rsum_cons, rsum_shift. cbn [nth]. lra.
Qed.
