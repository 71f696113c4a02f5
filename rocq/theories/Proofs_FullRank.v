(** Independent columns can be given rows of their own. *)
From Coq Require Import List Reals Arith Lia Lra Classical.
From Verif Require Import Num NumR Outcome Lib ModelSparse Spec_Sparse Spec_Linear Spec_Qr Proofs_Linear Proofs_Bfgs Proofs_Forest Proofs_Convert.
Import ListNotations.
Local Open Scope R_scope.

Definition apart (A : nat -> nat -> R) (n : nat) (rows : list nat) : Prop :=
  forall z, (forall i, In i rows -> rsum (fun j => A i j * z j) (seq 0 n) = 0) -> forall j, (j < n)%nat -> z j = 0.

Lemma rsum_eq f g l : (forall j, In j l -> f j = g j) -> rsum f l = rsum g l.
Proof.
  induction l as [|x l IH]; intros H; [reflexivity|]. rewrite !rsum_cons, (H x) by (now left). f_equal. apply IH.
  intros j Hj. apply H. now right.
Qed.
Lemma rsum_snoc f l x : rsum f (l ++ [x]) = rsum f l + f x.
Proof. induction l as [|y l IH]; cbn [app]; rewrite !rsum_cons, ?rsum_nil; [lra|]. rewrite IH. lra. Qed.
Lemma rsum_last f n : rsum f (seq 0 (S n)) = rsum f (seq 0 n) + f n.
Proof. rewrite seq_S. apply rsum_snoc. Qed.

Definition extend (n : nat) (y : nat -> R) (last : R) (j : nat) : R := if Nat.eqb j n then last else y j.
Lemma extend_sum (A : nat -> nat -> R) i n y last :
  rsum (fun j => A i j * extend n y last j) (seq 0 (S n)) = rsum (fun j => A i j * y j) (seq 0 n) + A i n * last.
Proof.
  rewrite rsum_last. unfold extend. rewrite Nat.eqb_refl. f_equal. apply rsum_eq. intros j Hj. apply in_seq in Hj.
  destruct (Nat.eqb_spec j n); [lia|reflexivity].
Qed.

Lemma apart_row A n rows : NoDup rows -> apart A (S n) rows ->
  exists i, In i rows /\ A i n <> 0 /\ apart A n (filter (fun k => negb (Nat.eqb k i)) rows).
Proof.
  intros N Ind. apply NNPP. intros No.
  assert (Unit : forall i, In i rows -> A i n <> 0 -> exists y,
    forall i', In i' rows -> rsum (fun j => A i' j * y j) (seq 0 n) = if Nat.eqb i' i then 1 else 0).
  { intros i Hi Ha. apply NNPP. intros Nu. apply No. exists i. split; [exact Hi|]. split; [exact Ha|].
    intros z Hz. set (t := rsum (fun j => A i j * z j) (seq 0 n)).
    assert (Hz' : forall i', In i' rows -> i' <> i -> rsum (fun j => A i' j * z j) (seq 0 n) = 0).
    { intros i' H1 H2. apply Hz. apply filter_In. split; [exact H1|]. destruct (Nat.eqb_spec i' i); [contradiction|reflexivity]. }
    destruct (Req_dec t 0) as [Et|Nt].
    - intros j Hj. specialize (Ind (extend n z 0)). rewrite <- (Ind) with (j := j); [|intros i' Hi'|lia].
      + unfold extend. destruct (Nat.eqb_spec j n); [lia|reflexivity].
      + rewrite extend_sum. destruct (Nat.eq_dec i' i) as [->|Ne]; [fold t; rewrite Et; ring|]. rewrite Hz' by assumption. ring.
    - exfalso. apply Nu. exists (fun j => / t * z j). intros i' Hi'.
      rewrite (rsum_eq _ (fun j => / t * (A i' j * z j))) by (intros; ring). rewrite rsum_scal.
      destruct (Nat.eqb_spec i' i) as [->|Ne]; [fold t; field; exact Nt|]. rewrite Hz' by assumption. ring. }
  assert (Comb : forall l, incl l rows -> NoDup l -> exists y, forall i', In i' rows ->
    rsum (fun j => A i' j * y j) (seq 0 n) = if in_dec Nat.eq_dec i' l then A i' n else 0).
  { induction l as [|i l IH]; intros Hin Nl.
    - exists (fun _ => 0). intros i' _. rewrite (rsum_eq _ (fun j => 0 * A i' j)) by (intros; ring). rewrite rsum_scal.
      destruct (in_dec Nat.eq_dec i' []) as [[]|_]. ring.
    - inversion Nl as [|? ? Ni Nl']; subst. destruct IH as [y Hy]; [intros k Hk; apply Hin; now right|exact Nl'|].
      destruct (Req_dec (A i n) 0) as [Ea|Na].
      + exists y. intros i' Hi'. rewrite Hy by exact Hi'.
        destruct (in_dec Nat.eq_dec i' l) as [H1|H1], (in_dec Nat.eq_dec i' (i :: l)) as [H2|H2]; auto.
        * exfalso; apply H2; now right.
        * destruct H2 as [<-|]; [now rewrite Ea|contradiction].
      + destruct (Unit i) as [u Hu]; [apply Hin; now left|exact Na|].
        exists (fun j => y j + A i n * u j). intros i' Hi'.
        rewrite (rsum_eq _ (fun j => A i' j * y j + A i n * (A i' j * u j))) by (intros; ring).
        rewrite rsum_plus, rsum_scal, Hy, Hu by exact Hi'.
        destruct (Nat.eqb_spec i' i) as [->|Ne].
        * destruct (in_dec Nat.eq_dec i l) as [|_]; [contradiction|].
          destruct (in_dec Nat.eq_dec i (i :: l)) as [_|H]; [ring|exfalso; apply H; now left].
        * destruct (in_dec Nat.eq_dec i' l) as [H1|H1], (in_dec Nat.eq_dec i' (i :: l)) as [H2|H2]; try ring.
          -- exfalso; apply H2; now right.
          -- destruct H2 as [|]; [congruence|contradiction]. }
  destruct (Comb rows (incl_refl _) N) as [y Hy].
  assert (H1 : extend n y (-1) n = 0).
  { apply Ind; [|lia]. intros i Hi. rewrite extend_sum, Hy by exact Hi.
    destruct (in_dec Nat.eq_dec i rows); [ring|contradiction]. }
  unfold extend in H1. rewrite Nat.eqb_refl in H1. lra.
Qed.

Lemma apart_transversal A : forall n rows, NoDup rows -> apart A n rows ->
  exists f, length f = n /\ NoDup f /\ incl f rows /\ forall j i, nth_error f j = Some i -> A i j <> 0.
Proof.
  induction n as [|n IH]; intros rows N Ind.
  - exists []. split; [reflexivity|]. split; [constructor|]. split; [intros x []|]. intros [|j] i H; discriminate.
  - destruct (apart_row A n rows N Ind) as (i & Hi & Ha & Ind').
    destruct (IH _ (NoDup_filter _ N) Ind') as (f & L & Nf & If & Hf).
    exists (f ++ [i]). split; [rewrite app_length; cbn; lia|]. split.
    { apply NoDup_app_intro; [exact Nf|repeat constructor; intros []|]. intros x Hx [<-|[]]. apply If, filter_In in Hx.
      rewrite Nat.eqb_refl in Hx. destruct Hx; discriminate. }
    split.
    { intros x Hx. apply in_app_or in Hx. destruct Hx as [Hx|[<-|[]]]; [|exact Hi]. apply If, filter_In in Hx. apply Hx. }
    intros j k H. apply nth_error_snoc in H. destruct H as [[_ H]|[-> ->]]; [apply (Hf _ _ H)|]. rewrite L. exact Ha.
Qed.

Lemma independent_full_rank (a : matrix R) (A : nat -> nat -> R) : represents 0 a A ->
  independent_columns (s_nrows (m_structure a)) (s_ncols (m_structure a)) A -> structural_full_rank (m_structure a).
Proof.
  intros HA Ind. set (m := s_nrows (m_structure a)) in *. set (n := s_ncols (m_structure a)) in *.
  destruct (apart_transversal A n (seq 0 m) (seq_NoDup _ _)) as (f & L & N & If & Hf).
  - intros z Hz j Hj. specialize (Ind (map z (seq 0 n))).
    assert (Hnth : forall k, (k < n)%nat -> nth k (map z (seq 0 n)) 0 = z k).
    { intros k Hk. apply nth_error_nth. rewrite nth_error_map, nth_error_seq, (proj2 (Nat.ltb_lt _ _)) by exact Hk. reflexivity. }
    rewrite <- (Hnth j Hj). apply Ind; [rewrite map_length; apply seq_length| |exact Hj].
    intros i Hi. unfold product. transitivity (rsum (fun j => A i j * z j) (seq 0 n)); [|apply Hz; apply in_seq; lia]. apply rsum_eq. intros k Hk. apply in_seq in Hk.
    f_equal. apply Hnth. lia.
  - exists f. split; [exact L|]. split; [exact N|]. intros j i H. specialize (Hf _ _ H).
    destruct (HA i j) as [(k & Hk & _)|[E _]]; [now exists k|contradiction].
Qed.
