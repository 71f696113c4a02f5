(** Lists indexed by integers, and loops over ranges of integers *)
From Coq Require Import List Arith ZArith Lia Bool Permutation.
From Verif Require Import Outcome Lib ModelColamd.
Import ListNotations.
Local Open Scope Z_scope.

Definition zlen {A} (l : list A) : Z := Z.of_nat (length l).
(** The entry at [i], or [d] *)
Definition znth {A} (d : A) (l : list A) (i : Z) : A := if i <? 0 then d else nth (Z.to_nat i) l d.
Definition zput {A} (l : list A) (i : Z) (x : A) : list A := lset l (Z.to_nat i) x.

Section Zlist.
  Context {A : Type} (d : A).

  Lemma zlen_nonneg (l : list A) : 0 <= zlen l.
  Proof. unfold zlen. lia. Qed.
  Lemma zget_ok (l : list A) i : 0 <= i < zlen l -> zget l i = Done (znth d l i).
  Proof.
    unfold zlen, zget, znth. intros H. destruct (Z.ltb_spec i 0); [lia|]. unfold oget.
    rewrite (nth_error_nth' l d) by lia. reflexivity.
  Qed.
  Lemma zget_done (l : list A) i x : zget l i = Done x -> 0 <= i < zlen l /\ x = znth d l i.
  Proof.
    unfold zlen, zget, znth. destruct (Z.ltb_spec i 0); [discriminate|]. unfold oget.
    destruct (nth_error l (Z.to_nat i)) as [y|] eqn:E; intros [= <-].
    split; [|symmetry; now apply nth_error_nth].
    apply nth_error_Some_lt in E || (assert (nth_error l (Z.to_nat i) <> None) as Hn by congruence; apply nth_error_Some in Hn; lia).
  Qed.
  Lemma zset_ok (l : list A) i x : 0 <= i < zlen l -> zset l i x = Done (zput l i x).
  Proof.
    unfold zlen, zset, zput, oset. intros H. destruct (Z.ltb_spec i 0); [lia|].
    destruct (Nat.ltb_spec (Z.to_nat i) (length l)); [reflexivity|lia].
  Qed.
  Lemma zupdate_ok (l : list A) i f : 0 <= i < zlen l -> zupdate l i f = Done (zput l i (f (znth d l i))).
  Proof. intros H. unfold zupdate. rewrite zget_ok by exact H. cbn [obind]. now apply zset_ok. Qed.
  Lemma lset_length (l : list A) : forall i x, length (lset l i x) = length l.
  Proof. induction l as [|y l IH]; intros [|i] x; cbn; auto. Qed.
  Lemma zlen_put (l : list A) i x : zlen (zput l i x) = zlen l.
  Proof. unfold zlen, zput. now rewrite lset_length. Qed.
  Lemma nth_lset (l : list A) : forall i j x, (i < length l)%nat -> nth j (lset l i x) d = if (i =? j)%nat then x else nth j l d.
  Proof.
    induction l as [|y l IH]; intros i j x H; [cbn in H; lia|].
    destruct i as [|i], j as [|j]; cbn in *; auto. apply IH. lia.
  Qed.
  Lemma znth_put (l : list A) i j x : 0 <= i < zlen l -> znth d (zput l i x) j = if i =? j then x else znth d l j.
  Proof.
    unfold zlen, znth, zput. intros H. destruct (Z.ltb_spec j 0) as [Hj|Hj].
    - destruct (Z.eqb_spec i j); [lia|reflexivity].
    - rewrite nth_lset by lia. destruct (Nat.eqb_spec (Z.to_nat i) (Z.to_nat j)), (Z.eqb_spec i j); auto; lia.
  Qed.
  Lemma znth_put_same (l : list A) i x : 0 <= i < zlen l -> znth d (zput l i x) i = x.
  Proof. intros H. rewrite znth_put by exact H. now rewrite Z.eqb_refl. Qed.
  Lemma znth_put_other (l : list A) i j x : 0 <= i < zlen l -> i <> j -> znth d (zput l i x) j = znth d l j.
  Proof. intros H N. rewrite znth_put by exact H. now destruct (Z.eqb_spec i j). Qed.
  Lemma znth_nth_error (l : list A) i x : 0 <= i -> nth_error l (Z.to_nat i) = Some x -> znth d l i = x /\ i < zlen l.
  Proof.
    intros Hi H. unfold znth, zlen. destruct (Z.ltb_spec i 0); [lia|]. split; [now apply nth_error_nth|].
    assert (Hn : nth_error l (Z.to_nat i) <> None) by congruence. apply nth_error_Some in Hn. lia.
  Qed.
  Lemma nth_error_znth (l : list A) i : 0 <= i < zlen l -> nth_error l (Z.to_nat i) = Some (znth d l i).
  Proof.
    unfold znth, zlen. intros H. destruct (Z.ltb_spec i 0); [lia|]. apply nth_error_nth'. lia.
  Qed.
  Lemma znth_repeat i n : znth d (repeat d n) i = d.
  Proof. unfold znth. destruct (i <? 0); [reflexivity|]. apply nth_repeat. Qed.
End Zlist.

(* ----- ranges ----- *)

Lemma In_zrange a b x : In x (zrange a b) <-> a <= x < b.
Proof.
  unfold zrange. rewrite in_map_iff. split.
  - intros (i & <- & H). apply in_seq in H. lia.
  - intros H. exists (Z.to_nat (x - a)). split; [lia|]. apply in_seq. lia.
Qed.
Lemma zrange_length a b : length (zrange a b) = Z.to_nat (b - a).
Proof. unfold zrange. now rewrite map_length, seq_length. Qed.
Lemma zrange_nil a b : b <= a -> zrange a b = [].
Proof. intros H. unfold zrange. replace (Z.to_nat (b - a)) with 0%nat by lia. reflexivity. Qed.
Lemma zrange_NoDup a b : NoDup (zrange a b).
Proof. unfold zrange. apply FinFun.Injective_map_NoDup; [intros x y; lia|apply seq_NoDup]. Qed.
Lemma zrange_app a b c : a <= b <= c -> zrange a c = zrange a b ++ zrange b c.
Proof.
  intros H. unfold zrange. replace (Z.to_nat (c - a)) with (Z.to_nat (b - a) + Z.to_nat (c - b))%nat by lia.
  rewrite seq_app, map_app. f_equal. cbn [Nat.add].
  replace (seq (Z.to_nat (b - a)) (Z.to_nat (c - b))) with (map (fun i => (Z.to_nat (b - a) + i)%nat) (seq 0 (Z.to_nat (c - b)))).
  - rewrite map_map. apply map_ext. intros i. lia.
  - generalize (Z.to_nat (b - a)) as m, (Z.to_nat (c - b)) as k. intros m k.
    revert m. assert (G : forall k s m, map (fun i => (m + i)%nat) (seq s k) = seq (m + s) k).
    { induction k0 as [|k0 IH]; intros s m; [reflexivity|]. cbn. f_equal. rewrite IH. f_equal. lia. }
    intros m. rewrite G. now rewrite Nat.add_0_r.
Qed.
Lemma zrange_one a : zrange a (a + 1) = [a].
Proof. unfold zrange. replace (Z.to_nat (a + 1 - a)) with 1%nat by lia. cbn. f_equal. lia. Qed.
Lemma zrange_snoc a b : a <= b -> zrange a (b + 1) = zrange a b ++ [b].
Proof. intros H. rewrite (zrange_app a b (b + 1)) by lia. now rewrite zrange_one. Qed.
Lemma zrange_cons a b : a < b -> zrange a b = a :: zrange (a + 1) b.
Proof. intros H. rewrite (zrange_app a (a + 1) b) by lia. now rewrite zrange_one. Qed.

(** A loop over [a..b], upwards *)
Lemma zloop {S} (P : Z -> S -> Prop) (f : S -> Z -> outcome S) a b : a <= b ->
  (forall i s, a <= i < b -> P i s -> exists s', f s i = Done s' /\ P (i + 1) s') ->
  forall s, P a s -> exists s', ofold f (zrange a b) s = Done s' /\ P b s'.
Proof.
  intros Hab Hf. assert (G : forall n a, a + Z.of_nat n = b ->
    (forall i s, a <= i < b -> P i s -> exists s', f s i = Done s' /\ P (i + 1) s') ->
    forall s, P a s -> exists s', ofold f (zrange a b) s = Done s' /\ P b s').
  { clear a Hab Hf. induction n as [|n IH]; intros a E Hf s Hs.
    - replace a with b in * by lia. rewrite zrange_nil by lia. exists s. auto.
    - rewrite zrange_cons by lia. cbn [ofold]. destruct (Hf a s) as (s' & E' & Hs'); [lia|auto|].
      rewrite E'. cbn [obind]. apply IH; [lia| |auto]. intros i t Hi. apply Hf. lia. }
  intros s Hs. apply (G (Z.to_nat (b - a)) a); auto. lia.
Qed.
(** A loop over [0..n], downwards *)
Lemma zloop_down {S} (P : Z -> S -> Prop) (f : S -> Z -> outcome S) n : 0 <= n ->
  (forall i s, 0 <= i < n -> P (i + 1) s -> exists s', f s i = Done s' /\ P i s') ->
  forall s, P n s -> exists s', ofold f (rev (zrange 0 n)) s = Done s' /\ P 0 s'.
Proof.
  intros Hn Hf. assert (G : forall k n, n = Z.of_nat k ->
    (forall i s, 0 <= i < n -> P (i + 1) s -> exists s', f s i = Done s' /\ P i s') ->
    forall s, P n s -> exists s', ofold f (rev (zrange 0 n)) s = Done s' /\ P 0 s').
  { clear n Hn Hf. induction k as [|k IH]; intros n E Hf s Hs.
    - subst n. exists s. auto.
    - replace n with (Z.of_nat k + 1) by lia. rewrite zrange_snoc by lia. rewrite rev_app_distr. cbn [rev app ofold].
      destruct (Hf (Z.of_nat k) s) as (s' & E' & Hs'); [lia|now replace (Z.of_nat k + 1) with n by lia|].
      rewrite E'. cbn [obind]. apply IH; auto. intros i t Hi. apply Hf. lia. }
  intros s Hs. apply (G (Z.to_nat n) n); auto. lia.
Qed.

(** A finite set of integers and a function into it *)
Lemma zrange_pigeon n l : NoDup l -> (forall x, In x l -> 0 <= x < n) -> (length l <= Z.to_nat n)%nat.
Proof.
  intros N H. rewrite <- (Z.sub_0_r n), <- zrange_length. apply NoDup_incl_length; auto.
  intros x Hx. apply In_zrange. auto.
Qed.
Lemma zrange_perm n l : NoDup l -> (forall x, In x l -> 0 <= x < n) -> zlen l = n -> Permutation l (zrange 0 n).
Proof.
  intros N H L. apply NoDup_Permutation_bis; auto.
  - rewrite zrange_length. unfold zlen in L. lia.
  - intros x Hx. apply In_zrange. auto.
Qed.
