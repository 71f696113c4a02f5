(** The pseudo-random generator and the perturbation of start values. *)
From Coq Require Import List Arith NArith ZArith Znumtheory Zpow_facts Lia.
From Verif Require Import Num Outcome Lib ModelSolve.
Import ListNotations.
Local Open Scope nat_scope.

(** ** Full period *)
Section Period.
  Local Open Scope Z_scope.
  Let a : Z := 1664525.
  Let c : Z := 1013904223.

  Fixpoint geo (n : nat) : Z := match n with O => 0 | S n => 1 + a * geo n end.

  Lemma geo_add n m : geo (n + m) = geo n + a ^ Z.of_nat n * geo m.
  Proof.
    induction n as [|n IH].
    { change (a ^ Z.of_nat 0) with 1. change (geo 0) with 0. change (0 + m)%nat with m. ring. }
    change (geo (S n + m)) with (1 + a * geo (n + m)). rewrite IH.
    change (geo (S n)) with (1 + a * geo n).
    rewrite Nat2Z.inj_succ, Z.pow_succ_r by lia. ring.
  Qed.
  Lemma a_pow_mod4 n : a ^ Z.of_nat n mod 4 = 1.
  Proof.
    induction n as [|n IH]; [reflexivity|].
    rewrite Nat2Z.inj_succ, Z.pow_succ_r, Z.mul_mod, IH by lia. reflexivity.
  Qed.
  Lemma geo_odd n : Z.odd (geo n) = Nat.odd n.
  Proof.
    induction n as [|n IH]; [reflexivity|].
    change (geo (S n)) with (1 + a * geo n). rewrite Z.odd_add, Z.odd_mul, IH.
    rewrite Nat.odd_succ, <- Nat.negb_odd. destruct (Nat.odd n); reflexivity.
  Qed.
  Lemma odd_cancel k x y : Z.odd x = true -> (2 ^ k | x * y) -> (2 ^ k | y).
  Proof.
    intros Hx H. destruct (Z.neg_nonneg_cases k) as [Hk|Hk].
    - rewrite Z.pow_neg_r in * by auto. destruct H as [z Hz]. rewrite Z.mul_0_r in Hz.
      apply Z.mul_eq_0 in Hz. destruct Hz as [->| ->]; [discriminate|]. exists 0. ring.
    - apply Z.gauss with x; auto. apply Zgcd_1_rel_prime.
      destruct (Z.odd_spec x) as [Q _]. destruct (Q Hx) as [m ->].
      apply rel_prime_sym, rel_prime_Zpower_r; auto.
      apply Zgcd_1_rel_prime. rewrite Z.gcd_comm.
      replace (2 * m + 1) with (1 + m * 2) by ring. rewrite Z.gcd_add_mult_diag_r. reflexivity.
  Qed.
  Lemma geo_divides k n : (2 ^ Z.of_nat k | geo n) <-> (2 ^ Z.of_nat k | Z.of_nat n).
  Proof.
    revert n. induction k as [|k IH]; intros n.
    - simpl. split; intros _; apply Z.divide_1_l.
    - rewrite Nat2Z.inj_succ, Z.pow_succ_r by lia.
      destruct (Nat.odd n) eqn:On.
      + assert (O1 : Z.odd (geo n) = true) by now rewrite geo_odd.
        assert (O2 : Z.odd (Z.of_nat n) = true).
        { apply Nat.odd_spec in On. destruct On as [m ->]. apply Z.odd_spec. exists (Z.of_nat m). lia. }
        split; intros [z Hz]; exfalso.
        * rewrite Hz in O1. rewrite !Z.odd_mul in O1. simpl in O1. now rewrite Bool.andb_false_r in O1.
        * rewrite Hz in O2. rewrite !Z.odd_mul in O2. simpl in O2. now rewrite Bool.andb_false_r in O2.
      + assert (En : Nat.even n = true) by (rewrite <- Nat.negb_odd, On; auto).
        apply Nat.even_spec in En. destruct En as [m ->].
        replace (2 * m)%nat with (m + m)%nat by lia. rewrite geo_add.
        pose proof (a_pow_mod4 m) as A. set (p := a ^ Z.of_nat m) in *.
        assert (Hp : exists t, p = 4 * t + 1).
        { exists (p / 4). pose proof (Z.div_mod p 4 ltac:(lia)). lia. }
        destruct Hp as [t Hp].
        replace (geo m + p * geo m) with (2 * ((2 * t + 1) * geo m)) by (rewrite Hp; ring).
        replace (Z.of_nat (m + m)) with (2 * Z.of_nat m) by lia.
        rewrite !Z.mul_divide_cancel_l by lia. rewrite <- IH. split.
        * apply odd_cancel. apply Z.odd_spec. exists t. ring.
        * intros [z Hz]. exists ((2 * t + 1) * z). rewrite Hz. ring.
  Qed.

  (** The state after [n] draws, as a number *)
  Lemma lcg_iter n s : Z.of_N (Nat.iter n lcg s) mod 2 ^ 32 =
    (Z.of_N s + geo n * ((a - 1) * Z.of_N s + c)) mod 2 ^ 32.
  Proof.
    induction n as [|n IH]; [simpl; now rewrite Z.add_0_r|].
    change (Nat.iter (S n) lcg s) with (lcg (Nat.iter n lcg s)).
    unfold lcg at 1. rewrite N2Z.inj_mod, N2Z.inj_add, N2Z.inj_mul.
    change (Z.of_N (2 ^ 32)) with (2 ^ 32). rewrite Zmod_mod.
    change (Z.of_N 1664525) with a. change (Z.of_N 1013904223) with c.
    rewrite Z.add_mod, Z.mul_mod, IH, <- Z.mul_mod, <- Z.add_mod by lia.
    f_equal. change (geo (S n)) with (1 + a * geo n). ring.
  Qed.
  Lemma lcg_lt s : (lcg s < 2 ^ 32)%N.
  Proof. unfold lcg. apply N.mod_lt. discriminate. Qed.
  Lemma lcg_iter_lt n s : (s < 2 ^ 32)%N -> (Nat.iter n lcg s < 2 ^ 32)%N.
  Proof. destruct n; simpl; auto using lcg_lt. Qed.

  Lemma lcg_return n s : (s < 2 ^ 32)%N -> (Nat.iter n lcg s = s <-> (2 ^ 32 | Z.of_nat n)).
  Proof.
    intros Hs. change 32 with (Z.of_nat 32). rewrite <- geo_divides. change (Z.of_nat 32) with 32.
    assert (Od : Z.odd ((a - 1) * Z.of_N s + c) = true).
    { rewrite Z.odd_add, Z.odd_mul. reflexivity. }
    pose proof (lcg_iter n s) as E. pose proof (lcg_iter_lt n s Hs) as L.
    set (y := Nat.iter n lcg s) in *. set (d := (a - 1) * Z.of_N s + c) in *.
    assert (Q : (2 ^ 32 | geo n) <-> (2 ^ 32 | geo n * d)).
    { split; [intros [z Hz]; exists (z * d); rewrite Hz; ring|].
      rewrite Z.mul_comm. apply odd_cancel; auto. }
    rewrite Q. rewrite Z.mod_small in E by lia. split.
    - intros Ey. rewrite Ey in E. exists ((Z.of_N s + geo n * d) / 2 ^ 32).
      pose proof (Z.div_mod (Z.of_N s + geo n * d) (2 ^ 32) ltac:(lia)). lia.
    - intros [z Hz]. rewrite Hz, Z.mod_add, Z.mod_small in E by lia. lia.
  Qed.
End Period.

Lemma iter_add {A} (f : A -> A) n m x : Nat.iter (n + m) f x = Nat.iter n f (Nat.iter m f x).
Proof. induction n; simpl; congruence. Qed.

(** No state comes back within 2^32 draws, and the 2^32nd draw closes the cycle *)
Lemma lcg_distinct s i j : (s < 2 ^ 32)%N -> (N.of_nat i < 2 ^ 32)%N -> (N.of_nat j < 2 ^ 32)%N ->
  Nat.iter i lcg s = Nat.iter j lcg s -> i = j.
Proof.
  intros Hs.
  assert (G : forall i d, (N.of_nat (d + i) < 2 ^ 32)%N -> Nat.iter (d + i) lcg s = Nat.iter i lcg s -> d = 0).
  { clear i j. intros i d Hd E. rewrite iter_add in E.
    apply lcg_return in E; [|now apply lcg_iter_lt].
    destruct d as [|d]; [auto|]. exfalso. apply Z.divide_pos_le in E; [|lia].
    change (2 ^ 32)%N with 4294967296%N in Hd. change (2 ^ 32)%Z with 4294967296%Z in E. lia. }
  intros Hi Hj E. destruct (Nat.le_ge_cases i j) as [L|L].
  - assert (j - i = 0); [|lia]. apply (G i); replace (j - i + i) with j by lia; auto.
  - assert (i - j = 0); [|lia]. apply (G j); replace (i - j + j) with i by lia; auto.
Qed.
Lemma lcg_period s : (s < 2 ^ 32)%N -> N.iter (2 ^ 32) lcg s = s.
Proof.
  intros Hs. rewrite N2Nat.inj_iter. apply lcg_return; auto.
  exists 1%Z. rewrite N_nat_Z. reflexivity.
Qed.

(** ** The perturbation *)
Section Perturb.
  Context {F : Type} {NF : Num F}.
  Local Open Scope num_scope.

  (** The [n]-th number drawn after state [rng] *)
  Definition draw (rng : N) (n : nat) : F := snd (next_f64 (Nat.iter n lcg rng)).

  Lemma perturb_spec free : forall rng vt rng' vt', NoDup free ->
    perturb_variables free rng vt = Done (rng', vt') ->
    rng' = Nat.iter (2 * length free) lcg rng /\ length vt' = length vt /\
    (forall v, ~ In v free -> nth_error vt' v = nth_error vt v) /\
    (forall k v x, nth_error free k = Some v -> nth_error vt v = Some x ->
       nth_error vt' v = Some (x + (x * (nunit / nofZ 8196) * draw rng (2 * k)
                                    + (nunit / nofZ 65568) * draw rng (2 * k + 1)))).
  Proof.
    unfold perturb_variables. induction free as [|v free IH]; intros rng vt rng' vt' ND H.
    - simpl in H. inversion H; subst. split; [auto|]. split; [auto|]. split; [auto|].
      intros [|k] v x Hk; discriminate.
    - cbn [ofold] in H. apply obind_done in H. destruct H as ([r1 vt1] & H1 & H).
      apply obind_done in H1. destruct H1 as (x & Hx & H1). apply oget_done in Hx.
      unfold next_f64 in H1. cbv zeta in H1.
      apply obind_done in H1. destruct H1 as (vt2 & Hs & H1). apply oset_done in Hs. destruct Hs as [Lv ->].
      inversion H1; subst r1 vt1; clear H1. inversion ND as [|? ? Nv ND']; subst.
      apply IH in H; [|auto]. destruct H as (E & L & Old & New).
      split.
      { rewrite E. change (lcg (lcg rng)) with (Nat.iter 2 lcg rng). rewrite <- iter_add. f_equal. simpl. lia. }
      split; [rewrite L; apply lset_length|]. split.
      + intros w Hw. simpl in Hw. rewrite Old by tauto. apply nth_error_lset_ne. tauto.
      + intros [|k] w y Hk Hy; simpl in Hk.
        * inversion Hk; subst w; clear Hk. rewrite Old by auto. rewrite nth_error_lset_eq by auto.
          rewrite Hx in Hy. inversion Hy; subst. reflexivity.
        * assert (Nw : w <> v) by (intros ->; apply nth_error_In in Hk; contradiction).
          rewrite (New k w y); auto; [|rewrite nth_error_lset_ne; auto].
          unfold draw. change (lcg (lcg rng)) with (Nat.iter 2 lcg rng). rewrite <- !iter_add.
          replace (2 * k + 2)%nat with (2 * S k)%nat by lia.
          replace (2 * k + 1 + 2)%nat with (2 * S k + 1)%nat by lia. reflexivity.
  Qed.
End Perturb.
