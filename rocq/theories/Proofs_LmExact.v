(** In exact arithmetic Levenberg-Marquardt with sparse QR always returns *)
From Coq Require Import List Arith ZArith Lia Reals Lra Bool Sorted Permutation.
From Verif Require Import Num NumR Outcome Lib ModelSystem ModelSolve ModelLm ModelSparse ModelForest ModelCholesky ModelQr ModelOptimize
  Spec_Solver Spec_Lm Spec_Sparse Spec_Linear Spec_Qr Proofs_Real Proofs_Sparse Proofs_Linear Proofs_Triangular Proofs_QrSolve Proofs_Symbolic Proofs_QrSafe Proofs_Optimize.
Import ListNotations.
Local Open Scope R_scope.

(** Every well-formed matrix represents a full one. *)
Lemma represented (a : matrix R) : well_formed_matrix a -> exists A, represents 0 a A.
Proof.
  intros W. destruct (csc_of a W) as (L & C & E).
  exists (fun i j => match find (fun t => Nat.eqb (fst (fst t)) j && Nat.eqb (snd (fst t)) i) L with Some t => snd t | None => 0 end).
  intros i j. unfold element. destruct (find _ L) as [[[j' i'] v]|] eqn:Ef.
  - left. apply find_some in Ef. destruct Ef as [Hin Hb]. cbn in Hb. apply andb_prop in Hb. destruct Hb as [H1 H2].
    apply Nat.eqb_eq in H1, H2. subst. rewrite E. apply csc_entry; [exact C|]. exact Hin.
  - right. split; [reflexivity|]. intros (k & Hk). rewrite E in Hk. apply csc_stored in Hk; [|exact C].
    destruct Hk as (v & Hk). apply nth_error_In in Hk. pose proof (find_none _ _ Ef _ Hk) as Hn. cbn in Hn.
    now rewrite !Nat.eqb_refl in Hn.
Qed.

Lemma rsum_single f n k : (k < n)%nat -> (forall j, (j < n)%nat -> j <> k -> f j = 0) -> rsum f (seq 0 n) = f k.
Proof.
  intros Hk H. assert (G : forall m s, (s <= k < s + m)%nat -> (forall j, (s <= j < s + m)%nat -> j <> k -> f j = 0) -> rsum f (seq s m) = f k).
  { clear. induction m as [|m IH]; intros s Hs H; [lia|]. cbn [seq]. rewrite rsum_cons.
    destruct (Nat.eq_dec s k) as [->|Hne].
    - assert (Z : rsum f (seq (S k) m) = 0).
      { clear IH Hs. assert (forall l, (forall j, In j l -> f j = 0) -> rsum f l = 0) as Hz.
        { induction l as [|x l IHl]; intros Hl; [reflexivity|]. rewrite rsum_cons, IHl, (Hl x); [lra|now left|intros; apply Hl; now right]. }
        apply Hz. intros j Hj. apply in_seq in Hj. apply H; lia. }
      rewrite Z. lra.
    - rewrite (H s) by lia. rewrite IH; [lra|lia|]. intros j Hj. apply H. lia. }
  apply G; [lia|]. intros j Hj. apply H. lia.
Qed.
Lemma rsum_le f g l : (forall j, In j l -> f j <= g j) -> rsum f l <= rsum g l.
Proof.
  induction l as [|x l IH]; intros H; [cbn; lra|]. rewrite !rsum_cons.
  pose proof (H x (or_introl eq_refl)). pose proof (IH (fun j Hj => H j (or_intror Hj))). lra.
Qed.

(** The model's norm *)
Lemma norm_squared_rsum (v : list R) : norm_squared v = rsum (fun i => nth i v 0 * nth i v 0) (seq 0 (length v)).
Proof.
  unfold norm_squared.
  assert (G : forall l a, fold_left (fun a x : R => nadd a (nmul x x)) l a = a + rsum (fun i => nth i l 0 * nth i l 0) (seq 0 (length l))).
  { induction l as [|x l IH]; intros a; cbn [fold_left length seq]; [cbn; lra|]. rewrite IH, rsum_cons. cbn [nth].
    rewrite rsum_shift. cbn. lra. }
  rewrite G. cbn. lra.
Qed.

Lemma rsum_from f s n : rsum f (seq s n) = rsum (fun i => f (s + i)%nat) (seq 0 n).
Proof.
  revert s. induction n as [|n IH]; intros s; [reflexivity|]. cbn [seq]. rewrite !rsum_cons, IH, rsum_shift.
  rewrite Nat.add_0_r. f_equal. apply rsum_ext. intros i _. f_equal. lia.
Qed.

(** Triplets at one place *)
Lemma Forall_filter_nil {A} (f : A -> bool) l : filter f l = [] <-> Forall (fun x => f x = false) l.
Proof.
  induction l as [|x l IH]; cbn; [split; auto|]. destruct (f x) eqn:E; split; intros H; try discriminate.
  - inversion H. congruence.
  - constructor; [exact E|now apply IH].
  - inversion H. now apply IH.
Qed.
Lemma entry_values (ts : list (nat * nat * R)) i j : Spec_Jacobian.entry ts i j = fold_right Rplus 0 (values_at ts i j).
Proof.
  induction ts as [|[[r c] v] ts IH]; [reflexivity|]. cbn [Spec_Jacobian.entry]. unfold values_at in *. cbn [filter fst snd].
  destruct (_ && _)%bool; cbn [map fold_right snd]; rewrite <- IH; lra.
Qed.
Lemma total_sum (v : R) vs : fold_left Rplus vs v = fold_right Rplus 0 (v :: vs).
Proof. cbn. revert v. induction vs as [|w vs IH]; intros v; cbn; [lra|]. rewrite IH. lra. Qed.

Section Exact.
  Variable colamd : structure -> outcome (list nat).
  Variable sort : (nat -> nat * nat) -> list nat -> list nat.
  Hypothesis Hsort : sorting sort.
  Variable p : problem R.
  Hypothesis Hcolamd : orders_for colamd sort p.
  Hypothesis Hp : problem_ok p.
  Let nrows := num_residuals p.
  Let ncols := num_variables p.
  Let slv : damped_solver R symbolic_qr := qr_solver colamd sort.

  (** With damping the step is found, and it is short. *)
  Lemma damped_step sq ts d r : fits sort p sq -> given p ts -> d <> 0 -> length r = nrows ->
    exists y, ds_solve slv sq (nrows + ncols) ncols (augment nrows ncols ts) d (r ++ repeat 0 ncols) = Done (Some y) /\
      length y = (nrows + ncols)%nat /\ d * d * norm_squared (firstn ncols y) <= norm_squared r /\
      forall z, length z = ncols ->
        damped nrows ncols (Spec_Jacobian.entry ts) (fun i => - nth i r 0) (d * d) (firstn ncols y) <=
        damped nrows ncols (Spec_Jacobian.entry ts) (fun i => - nth i r 0) (d * d) z.
  Proof.
    intros (s & rho & Rs & Hs & SO & Hf) G Hd Lr. destruct (Hf ts G) as (a & E & W & Es & S1 & S2 & St).
    fold nrows ncols in E, S1, S2, St. pose proof (given_within p Hp ts G) as Wt. fold nrows ncols in Wt.
    cbn [slv qr_solver ds_solve]. rewrite E. cbn [obind].
    destruct (damping_ok ncols a d W) as (vs & Ed & Lv & Hdamp & Hkeep); [congruence| |].
    { intros j Hj. exists (nrows + j)%nat. apply St. right. auto. }
    rewrite Ed. cbn [obind]. set (a' := Matrix (m_structure a) vs).
    assert (W' : well_formed_matrix a').
    { constructor; [apply W|]. cbn [a' m_values m_structure]. rewrite Lv. apply W. }
    destruct (represented a' W') as (A & HA).
    assert (Hlast : forall j lo hi, column (m_structure a) j lo hi -> (j < ncols)%nat -> stored (m_structure a) (nrows + j) j (hi - 1)).
    { intros j lo hi Hc' Hj. assert (Hst : structural (m_structure a) (nrows + j) j) by (apply St; auto).
      destruct Hst as (k & Hk). pose proof Hk as Hk'.
      destruct Hk as (lo' & hi' & Hc & K1 & K2 & K3).
      assert (hi' = hi) by (destruct Hc as [_ C1], Hc' as [_ C2]; congruence). subst hi'.
      replace (hi - 1)%nat with k; [exact Hk'|].
      destruct (Nat.eq_dec k (hi - 1)) as [|Hne]; [assumption|]. exfalso.
      assert (Hhi : (hi <= length (s_row_indices (m_structure a)))%nat) by (destruct Hc as [_ Hc]; eapply Proofs_Format.wf_pointers_le; [apply W|exact Hc]).
      destruct (nth_error_ex (s_row_indices (m_structure a)) (S k)) as (i & Hi); [lia|].
      assert (Hlt : (nrows + j < i)%nat) by (eapply (wf_increasing _ (wfm_structure _ W) j lo' hi k); eauto; lia).
      assert (Hst : structural (m_structure a) i j) by (exists (S k), lo', hi; repeat split; try apply Hc; try lia; exact Hi).
      apply St in Hst. destruct Hst as [(v & Hin)|[-> _]]; [apply Wt in Hin|]; lia. }
    assert (Adamp : forall j, (j < ncols)%nat -> A (nrows + j)%nat j = d).
    { intros j Hj. apply (element_entry a' W' A HA). assert (Hst : structural (m_structure a) (nrows + j) j) by (apply St; auto).
      destruct Hst as (k & lo & hi & Hc & K1 & K2 & K3). exists (hi - 1)%nat. cbn [a' m_values m_structure].
      split; [eapply Hlast; eauto|eapply Hdamp; eauto]. }
    assert (Atop : forall i j, (i < nrows)%nat -> A i j = Spec_Jacobian.entry ts i j).
    { intros i j Hi.
      assert (Hv : forall v, Spec_Sparse.entry a i j v <-> total Rplus (values_at ts i j) = Some v).
      { unfold augmented_matrix in E.
        intros v. rewrite (Props_Sparse.C27_sum R Rplus sort _ _ a Rplus_comm (fun x y z => eq_sym (Rplus_assoc x y z)) Hsort
          (push_all_holds (augment nrows ncols ts) _ [] (holds_new _ _)) E). cbn [app].
        unfold augment, values_at. rewrite filter_app, map_app.
        rewrite (proj2 (Forall_filter_nil _ (map _ (seq 0 ncols)))); [cbn [map]; now rewrite app_nil_r|]. apply Forall_forall. intros t Ht.
        apply in_map_iff in Ht. destruct Ht as (k & <- & Hk). cbn [fst snd]. apply in_seq in Hk.
        destruct (Nat.eqb_spec (nrows + k) i); [lia|reflexivity]. }
      destruct (values_at ts i j) as [|v vs'] eqn:Evs.
      - rewrite (entry_values ts i j), Evs. apply (element_none a' A HA). cbn [a' m_structure]. intros Hst.
        apply St in Hst. destruct Hst as [(v & Hin)|[-> _]]; [|lia].
        assert (Hin' : In v (values_at ts i j)).
        { unfold values_at. apply in_map_iff. exists (i, j, v). split; [reflexivity|]. apply filter_In. split; [exact Hin|].
          cbn. now rewrite !Nat.eqb_refl. }
        rewrite Evs in Hin'. destruct Hin'.
      - apply (element_entry a' W' A HA). destruct (proj2 (Hv _) eq_refl) as (k & Hk & Hkv).
        rewrite (entry_values ts i j), Evs. exists k. cbn [a' m_structure m_values]. split; [exact Hk|].
        rewrite Hkeep; [rewrite Hkv; f_equal; apply total_sum|].
        intros j' lo hi Hc Hj' ->. destruct Hk as (_ & _ & _ & _ & _ & K3).
        destruct (Hlast _ _ _ Hc Hj') as (_ & _ & _ & _ & _ & K4). rewrite K3 in K4. injection K4 as ->. lia. }
    assert (Azero : forall j k, (j < ncols)%nat -> (k < ncols)%nat -> k <> j -> A (nrows + j)%nat k = 0).
    { intros j k Hj Hk Hne. apply (element_none a' A HA). intros Hst. cbn [a' m_structure] in Hst. apply St in Hst.
      destruct Hst as [(v & Hin)|[Heq _]]; [apply Wt in Hin; lia|]. lia. }
    assert (Aprod : forall z j, (j < ncols)%nat -> product ncols A z (nrows + j) = d * nth j z 0).
    { intros z j Hj. unfold product. rewrite (rsum_single _ ncols j Hj); [now rewrite Adamp|].
      intros k Hk Hne. rewrite Azero by assumption. lra. }
    destruct (solve_ok s sq rho Rs Hs a' A (r ++ repeat 0 ncols) SO Es W' HA) as (ok & x & Ex & Lx & Hok & Hmin).
    { rewrite app_length, repeat_length. congruence. }
    rewrite S1, S2 in *.
    assert (ok = true).
    { apply Hok. intros z Lz Hz j Hj. specialize (Hz (nrows + j)%nat ltac:(lia)). rewrite Aprod in Hz by exact Hj.
      apply Rmult_integral in Hz. tauto. }
    subst ok. apply obind_done in Ex. destruct Ex as (q & -> & Ex). cbn [obind]. rewrite Ex. cbn [obind].
    exists x. split; [reflexivity|]. split; [congruence|].
    assert (Hsplit : forall z, length z = ncols -> residual (nrows + ncols) ncols A (r ++ repeat 0 ncols) z =
        damped nrows ncols (Spec_Jacobian.entry ts) (fun i => - nth i r 0) (d * d) z).
    { intros z Lz. unfold residual, inner, damped. rewrite seq_app, rsum_app, (rsum_from _ (0 + nrows)). f_equal.
      - apply rsum_ext. intros i Hi. apply in_seq in Hi. rewrite app_nth1 by lia.
        replace (product ncols A z i) with (product ncols (Spec_Jacobian.entry ts) z i); [ring|].
        unfold product. apply rsum_ext. intros j Hj. rewrite Atop by lia. reflexivity.
      - rewrite <- rsum_scal. apply rsum_ext. intros i Hi. apply in_seq in Hi. cbn [Nat.add].
        rewrite Aprod, app_nth2, nth_repeat by lia. ring. }
    assert (Lf : length (firstn ncols x) = ncols) by (rewrite firstn_length; lia).
    specialize (Hmin eq_refl).
    assert (Hmin' : forall z, length z = ncols ->
        damped nrows ncols (Spec_Jacobian.entry ts) (fun i => - nth i r 0) (d * d) (firstn ncols x) <=
        damped nrows ncols (Spec_Jacobian.entry ts) (fun i => - nth i r 0) (d * d) z).
    { intros z Lz. rewrite <- !Hsplit by assumption. now apply Hmin. }
    split; [|exact Hmin']. specialize (Hmin' (repeat 0 ncols) (repeat_length _ _)). unfold damped in Hmin'.
    rewrite (rsum_ext (fun i => (- nth i r 0 + product ncols (Spec_Jacobian.entry ts) (repeat 0 ncols) i) ^ 2)
              (fun i => nth i r 0 * nth i r 0)) in Hmin'.
    2:{ intros i _. unfold product. rewrite rsum_zero; [ring|]. intros j _. rewrite nth_repeat. lra. }
    rewrite (rsum_zero (fun j => nth j (repeat 0 ncols) 0 ^ 2)) in Hmin' by (intros; rewrite nth_repeat; ring).
    rewrite !norm_squared_rsum, Lf, Lr.
    rewrite (rsum_ext (fun j => nth j (firstn ncols x) 0 ^ 2) (fun j => nth j (firstn ncols x) 0 * nth j (firstn ncols x) 0)) in Hmin'
      by (intros; ring).
    match type of Hmin' with ?t + _ <= _ => assert (0 <= t) by (apply rsum_nonneg; intros i _; apply pow2_ge_0) end.
    lra.
  Qed.

  Lemma tenm_pos k : (0 <= k)%Z -> 0 < (tenm k : R).
  Proof.
    intros Hk. unfold tenm. cbn [nofZ ndiv NumR]. apply Rdiv_lt_0_compat; [lra|]. apply IZR_lt. now apply Z.pow_pos_nonneg.
  Qed.

  (** One round of the inner loop either ends it or multiplies the damping by 2;
      and it ends it once the damping is large. *)
  Lemma try_exact sq st : fits sort p sq -> state_ok p st -> 0 < lm_lambda st ->
    exists v, lm_try slv p sq st = Done v /\ verdict_ok p v /\
      match v with
      | LmRetry l => l = lm_lambda st * 2 /\ lm_lambda st * tenm 12 <= norm_squared (lm_residuals st)
      | LmAccepted st' => 0 < lm_lambda st'
      | _ => True
      end.
  Proof.
    intros Hf Hst Hl. destruct (try_ok colamd sort p Hp sq st Hf Hst) as (v & Ev & Hv). exists v. split; [exact Ev|].
    split; [exact Hv|]. destruct Hst as [Lv Lr (ts & G & Ej)]. fold slv in Ev. unfold lm_try in Ev. cbv zeta in Ev.
    fold nrows ncols in Ev, Lv, Lr, Ej. rewrite Ej in Ev.
    assert (Hd : sqrt (lm_lambda st) <> 0) by (pose proof (sqrt_lt_R0 _ Hl); lra).
    destruct (damped_step sq ts (sqrt (lm_lambda st)) (lm_residuals st) Hf G Hd Lr) as (y & Ey & Ly & Hy & _).
    rewrite sqrt_sqrt in Hy by lra.
    change (nsqrt (lm_lambda st)) with (sqrt (lm_lambda st)) in Ev. change (@nzero R NumR) with 0 in Ev. rewrite Ey in Ev.
    cbn [obind] in Ev.
    destruct (nltb (norm_squared (firstn ncols y)) (tenm 12)) eqn:Es; [injection Ev as <-; exact I|].
    apply obind_done in Ev. destruct Ev as (rs & _ & Ev).
    destruct (nltb (norm_squared rs) (lm_ssr st)) eqn:Eb.
    - destruct (nleb _ _); [injection Ev as <-; exact I|]. apply obind_done in Ev. destruct Ev as ([rs' ts'] & _ & Ev).
      injection Ev as <-. cbn [lm_lambda].
      match goal with |- 0 < (if ?c then _ else _) => destruct c end; [apply (tenm_pos 50); lia|].
      apply Rmult_lt_0_compat; [exact Hl|]. unfold lit. cbn. lra.
    - injection Ev as <-. split; [reflexivity|]. cbn [nltb NumR] in Es. unfold Rltb in Es.
      destruct (Rlt_dec (norm_squared (firstn ncols y)) (tenm 12)) as [|Hge]; [discriminate|].
      pose proof (tenm_pos 12 ltac:(lia)). eapply Rle_trans; [|exact Hy]. apply Rmult_le_compat_l; lra.
  Qed.

  Lemma inner_exact sq : fits sort p sq -> forall k st, state_ok p st -> 0 < lm_lambda st ->
    norm_squared (lm_residuals st) < lm_lambda st * 2 ^ k * tenm 12 ->
    exists v, (forall fuel, (k < fuel)%nat -> lm_inner slv p fuel sq st = Done v) /\ verdict_ok p v /\
      match v with LmRetry _ => False | LmAccepted st' => 0 < lm_lambda st' | _ => True end.
  Proof.
    intros Hf. induction k as [|k IH]; intros st Hst Hl Hb.
    - destruct (try_exact sq st Hf Hst Hl) as (v & Ev & Hv & Hc). exists v.
      assert (Hr : match v with LmRetry _ => False | _ => True end).
      { destruct v; try exact I. rewrite pow_O, Rmult_1_r in Hb. lra. }
      split; [|split; [exact Hv|destruct v; try exact Hc; contradiction]].
      intros [|fuel] Hfu; [lia|]. cbn [lm_inner]. rewrite Ev. cbn [obind]. destruct v; [contradiction|reflexivity..].
    - destruct (try_exact sq st Hf Hst Hl) as (v & Ev & Hv & Hc).
      destruct v as [l| |x|st'].
      + destruct Hc as [-> _]. destruct (IH (with_lambda (lm_lambda st * 2) st)) as (v & Hv' & Ho & Hn).
        * now apply with_lambda_ok.
        * cbn. lra.
        * cbn [with_lambda lm_residuals lm_lambda]. cbn [pow] in Hb. lra.
        * exists v. split; [|auto]. intros [|fuel] Hfu; [lia|]. cbn [lm_inner]. rewrite Ev. cbn [obind]. apply Hv'. lia.
      + exists LmStall. split; [|auto]. intros [|fuel] Hfu; [lia|]. cbn [lm_inner]. now rewrite Ev.
      + exists (LmConverged x). split; [|auto]. intros [|fuel] Hfu; [lia|]. cbn [lm_inner]. now rewrite Ev.
      + exists (LmAccepted st'). split; [|auto]. intros [|fuel] Hfu; [lia|]. cbn [lm_inner]. now rewrite Ev.
  Qed.

  Lemma doublings a b : 0 < a -> exists k, b < a * 2 ^ k.
  Proof.
    intros Ha. destruct (Pow_x_infinity 2 ltac:(rewrite Rabs_pos_eq; lra) (b / a + 1)) as (k & Hk). exists k.
    specialize (Hk k (le_n _)). pose proof (Rle_abs (2 ^ k)). rewrite Rabs_pos_eq in Hk by (apply pow_le; lra).
    assert (b / a < 2 ^ k) by lra. apply Rmult_lt_reg_r with (/ a); [now apply Rinv_0_lt_compat|].
    replace (a * 2 ^ k * / a) with (2 ^ k) by (field; lra). exact H0.
  Qed.

  Lemma outer_exact sq : fits sort p sq -> forall k st trace, state_ok p st -> 0 < lm_lambda st ->
    exists n trace', forall fuel, (n < fuel)%nat -> lm_outer slv p fuel k sq st trace = Done trace'.
  Proof.
    intros Hf. induction k as [|k IH]; intros st trace Hst Hl; [exists 0%nat, trace; reflexivity|].
    cbn [lm_outer]. destruct (nltb _ _); [exists 0%nat, trace; reflexivity|].
    destruct (doublings (lm_lambda st * tenm 12) (norm_squared (lm_residuals st))) as (n & Hn).
    { apply Rmult_lt_0_compat; [exact Hl|apply tenm_pos; lia]. }
    destruct (inner_exact sq Hf n st Hst Hl) as (v & Ev & Hv & Hc); [lra|].
    destruct v as [l| |x|st'].
    - contradiction.
    - exists n, trace. intros fuel Hfu. rewrite Ev by exact Hfu. reflexivity.
    - exists n, (x :: trace). intros fuel Hfu. rewrite Ev by exact Hfu. reflexivity.
    - destruct (IH st' (lm_variables st' :: trace) Hv Hc) as (n' & trace' & H'). exists (Nat.max n n'), trace'.
      intros fuel Hfu. rewrite Ev by lia. cbn [obind]. apply H'. lia.
  Qed.

  Theorem lm_returns x : length x = ncols ->
    exists n y, length y = ncols /\ forall fuel, (n < fuel)%nat -> levenberg_marquardt slv p fuel x = Done y.
  Proof.
    intros Lx.
    assert (H : exists n y, forall fuel, (n < fuel)%nat -> levenberg_marquardt slv p fuel x = Done y).
    { unfold levenberg_marquardt, lm_trace. generalize 100%nat as rounds. intros rounds.
      destruct (evaluate_ok p Hp x Lx) as (rs & ts & -> & Lrs & G). cbn [obind]. fold nrows ncols.
      destruct (build_fits colamd sort Hsort p Hcolamd Hp ts G) as (sq & Eb & Hf). fold slv nrows ncols in Eb. rewrite Eb. cbn [obind].
      match goal with |- context [lm_outer slv p _ rounds sq ?st ?tr] => destruct (outer_exact sq Hf rounds st tr) as (n & trace & Ht) end.
      - constructor; cbn [lm_variables lm_residuals lm_jacobian]; eauto.
      - cbn. unfold lit. cbn. lra.
      - exists n, (hd x trace). intros fuel Hfu. rewrite Ht by exact Hfu. reflexivity. }
    destruct H as (n & y & H). exists n, y. split; [|exact H].
    destruct (lm_safe colamd sort Hsort p Hcolamd Hp (S n) x Lx) as [E|(y' & E & Ly)]; fold slv in E; rewrite H in E by lia; [discriminate|].
    injection E as ->. exact Ly.
  Qed.
End Exact.
