(** Proofs about the L-BFGS optimizer *)
From Coq Require Import List Reals Arith Lia Lra Bool.
From Verif Require Import Num NumR Outcome Lib ModelSystem ModelSolve ModelLbfgs Spec_Solver Spec_Linear Spec_Bfgs
  Proofs_Triangular Proofs_Linear.
Import ListNotations.
Local Open Scope nat_scope.

(** ** No panic, and what a finished call guarantees *)
Definition safe {A} (Q : A -> Prop) (o : outcome A) : Prop :=
  match o with Done a => Q a | Panic => False | Timeout => True end.

Lemma safe_bind {A B} (P : A -> Prop) (Q : B -> Prop) m (k : A -> outcome B) :
  safe P m -> (forall a, P a -> safe Q (k a)) -> safe Q (obind m k).
Proof. destruct m; simpl; auto. Qed.
Lemma safe_weaken {A} (P Q : A -> Prop) m : safe P m -> (forall a, P a -> Q a) -> safe Q m.
Proof. destruct m; simpl; auto. Qed.

Section Generic.
  Context {F : Type} {NF : Num F}.
  Variable p : problem F.
  Hypothesis OK : problem_ok p.
  Let n := num_variables p.
  (** Something more the Jacobian buffer keeps *)
  Variable Z : list (list F) -> Prop.
  Hypothesis Z_zero : Z (repeat (repeat nzero n) (num_residuals p)).
  Hypothesis Z_step : forall x jac rs jac', length x = n -> length jac = num_residuals p ->
    (forall row, In row jac -> length row = n) -> Z jac ->
    calculate_residuals_and_jacobian p x jac = Done (rs, jac') -> Z jac'.

  Definition shaped (jac : list (list F)) : Prop :=
    length jac = num_residuals p /\ (forall row, In row jac -> length row = n) /\ Z jac.

  (** What the buffers hold after an evaluation at [x] *)
  Definition evaluated (x : list F) (b : buffers F) : Prop :=
    b_variables b = x /\ length x = n /\ shaped (b_jacobian b) /\
    length (b_residuals b) = num_residuals p /\
    exists jac, shaped jac /\
      calculate_residuals_and_jacobian p x jac = Done (b_residuals b, b_jacobian b) /\
      b_gradient b = compute_gradient n (b_jacobian b) (b_residuals b).

  Lemma gradient_length jac rs : length (compute_gradient n jac rs) = n.
  Proof. unfold compute_gradient. now rewrite map_length, seq_length. Qed.

  Lemma evaluated_gradient x b : evaluated x b -> length (b_gradient b) = n.
  Proof. intros (_ & _ & _ & _ & jac & _ & _ & ->). apply gradient_length. Qed.

  Section Line.
    Variables variables direction : list F.
    Hypothesis Hv : length variables = n.
    Hypothesis Hd : length direction = n.
    Definition along (t : F) : list F := map (fun '(v, d) => nadd v (nmul t d)) (combine variables direction).
    Definition at_step (c : param F) (b : buffers F) : Prop := evaluated (along (pp c)) b.

    Lemma along_length t : length (along t) = n.
    Proof. unfold along. rewrite map_length, combine_length. lia. Qed.

    Lemma phi_ok b t : shaped (b_jacobian b) ->
      safe (fun '(c, b') => pp c = t /\ at_step c b' /\ phi c = sum_squares (b_residuals b') /\
              dphi c = dot_product (b_gradient b') direction)
        (calculate_phi p variables direction b t).
    Proof.
      intros (S1 & S2 & S3). unfold calculate_phi. fold (along t).
      destruct (po_dense p OK (along t) (b_jacobian b) (along_length t) S1 S2)
        as (rs & jac' & E & L1 & L2 & L3).
      rewrite E. cbn. split; [auto|]. split; [|auto]. red. red. cbn.
      split; [auto|]. split; [apply along_length|].
      split; [split; [auto|]; split; [auto|]; exact (Z_step (along t) (b_jacobian b) rs jac' (along_length t) S1 S2 S3 E)|]. split; [auto|].
      exists (b_jacobian b). split; [split; auto|]. split; auto.
    Qed.

    Lemma at_shaped c b : at_step c b -> shaped (b_jacobian b).
    Proof. intros (_ & _ & H & _). exact H. Qed.

    Variables phi0 dphi0 : F.
    Definition keeps {A} (o : outcome (A * buffers F)) : Prop :=
      safe (fun '(_, b) => shaped (b_jacobian b)) o.

    Lemma update_loop_ok fuel : forall buf a b, shaped (b_jacobian buf) ->
      keeps (update_loop p variables direction phi0 fuel buf a b).
    Proof.
      induction fuel as [|fuel IH]; intros buf a b H; [exact Logic.I|]. cbn [update_loop].
      eapply safe_bind; [apply phi_ok, H|]. intros [d b'] (_ & A & _). apply at_shaped in A.
      destruct (nleb _ (dphi d)); [exact A|]. destruct (nleb (phi d) _); now apply IH.
    Qed.

    Lemma update_ok fuel buf a b c : shaped (b_jacobian buf) ->
      keeps (update p variables direction phi0 fuel buf a b c).
    Proof.
      intros H. unfold update. destruct (_ || _)%bool; [exact H|].
      destruct (nleb _ (dphi c)); [exact H|]. destruct (nleb (phi c) _); [exact H|].
      now apply update_loop_ok.
    Qed.

    Definition finds (o : outcome (hz_result F * buffers F)) : Prop :=
      safe (fun '(r, b) => match r with Satisfied c => at_step c b | Unsatisfied _ _ => shaped (b_jacobian b) end) o.

    Lemma secant_again_ok fuel buf a_ b_ u v : shaped (b_jacobian buf) ->
      finds (secant_again p variables direction phi0 dphi0 fuel buf a_ b_ u v).
    Proof.
      intros H. unfold secant_again. eapply safe_bind; [apply phi_ok, H|].
      intros [c b'] (_ & A & _). destruct (satisfies_wolfe _ _ _); [exact A|].
      eapply safe_bind; [apply update_ok, (at_shaped _ _ A)|]. intros [[x y] b''] B. exact B.
    Qed.

    Lemma secant2_ok fuel buf a b : shaped (b_jacobian buf) ->
      finds (secant2 p variables direction phi0 dphi0 fuel buf a b).
    Proof.
      intros H. unfold secant2. eapply safe_bind; [apply phi_ok, H|].
      intros [c b'] (_ & A & _). destruct (satisfies_wolfe _ _ _); [exact A|].
      eapply safe_bind; [apply update_ok, (at_shaped _ _ A)|]. intros [[x y] b''] B.
      destruct (neqb _ (pp y)); [now apply secant_again_ok|].
      destruct (neqb _ (pp x)); [now apply secant_again_ok|]. exact B.
    Qed.

    Definition ends (o : outcome (param F * buffers F)) : Prop := safe (fun '(c, b) => at_step c b) o.

    Lemma search_ok fuel k : forall buf a b c, shaped (b_jacobian buf) ->
      ends (search p variables direction phi0 dphi0 fuel k buf a b c).
    Proof.
      induction k as [|k IH]; intros buf a b c H; cbn [search].
      - eapply safe_bind; [apply phi_ok, H|]. intros [c' b'] (E & A & _). cbn. red. rewrite <- E. exact A.
      - eapply safe_bind; [apply secant2_ok, H|]. intros [r b'] A.
        destruct r as [c'|a_ b_]; [exact A|].
        destruct (nltb _ _); [|now apply IH].
        eapply safe_bind; [apply phi_ok, A|]. intros [c' b''] (_ & A' & _).
        destruct (satisfies_wolfe _ _ _); [exact A'|].
        eapply safe_bind; [apply update_ok, (at_shaped _ _ A')|]. intros [[x y] b3] B. now apply IH.
    Qed.

    Lemma hz_run_ok fuel buf : shaped (b_jacobian buf) ->
      ends (hz_run p variables direction phi0 dphi0 fuel buf).
    Proof.
      intros H. unfold hz_run. generalize 100 as rounds. intros rounds. eapply safe_bind; [apply phi_ok, H|].
      intros [c b'] (_ & A & _). destruct (satisfies_wolfe _ _ _); [exact A|].
      eapply safe_bind; [apply phi_ok, (at_shaped _ _ A)|]. intros [b b''] (_ & B & _).
      apply search_ok, (at_shaped _ _ B).
    Qed.
  End Line.

  (** *** The rounds *)
  Definition full {A} (P : A -> Prop) (l : list A) : Prop := length l = max_history /\ Forall P l.
  Definition history_ok (h : history F) : Prop :=
    full (fun s => length s = n) (h_s h) /\ full (fun y => length y = n) (h_y h) /\ length (h_rho h) = max_history.

  Lemma slot_lt k i : history_slot k i < max_history.
  Proof. apply Nat.mod_upper_bound. discriminate. Qed.

  Lemma history_get_ok h idx : history_ok h -> idx < max_history ->
    exists s y rho, history_get h idx = Done (s, y, rho) /\ length s = n /\ length y = n.
  Proof.
    intros ((L1 & A1) & (L2 & A2) & L3) H. unfold history_get.
    destruct (nth_error_ex (h_s h) idx) as [s Es]; [lia|].
    destruct (nth_error_ex (h_y h) idx) as [y Ey]; [lia|].
    destruct (nth_error_ex (h_rho h) idx) as [r Er]; [lia|].
    exists s, y, r. rewrite (proj2 (oget_done _ _ _) Es). cbn [obind]. rewrite (proj2 (oget_done _ _ _) Ey). cbn [obind].
    rewrite (proj2 (oget_done _ _ _) Er). cbn [obind]. split; [auto|]. rewrite Forall_forall in A1, A2.
    split; [eapply A1, nth_error_In; eauto|eapply A2, nth_error_In; eauto].
  Qed.

  Lemma direction_ok k h alpha g : history_ok h -> length alpha = max_history -> length g = n ->
    exists d alpha', step_direction k h alpha g = Done (d, alpha') /\ length d = n /\ length alpha' = max_history.
  Proof.
    intros Hh Ha Hg. unfold step_direction.
    destruct (ofold_ok (fun st : list F * list F => length (fst st) = n /\ length (snd st) = max_history)
      (first_loop k h) (rev (seq 0 (Nat.min k max_history)))) with (s := (g, alpha)) as ([d1 a1] & E1 & H1 & H2).
    { intros [d a] i Hi [H1 H2]. cbn in H1, H2. unfold first_loop.
      destruct (history_get_ok h (history_slot k i) Hh (slot_lt k i)) as (s & y & rho & E & Ls & Ly).
      rewrite E. cbn [obind].
      apply in_rev in Hi. apply in_seq in Hi.
      rewrite oset_ok by lia. cbn [obind]. eexists. split; [reflexivity|]. cbn.
      rewrite map_length, combine_length, lset_length. lia. }
    { auto. }
    cbn in H1, H2. rewrite E1. cbn [obind].
    assert (X : exists d2, scale_direction k h d1 = Done d2 /\ length d2 = n).
    { destruct k as [|k]; [cbn; eauto|]. cbn [scale_direction].
      destruct (history_get_ok h (k mod max_history) Hh) as (s & y & rho & E & Ls & Ly);
        [apply Nat.mod_upper_bound; discriminate|].
      rewrite E. cbn [obind]. eexists. split; [reflexivity|].
      destruct (nltb _ _); [now rewrite map_length|exact H1]. }
    destruct X as (d2 & E2 & H3). rewrite E2. cbn [obind].
    destruct (ofold_ok (fun d : list F => length d = n) (second_loop k h a1) (seq 0 (Nat.min k max_history)))
      with (s := d2) as (d3 & E3 & H4).
    { intros d i Hi Hd. unfold second_loop.
      destruct (history_get_ok h (history_slot k i) Hh (slot_lt k i)) as (s & y & rho & E & Ls & Ly).
      rewrite E. cbn [obind]. apply in_seq in Hi.
      destruct (oget_ok a1 i) as [a Ea]; [lia|]. rewrite Ea. cbn [obind]. eexists. split; [reflexivity|].
      rewrite map_length, combine_length. lia. }
    { exact H3. }
    rewrite E3. cbn [obind]. exists (map (fun d => nmul d (lit (-1))) d3), a1. rewrite map_length. auto.
  Qed.

  Lemma Forall_lset {A} (P : A -> Prop) l i a : Forall P l -> P a -> Forall P (lset l i a).
  Proof.
    intros H Ha. revert i. induction H as [|x l Hx Hl IH]; intros [|i]; cbn; constructor; auto.
  Qed.

  Definition state_ok (st : lbfgs_state F) : Prop :=
    evaluated (l_variables st) (l_buffers st) /\ history_ok (l_history st) /\ length (l_alpha st) = max_history.

  (** What one round does *)
  Definition round_does (k : nat) (st : lbfgs_state F) (res : bool * lbfgs_state F * round F) : Prop :=
    let '(_, st', r) := res in
    let h := l_history st in
    let h' := l_history st' in
    let s := map (fun d => nmul (r_step r) d) (r_direction r) in
    let y := map (fun '(g', g) => nsub g' g) (combine (r_gradient' r) (r_gradient r)) in
    state_ok st' /\
    (exists alpha', step_direction k h (l_alpha st) (r_gradient r) = Done (r_direction r, alpha')) /\
    r_variables r = l_variables st /\ r_gradient r = b_gradient (l_buffers st) /\
    length (r_direction r) = n /\
    r_variables' r = along (l_variables st) (r_direction r) (r_step r) /\
    r_variables' r = l_variables st' /\ r_gradient' r = b_gradient (l_buffers st') /\
    h_s h' = lset (h_s h) (k mod max_history) s /\
    h_y h' = lset (h_y h) (k mod max_history) y /\
    h_rho h' = lset (h_rho h) (k mod max_history) (ndiv nunit (dot_product s y)).

  Lemma round_ok fuel k st : state_ok st -> safe (round_does k st) (lbfgs_round fuel p k st).
  Proof.
    intros (E & Hh & Ha). unfold lbfgs_round.
    destruct (direction_ok k (l_history st) (l_alpha st) (b_gradient (l_buffers st)) Hh Ha)
      as (d & a & E1 & H1 & H2); [eapply evaluated_gradient; eauto|].
    rewrite E1. cbn [obind]. assert (E' := E). destruct E' as (_ & Lx & Sj & _).
    eapply safe_bind.
    { unfold line_search. apply (hz_run_ok (l_variables st) d Lx H1). exact Sj. }
    intros [c buf] A. red in A.
    pose proof Hh as ((L1 & A1) & (L2 & A2) & L3).
    assert (Hm : k mod max_history < max_history) by (apply Nat.mod_upper_bound; discriminate).
    rewrite !oset_ok by lia. cbn [obind safe round_does l_history l_variables l_buffers l_alpha h_s h_y h_rho
      r_variables r_gradient r_direction r_step r_gradient' r_variables'].
    assert (Eb : b_variables buf = along (l_variables st) d (pp c)) by apply A.
    split; [|rewrite Eb; repeat (split; [eauto; fail|]); auto].
    split; [cbn; rewrite Eb; exact A|]. split; [|exact H2].
    assert (Lg : length (b_gradient buf) = n) by (eapply evaluated_gradient; eauto).
    assert (Lg' : length (b_gradient (l_buffers st)) = n) by (eapply evaluated_gradient; eauto).
    repeat split; cbn [l_history h_s h_y h_rho]; rewrite ?lset_length; auto;
      apply Forall_lset; auto; rewrite ?map_length, ?combine_length; lia.
  Qed.

  (** The rounds follow each other *)
  Inductive runs : nat -> lbfgs_state F -> list (round F) -> lbfgs_state F -> Prop :=
  | runs_nil st : runs 0 st [] st
  | runs_snoc k st rs st' go st'' r :
      runs k st rs st' -> round_does k st' (go, st'', r) -> runs (S k) st (rs ++ [r]) st''.

  Lemma runs_length k st rs st' : runs k st rs st' -> length rs = k.
  Proof. induction 1; [reflexivity|]. rewrite app_length. cbn. lia. Qed.
  Lemma runs_ok k st rs st' : state_ok st -> runs k st rs st' -> state_ok st'.
  Proof. intros H R. destruct R as [|? ? ? ? ? ? ? ? D]; [exact H|]. apply D. Qed.

  Lemma rounds_ok fuel st0 : state_ok st0 -> forall m k st rs, runs k st0 rs st ->
    safe (fun '(x, rs') => exists k' st', runs k' st0 rs' st' /\ x = l_variables st' /\ k' <= k + m)
      (lbfgs_rounds fuel p m k st rs).
  Proof.
    intros H0. induction m as [|m IH]; intros k st rs R; cbn [lbfgs_rounds].
    - cbn. exists k, st. split; [auto|]. split; [auto|lia].
    - eapply safe_bind; [apply round_ok; eapply runs_ok; eauto|]. intros [[go st'] r] D.
      assert (R' : runs (S k) st0 (rs ++ [r]) st') by (econstructor; eauto).
      destruct go.
      + eapply safe_weaken; [apply IH, R'|]. intros [x rs'] (k' & st'' & A & B & C).
        exists k', st''. split; [auto|]. split; [auto|lia].
      + cbn. exists (S k), st'. split; [auto|]. split; [auto|lia].
  Qed.

  (** The first state *)
  Definition zero_history : history F :=
    let zeros := repeat nzero n in
    History (repeat zeros max_history) (repeat zeros max_history) (repeat nzero max_history).

  Lemma trace_ok fuel x : length x = n ->
    safe (fun '(x', rs) => (x' = x /\ rs = []) \/
      exists k st0 st, runs k st0 rs st /\ x' = l_variables st /\ k <= 100 /\
        state_ok st0 /\ l_variables st0 = x /\ l_history st0 = zero_history)
      (lbfgs_trace fuel p x).
  Proof.
    intros Hx. unfold lbfgs_trace. fold n. generalize 100 as rounds. intros rounds.
    assert (Sh : shaped (repeat (repeat nzero n) (num_residuals p))).
    { split; [apply repeat_length|]. split; [|exact Z_zero]. intros row Hr. apply repeat_spec in Hr. subst. apply repeat_length. }
    destruct (po_dense p OK x (repeat (repeat nzero n) (num_residuals p)) Hx) as (rs & jac & E & L1 & L2 & L3);
      try apply Sh.
    rewrite E. cbn [obind]. destruct (nltb _ _); [left; auto|].
    set (st0 := LbfgsState _ _ _ _ _).
    assert (S0 : state_ok st0).
    { split; [|split; [|apply repeat_length]].
      - split; [reflexivity|]. split; [exact Hx|].
        split; [split; [auto|]; split; [auto|]; destruct Sh as (S1 & S2 & S3); exact (Z_step x _ rs jac Hx S1 S2 S3 E)|]. split; [exact L1|].
        exists (repeat (repeat nzero n) (num_residuals p)). split; [exact Sh|]. split; [exact E|reflexivity].
      - subst st0. cbn [l_history]. repeat split; cbn [h_s h_y h_rho]; rewrite ?repeat_length; auto;
          apply Forall_forall; intros z Hz; apply repeat_spec in Hz; subst; apply repeat_length. }
    eapply safe_weaken; [apply (rounds_ok fuel st0 S0 rounds 0 st0 []); constructor|].
    intros [x' rs'] (k & st & A & B & C). right. exists k, st0, st.
    split; [exact A|]. split; [exact B|]. split; [exact C|]. split; [exact S0|]. split; reflexivity.
  Qed.

  Theorem lbfgs_safe fuel x : length x = n ->
    lbfgs fuel p x <> Panic /\ forall x', lbfgs fuel p x = Done x' -> length x' = length x.
  Proof.
    intros Hx. unfold lbfgs. pose proof (trace_ok fuel x Hx) as H.
    destruct (lbfgs_trace fuel p x) as [[y rs]| |]; cbn in *; [|contradiction|split; [discriminate|intros; discriminate]].
    split; [discriminate|]. intros x' E. injection E as <-.
    destruct H as [[-> _]|(k & st0 & st & R & -> & _ & S0 & _)]; [reflexivity|].
    destruct (runs_ok _ _ _ _ S0 R) as [(_ & L & _) _]. congruence.
  Qed.
End Generic.
