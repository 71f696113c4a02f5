(** The two-loop recursion computes the BFGS approximation *)
From Coq Require Import List Reals Arith Lia Lra Bool.
From Verif Require Import Num NumR Outcome Lib ModelSystem ModelSolve ModelLbfgs Spec_Solver Spec_Linear Spec_Bfgs Spec_Lbfgs
  Proofs_Triangular Proofs_Linear Proofs_Lbfgs.
Import ListNotations.
Local Open Scope R_scope.

(** ** Matrices *)
Lemma bfgs_apply n H s y v i : (i < n)%nat ->
  apply n (bfgs_update n H s y) v i =
  (let rho := 1 / inner n s y in
   let q := fun j => v j - rho * inner n s v * y j in
   let r := apply n H q in
   r i + (rho * inner n s v - rho * inner n y r) * s i).
Proof.
  intros Hi. set (rho := 1 / inner n s y). cbn zeta. unfold apply at 1. unfold bfgs_update.
  fold rho. set (V := fun a b => delta a b - rho * y a * s b).
  set (q := fun j => v j - rho * inner n s v * y j). set (r := apply n H q).
  transitivity (rsum (fun a => V a i * r a) (seq 0 n) + rho * s i * inner n s v).
  - rewrite (rsum_ext _ (fun j => rsum (fun a => rsum (fun b => V a i * H a b * V b j * v j) (seq 0 n)) (seq 0 n)
      + rho * s i * (s j * v j))).
    2:{ intros j _. rewrite Rmult_plus_distr_r. f_equal; [|lra].
        rewrite <- rsum_scal_r. apply rsum_ext. intros a _. now rewrite <- rsum_scal_r. }
    rewrite rsum_plus, rsum_scal. f_equal. rewrite rsum_swap. apply rsum_ext. intros a _.
    rewrite rsum_swap. unfold r, apply. rewrite <- rsum_scal. apply rsum_ext. intros b Hb. apply in_seq in Hb.
    transitivity (V a i * H a b * rsum (fun j => V b j * v j) (seq 0 n)).
    + rewrite <- rsum_scal. apply rsum_ext. intros; lra.
    + rewrite Rmult_assoc. f_equal. f_equal. unfold V, q.
      rewrite (rsum_ext _ (fun j => delta b j * v j - rho * y b * (s j * v j))) by (intros; lra).
      rewrite rsum_minus, rsum_scal, rsum_delta_l by lia. unfold inner. lra.
  - unfold V. rewrite (rsum_ext _ (fun a => r a * delta a i - rho * s i * (y a * r a))) by (intros; lra).
    rewrite rsum_minus, rsum_scal, rsum_delta_r by exact Hi. unfold inner. lra.
Qed.

Lemma bfgs_matrix_snoc n c l s y :
  bfgs_matrix n c (l ++ [(s, y)]) = bfgs_update n (bfgs_matrix n c l) s y.
Proof. unfold bfgs_matrix. now rewrite fold_left_app. Qed.

(** Pairs of zeros leave the approximation as it is in the recursion below. *)
Section Recursion.
  Variable n : nat.
  Variable c : R.
  (** [s], [y] and [rho], newest first *)
  Fixpoint recursion (l : list ((nat -> R) * (nat -> R) * R)) (v : nat -> R) : nat -> R :=
    match l with
    | [] => fun i => c * v i
    | (s, y, rho) :: older =>
        let a := rho * inner n s v in
        let r := recursion older (fun j => v j - a * y j) in
        fun i => r i + (a - rho * inner n y r) * s i
    end.

  Lemma recursion_ext l : forall v v', (forall i, (i < n)%nat -> v i = v' i) ->
    forall i, (i < n)%nat -> recursion l v i = recursion l v' i.
  Proof.
    induction l as [|[[s y] rho] l IH]; intros v v' H i Hi; cbn [recursion]; [now rewrite H|].
    rewrite (inner_ext n s v s v') by auto.
    set (a := rho * inner n s v').
    assert (E : forall j, (j < n)%nat -> recursion l (fun j => v j - a * y j) j
      = recursion l (fun j => v' j - a * y j) j).
    { intros j Hj. apply IH; [|exact Hj]. intros; rewrite H; auto. }
    rewrite (inner_ext n y _ y _ (fun _ _ => eq_refl) E). now rewrite E.
  Qed.

  (** Two lists of entries agree below [n] *)
  Definition same (t t' : (nat -> R) * (nat -> R) * R) : Prop :=
    let '(s, y, rho) := t in let '(s', y', rho') := t' in
    (forall i, (i < n)%nat -> s i = s' i) /\ (forall i, (i < n)%nat -> y i = y' i) /\ rho = rho'.
  Lemma recursion_same l l' : Forall2 same l l' -> forall v i, (i < n)%nat -> recursion l v i = recursion l' v i.
  Proof.
    induction 1 as [|[[s y] rho] [[s' y'] rho'] l l' (Hs & Hy & <-) _ IH]; intros v i Hi; cbn [recursion]; [reflexivity|].
    rewrite (inner_ext n s v s' v) by auto.
    set (a := rho * inner n s' v).
    assert (E : forall j, (j < n)%nat -> recursion l (fun j => v j - a * y j) j
      = recursion l' (fun j => v j - a * y' j) j).
    { intros j Hj. rewrite <- IH by exact Hj. apply recursion_ext; [|exact Hj]. intros; rewrite Hy; auto. }
    rewrite (inner_ext n y _ y' _ Hy E). rewrite E, Hs by exact Hi. reflexivity.
  Qed.

  Definition zero_entry (t : (nat -> R) * (nat -> R) * R) : Prop :=
    let '(s, y, rho) := t in (forall i, (i < n)%nat -> s i = 0) /\ (forall i, (i < n)%nat -> y i = 0).

  Lemma recursion_zero t l v i : zero_entry t -> (i < n)%nat -> recursion (t :: l) v i = recursion l v i.
  Proof.
    destruct t as [[s y] rho]. intros [Hs Hy] Hi. cbn [recursion]. rewrite (Hs i Hi).
    rewrite Rmult_0_r, Rplus_0_r. apply recursion_ext; [|exact Hi]. intros j Hj. rewrite (Hy j Hj). lra.
  Qed.

  Lemma recursion_zeros l1 l2 v i : Forall zero_entry l1 -> (i < n)%nat ->
    recursion (l1 ++ l2) v i = recursion l2 v i.
  Proof.
    induction 1 as [|t l1 Ht _ IH]; intros Hi; [reflexivity|].
    cbn [app]. rewrite recursion_zero by auto. auto.
  Qed.
  Lemma recursion_app_ext l1 l2 l2' : (forall v i, (i < n)%nat -> recursion l2 v i = recursion l2' v i) ->
    forall v i, (i < n)%nat -> recursion (l1 ++ l2) v i = recursion (l1 ++ l2') v i.
  Proof.
    intros H. induction l1 as [|[[s y] rho] l1 IH]; intros v i Hi; [now apply H|]. cbn [app recursion].
    set (a := rho * inner n s v).
    assert (E : forall j, (j < n)%nat -> recursion (l1 ++ l2) (fun j => v j - a * y j) j
      = recursion (l1 ++ l2') (fun j => v j - a * y j) j) by (intros; now apply IH).
    rewrite (inner_ext n y _ y _ (fun _ _ => eq_refl) E). now rewrite E.
  Qed.

  Definition entry_of (t : (nat -> R) * (nat -> R)) : (nat -> R) * (nat -> R) * R :=
    let '(s, y) := t in (s, y, 1 / inner n s y).

  (** Algorithm 7.4 of Nocedal and Wright is right *)
  Lemma recursion_bfgs pairs : forall v i, (i < n)%nat ->
    recursion (map entry_of (rev pairs)) v i = apply n (bfgs_matrix n c pairs) v i.
  Proof.
    induction pairs as [|[s y] pairs IH] using rev_ind; intros v i Hi.
    - cbn. unfold bfgs_matrix, apply. cbn [fold_left].
      rewrite (rsum_ext _ (fun j => delta i j * (c * v j))) by (intros; lra). now rewrite rsum_delta_l.
    - rewrite rev_app_distr. cbn [rev app map entry_of recursion].
      rewrite bfgs_matrix_snoc, bfgs_apply by exact Hi. cbn zeta.
      set (rho := 1 / inner n s y).
      assert (E : forall j, (j < n)%nat ->
        recursion (map entry_of (rev pairs)) (fun j => v j - rho * inner n s v * y j) j =
        apply n (bfgs_matrix n c pairs) (fun j => v j - rho * inner n s v * y j) j) by (intros; now apply IH).
      rewrite (inner_ext n y _ y _ (fun _ _ => eq_refl) E). now rewrite E.
  Qed.
End Recursion.

(** ** The loops of the code *)
Section Loops.
  Variables n k : nat.
  Variable h : history R.
  Variable scale : list R -> list R.
  Variable c : R.
  Hypothesis scale_length : forall d, length d = n -> length (scale d) = n.
  Hypothesis scale_value : forall d i, length d = n -> (i < n)%nat -> nth i (scale d) 0 = c * nth i d 0.
  (** The history entry in use at [i] *)
  Variable E : nat -> list R * list R * R.
  Hypothesis E_ok : forall i, history_get h (history_slot k i) = Done (E i).
  Hypothesis E_length : forall i, length (fst (fst (E i))) = n /\ length (snd (fst (E i))) = n.

  Definition functional (t : list R * list R * R) : (nat -> R) * (nat -> R) * R :=
    let '(s, y, rho) := t in (coords s, coords y, rho).

  Lemma dot_inner (a b : list R) : length a = n -> length b = n -> dot_product a b = inner n (coords a) (coords b).
  Proof. intros Ha Hb. unfold dot_product. simpl nadd. simpl nmul. simpl nzero. rewrite fold_dot by congruence. rewrite Ha. lra. Qed.

  Lemma nth_map2 (f : R -> R -> R) (a b : list R) i : length a = n -> length b = n -> (i < n)%nat ->
    nth i (map (fun '(x, y) => f x y) (combine a b)) 0 = f (nth i a 0) (nth i b 0).
  Proof.
    intros Ha Hb Hi. assert (Hi' : (i < length a)%nat) by lia. assert (Hl : length a = length b) by congruence.
    clear Ha Hb Hi. revert b i Hi' Hl.
    induction a as [|x a IH]; intros [|y b] [|i] Hi Hl; cbn in *; try lia; [reflexivity|].
    apply IH; lia.
  Qed.

  Lemma nth_map1 (f : R -> R) (a : list R) i : (i < length a)%nat -> nth i (map f a) 0 = f (nth i a 0).
  Proof. revert i. induction a as [|x a IH]; intros [|i] H; cbn in *; try lia; [reflexivity|]. apply IH. lia. Qed.

  Lemma loops m : forall v alpha, length v = n -> (m <= length alpha)%nat ->
    exists d alpha',
      ofold (first_loop k h) (rev (seq 0 m)) (v, alpha) = Done (d, alpha') /\ length d = n /\
      length alpha' = length alpha /\ (forall i, (m <= i)%nat -> nth_error alpha' i = nth_error alpha i) /\
      forall alpha'', (forall i, (i < m)%nat -> nth_error alpha'' i = nth_error alpha' i) ->
      exists out, ofold (second_loop k h alpha'') (seq 0 m) (scale d) = Done out /\ length out = n /\
        forall i, (i < n)%nat -> nth i out 0
          = recursion n c (map (fun i => functional (E i)) (rev (seq 0 m))) (coords v) i.
  Proof.
    induction m as [|m IH]; intros v alpha Hv Ha.
    - exists v, alpha. split; [reflexivity|]. split; [exact Hv|]. split; [reflexivity|]. split; [reflexivity|].
      intros alpha'' _. exists (scale v). split; [reflexivity|]. split; [now apply scale_length|].
      intros i Hi. cbn. now apply scale_value.
    - rewrite seq_S, rev_app_distr. cbn [rev app map ofold Nat.add].
      assert (F1 : first_loop k h (v, alpha) m = Done
        (let '(s, y, rho) := E m in
         (map (fun '(d, yj) => d - rho * dot_product s v * yj) (combine v y), lset alpha m (rho * dot_product s v)))).
      { unfold first_loop. rewrite E_ok. cbn [obind]. destruct (E m) as [[s y] rho]. rewrite oset_ok by lia. reflexivity. }
      rewrite F1. cbn [obind]. pose proof (E_length m) as [Ls Ly]. destruct (E m) as [[s y] rho] eqn:Em. cbn in Ls, Ly.
      set (a := rho * dot_product s v).
      destruct (IH (map (fun '(d, yj) => d - a * yj) (combine v y)) (lset alpha m a))
        as (d & alpha' & D1 & D2 & D3 & D4 & D5).
      { rewrite map_length, combine_length. lia. }
      { rewrite lset_length. lia. }
      exists d, alpha'. split; [exact D1|]. split; [exact D2|].
      split; [now rewrite D3, lset_length|]. split.
      { intros i Hi. rewrite D4 by lia. rewrite nth_error_lset_ne by lia. reflexivity. }
      intros alpha'' H''. destruct (D5 alpha'') as (out & O1 & O2 & O3); [intros; apply H''; lia|].
      rewrite ofold_app, O1. cbn [obind ofold]. unfold second_loop. rewrite E_ok, Em. cbn [obind].
      assert (Ea : oget alpha'' m = Done a).
      { apply oget_done. rewrite H'' by lia. rewrite D4 by lia. apply nth_error_lset_eq. lia. }
      rewrite Ea. cbn [obind]. eexists. split; [reflexivity|].
      split; [rewrite map_length, combine_length; lia|].
      intros i Hi. cbn [functional recursion].
      rewrite (nth_map2 (fun d sj => nadd d (nmul sj (nsub a (nmul rho (dot_product y out)))))) by auto.
      cbn [nadd nmul nsub NumR].
      assert (Ex : forall j, (j < n)%nat -> nth j out 0 = recursion n c
         (map (fun i => functional (E i)) (rev (seq 0 m)))
         (fun j => coords v j - rho * inner n (coords s) (coords v) * coords y j) j).
      { intros j Hj. rewrite O3 by exact Hj. apply recursion_ext; [|exact Hj].
        intros l Hl. unfold coords at 1. rewrite (nth_map2 (fun d yj => d - a * yj)) by auto.
        unfold a. rewrite dot_inner by auto. reflexivity. }
      rewrite <- Ex by exact Hi.
      rewrite <- (inner_ext n (coords y) (coords out) (coords y) _ (fun _ _ => eq_refl) Ex).
      rewrite <- (dot_inner y out) by auto. unfold a. rewrite (dot_inner s v) by auto. change (coords s i) with (nth i s 0). ring.
  Qed.
End Loops.

(** ** The history *)
Section Trace.
  Variable p : problem R.
  Let n := num_variables p.
  Variable Z : list (list R) -> Prop.

  Definition holds_pair (k : nat) (rs : list (round R)) (idx : nat) (t : list R * list R * R) : Prop :=
    length (fst (fst t)) = n /\ length (snd (fst t)) = n /\
    ((k <= idx)%nat -> zero_entry n (functional t)) /\
    (forall m r, m mod max_history = idx -> (m < k)%nat -> (k <= m + max_history)%nat ->
      nth_error rs m = Some r -> same n (functional t) (entry_of n (pair_of r))).
  Definition remembers (k : nat) (rs : list (round R)) (h : history R) : Prop :=
    forall idx, (idx < max_history)%nat ->
      exists t, history_get h idx = Done t /\ holds_pair k rs idx t.

  Lemma history_get_lset (h h' : history R) j s y rho idx :
    h_s h' = lset (h_s h) j s -> h_y h' = lset (h_y h) j y -> h_rho h' = lset (h_rho h) j rho ->
    length (h_s h) = max_history -> length (h_y h) = max_history -> length (h_rho h) = max_history ->
    (j < max_history)%nat ->
    history_get h' idx = if Nat.eqb idx j then Done (s, y, rho) else history_get h idx.
  Proof.
    intros E1 E2 E3 L1 L2 L3 Hj. unfold history_get, oget. rewrite E1, E2, E3. destruct (Nat.eqb_spec idx j) as [->|H].
    - rewrite !nth_error_lset_eq by lia. reflexivity.
    - rewrite !nth_error_lset_ne by lia. reflexivity.
  Qed.

  Lemma history_get_zero idx : (idx < max_history)%nat ->
    history_get (zero_history p) idx = Done (repeat 0 n, repeat 0 n, 0).
  Proof.
    intros H. unfold history_get, zero_history, oget. cbn [h_s h_y h_rho].
    rewrite !nth_error_repeat. fold n. destruct (Nat.ltb_spec idx max_history); [reflexivity|lia].
  Qed.

  Lemma nth_repeat0 m i : nth i (repeat 0 m) 0 = 0.
  Proof. revert i; induction m; intros [|i]; cbn; auto. Qed.

  Lemma remembers_zero : remembers 0 [] (zero_history p).
  Proof.
    intros idx Hi. exists (repeat 0 n, repeat 0 n, 0). split; [now apply history_get_zero|].
    cbn. split; [apply repeat_length|]. split; [apply repeat_length|]. split.
    - intros _. unfold coords. split; intros; apply nth_repeat0.
    - intros. lia.
  Qed.

  Lemma remembers_round k rs st go st' r :
    length rs = k -> state_ok p Z st -> remembers k rs (l_history st) -> round_does p Z k st (go, st', r) ->
    remembers (S k) (rs ++ [r]) (l_history st').
  Proof.
    intros Hk ((_ & Lx & _ & _ & HJ) & ((L1 & _) & (L2 & _) & L3) & _) Rem
      (S' & _ & Ev & Eg & Ld & Ex' & Ev' & Eg' & Hs & Hy & Hr) idx Hi.
    assert (Hj : (k mod max_history < max_history)%nat) by (apply Nat.mod_upper_bound; discriminate).
    rewrite (history_get_lset _ _ _ _ _ _ idx Hs Hy Hr L1 L2 L3 Hj).
    destruct (Nat.eqb_spec idx (k mod max_history)) as [->|Hne].
    - eexists. split; [reflexivity|].
      set (s := map _ (r_direction r)). set (y := map _ (combine (r_gradient' r) (r_gradient r))).
      assert (Ls : length s = n) by (subst s; now rewrite map_length).
      assert (Lg : length (r_gradient r) = n).
      { rewrite Eg. destruct HJ as (? & _ & _ & ->). apply gradient_length. }
      assert (Lg' : length (r_gradient' r) = n).
      { rewrite Eg'. destruct S' as (EV & _). now apply evaluated_gradient in EV. }
      assert (Ly : length y = n) by (subst y; rewrite map_length, combine_length; lia).
      split; [exact Ls|]. split; [exact Ly|]. split.
      { intros Hk'. exfalso. pose proof (Nat.mod_le k max_history ltac:(discriminate)). lia. }
      intros m r' Hm Hmk Hkm Hr'.
      assert (m = k).
      { unfold max_history in *. pose proof (Nat.div_mod m 5 ltac:(lia)). pose proof (Nat.div_mod k 5 ltac:(lia)). lia. }
      subst m. rewrite nth_error_app2 in Hr' by lia. rewrite Hk, Nat.sub_diag in Hr'. injection Hr' as <-.
      assert (As : forall i, (i < n)%nat -> coords s i = fst (pair_of r) i).
      { intros i Hin. unfold coords, pair_of. cbn [fst]. rewrite Ex', Ev.
        unfold along. rewrite (nth_map2 n (fun v d => v + r_step r * d)) by auto.
        subst s. change 0 with ((fun d => r_step r * d) 0) at 1 || idtac.
        rewrite nth_indep with (d' := (fun d => nmul (r_step r) d) 0) by (rewrite map_length; fold n in Ld; lia).
        rewrite (map_nth (fun d => nmul (r_step r) d)). cbn [nmul NumR]. lra. }
      assert (Ay : forall i, (i < n)%nat -> coords y i = snd (pair_of r) i).
      { intros i Hin. unfold coords, pair_of. cbn [snd].
        exact (nth_map2 n (fun g' g => g' - g) _ _ i Lg' Lg Hin). }
      cbn [functional]. split; [exact As|]. split; [exact Ay|].
      cbn [ndiv nunit NumR]. rewrite (dot_inner n) by auto. f_equal. now apply inner_ext.
    - destruct (Rem idx Hi) as (t & Et & H1 & H2 & H3 & H4). exists t. split; [exact Et|].
      split; [exact H1|]. split; [exact H2|]. split; [intros; apply H3; lia|].
      intros m r' Hm Hmk Hkm Hr'.
      assert (m <> k) by congruence.
      apply (H4 m r'); try lia. rewrite nth_error_app1 in Hr' by lia. exact Hr'.
  Qed.

  Lemma runs_remembers k st0 rs st : state_ok p Z st0 -> l_history st0 = zero_history p ->
    runs p Z k st0 rs st -> remembers k rs (l_history st).
  Proof.
    intros S0 Z0. induction 1 as [|k st0 rs st go st' r Hr IH D]; [rewrite Z0; apply remembers_zero|].
    apply (remembers_round k rs st go st' r); auto; [eapply runs_length; eauto|exact (runs_ok p Z k st0 rs st S0 Hr)].
  Qed.

  (** ** Directions *)
  Lemma bfgs_scale_same s y s' y' : (forall i, (i < n)%nat -> s i = s' i) -> (forall i, (i < n)%nat -> y i = y' i) ->
    bfgs_scale n (Some (s, y)) = bfgs_scale n (Some (s', y')).
  Proof.
    intros Hs Hy. unfold bfgs_scale.
    rewrite (inner_ext n y y y' y'), (inner_ext n s y s' y') by auto. reflexivity.
  Qed.

  Lemma direction_value k rs h alpha g d alpha' :
    length rs = k -> remembers k rs h -> length alpha = max_history -> length g = n ->
    step_direction k h alpha g = Done (d, alpha') ->
    forall i, (i < n)%nat -> nth i d 0
      = - apply n (bfgs_matrix n (bfgs_scale n (newest_pair k rs)) (pairs_at rs (pairs_used k))) (coords g) i.
  Proof.
    intros Hk Rem Ha Hg Hd i Hi.
    set (E := fun i => match history_get h (history_slot k i) with Done t => t | _ => ([], [], 0) end).
    assert (E_ok : forall i, history_get h (history_slot k i) = Done (E i)).
    { intros j. destruct (Rem (history_slot k j) (slot_lt k j)) as (t & Et & _). unfold E. now rewrite Et. }
    assert (E_holds : forall i, holds_pair k rs (history_slot k i) (E i)).
    { intros j. destruct (Rem (history_slot k j) (slot_lt k j)) as (t & Et & H). unfold E. now rewrite Et. }
    assert (E_length : forall i, length (fst (fst (E i))) = n /\ length (snd (fst (E i))) = n).
    { intros j. destruct (E_holds j) as (A & B & _). auto. }
    set (c := bfgs_scale n (newest_pair k rs)).
    assert (Sc : exists scale, (forall d, scale_direction k h d = Done (scale d)) /\
      (forall d, length d = n -> length (scale d) = n) /\
      (forall d i, length d = n -> (i < n)%nat -> nth i (scale d) 0 = c * nth i d 0)).
    { unfold c. destruct k as [|m].
      - exists (fun d => d). cbn. split; [auto|]. split; [auto|]. intros; lra.
      - destruct (Rem (m mod max_history)) as ([[s y] rho] & Et & H1 & H2 & _ & H4);
          [apply Nat.mod_upper_bound; discriminate|]. cbn [fst snd] in H1, H2.
        destruct (nth_error_ex rs m) as [r Er]; [lia|].
        destruct (H4 m r eq_refl ltac:(lia) ltac:(unfold max_history; lia) Er) as (Ss & Sy & _).
        cbn [newest_pair]. rewrite (nth_error_nth rs m no_round Er).
        unfold pair_of.
        rewrite <- (bfgs_scale_same _ _ _ _ Ss Sy).
        cbn [scale_direction]. rewrite Et. cbn [obind].
        exists (fun d => if nltb nzero (dot_product y y) then map (fun x => x * (dot_product s y / dot_product y y)) d else d).
        split; [reflexivity|]. unfold bfgs_scale. rewrite !(dot_inner n) by auto.
        cbn [nltb nzero NumR]. unfold Rltb.
        destruct (Rlt_dec 0 (inner n (coords y) (coords y))).
        + split; [intros; now rewrite map_length|]. intros d0 j Hd0 Hj.
          rewrite nth_indep with (d' := (fun x => x * (inner n (coords s) (coords y) / inner n (coords y) (coords y))) 0)
            by (rewrite map_length; lia).
          rewrite (map_nth (fun x => x * (inner n (coords s) (coords y) / inner n (coords y) (coords y)))). lra.
        + split; [auto|]. intros; lra. }
    destruct Sc as (scale & Sc1 & Sc2 & Sc3).
    unfold step_direction in Hd.
    destruct (loops n k h scale c Sc2 Sc3 E E_ok E_length (Nat.min k max_history) g alpha Hg) as
      (d1 & alpha1 & D1 & D2 & D3 & D4 & D5); [rewrite Ha; lia|].
    rewrite D1 in Hd. cbn [obind] in Hd. rewrite Sc1 in Hd. cbn [obind] in Hd.
    destruct (D5 alpha1) as (out & O1 & O2 & O3); [auto|]. rewrite O1 in Hd. cbn [obind] in Hd.
    injection Hd as <- _.
    rewrite nth_map1 by lia.
    rewrite O3 by exact Hi. change (lit (-1)) with (-1). cbn [nmul NumR].
    rewrite <- recursion_bfgs by exact Hi.
    assert (Zr : forall i, (k <= history_slot k i)%nat -> zero_entry n (functional (E i))).
    { intros j Hj. apply (E_holds j), Hj. }
    assert (P : forall j m, (m < k)%nat -> (k <= m + 5)%nat -> m mod 5 = history_slot k j ->
      same n (functional (E j)) (entry_of n (pair_of (nth m rs no_round)))).
    { intros j m H1 H2 H3. destruct (E_holds j) as (_ & _ & _ & H4).
      apply (H4 m); auto. now apply nth_error_nth'; lia. }
    assert (Split : forall l1 l2 l3, Forall2 (same n) l1 l3 -> Forall (zero_entry n) l2 ->
      recursion n c (l1 ++ l2) (coords g) i = recursion n c l3 (coords g) i).
    { intros l1 l2 l3 H1 H2. rewrite (recursion_app_ext n c l1 l2 []).
      - rewrite app_nil_r. now apply recursion_same.
      - intros v j Hj. pose proof (recursion_zeros n c l2 [] v j H2 Hj) as X. now rewrite app_nil_r in X.
      - exact Hi. }
    assert (Goal' : recursion n c (map (fun i => functional (E i)) (rev (seq 0 (Nat.min k max_history)))) (coords g) i
      = recursion n c (map (entry_of n) (rev (pairs_at rs (pairs_used k)))) (coords g) i); [|rewrite Goal'; lra].
    unfold max_history. clearbody c E. clear O3 D1 D5 O1 Hk.
    destruct k as [|[|[|[|[|k]]]]].
    - reflexivity.
    - apply (Split [] [_]); constructor; [|constructor]. apply Zr. cbn. lia.
    - apply (Split [] [_; _]); constructor; [|constructor; [|constructor]]; apply Zr; cbn; lia.
    - apply (Split [_] [_; _] [_]); constructor; [|constructor| |constructor; [|constructor]].
      + apply (P _ 0%nat); [lia|lia|reflexivity].
      + apply Zr; cbn; lia.
      + apply Zr; cbn; lia.
    - apply (Split [_; _; _] [_] [_; _; _]); [|constructor; [apply Zr; cbn; lia|constructor]].
      constructor; [apply (P _ 2%nat); [lia|lia|reflexivity]|].
      constructor; [apply (P _ 1%nat); [lia|lia|reflexivity]|].
      constructor; [apply (P _ 0%nat); [lia|lia|reflexivity]|constructor].
    - replace (Nat.min _ 5) with 5%nat by lia. unfold pairs_used, pairs_at.
      replace (S (S (S (S (S k)))) - 5)%nat with k by lia.
      set (q := 5%nat) at 1. 
      assert (Q : forall j, (j < 5)%nat -> same n (functional (E j)) (entry_of n (pair_of (nth (k + j) rs no_round)))).
      { intros j Hj. apply P; [lia|lia|]. unfold history_slot, max_history.
        replace (S (S (S (S (S k)))) + j)%nat with ((k + j) + 1 * 5)%nat by lia. now rewrite Nat.mod_add by lia. }
      subst q. rewrite <- (app_nil_r (map (fun i => functional (E i)) _)).
      apply Split; [|constructor]. rewrite <- !map_rev. rewrite map_map.
      cbn [seq rev app map].
      constructor; [replace (S (S (S (S k)))) with (k + 4)%nat by lia; apply Q; lia|].
      constructor; [replace (S (S (S k))) with (k + 3)%nat by lia; apply Q; lia|].
      constructor; [replace (S (S k)) with (k + 2)%nat by lia; apply Q; lia|].
      constructor; [replace (S k) with (k + 1)%nat by lia; apply Q; lia|].
      constructor; [pose proof (Q 0%nat ltac:(lia)) as Q0; rewrite Nat.add_0_r in Q0; exact Q0|constructor].
  Qed.
End Trace.

(** ** Whole runs *)
Section Runs.
  Context {F : Type} {NF : Num F}.
  Variable p : problem F.
  Variable Z : list (list F) -> Prop.

  Lemma runs_round k st0 rs st : runs p Z k st0 rs st -> forall m r, nth_error rs m = Some r ->
    exists st1 st2 go, runs p Z m st0 (firstn m rs) st1 /\ round_does p Z m st1 (go, st2, r) /\
      (S m = k -> st2 = st) /\
      (forall r', nth_error rs (S m) = Some r' -> r_variables r' = l_variables st2 /\ r_gradient r' = b_gradient (l_buffers st2)).
  Proof.
    induction 1 as [st|k st0 rs st go st' r Hr IH D]; intros m r0 Hm; [destruct m; discriminate|].
    pose proof (runs_length _ _ _ _ _ _ Hr) as L. pose proof (nth_error_lt _ _ _ Hm) as Hlt.
    rewrite app_length in Hlt. cbn in Hlt.
    destruct (Nat.eq_dec m k) as [->|Hne].
    - rewrite nth_error_app2 in Hm by lia. rewrite L, Nat.sub_diag in Hm. injection Hm as <-.
      exists st, st', go. rewrite firstn_app, L, Nat.sub_diag. cbn [firstn]. rewrite app_nil_r.
      rewrite firstn_all2 by lia. split; [exact Hr|]. split; [exact D|]. split; [auto|].
      intros r' E. apply nth_error_lt in E. rewrite app_length in E. cbn in E. lia.
    - rewrite nth_error_app1 in Hm by lia. destruct (IH m r0 Hm) as (st1 & st2 & go' & A & B & C & E).
      exists st1, st2, go'. rewrite firstn_app. replace (m - length rs)%nat with 0%nat by lia. cbn [firstn].
      rewrite app_nil_r. split; [exact A|]. split; [exact B|]. split; [lia|].
      intros r' Hr'. destruct (Nat.eq_dec (S m) k) as [Hk|Hk].
      + rewrite nth_error_app2 in Hr' by lia. rewrite L, Hk, Nat.sub_diag in Hr'. injection Hr' as <-.
        rewrite (C Hk). destruct D as (_ & _ & Ev & Eg & _). auto.
      + rewrite nth_error_app1 in Hr' by lia. auto.
  Qed.
End Runs.

Definition any_jacobian {F} (_ : list (list F)) : Prop := True.

Section Whole.
  Context {F : Type} {NF : Num F}.
  Variable p : problem F.
  Hypothesis OK : problem_ok p.

  Lemma trace_runs fuel x out rs : length x = num_variables p -> lbfgs_trace fuel p x = Done (out, rs) ->
    (out = x /\ rs = []) \/
    exists k st0 st, runs p any_jacobian k st0 rs st /\ out = l_variables st /\ (k <= 100)%nat /\
      state_ok p any_jacobian st0 /\ l_variables st0 = x /\ l_history st0 = zero_history p.
  Proof.
    intros Hx E. pose proof (trace_ok p OK any_jacobian Logic.I (fun _ _ _ _ _ _ _ _ _ => Logic.I) fuel x Hx) as T.
    rewrite E in T. exact T.
  Qed.

  Theorem chained fuel x out rs : length x = num_variables p -> lbfgs_trace fuel p x = Done (out, rs) ->
    linked x out rs /\ (length rs <= 100)%nat.
  Proof.
    intros Hx E. destruct (trace_runs fuel x out rs Hx E) as [[-> ->]|(k & st0 & st & Rn & -> & Hk & S0 & <- & _)].
    - split; [|apply Nat.le_0_l]. split; [|split].
      + intros [|] r1 r2 H; discriminate.
      + reflexivity.
      + intros C. now destruct C.
    - pose proof (runs_length _ _ _ _ _ _ Rn) as L. split; [|lia]. split; [|split].
      + intros m r1 r2 H1 H2. destruct (runs_round p any_jacobian k st0 rs st Rn m r1 H1) as (s1 & s2 & go & A & D & _ & C).
        destruct (C r2 H2) as [C1 C2]. destruct D as (_ & _ & _ & _ & _ & _ & D1 & D2 & _).
        split; congruence.
      + destruct rs as [|r rs]; [subst k; inversion Rn; reflexivity|].
        destruct (runs_round p any_jacobian k st0 (r :: rs) st Rn 0 r eq_refl) as (s1 & s2 & go & A & D & _).
        inversion A; subst. destruct D as (_ & _ & D1 & _). exact D1.
      + intros Hne. destruct (nth_error_ex rs (length rs - 1)) as [r Er].
        { destruct rs; [congruence|cbn; lia]. }
        destruct (runs_round p any_jacobian k st0 rs st Rn _ r Er) as (s1 & s2 & go & A & D & C & _).
        rewrite <- L in C. rewrite <- C by (destruct rs; [congruence|cbn; lia]).
        exists r. split; [exact Er|]. destruct D as (_ & _ & _ & _ & _ & _ & D1 & _). auto.
  Qed.

  (** Each round moves along its direction by its step *)
  Theorem moves fuel x out rs : length x = num_variables p -> lbfgs_trace fuel p x = Done (out, rs) ->
    forall r, In r rs ->
      length (r_variables r) = num_variables p /\ length (r_direction r) = num_variables p /\
      r_variables' r = map (fun '(v, d) => nadd v (nmul (r_step r) d)) (combine (r_variables r) (r_direction r)).
  Proof.
    intros Hx E r Hr. apply In_nth_error in Hr. destruct Hr as [m Hm].
    destruct (trace_runs fuel x out rs Hx E) as [[-> ->]|(k & st0 & st & Rn & -> & Hk & S0 & <- & _)];
      [destruct m; discriminate|].
    destruct (runs_round p any_jacobian k st0 rs st Rn m r Hm) as (s1 & s2 & go & A & D & _).
    pose proof (runs_ok _ _ _ _ _ _ S0 A) as ((_ & Lx & _) & _).
    destruct D as (_ & _ & D1 & _ & D2 & D3 & _). unfold along in D3. rewrite D1. auto.
  Qed.
End Whole.

Section WholeReal.
  Variable p : problem R.
  Hypothesis OK : problem_ok p.

  Theorem directions fuel x out rs : length x = num_variables p -> lbfgs_trace fuel p x = Done (out, rs) ->
    forall k r i, nth_error rs k = Some r -> (i < num_variables p)%nat ->
    nth i (r_direction r) 0 = - apply (num_variables p)
      (bfgs_matrix (num_variables p) (bfgs_scale (num_variables p) (newest_pair k rs)) (pairs_at rs (pairs_used k)))
      (coords (r_gradient r)) i.
  Proof.
    intros Hx E k r i Hk Hi.
    destruct (trace_runs p OK fuel x out rs Hx E) as [[-> ->]|(K & st0 & st & Rn & -> & HK & S0 & _ & Z0)];
      [destruct k; discriminate|].
    destruct (runs_round p any_jacobian K st0 rs st Rn k r Hk) as (s1 & s2 & go & A & D & _).
    pose proof (runs_ok _ _ _ _ _ _ S0 A) as (Ev & Hh & Ha).
    destruct D as (_ & (alpha' & D1) & _ & D2 & _).
    pose proof (nth_error_lt _ _ _ Hk) as Hlt.
    assert (Hin : forall m, (m < k)%nat -> nth m rs no_round = nth m (firstn k rs) no_round).
    { intros m Hm. rewrite <- (firstn_skipn k rs) at 1. rewrite app_nth1; [reflexivity|]. rewrite firstn_length. lia. }
    assert (E1 : newest_pair k rs = newest_pair k (firstn k rs)).
    { destruct k as [|m]; [reflexivity|]. unfold newest_pair. rewrite Hin by lia. reflexivity. }
    assert (E2 : pairs_at rs (pairs_used k) = pairs_at (firstn k rs) (pairs_used k)).
    { apply map_ext_in. intros m Hm. rewrite Hin; [reflexivity|].
      clear - Hm. destruct k as [|[|[|[|[|k]]]]]; cbn in Hm; try (repeat destruct Hm as [<-|Hm]; try contradiction; lia). }
    rewrite E1, E2. eapply (direction_value p k (firstn k rs) (l_history s1)); eauto.
    - rewrite firstn_length. lia.
    - eapply runs_remembers; eauto.
    - rewrite D2. eapply evaluated_gradient; eauto.
  Qed.

  Lemma firstn_seq {A} (d : A) l : forall k, (k <= length l)%nat -> firstn k l = map (fun i => nth i l d) (seq 0 k).
  Proof.
    induction l as [|a l IH]; intros [|k] H; cbn in *; auto; try lia.
    f_equal. rewrite IH by lia. rewrite <- seq_shift, map_map. reflexivity.
  Qed.
  Lemma skipn_seq k : forall m, skipn m (seq 0 k) = seq m (k - m).
  Proof.
    intros m. destruct (le_lt_dec m k).
    - replace k with (m + (k - m))%nat at 1 by lia. rewrite seq_app, skipn_app.
      rewrite skipn_all2 by now rewrite seq_length. rewrite seq_length, Nat.sub_diag. reflexivity.
    - rewrite skipn_all2 by (rewrite seq_length; lia). replace (k - m)%nat with 0%nat by lia. reflexivity.
  Qed.
  Lemma recent_at k rs : (k <= length rs)%nat -> recent_pairs k rs = pairs_at rs (seq (k - 5) (k - (k - 5))).
  Proof.
    intros H. unfold recent_pairs, pairs_at. rewrite (firstn_seq no_round) by exact H.
    rewrite skipn_map, skipn_seq, map_map. reflexivity.
  Qed.
  Lemma last_map_some {A} (l : list A) a : last (map Some (l ++ [a])) None = Some a.
  Proof. rewrite map_app. apply last_last. Qed.

  Theorem directions_recent fuel x out rs : length x = num_variables p -> lbfgs_trace fuel p x = Done (out, rs) ->
    forall k r i, nth_error rs k = Some r -> (k = 0 \/ 5 <= k)%nat -> (i < num_variables p)%nat ->
    nth i (r_direction r) 0 =
      - apply (num_variables p) (lbfgs_matrix (num_variables p) (recent_pairs k rs)) (coords (r_gradient r)) i.
  Proof.
    intros Hx E k r i Hk Hc Hi. rewrite (directions fuel x out rs Hx E k r i Hk Hi). f_equal.
    pose proof (nth_error_lt _ _ _ Hk) as Hlt. unfold lbfgs_matrix. rewrite recent_at by lia.
    destruct Hc as [->|Hc]; [reflexivity|].
    assert (P : pairs_used k = seq (k - 5) 5).
    { destruct k as [|[|[|[|[|k]]]]]; try lia. reflexivity. }
    rewrite P. replace (k - (k - 5))%nat with 5%nat by lia.
    assert (N : last (map Some (pairs_at rs (seq (k - 5) 5))) None = newest_pair k rs).
    { replace 5%nat with (4 + 1)%nat at 2 by lia. rewrite seq_app. unfold pairs_at. rewrite map_app.
      cbn [seq map]. rewrite last_map_some. destruct k as [|k]; [lia|]. unfold newest_pair. do 2 f_equal.
      f_equal. lia. }
    rewrite N. reflexivity.
  Qed.
End WholeReal.
