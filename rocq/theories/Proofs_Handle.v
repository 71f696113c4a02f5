(** Handles as keys: their order is the order in which they were created. *)
From Coq Require Import List Arith NArith Lia Bool.
From Verif Require Import Num Outcome Lib ModelExpr ModelSystem ModelSolve ModelApi ModelHandle
  Spec_Sketch Spec_Solver Spec_History Proofs_System Proofs_Calls Proofs_History Proofs_Api Proofs_World.
Import ListNotations.

Section Handle.
  Context {F : Type} {NF : Num F}.

  Lemma pair_cmp_eq a b : pair_cmp a b = Eq <-> a = b.
  Proof.
    destruct a as [a1 a2], b as [b1 b2]. unfold pair_cmp; simpl.
    destruct (N.compare_spec a1 b1) as [->| |]; [destruct (Nat.compare_spec a2 b2) as [->| |]|..];
      split; intros Q; try discriminate; try congruence; inversion Q; subst; lia.
  Qed.

  Lemma wcall_system env i c (w w' : world F) h : env_ok env -> world_ok w ->
    wstep env (WCall i c) w = Done (w', Some (RElement h)) ->
    i < length (w_systems w) /\ eh_system h = (N.of_nat i mod 2 ^ 32)%N.
  Proof.
    intros EO [W1 W2] H. simpl in H.
    apply obind_done in H. destruct H as (s & Hs & H). apply oget_done in Hs.
    apply obind_done in H. destruct H as ([s' r'] & Hst & H). inversion H; subst; clear H.
    destruct (W2 _ _ Hs) as (sk & M & Hid).
    destruct (step_any _ _ _ _ _ _ EO M Hst) as (sk' & M' & Eid & EH & CH).
    split; [eapply nth_error_lt; eauto|].
    assert (Hn : nth_error (element_handles sk') (length (element_handles sk)) = Some h).
    { rewrite EH, nth_error_app2, Nat.sub_diag by lia. auto. }
    apply element_handles_nth in Hn. destruct Hn as [_ N2]. now rewrite N2, Eid.
  Qed.
  Lemma wcall_system_c env i c (w w' : world F) h : env_ok env -> world_ok w ->
    wstep env (WCall i c) w = Done (w', Some (RConstraint h)) ->
    i < length (w_systems w) /\ ch_system h = (N.of_nat i mod 2 ^ 32)%N.
  Proof.
    intros EO [W1 W2] H. simpl in H.
    apply obind_done in H. destruct H as (s & Hs & H). apply oget_done in Hs.
    apply obind_done in H. destruct H as ([s' r'] & Hst & H). inversion H; subst; clear H.
    destruct (W2 _ _ Hs) as (sk & M & Hid).
    destruct (step_any _ _ _ _ _ _ EO M Hst) as (sk' & M' & Eid & EH & CH).
    split; [eapply nth_error_lt; eauto|].
    assert (Hn : nth_error (constraint_handles sk') (length (constraint_handles sk)) = Some h).
    { rewrite CH, nth_error_app2, Nat.sub_diag by lia. auto. }
    apply constraint_handles_nth in Hn. destruct Hn as [_ N2]. now rewrite N2, Eid.
  Qed.

  (** Where each handle of a run came from, and that ids grow *)
  Lemma wrun_order env : env_ok env -> forall cs (w w' : world F) rs, world_ok w ->
    wrun env cs w = Done (w', rs) -> (N.of_nat (length (w_systems w')) <= 2 ^ 32)%N ->
    (forall i a c h, nth_error cs i = Some (WCall a c) -> nth_error rs i = Some (Some (RElement h)) ->
       a < length (w_systems w') /\ eh_system h = N.of_nat a) /\
    (forall i j h k, i < j -> nth_error rs i = Some (Some (RElement h)) ->
       nth_error rs j = Some (Some (RElement k)) -> eh_system h = eh_system k -> eh_id h < eh_id k) /\
    (forall i a c h, nth_error cs i = Some (WCall a c) -> nth_error rs i = Some (Some (RConstraint h)) ->
       a < length (w_systems w') /\ ch_system h = N.of_nat a) /\
    (forall i j h k, i < j -> nth_error rs i = Some (Some (RConstraint h)) ->
       nth_error rs j = Some (Some (RConstraint k)) -> ch_system h = ch_system k -> ch_id h < ch_id k).
  Proof.
    intros EO. induction cs as [|c cs IH]; simpl; intros w w' rs W H Hn.
    - inversion H; subst. split; [|split; [|split]].
      + intros i a c h Hi; destruct i; discriminate.
      + intros i j h k _ Hi; destruct i; discriminate.
      + intros i a c h Hi; destruct i; discriminate.
      + intros i j h k _ Hi; destruct i; discriminate.
    - apply obind_done in H. destruct H as ([w1 r] & H1 & H).
      apply obind_done in H. destruct H as ([w2 rs'] & H2 & H). inversion H; subst; clear H.
      destruct (wstep_facts _ _ _ _ _ EO W H1) as (W1 & L1 & Mo & E1 & C1).
      destruct (wrun_facts _ EO _ _ _ _ W1 H2) as (W2 & L2 & E2 & C2).
      destruct (IH _ _ _ W1 H2 Hn) as (U1 & U2 & U3 & U4).
      split; [|split; [|split]].
      + intros i a d h Hi Hr. destruct i as [|i]; simpl in Hi, Hr; [|eauto].
        inversion Hi; subst c. inversion Hr; subst r.
        destruct (wcall_system _ _ _ _ _ _ EO W H1) as [A B]. split; [lia|].
        rewrite B. apply N.mod_small. lia.
      + intros i j h k Hij Hi Hj Es. destruct i as [|i], j as [|j]; simpl in Hi, Hj; try lia.
        * inversion Hi; subst r. destruct (E1 h eq_refl) as (a & A1 & A2 & A3 & A4 & A5).
          destruct (E2 _ _ Hj) as (b & B1 & B2 & B3 & B4).
          assert (a = b) by (eapply mod_small_inj; eauto; [lia|congruence]). subst b. lia.
        * apply (U2 i j); auto. lia.
      + intros i a d h Hi Hr. destruct i as [|i]; simpl in Hi, Hr; [|eauto].
        inversion Hi; subst c. inversion Hr; subst r.
        destruct (wcall_system_c _ _ _ _ _ _ EO W H1) as [A B]. split; [lia|].
        rewrite B. apply N.mod_small. lia.
      + intros i j h k Hij Hi Hj Es. destruct i as [|i], j as [|j]; simpl in Hi, Hj; try lia.
        * inversion Hi; subst r. destruct (C1 h eq_refl) as (a & A1 & A2 & A3 & A4).
          destruct (C2 _ _ Hj) as (b & B1 & B2 & B3).
          assert (a = b) by (eapply mod_small_inj; eauto; [lia|congruence]). subst b. lia.
        * apply (U4 i j); auto. lia.
  Qed.

  Lemma compare_positions a b i j m n :
    (a = b -> i < j -> m < n) -> (a = b -> j < i -> n < m) -> (a = b -> i = j -> m = n) ->
    pair_cmp (N.of_nat a, m) (N.of_nat b, n) = if Nat.eqb a b then Nat.compare i j else Nat.compare a b.
  Proof.
    intros X Y Z. unfold pair_cmp; simpl. rewrite N2Nat.inj_compare, !Nat2N.id.
    destruct (Nat.eqb_spec a b) as [->|D].
    - rewrite Nat.compare_refl. specialize (X eq_refl). specialize (Y eq_refl). specialize (Z eq_refl).
      destruct (Nat.compare_spec i j) as [E|E|E].
      + apply Nat.compare_eq_iff; auto.
      + apply Nat.compare_lt_iff; auto.
      + apply Nat.compare_gt_iff; auto.
    - destruct (Nat.compare_spec a b); [lia|auto|auto].
  Qed.

  Lemma element_order env cs w rs i j a b c d h k : env_ok env ->
    wrun env cs world_new = Done (w, rs) -> (systems_created cs <= 2 ^ 32)%N ->
    nth_error cs i = Some (WCall a c) -> nth_error rs i = Some (Some (RElement h)) ->
    nth_error cs j = Some (WCall b d) -> nth_error rs j = Some (Some (RElement k)) ->
    ehandle_cmp h k = if Nat.eqb a b then Nat.compare i j else Nat.compare a b.
  Proof.
    intros EO H Hc Ci Hi Cj Hj. assert (Hn := wrun_count _ _ _ _ _ H).
    assert (Hn' : (N.of_nat (length (w_systems w)) <= 2 ^ 32)%N) by (rewrite Hn; simpl length; lia).
    destruct (wrun_order _ EO _ _ _ _ world_new_ok H Hn') as (U1 & U2 & _ & _).
    destruct (U1 _ _ _ _ Ci Hi) as [_ Sh]. destruct (U1 _ _ _ _ Cj Hj) as [_ Sk].
    unfold ehandle_cmp. rewrite Sh, Sk. apply compare_positions; intros Eab Eij.
    - apply (U2 i j); auto. congruence.
    - apply (U2 j i); auto. congruence.
    - subst j. congruence.
  Qed.
  Lemma constraint_order env cs w rs i j a b c d h k : env_ok env ->
    wrun env cs world_new = Done (w, rs) -> (systems_created cs <= 2 ^ 32)%N ->
    nth_error cs i = Some (WCall a c) -> nth_error rs i = Some (Some (RConstraint h)) ->
    nth_error cs j = Some (WCall b d) -> nth_error rs j = Some (Some (RConstraint k)) ->
    chandle_cmp h k = if Nat.eqb a b then Nat.compare i j else Nat.compare a b.
  Proof.
    intros EO H Hc Ci Hi Cj Hj. assert (Hn := wrun_count _ _ _ _ _ H).
    assert (Hn' : (N.of_nat (length (w_systems w)) <= 2 ^ 32)%N) by (rewrite Hn; simpl length; lia).
    destruct (wrun_order _ EO _ _ _ _ world_new_ok H Hn') as (_ & _ & U1 & U2).
    destruct (U1 _ _ _ _ Ci Hi) as [_ Sh]. destruct (U1 _ _ _ _ Cj Hj) as [_ Sk].
    unfold chandle_cmp. rewrite Sh, Sk. apply compare_positions; intros Eab Eij.
    - apply (U2 i j); auto. congruence.
    - apply (U2 j i); auto. congruence.
    - subst j. congruence.
  Qed.
End Handle.

Lemma ehandle_keys a b :
  (ehandle_eqb a b = true <-> ehandle_cmp a b = Eq) /\
  (ehandle_eqb a b = true <-> ehandle_words a = ehandle_words b).
Proof.
  unfold ehandle_cmp, ehandle_words, ehandle_eqb. rewrite pair_cmp_eq, andb_true_iff, N.eqb_eq, Nat.eqb_eq.
  split; split; intros H.
  - destruct H. congruence.
  - inversion H. auto.
  - destruct H. congruence.
  - inversion H as [[H1 H2]]. apply Nat2N.inj in H2. auto.
Qed.
Lemma chandle_keys a b :
  (chandle_eqb a b = true <-> chandle_cmp a b = Eq) /\
  (chandle_eqb a b = true <-> chandle_words a = chandle_words b).
Proof.
  unfold chandle_cmp, chandle_words, chandle_eqb. rewrite pair_cmp_eq, andb_true_iff, N.eqb_eq, Nat.eqb_eq.
  split; split; intros H.
  - destruct H. congruence.
  - inversion H. auto.
  - destruct H. congruence.
  - inversion H as [[H1 H2]]. apply Nat2N.inj in H2. auto.
Qed.

Lemma pair_cmp_antisym a b : pair_cmp b a = CompOpp (pair_cmp a b).
Proof.
  destruct a as [a1 a2], b as [b1 b2]. unfold pair_cmp; simpl.
  rewrite (N.compare_antisym a1 b1), (Nat.compare_antisym a2 b2).
  destruct (N.compare a1 b1); reflexivity.
Qed.
Lemma pair_cmp_lt a b : pair_cmp a b = Lt <-> (fst a < fst b)%N \/ fst a = fst b /\ snd a < snd b.
Proof.
  destruct a as [a1 a2], b as [b1 b2]. unfold pair_cmp; simpl.
  destruct (N.compare_spec a1 b1) as [->| |]; [rewrite Nat.compare_lt_iff|..].
  - split; [auto|]. intros [|[_ ?]]; [lia|auto].
  - split; auto.
  - split; [discriminate|]. intros [|[? _]]; lia.
Qed.
Lemma pair_cmp_trans a b c : pair_cmp a b = Lt -> pair_cmp b c = Lt -> pair_cmp a c = Lt.
Proof. rewrite !pair_cmp_lt. intros. lia. Qed.
