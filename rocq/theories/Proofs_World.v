(** Several systems: handles are unique, foreign handles. *)
From Coq Require Import List Arith NArith ZArith Lia Bool Permutation.
From Verif Require Import Num Outcome Lib ModelExpr ModelGraph ModelSystem ModelMatching ModelSolve
  ModelNumerical ModelApi Spec_Sketch Spec_Solver Spec_History
  Proofs_Graph Proofs_System Proofs_Calls Proofs_Analyze Proofs_Solve Proofs_Safe Proofs_Step
  Proofs_History Proofs_Api.
Import ListNotations.

Section World.
  Context {F : Type} {NF : Num F}.
  Implicit Types (s : system F) (sk : sketch F) (env : solver_env F).

  Lemma spec_step_handles (c : call F) sk sk' r : spec_step c sk sk' r ->
    sk_id sk' = sk_id sk /\
    element_handles sk' = element_handles sk ++ match r with RElement h => [h] | _ => [] end /\
    constraint_handles sk' = constraint_handles sk ++ match r with RConstraint h => [h] | _ => [] end.
  Proof.
    intros H. inversion H; subst.
    2: now rewrite !app_nil_r.
    2,3: match goal with
      | S : solved _ _ |- _ => destruct S as (S1 & S2 & S3 & S4 & _)
      | S : solved_assembly _ _ |- _ => destruct S as (S1 & S2 & S3 & S4 & _) end;
      rewrite !app_nil_r; split; [auto|]; split; [now apply element_handles_shape|];
      apply constraint_handles_shape; auto; rewrite S2; apply same_shape_refl.
    destruct c; cbn [spec_call] in H0;
    try (inversion H0; subst; rewrite ?app_nil_r; (split; [auto|]); split; [|auto]; apply element_handles_add);
    try (destruct (_ && _)%bool in H0; [|discriminate]; inversion H0; subst; rewrite ?app_nil_r; (split; [auto|]); (split; [|auto]); apply element_handles_add);
    try (unfold add_relation in H0; destruct (relation_ok _ _) in H0; [|discriminate]; inversion H0; subst;
         rewrite ?app_nil_r; (split; [auto|]); (split; [auto|]);
         match goal with |- constraint_handles (Sketch _ _ (_ ++ [?q]) _) = _ => apply (constraint_handles_add sk (sk_items sk) q) end);
    try (destruct (has_tag _ _ _) in H0; [|discriminate]; inversion H0; subst; rewrite ?app_nil_r; auto; fail);
    try (inversion H0; subst; rewrite ?app_nil_r; auto; fail).
    - destruct (has_tag _ _ _) eqn:T in H0; [|discriminate]. inversion H0; subst. rewrite ?app_nil_r.
      split; [auto|]. split; [|auto]. apply element_handles_shape; auto. simpl. apply replace_shape.
      apply has_tag_nth in T. destruct T as (it & -> & Ht). destruct it; try discriminate. exact Logic.I.
    - destruct (has_tag _ _ _) eqn:T in H0; [|discriminate]. inversion H0; subst. rewrite ?app_nil_r.
      split; [auto|]. split; [|auto]. apply element_handles_shape; auto. simpl. apply replace_shape.
      apply has_tag_nth in T. destruct T as (it & -> & Ht). destruct it; try discriminate. exact Logic.I.
    - destruct (nth_error (sk_relations sk) (ch_id h)) as [q|] eqn:Eq; [|discriminate].
      destruct (with_parameter (ch_tag h) x q) as [q'|] eqn:Ew; [|discriminate]. inversion H0; subst. clear H0.
      rewrite ?app_nil_r. split; [auto|]. split; [auto|]. apply constraint_handles_shape; auto. simpl.
      apply replace_same_shape. rewrite Eq.
      destruct (ch_tag h), q; simpl in Ew; try discriminate; inversion Ew; split; auto.
    - destruct (_ && _)%bool in H0; [|discriminate]. destruct (value_of sk (eh_id h)); [|discriminate].
      inversion H0; subst. now rewrite !app_nil_r.
    - destruct (nth_error (sk_relations sk) (ch_id h)); [|discriminate]. destruct (N.eqb _ _); [|discriminate].
      destruct (residual_of sk r0); [|discriminate]. inversion H0; subst. now rewrite !app_nil_r.
  Qed.

  (** Any call at all, with any handles *)
  Lemma step_any env c s sk s' r : env_ok env -> models s sk -> step env c s = Done (s', r) ->
    exists sk', models s' sk' /\ sk_id sk' = sk_id sk /\
      element_handles sk' = element_handles sk ++ match r with RElement h => [h] | _ => [] end /\
      constraint_handles sk' = constraint_handles sk ++ match r with RConstraint h => [h] | _ => [] end.
  Proof.
    intros EO M H.
    assert (Q : (exists h, c = GetResidual h) \/ unforged sk c).
    { destruct c; simpl; eauto. }
    destruct Q as [[h ->]|Q].
    - simpl in H. apply obind_done in H. destruct H as (x & _ & H). inversion H; subst.
      exists sk. rewrite !app_nil_r. auto.
    - destruct (step_sound _ _ _ _ _ _ EO M Q H) as (sk' & S & M'). exists sk'.
      split; auto. now apply (spec_step_handles c).
  Qed.

  Lemma add_element_small tag vals enc s s' h : add_element (F := F) tag vals enc s = Done (s', h) ->
    (N.of_nat (eh_id h) < 2 ^ 32)%N.
  Proof.
    unfold add_element. intros H. apply obind_done in H. destruct H as (a & Ha & H).
    apply obind_done in H. destruct H as (b & Hb & H). inversion H; subst. simpl.
    apply to_u32_done in Ha. destruct Ha as [Ha1 Ha2]. subst. auto.
  Qed.
  Lemma step_small env c s s' h : step env c s = Done (s', RElement h) -> (N.of_nat (eh_id h) < 2 ^ 32)%N.
  Proof.
    intros H.
    assert (Q : forall m, ret_element m = Done (s', RElement h) -> m = Done (s', h)).
    { intros m Hm. unfold ret_element in Hm. apply obind_done in Hm. destruct Hm as ([s1 h1] & E & Hm). inversion Hm; subst. auto. }
    assert (Q2 : forall m, ret_constraint m = Done (s', RElement h) -> False).
    { intros m Hm. unfold ret_constraint in Hm. apply obind_done in Hm. destruct Hm as ([s1 h1] & E & Hm). inversion Hm. }
    assert (Q3 : forall m, ret_unit m = Done (s', RElement h) -> False).
    { intros m Hm. unfold ret_unit in Hm. apply obind_done in Hm. destruct Hm as (s1 & E & Hm). inversion Hm. }
    destruct c; cbn [step] in H; try (now apply Q2 in H); try (now apply Q3 in H).
    - apply Q in H. eapply add_element_small; eauto.
    - apply Q in H. eapply add_element_small; eauto.
    - apply Q in H. unfold line_create in H. apply obind_done in H. destruct H as (a & _ & H).
      apply obind_done in H. destruct H as (b & _ & H). eapply add_element_small; eauto.
    - apply Q in H. unfold circle_create in H. apply obind_done in H. destruct H as (a & _ & H).
      apply obind_done in H. destruct H as (b & _ & H). eapply add_element_small; eauto.
    - apply obind_done in H. destruct H as (v & _ & H). inversion H.
    - apply obind_done in H. destruct H as (v & _ & H). inversion H.
    - inversion H.
    - inversion H.
    - apply obind_done in H. destruct H as (v & _ & H). inversion H.
  Qed.

  (** ** Worlds *)
  Definition world_ok (w : world F) : Prop :=
    w_next w = (N.of_nat (length (w_systems w)) mod 2 ^ 32)%N /\
    forall a s, nth_error (w_systems w) a = Some s ->
      exists sk, models s sk /\ sk_id sk = (N.of_nat a mod 2 ^ 32)%N.
  Lemma world_new_ok : world_ok world_new.
  Proof. split; [reflexivity|]. intros a s H. destruct a; discriminate. Qed.

  Definition elements_in (w : world F) (a : nat) : nat :=
    match nth_error (w_systems w) a with Some s => length (sys_elements s) | None => 0 end.
  Definition constraints_in (w : world F) (a : nat) : nat :=
    match nth_error (w_systems w) a with Some s => length (sys_constraints s) | None => 0 end.

  Lemma element_handles_length sk : length (element_handles sk) = length (sk_items sk).
  Proof. unfold element_handles. now rewrite map_length, seq_length. Qed.
  Lemma constraint_handles_length sk : length (constraint_handles sk) = length (sk_relations sk).
  Proof. unfold constraint_handles. now rewrite map_length, seq_length. Qed.
  Lemma element_handles_nth sk i h : nth_error (element_handles sk) i = Some h ->
    eh_id h = i /\ eh_system h = sk_id sk.
  Proof.
    intros H. unfold element_handles in H. rewrite nth_error_map in H.
    destruct (nth_error (seq 0 (length (sk_items sk))) i) eqn:E; [|discriminate].
    rewrite nth_error_seq in E. destruct (Nat.ltb _ _); [|discriminate]. inversion E; subst. inversion H; subst. auto.
  Qed.
  Lemma constraint_handles_nth sk i h : nth_error (constraint_handles sk) i = Some h ->
    ch_id h = i /\ ch_system h = sk_id sk.
  Proof.
    intros H. unfold constraint_handles in H. rewrite nth_error_map in H.
    destruct (nth_error (seq 0 (length (sk_relations sk))) i) eqn:E; [|discriminate].
    rewrite nth_error_seq in E. destruct (Nat.ltb _ _); [|discriminate]. inversion E; subst. inversion H; subst. auto.
  Qed.

  Lemma wstep_facts env c w w' r : env_ok env -> world_ok w -> wstep env c w = Done (w', r) ->
    world_ok w' /\ length (w_systems w) <= length (w_systems w') /\
    (forall a, elements_in w a <= elements_in w' a /\ constraints_in w a <= constraints_in w' a) /\
    (forall h, r = Some (RElement h) -> exists a, a < length (w_systems w) /\
       eh_system h = (N.of_nat a mod 2 ^ 32)%N /\ eh_id h = elements_in w a /\
       elements_in w' a = S (elements_in w a) /\ (N.of_nat (eh_id h) < 2 ^ 32)%N) /\
    (forall h, r = Some (RConstraint h) -> exists a, a < length (w_systems w) /\
       ch_system h = (N.of_nat a mod 2 ^ 32)%N /\ ch_id h = constraints_in w a /\
       constraints_in w' a = S (constraints_in w a)).
  Proof.
    intros EO [W1 W2] H. destruct c as [|i c]; simpl in H.
    - inversion H; subst; clear H. simpl. rewrite app_length. simpl.
      split; [split; simpl|split; [lia|split; [|split; intros; discriminate]]].
      + rewrite app_length. simpl. rewrite W1, Nat2N.inj_add. simpl.
        rewrite N.add_mod_idemp_l by discriminate. reflexivity.
      + intros a s Ha. apply nth_error_snoc in Ha. destruct Ha as [[_ Ha]|[-> ->]]; [eauto|].
        exists (sketch_new (w_next w)). split; [apply models_new|]. simpl. auto.
      + intros a. unfold elements_in, constraints_in. simpl.
        destruct (nth_error (w_systems w) a) eqn:E; [rewrite (nth_error_app_old _ _ _ _ E); auto|lia].
    - apply obind_done in H. destruct H as (s & Hs & H). apply oget_done in Hs.
      apply obind_done in H. destruct H as ([s' r'] & Hst & H). inversion H; subst; clear H. simpl.
      destruct (W2 _ _ Hs) as (sk & M & Hid).
      destruct (step_any _ _ _ _ _ _ EO M Hst) as (sk' & M' & Eid & EH & CH).
      assert (Hi := nth_error_lt _ _ _ Hs).
      assert (Le : forall a, elements_in (World (w_next w) (lset (w_systems w) i s')) a =
         if Nat.eqb i a then length (sys_elements s') else elements_in w a).
      { intros a. unfold elements_in. simpl. rewrite nth_error_lset. destruct (Nat.eqb_spec i a) as [->|]; auto.
        rewrite (proj2 (Nat.ltb_lt _ _)) by auto. auto. }
      assert (Lc : forall a, constraints_in (World (w_next w) (lset (w_systems w) i s')) a =
         if Nat.eqb i a then length (sys_constraints s') else constraints_in w a).
      { intros a. unfold constraints_in. simpl. rewrite nth_error_lset. destruct (Nat.eqb_spec i a) as [->|]; auto.
        rewrite (proj2 (Nat.ltb_lt _ _)) by auto. auto. }
      assert (Ei : elements_in w i = length (sys_elements s)) by (unfold elements_in; rewrite Hs; auto).
      assert (Ci : constraints_in w i = length (sys_constraints s)) by (unfold constraints_in; rewrite Hs; auto).
      assert (Es : length (sys_elements s) = length (element_handles sk)) by (rewrite element_handles_length; symmetry; eapply items_length; eauto).
      assert (Es' : length (sys_elements s') = length (element_handles sk')) by (rewrite element_handles_length; symmetry; eapply items_length; eauto).
      assert (Cs : length (sys_constraints s) = length (constraint_handles sk)) by (rewrite constraint_handles_length; eapply m_clen; eauto).
      assert (Cs' : length (sys_constraints s') = length (constraint_handles sk')) by (rewrite constraint_handles_length; eapply m_clen; eauto).
      split; [|split; [rewrite lset_length; auto|split; [|split]]].
      + split; simpl; [rewrite lset_length; auto|]. intros a s0 Ha. rewrite nth_error_lset in Ha.
        destruct (Nat.eqb_spec i a) as [->|]; [|eauto].
        destruct (Nat.ltb _ _); [|discriminate]. inversion Ha; subst. exists sk'. split; auto. rewrite Eid. exact Hid.
      + intros a. rewrite Le, Lc. destruct (Nat.eqb_spec i a) as [->|]; auto.
        rewrite Ei, Ci, Es, Es', Cs, Cs', EH, CH, !app_length. lia.
      + intros h Hr. inversion Hr; subst r'. exists i. split; auto.
        assert (Hn : nth_error (element_handles sk') (length (element_handles sk)) = Some h).
        { rewrite EH, nth_error_app2, Nat.sub_diag by lia. auto. }
        apply element_handles_nth in Hn. destruct Hn as [N1 N2].
        rewrite Le, Nat.eqb_refl, Ei. split; [rewrite N2, Eid; exact Hid|]. split; [rewrite N1, Es; auto|]. split.
        * rewrite Es', EH, app_length. simpl. lia.
        * eapply step_small; eauto.
      + intros h Hr. inversion Hr; subst r'. exists i. split; auto.
        assert (Hn : nth_error (constraint_handles sk') (length (constraint_handles sk)) = Some h).
        { rewrite CH, nth_error_app2, Nat.sub_diag by lia. auto. }
        apply constraint_handles_nth in Hn. destruct Hn as [N1 N2].
        rewrite Lc, Nat.eqb_refl, Ci. split; [rewrite N2, Eid; exact Hid|]. split; [rewrite N1, Cs; auto|].
        rewrite Cs', CH, app_length. simpl. lia.
  Qed.

  Lemma wrun_facts env : env_ok env -> forall cs w w' rs, world_ok w -> wrun env cs w = Done (w', rs) ->
    world_ok w' /\ length (w_systems w) <= length (w_systems w') /\
    (forall j h, nth_error rs j = Some (Some (RElement h)) -> exists a, a < length (w_systems w') /\
       eh_system h = (N.of_nat a mod 2 ^ 32)%N /\ elements_in w a <= eh_id h /\
       (N.of_nat (eh_id h) < 2 ^ 32)%N) /\
    (forall j h, nth_error rs j = Some (Some (RConstraint h)) -> exists a, a < length (w_systems w') /\
       ch_system h = (N.of_nat a mod 2 ^ 32)%N /\ constraints_in w a <= ch_id h).
  Proof.
    intros EO. induction cs as [|c cs IH]; simpl; intros w w' rs W H.
    - inversion H; subst. split; [auto|]. split; [auto|]. split; intros j h Hj; destruct j; discriminate.
    - apply obind_done in H. destruct H as ([w1 r] & H1 & H).
      apply obind_done in H. destruct H as ([w2 rs'] & H2 & H). inversion H; subst; clear H.
      destruct (wstep_facts _ _ _ _ _ EO W H1) as (W1 & L1 & Mo & E1 & C1).
      destruct (IH _ _ _ W1 H2) as (W2 & L2 & E2 & C2).
      split; [auto|]. split; [lia|]. split.
      + intros j h Hj. destruct j as [|j]; simpl in Hj.
        * inversion Hj; subst. destruct (E1 h eq_refl) as (a & A1 & A2 & A3 & A4 & A5). exists a.
          split; [lia|]. split; [auto|]. split; [lia|auto].
        * destruct (E2 _ _ Hj) as (a & A1 & A2 & A3 & A4). exists a. split; [auto|]. split; [auto|].
          split; [|auto]. specialize (Mo a). lia.
      + intros j h Hj. destruct j as [|j]; simpl in Hj.
        * inversion Hj; subst. destruct (C1 h eq_refl) as (a & A1 & A2 & A3 & A4). exists a.
          split; [lia|]. split; [auto|lia].
        * destruct (C2 _ _ Hj) as (a & A1 & A2 & A3). exists a. split; [auto|]. split; [auto|].
          specialize (Mo a). lia.
  Qed.

  Lemma mod_small_inj a b n : (N.of_nat n <= 2 ^ 32)%N -> a < n -> b < n ->
    (N.of_nat a mod 2 ^ 32 = N.of_nat b mod 2 ^ 32)%N -> a = b.
  Proof. intros Hn Ha Hb H. rewrite !N.mod_small in H by lia. lia. Qed.

  Lemma wrun_unique env : env_ok env -> forall cs w w' rs, world_ok w -> wrun env cs w = Done (w', rs) ->
    (N.of_nat (length (w_systems w')) <= 2 ^ 32)%N ->
    (forall i j h k, nth_error rs i = Some (Some (RElement h)) -> nth_error rs j = Some (Some (RElement k)) ->
       eh_system h = eh_system k -> eh_id h = eh_id k -> i = j) /\
    (forall i j h k, nth_error rs i = Some (Some (RConstraint h)) -> nth_error rs j = Some (Some (RConstraint k)) ->
       ch_system h = ch_system k -> ch_id h = ch_id k -> i = j).
  Proof.
    intros EO. induction cs as [|c cs IH]; simpl; intros w w' rs W H Hn.
    - inversion H; subst. split; intros i j h k Hi; destruct i; discriminate.
    - apply obind_done in H. destruct H as ([w1 r] & H1 & H).
      apply obind_done in H. destruct H as ([w2 rs'] & H2 & H). inversion H; subst; clear H.
      destruct (wstep_facts _ _ _ _ _ EO W H1) as (W1 & L1 & Mo & E1 & C1).
      destruct (wrun_facts _ EO _ _ _ _ W1 H2) as (W2 & L2 & E2 & C2).
      destruct (IH _ _ _ W1 H2 Hn) as [U1 U2].
      assert (X1 : forall j h k, r = Some (RElement h) -> nth_error rs' j = Some (Some (RElement k)) ->
         eh_system h = eh_system k -> eh_id h = eh_id k -> False).
      { intros j h k Hr Hj Es Ei. destruct (E1 h Hr) as (a & A1 & A2 & A3 & A4 & A5).
        destruct (E2 _ _ Hj) as (b & B1 & B2 & B3 & B4).
        assert (a = b) by (eapply mod_small_inj; eauto; [lia|congruence]). subst b. lia. }
      assert (X2 : forall j h k, r = Some (RConstraint h) -> nth_error rs' j = Some (Some (RConstraint k)) ->
         ch_system h = ch_system k -> ch_id h = ch_id k -> False).
      { intros j h k Hr Hj Es Ei. destruct (C1 h Hr) as (a & A1 & A2 & A3 & A4).
        destruct (C2 _ _ Hj) as (b & B1 & B2 & B3).
        assert (a = b) by (eapply mod_small_inj; eauto; [lia|congruence]). subst b. lia. }
      split; intros i j h k Hi Hj Es Ei; destruct i as [|i], j as [|j]; simpl in Hi, Hj; auto.
      + exfalso. eapply X1; eauto. congruence.
      + exfalso. eapply X1 with (h := k) (k := h); eauto. congruence.
      + f_equal. eapply U1; eauto.
      + exfalso. eapply X2; eauto. congruence.
      + exfalso. eapply X2 with (h := k) (k := h); eauto. congruence.
      + f_equal. eapply U2; eauto.
  Qed.

  Lemma as_id_inj h k : (N.of_nat (eh_id h) < 2 ^ 32)%N -> (N.of_nat (eh_id k) < 2 ^ 32)%N ->
    as_id h = as_id k -> eh_system h = eh_system k /\ eh_id h = eh_id k.
  Proof.
    unfold as_id. intros H K E.
    assert (D : forall a b, (b < 2 ^ 32)%N -> ((a * 2 ^ 32 + b) / 2 ^ 32 = a /\ (a * 2 ^ 32 + b) mod 2 ^ 32 = b)%N).
    { intros a b Hb. split.
      - rewrite N.div_add_l by discriminate. rewrite N.div_small by auto. lia.
      - rewrite N.add_comm, N.mod_add by discriminate. now apply N.mod_small. }
    destruct (D (eh_system h) _ H) as [D1 D2]. destruct (D (eh_system k) _ K) as [D3 D4].
    rewrite E in D1, D2. split; [congruence|]. lia.
  Qed.

  Lemma wrun_count env cs : forall (w w' : world F) rs, wrun env cs w = Done (w', rs) ->
    N.of_nat (length (w_systems w')) = (N.of_nat (length (w_systems w)) + systems_created cs)%N.
  Proof.
    unfold systems_created. induction cs as [|c cs IH]; simpl; intros w w' rs H.
    - inversion H; subst. lia.
    - apply obind_done in H. destruct H as ([w1 r] & H1 & H).
      apply obind_done in H. destruct H as ([w2 rs'] & H2 & H). inversion H; subst; clear H.
      apply IH in H2. rewrite H2. destruct c as [|i c]; simpl in H1.
      + inversion H1; subst. simpl. rewrite app_length. simpl. lia.
      + apply obind_done in H1. destruct H1 as (s & Hs & H1).
        apply obind_done in H1. destruct H1 as ([s' r'] & Hst & H1). inversion H1; subst. simpl.
        rewrite lset_length. lia.
  Qed.

  Lemma element_handles_unique env cs w rs i j h k : env_ok env ->
    wrun env cs world_new = Done (w, rs) -> (systems_created cs <= 2 ^ 32)%N ->
    nth_error rs i = Some (Some (RElement h)) -> nth_error rs j = Some (Some (RElement k)) ->
    (ehandle_eqb h k = true <-> i = j) /\ (as_id h = as_id k <-> i = j).
  Proof.
    intros EO H Hc Hi Hj. assert (Hn := wrun_count _ _ _ _ _ H).
    assert (Hn' : (N.of_nat (length (w_systems w)) <= 2 ^ 32)%N) by (rewrite Hn; simpl length; lia).
    destruct (wrun_unique _ EO _ _ _ _ world_new_ok H Hn') as [U _].
    destruct (wrun_facts _ EO _ _ _ _ world_new_ok H) as (_ & _ & E & _).
    destruct (E _ _ Hi) as (_ & _ & _ & _ & S1). destruct (E _ _ Hj) as (_ & _ & _ & _ & S2).
    assert (X : i = j -> h = k) by (intros ->; congruence).
    split; split; intros Q.
    - apply Bool.andb_true_iff in Q. destruct Q as [Q1 Q2]. apply N.eqb_eq in Q1. apply Nat.eqb_eq in Q2. eauto.
    - rewrite (X Q). unfold ehandle_eqb. now rewrite N.eqb_refl, Nat.eqb_refl.
    - apply as_id_inj in Q; auto. destruct Q. eauto.
    - now rewrite (X Q).
  Qed.
  Lemma constraint_handles_unique env cs w rs i j h k : env_ok env ->
    wrun env cs world_new = Done (w, rs) -> (systems_created cs <= 2 ^ 32)%N ->
    nth_error rs i = Some (Some (RConstraint h)) -> nth_error rs j = Some (Some (RConstraint k)) ->
    (chandle_eqb h k = true <-> i = j).
  Proof.
    intros EO H Hc Hi Hj. assert (Hn := wrun_count _ _ _ _ _ H).
    assert (Hn' : (N.of_nat (length (w_systems w)) <= 2 ^ 32)%N) by (rewrite Hn; simpl length; lia).
    destruct (wrun_unique _ EO _ _ _ _ world_new_ok H Hn') as [_ U].
    assert (X : i = j -> h = k) by (intros ->; congruence).
    split; intros Q.
    - apply Bool.andb_true_iff in Q. destruct Q as [Q1 Q2]. apply N.eqb_eq in Q1. apply Nat.eqb_eq in Q2. eauto.
    - rewrite (X Q). unfold chandle_eqb. now rewrite N.eqb_refl, Nat.eqb_refl.
  Qed.

  (** ** Wrap-around *)
  Lemma wrun_app env cs1 cs2 : forall (w : world F), wrun env (cs1 ++ cs2) w =
    let! (w1, r1) := wrun env cs1 w in let! (w2, r2) := wrun env cs2 w1 in Done (w2, r1 ++ r2).
  Proof.
    induction cs1 as [|c cs1 IH]; intros w; simpl.
    - destruct (wrun env cs2 w) as [[? ?]| |]; auto.
    - destruct (wstep env c w) as [[w1 r1]| |]; auto. simpl. rewrite IH.
      destruct (wrun env cs1 w1) as [[w2 r2]| |]; auto. simpl.
      destruct (wrun env cs2 w2) as [[? ?]| |]; auto.
  Qed.
  Lemma wrun_new env n : forall (w : world F), (w_next w < 2 ^ 32)%N -> exists ss,
    wrun env (repeat WNew n) w =
      Done (World ((w_next w + N.of_nat n) mod 2 ^ 32)%N (w_systems w ++ ss), repeat None n) /\
    length ss = n /\
    forall i s, nth_error ss i = Some s -> s = system_new ((w_next w + N.of_nat i) mod 2 ^ 32)%N.
  Proof.
    induction n as [|n IH]; intros w Hw; cbn [repeat wrun].
    - exists []. change (N.of_nat 0) with 0%N. rewrite app_nil_r, N.add_0_r, N.mod_small by auto. destruct w; simpl. split; [auto|]. split; [auto|].
      intros i s Hi; destruct i; discriminate.
    - set (w1 := World ((w_next w + 1) mod 2 ^ 32)%N (w_systems w ++ [system_new (w_next w)])).
      destruct (IH w1) as (ss & E & L & Hs); [simpl; apply N.mod_lt; discriminate|].
      change (wstep env WNew w) with (Done (w1, @None (ret F))). cbn [obind]. rewrite E. cbn [obind].
      exists (system_new (w_next w) :: ss). split; [|split].
      + f_equal. f_equal. cbn [w1 w_next w_systems]. f_equal; [|rewrite <- app_assoc; auto].
        rewrite N.add_mod_idemp_l by discriminate. f_equal. lia.
      + simpl. lia.
      + intros i s Hi. destruct i as [|i].
        * simpl in Hi. inversion Hi. f_equal. simpl N.of_nat. rewrite N.add_0_r, N.mod_small; auto.
        * simpl in Hi. apply Hs in Hi. rewrite Hi. simpl. f_equal.
          rewrite N.add_mod_idemp_l by discriminate. f_equal. lia.
  Qed.

  Lemma ids_wrap env : exists cs w rs i j (h : ehandle), wrun env cs world_new = Done (w, rs) /\
    i <> j /\ nth_error rs i = Some (Some (RElement h)) /\ nth_error rs j = Some (Some (RElement h)).
  Proof.
    assert (XK : exists K, N.of_nat K = (2 ^ 32)%N) by (exists (N.to_nat (2 ^ 32)); apply N2Nat.id).
    destruct XK as [K HK0].
    destruct (step env (CreateLength nzero) (system_new 0%N)) as [[s0 r0]| |] eqn:E0; try discriminate.
    assert (Er0 : r0 = RElement (EHandle 0%N 0 TLength)) by (vm_compute in E0; inversion E0; auto).
    set (w1 := World 1%N [s0]).
    destruct (wrun_new env K w1) as (ss & E & L & Hs); [reflexivity|].
    assert (HK : exists s, nth_error (w_systems w1 ++ ss) K = Some s /\ s = system_new 0%N).
    { destruct (nth_error_ex (w_systems w1 ++ ss) K) as [s Hs'].
      { rewrite app_length. simpl. lia. }
      exists s. split; auto.
      assert (K0 : 0 < K) by (destruct K; [discriminate|lia]).
      rewrite nth_error_app2 in Hs' by (simpl; lia). apply Hs in Hs'. rewrite Hs'. f_equal.
      cbn [w_next w1 w_systems length].
      replace (1 + N.of_nat (K - 1))%N with (2 ^ 32)%N by (rewrite <- HK0; lia). reflexivity. }
    destruct HK as (s & Hk & ->).
    set (cs := [WNew; WCall 0 (CreateLength nzero)] ++ repeat WNew K ++ [WCall K (CreateLength nzero)]).
    assert (R : wrun env cs world_new = Done (World ((1 + N.of_nat K) mod 2 ^ 32)%N
        (lset (w_systems w1 ++ ss) K s0), [None; Some r0] ++ repeat None K ++ [Some r0])).
    { unfold cs. rewrite wrun_app.
      assert (P1 : wrun env [WNew; WCall 0 (CreateLength nzero)] world_new = Done (w1, [None; Some r0])).
      { cbn [wrun]. unfold wstep at 1, world_new. cbn [obind w_systems w_next app].
        unfold wstep. cbn [obind w_systems w_next oget nth_error ounwrap]. rewrite E0. reflexivity. }
      rewrite P1. cbn [obind]. rewrite wrun_app, E. cbn [obind wrun]. unfold wstep at 1. cbn [w_systems w_next].
      rewrite (proj2 (oget_done _ _ _) Hk). cbn [obind]. rewrite E0. reflexivity. }
    exists cs. eexists _, _, 1, (2 + K), (EHandle 0%N 0 TLength). split; [exact R|].
    subst r0. split; [lia|]. split; [reflexivity|].
    rewrite nth_error_app2 by (simpl; lia). replace (2 + K - length [None; Some (RElement (F:=F) (EHandle 0%N 0 TLength))]) with K by (cbn [length]; lia).
    rewrite nth_error_app2 by (rewrite repeat_length; lia). rewrite repeat_length, Nat.sub_diag. reflexivity.
  Qed.

  (** ** Foreign handles *)
  Lemma foreign_read h s : eh_system h <> sys_id s -> get_value (F := F) h s = Panic.
  Proof. intros H. unfold get_value. apply N.eqb_neq in H. rewrite H. reflexivity. Qed.
  Lemma foreign_residual h s : ch_system h <> sys_id s -> constraint_residual (F := F) h s = Panic.
  Proof. intros H. unfold constraint_residual. apply N.eqb_neq in H. rewrite H. reflexivity. Qed.
End World.
