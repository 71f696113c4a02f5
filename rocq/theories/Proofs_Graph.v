(** Facts about the element/constraint graph (ModelGraph). *)
From Coq Require Import List Arith Lia.
From Verif Require Import Outcome Lib ModelGraph Spec_Graph.
Import ListNotations.

(** ** Sorted sets *)
Lemma in_set_insert x y s : In y (set_insert x s) <-> y = x \/ In y s.
Proof.
  induction s as [|z t IH]; simpl.
  - intuition.
  - destruct (Nat.compare_spec x z); simpl.
    + subst. intuition.
    + intuition.
    + rewrite IH. intuition.
Qed.
Lemma in_set_extend xs s y : In y (set_extend s xs) <-> In y s \/ In y xs.
Proof.
  unfold set_extend. revert s. induction xs; simpl; intros.
  - intuition.
  - rewrite IHxs, in_set_insert. intuition.
Qed.

Inductive ssorted : list nat -> Prop :=
| ss_nil : ssorted []
| ss_cons x l : (forall y, In y l -> x < y) -> ssorted l -> ssorted (x :: l).
Lemma ssorted_insert x s : ssorted s -> ssorted (set_insert x s).
Proof.
  induction 1 as [|z t Hz Ht IH]; simpl.
  - constructor; [easy|constructor].
  - destruct (Nat.compare_spec x z).
    + constructor; auto.
    + constructor; [|constructor; auto]. simpl. intros y [->|Hy]; auto.
      specialize (Hz y Hy). lia.
    + constructor; auto. intros y Hy. apply in_set_insert in Hy.
      destruct Hy as [->|Hy]; auto.
Qed.
Lemma ssorted_extend xs s : ssorted s -> ssorted (set_extend s xs).
Proof.
  unfold set_extend. revert s. induction xs; simpl; intros; auto.
  apply IHxs. now apply ssorted_insert.
Qed.
Lemma ssorted_nodup s : ssorted s -> NoDup s.
Proof.
  induction 1; constructor; auto. intros Hin. specialize (H _ Hin). lia.
Qed.

(** ** linked *)
Lemma linked_mono G G' a b : incl G G' -> linked G a b -> linked G' a b.
Proof.
  intros Hi. induction 1; [constructor|]. eapply linked_step; eauto.
Qed.
Lemma linked_trans G a b c : linked G a b -> linked G b c -> linked G a c.
Proof. induction 1; auto. intros. eapply linked_step; eauto. Qed.
Lemma linked_one G es a b : In es G -> In a es -> In b es -> linked G a b.
Proof. intros. eapply linked_step; eauto. constructor. Qed.
Lemma linked_sym G a b : linked G a b -> linked G b a.
Proof.
  induction 1; [constructor|]. eapply linked_trans; eauto. eapply linked_one; eauto.
Qed.

(** ** The partition invariant *)
Section Partition.
  (** [ec], [comps]: the component of each element and the components. *)
  Definition node (G : list (list nat)) (ec : list (option nat)) (comps : list component)
      (ci x : nat) : Prop :=
    nth_error ec x = Some (Some ci)
    \/ exists c, nth_error comps ci = Some c /\
         (In x (c_elements c)
          \/ exists k es, In k (c_constraints c) /\ nth_error G k = Some es /\ In x es).

  Record part (G : list (list nat)) (K : nat) (ec : list (option nat))
      (comps : list component) : Prop := {
    p_valid : forall e ci, nth_error ec e = Some (Some ci) -> ci < length comps;
    p_range : forall ci c e, nth_error comps ci = Some c -> In e (c_elements c) ->
       e < length ec;
    p_disj : forall ci cj c c' e, nth_error comps ci = Some c -> nth_error comps cj = Some c' ->
       In e (c_elements c) -> In e (c_elements c') -> ci = cj;
    p_cdisj : forall ci cj c c' k, nth_error comps ci = Some c -> nth_error comps cj = Some c' ->
       In k (c_constraints c) -> In k (c_constraints c') -> ci = cj;
    p_cov : forall e x, nth_error ec e = Some x ->
       (x <> None <-> exists ci c, nth_error comps ci = Some c /\ In e (c_elements c));
    p_ccov : forall k, k < K <->
       exists ci c, nth_error comps ci = Some c /\ In k (c_constraints c);
    p_sorted : forall ci c, nth_error comps ci = Some c ->
       ssorted (c_elements c) /\ ssorted (c_constraints c);
    p_conn : forall ci x y, node G ec comps ci x -> node G ec comps ci y -> linked G x y
  }.

  (** One iteration of the merge loop, seen through [comps* = comps with the
      taken target put back]. *)
  Lemma merge_step_part G K target es e ec comps tc ec' comps' tc' :
    In es G -> In e es ->
    target < length comps ->
    nth_error comps target = Some empty_component ->
    part G K ec (lset comps target tc) ->
    (forall x, node G ec (lset comps target tc) target x -> linked G x e) ->
    merge_step target (ec, comps, tc) e = Done (ec', comps', tc') ->
    length ec' = length ec /\ length comps' = length comps /\
    nth_error comps' target = Some empty_component /\
    nth_error ec' e = Some (Some target) /\
    (forall x, nth_error ec' x <> Some None -> nth_error ec x <> Some None \/ x = e) /\
    (forall x, nth_error ec x <> Some None -> nth_error ec' x <> Some None) /\
    part G K ec' (lset comps' target tc') /\
    (forall x, node G ec' (lset comps' target tc') target x -> linked G x e).
  Proof.
    intros HG He Ht Hempty HP Hconn Hrun. unfold merge_step in Hrun.
    apply obind_done in Hrun. destruct Hrun as (oc & Hoc & Hrun). apply oget_done in Hoc.
    assert (Hec_e : e < length ec) by (eapply nth_error_lt; eauto).
    destruct oc as [ci|].
    - (* the element already has a component *)
      apply obind_done in Hrun. destruct Hrun as (c & Hc & Hrun). apply oget_done in Hc.
      apply obind_done in Hrun. destruct Hrun as (ec1 & Hec & Hrun).
      apply oset_done in Hec. destruct Hec as [_ ->].
      injection Hrun; clear Hrun; intros; subst ec' comps' tc'.
      assert (Hci : ci < length comps) by (eapply nth_error_lt; eauto).
      set (tc' := Component (set_extend (c_elements tc) (c_elements c))
                            (set_extend (c_constraints tc) (c_constraints c))).
      set (cs := lset comps target tc) in *.
      set (cs' := lset (lset comps ci empty_component) target tc').
      set (ec' := lset ec e (Some target)).
      assert (Hlen : length cs' = length cs).
      { unfold cs', cs. now rewrite !lset_length. }
      assert (Hcst : nth_error cs target = Some tc).
      { unfold cs. apply nth_error_lset_eq; auto. }
      assert (Hcst' : nth_error cs' target = Some tc').
      { unfold cs'. apply nth_error_lset_eq. now rewrite lset_length. }
      assert (Hcsj : forall j, j <> target -> nth_error cs j = nth_error comps j).
      { intros j Hj. unfold cs. apply nth_error_lset_ne; auto. }
      assert (Hcsj' : forall j, j <> target -> j <> ci -> nth_error cs' j = nth_error comps j).
      { intros j Hj Hj'. unfold cs'. rewrite !nth_error_lset_ne; auto. }
      assert (Hcsci : ci <> target -> nth_error cs' ci = Some empty_component).
      { intros. unfold cs'. rewrite nth_error_lset_ne by auto. apply nth_error_lset_eq; auto. }
      (* where things are before and after *)
      assert (Hnew_el : forall j c1 x, nth_error cs' j = Some c1 -> In x (c_elements c1) ->
                (j = target /\ (In x (c_elements tc) \/ (ci <> target /\ In x (c_elements c))))
                \/ (j <> target /\ j <> ci /\ nth_error cs j = Some c1)).
      { intros j c1 x Hj Hx. destruct (Nat.eq_dec j target) as [->|Hj1].
        - left. split; auto. rewrite Hcst' in Hj. injection Hj; intros <-.
          unfold tc' in Hx. simpl in Hx. apply in_set_extend in Hx.
          destruct Hx; auto. destruct (Nat.eq_dec ci target); auto.
          subst ci. rewrite Hempty in Hc. injection Hc; intros <-. contradiction.
        - right. destruct (Nat.eq_dec j ci) as [->|Hj2].
          + rewrite Hcsci in Hj by auto. injection Hj; intros <-. contradiction.
          + repeat split; auto. rewrite Hcsj' in Hj by auto. now rewrite Hcsj. }
      assert (Hnew_con : forall j c1 x, nth_error cs' j = Some c1 -> In x (c_constraints c1) ->
                (j = target /\ (In x (c_constraints tc) \/ (ci <> target /\ In x (c_constraints c))))
                \/ (j <> target /\ j <> ci /\ nth_error cs j = Some c1)).
      { intros j c1 x Hj Hx. destruct (Nat.eq_dec j target) as [->|Hj1].
        - left. split; auto. rewrite Hcst' in Hj. injection Hj; intros <-.
          unfold tc' in Hx. simpl in Hx. apply in_set_extend in Hx.
          destruct Hx; auto. destruct (Nat.eq_dec ci target); auto.
          subst ci. rewrite Hempty in Hc. injection Hc; intros <-. contradiction.
        - right. destruct (Nat.eq_dec j ci) as [->|Hj2].
          + rewrite Hcsci in Hj by auto. injection Hj; intros <-. contradiction.
          + repeat split; auto. rewrite Hcsj' in Hj by auto. now rewrite Hcsj. }
      assert (Hcsc : ci <> target -> nth_error cs ci = Some c) by (intros; now rewrite Hcsj).
      assert (Hnode_e : node G ec cs ci e) by (left; auto).
      assert (Hnode_new : forall x, node G ec' cs' target x ->
                 linked G x e).
      { intros x [Hx|(c1 & Hc1 & Hx)].
        - unfold ec' in Hx. rewrite nth_error_lset in Hx.
          destruct (Nat.eqb_spec e x) as [->|]; [constructor|].
          apply Hconn. left; auto.
        - rewrite Hcst' in Hc1. injection Hc1; intros <-.
          destruct Hx as [Hx|(k & ess & Hk & Hess & Hx)].
          + destruct (Hnew_el _ _ _ Hcst' Hx) as [(_ & [Hx'|(Hne & Hx')])|(? & _)]; [| |easy].
            * apply Hconn. right. exists tc; auto.
            * apply (p_conn _ _ _ _ HP ci); auto. right. exists c. split; auto.
          + destruct (Hnew_con _ _ _ Hcst' Hk) as [(_ & [Hk'|(Hne & Hk')])|(? & _)]; [| |easy].
            * apply Hconn. right. exists tc; split; auto. right; eauto.
            * apply (p_conn _ _ _ _ HP ci); auto. right. exists c. split; auto. right; eauto. }
      split; [apply lset_length|]. split; [now rewrite !lset_length|].
      split.
      { destruct (Nat.eq_dec ci target) as [->|].
        - apply nth_error_lset_eq; auto.
        - rewrite nth_error_lset_ne; auto. }
      split; [apply nth_error_lset_eq; auto|].
      split.
      { intros x Hx. unfold ec' in Hx. rewrite nth_error_lset in Hx.
        destruct (Nat.eqb_spec e x); auto. }
      split.
      { intros x Hx. unfold ec'. rewrite nth_error_lset.
        destruct (Nat.eqb_spec e x); auto.
        destruct (Nat.ltb_spec e (length ec)); congruence. }
      split; [|assumption].
      split.
      + intros x cj Hx. rewrite Hlen. unfold ec' in Hx. rewrite nth_error_lset in Hx.
        destruct (Nat.eqb_spec e x) as [->|].
        * destruct (Nat.ltb_spec x (length ec)); [|discriminate]. injection Hx; intros <-.
          unfold cs. now rewrite lset_length.
        * eapply (p_valid _ _ _ _ HP); eauto.
      + intros j c1 x Hj Hx. unfold ec'. rewrite lset_length.
        destruct (Hnew_el _ _ _ Hj Hx) as [(-> & [Hx'|(Hne & Hx')])|(_ & _ & Hj')].
        * eapply (p_range _ _ _ _ HP); eauto.
        * eapply (p_range _ _ _ _ HP ci); eauto.
        * eapply (p_range _ _ _ _ HP); eauto.
      + intros j1 j2 c1 c2 x H1 H2 Hx1 Hx2.
        destruct (Hnew_el _ _ _ H1 Hx1) as [(-> & Hx1')|(N1 & N1' & H1')];
        destruct (Hnew_el _ _ _ H2 Hx2) as [(-> & Hx2')|(N2 & N2' & H2')]; auto.
        * exfalso. destruct Hx1' as [Hx1'|(Hne & Hx1')].
          -- apply N2. symmetry. eapply (p_disj _ _ _ _ HP); eauto.
          -- apply N2'. symmetry. eapply (p_disj _ _ _ _ HP ci j2); eauto.
        * exfalso. destruct Hx2' as [Hx2'|(Hne & Hx2')].
          -- apply N1. eapply (p_disj _ _ _ _ HP); eauto.
          -- apply N1'. eapply (p_disj _ _ _ _ HP j1 ci); eauto.
        * eapply (p_disj _ _ _ _ HP); eauto.
      + intros j1 j2 c1 c2 x H1 H2 Hx1 Hx2.
        destruct (Hnew_con _ _ _ H1 Hx1) as [(-> & Hx1')|(N1 & N1' & H1')];
        destruct (Hnew_con _ _ _ H2 Hx2) as [(-> & Hx2')|(N2 & N2' & H2')]; auto.
        * exfalso. destruct Hx1' as [Hx1'|(Hne & Hx1')].
          -- apply N2. symmetry. eapply (p_cdisj _ _ _ _ HP); eauto.
          -- apply N2'. symmetry. eapply (p_cdisj _ _ _ _ HP ci j2); eauto.
        * exfalso. destruct Hx2' as [Hx2'|(Hne & Hx2')].
          -- apply N1. eapply (p_cdisj _ _ _ _ HP); eauto.
          -- apply N1'. eapply (p_cdisj _ _ _ _ HP j1 ci); eauto.
        * eapply (p_cdisj _ _ _ _ HP); eauto.
      + intros x y Hx.
        assert (Hmove : (exists j c1, nth_error cs' j = Some c1 /\ In x (c_elements c1)) <->
                        (exists j c1, nth_error cs j = Some c1 /\ In x (c_elements c1))).
        { split.
          - intros (j & c1 & Hj & Hx1).
            destruct (Hnew_el _ _ _ Hj Hx1) as [(-> & [Hx1'|(Hne & Hx1')])|(_ & _ & Hj')]; eauto.
          - intros (j & c1 & Hj & Hx1).
            destruct (Nat.eq_dec j target) as [->|N1].
            + rewrite Hcst in Hj. injection Hj; intros <-.
              exists target, tc'. split; auto. unfold tc'; simpl. apply in_set_extend; auto.
            + destruct (Nat.eq_dec j ci) as [->|N2].
              * rewrite Hcsc in Hj by auto. injection Hj; intros <-.
                exists target, tc'. split; auto. unfold tc'; simpl. apply in_set_extend; auto.
              * exists j, c1. split; auto. rewrite Hcsj' by auto. now rewrite <- Hcsj. }
        rewrite Hmove. unfold ec' in Hx. rewrite nth_error_lset in Hx.
        destruct (Nat.eqb_spec e x) as [->|].
        * destruct (Nat.ltb_spec x (length ec)); [|discriminate]. injection Hx; intros <-.
          split; [|congruence]. intros _. apply (p_cov _ _ _ _ HP x _ Hoc). congruence.
        * apply (p_cov _ _ _ _ HP); auto.
      + intros k. rewrite (p_ccov _ _ _ _ HP k). split.
        * intros (j & c1 & Hj & Hx1).
          destruct (Nat.eq_dec j target) as [->|N1].
          -- rewrite Hcst in Hj. injection Hj; intros <-.
             exists target, tc'. split; auto. unfold tc'; simpl. apply in_set_extend; auto.
          -- destruct (Nat.eq_dec j ci) as [->|N2].
             ++ rewrite Hcsc in Hj by auto. injection Hj; intros <-.
                exists target, tc'. split; auto. unfold tc'; simpl. apply in_set_extend; auto.
             ++ exists j, c1. split; auto. rewrite Hcsj' by auto. now rewrite <- Hcsj.
        * intros (j & c1 & Hj & Hx1).
          destruct (Hnew_con _ _ _ Hj Hx1) as [(-> & [Hx1'|(Hne & Hx1')])|(_ & _ & Hj')]; eauto.
      + intros j c1 Hj. destruct (Nat.eq_dec j target) as [->|N1].
        * rewrite Hcst' in Hj. injection Hj; intros <-. unfold tc'; simpl.
          destruct (p_sorted _ _ _ _ HP _ _ Hcst). split; now apply ssorted_extend.
        * destruct (Nat.eq_dec j ci) as [->|N2].
          -- rewrite Hcsci in Hj by auto. injection Hj; intros <-. split; constructor.
          -- rewrite Hcsj' in Hj by auto. rewrite <- Hcsj in Hj by auto.
             eapply (p_sorted _ _ _ _ HP); eauto.
      + intros j x y Hx Hy. destruct (Nat.eq_dec j target) as [->|N1].
        * eapply linked_trans; [apply Hnode_new; eauto|]. apply linked_sym; auto.
        * assert (Hold : forall z, node G ec' cs' j z -> node G ec cs j z).
          { intros z [Hz|(c1 & Hc1 & Hz)].
            - left. unfold ec' in Hz. rewrite nth_error_lset in Hz.
              destruct (Nat.eqb_spec e z); auto.
              destruct (Nat.ltb_spec e (length ec)); congruence.
            - right. destruct (Nat.eq_dec j ci) as [->|N2].
              + rewrite Hcsci in Hc1 by auto. injection Hc1; intros <-. simpl in Hz.
                destruct Hz as [[]|(? & ? & [] & _)].
              + exists c1. split; auto. rewrite Hcsj' in Hc1 by auto. now rewrite Hcsj. }
          eapply (p_conn _ _ _ _ HP); eauto.
    - (* a fresh element *)
      apply obind_done in Hrun. destruct Hrun as (ec1 & Hec & Hrun).
      apply oset_done in Hec. destruct Hec as [_ ->].
      injection Hrun; clear Hrun; intros; subst ec' comps' tc'.
      set (tc' := Component (set_insert e (c_elements tc)) (c_constraints tc)).
      set (cs := lset comps target tc) in *.
      set (cs' := lset comps target tc').
      set (ec' := lset ec e (Some target)).
      assert (Hcst : nth_error cs target = Some tc).
      { unfold cs. apply nth_error_lset_eq; auto. }
      assert (Hcst' : nth_error cs' target = Some tc').
      { unfold cs'. apply nth_error_lset_eq; auto. }
      assert (Hcsj : forall j, j <> target -> nth_error cs' j = nth_error cs j).
      { intros j Hj. unfold cs, cs'. rewrite !nth_error_lset_ne; auto. }
      assert (Hlen : length cs' = length cs) by (unfold cs', cs; now rewrite !lset_length).
      assert (Hnone : forall j c1, nth_error cs j = Some c1 -> ~ In e (c_elements c1)).
      { intros j c1 Hj Hin. assert (H : @None nat <> None).
        { apply (p_cov _ _ _ _ HP e None Hoc). eauto. }
        congruence. }
      assert (Hnode_new : forall x, node G ec' cs' target x -> linked G x e).
      { intros x [Hx|(c1 & Hc1 & Hx)].
        - unfold ec' in Hx. rewrite nth_error_lset in Hx.
          destruct (Nat.eqb_spec e x) as [->|]; [constructor|].
          apply Hconn. left; auto.
        - rewrite Hcst' in Hc1. injection Hc1; intros <-.
          destruct Hx as [Hx|(k & ess & Hk & Hess & Hx)].
          + unfold tc' in Hx; simpl in Hx. apply in_set_insert in Hx.
            destruct Hx as [->|Hx]; [constructor|].
            apply Hconn. right. exists tc; auto.
          + apply Hconn. right. exists tc; split; auto. right; eauto. }
      split; [apply lset_length|]. split; [auto|]. split; [auto|].
      split; [apply nth_error_lset_eq; auto|].
      split.
      { intros x Hx. unfold ec' in Hx. rewrite nth_error_lset in Hx.
        destruct (Nat.eqb_spec e x); auto. }
      split.
      { intros x Hx. unfold ec'. rewrite nth_error_lset.
        destruct (Nat.eqb_spec e x); auto.
        destruct (Nat.ltb_spec e (length ec)); congruence. }
      split; [|assumption].
      split.
      + intros x cj Hx. rewrite Hlen. unfold ec' in Hx. rewrite nth_error_lset in Hx.
        destruct (Nat.eqb_spec e x) as [->|].
        * destruct (Nat.ltb_spec x (length ec)); [|discriminate]. injection Hx; intros <-.
          unfold cs. now rewrite lset_length.
        * eapply (p_valid _ _ _ _ HP); eauto.
      + intros j c1 x Hj Hx. unfold ec'. rewrite lset_length.
        destruct (Nat.eq_dec j target) as [->|N1].
        * rewrite Hcst' in Hj. injection Hj; intros <-. unfold tc' in Hx; simpl in Hx.
          apply in_set_insert in Hx. destruct Hx as [->|Hx]; auto.
          eapply (p_range _ _ _ _ HP); eauto.
        * rewrite Hcsj in Hj by auto. eapply (p_range _ _ _ _ HP); eauto.
      + assert (Hin : forall j c1 x, nth_error cs' j = Some c1 -> In x (c_elements c1) ->
                  (x = e /\ j = target) \/
                  (x <> e /\ exists c2, nth_error cs j = Some c2 /\ In x (c_elements c2))).
        { intros j c1 x Hj Hx. destruct (Nat.eq_dec j target) as [->|N1].
          - rewrite Hcst' in Hj. injection Hj; intros <-. unfold tc' in Hx; simpl in Hx.
            apply in_set_insert in Hx. destruct Hx as [->|Hx]; auto.
            right. split; [|eauto]. intros ->. eapply Hnone; eauto.
          - rewrite Hcsj in Hj by auto. right. split; [|eauto].
            intros ->. eapply Hnone; eauto. }
        intros j1 j2 c1 c2 x H1 H2 Hx1 Hx2.
        destruct (Hin _ _ _ H1 Hx1) as [(-> & ->)|(N1 & d1 & D1 & I1)];
        destruct (Hin _ _ _ H2 Hx2) as [(? & ->)|(N2 & d2 & D2 & I2)]; auto; try congruence.
        eapply (p_disj _ _ _ _ HP); eauto.
      + assert (Hin : forall j c1 x, nth_error cs' j = Some c1 -> In x (c_constraints c1) ->
                  exists c2, nth_error cs j = Some c2 /\ In x (c_constraints c2)).
        { intros j c1 x Hj Hx. destruct (Nat.eq_dec j target) as [->|N1].
          - rewrite Hcst' in Hj. injection Hj; intros <-. eauto.
          - rewrite Hcsj in Hj by auto. eauto. }
        intros j1 j2 c1 c2 x H1 H2 Hx1 Hx2.
        destruct (Hin _ _ _ H1 Hx1) as (d1 & D1 & I1).
        destruct (Hin _ _ _ H2 Hx2) as (d2 & D2 & I2).
        eapply (p_cdisj _ _ _ _ HP); eauto.
      + intros x y Hx. unfold ec' in Hx. rewrite nth_error_lset in Hx.
        destruct (Nat.eqb_spec e x) as [<-|Hne].
        * destruct (Nat.ltb_spec e (length ec)); [|discriminate]. injection Hx; intros <-.
          split; [|congruence]. intros _. exists target, tc'. split; auto.
          unfold tc'; simpl. apply in_set_insert; auto.
        * rewrite (p_cov _ _ _ _ HP x y Hx). split.
          -- intros (j & c1 & Hj & Hx1). destruct (Nat.eq_dec j target) as [->|N1].
             ++ exists target, tc'. split; auto. unfold tc'; simpl. apply in_set_insert.
                right. rewrite Hcst in Hj. injection Hj; intros <-; auto.
             ++ exists j, c1. now rewrite Hcsj.
          -- intros (j & c1 & Hj & Hx1). destruct (Nat.eq_dec j target) as [->|N1].
             ++ rewrite Hcst' in Hj. injection Hj; intros <-. unfold tc' in Hx1; simpl in Hx1.
                apply in_set_insert in Hx1. destruct Hx1; [congruence|]. eauto.
             ++ rewrite Hcsj in Hj by auto. eauto.
      + intros k. rewrite (p_ccov _ _ _ _ HP k). split.
        * intros (j & c1 & Hj & Hx1). destruct (Nat.eq_dec j target) as [->|N1].
          -- exists target, tc'. split; auto. rewrite Hcst in Hj. injection Hj; intros <-; auto.
          -- exists j, c1. now rewrite Hcsj.
        * intros (j & c1 & Hj & Hx1). destruct (Nat.eq_dec j target) as [->|N1].
          -- rewrite Hcst' in Hj. injection Hj; intros <-. eauto.
          -- rewrite Hcsj in Hj by auto. eauto.
      + intros j c1 Hj. destruct (Nat.eq_dec j target) as [->|N1].
        * rewrite Hcst' in Hj. injection Hj; intros <-. unfold tc'; simpl.
          destruct (p_sorted _ _ _ _ HP _ _ Hcst). split; auto. now apply ssorted_insert.
        * rewrite Hcsj in Hj by auto. eapply (p_sorted _ _ _ _ HP); eauto.
      + intros j x y Hx Hy. destruct (Nat.eq_dec j target) as [->|N1].
        * eapply linked_trans; [apply Hnode_new; eauto|]. apply linked_sym; auto.
        * assert (Hold : forall z, node G ec' cs' j z -> node G ec cs j z).
          { intros z [Hz|(c1 & Hc1 & Hz)].
            - left. unfold ec' in Hz. rewrite nth_error_lset in Hz.
              destruct (Nat.eqb_spec e z); auto.
              destruct (Nat.ltb_spec e (length ec)); congruence.
            - right. exists c1. rewrite <- Hcsj by auto. split; auto. }
          eapply (p_conn _ _ _ _ HP); eauto.
  Qed.
End Partition.

Lemma node_snoc G es ec comps ci x K :
  length G = K -> part G K ec comps ->
  node (G ++ [es]) ec comps ci x -> node G ec comps ci x.
Proof.
  intros HK HP [H|(c & Hc & H)]; [left; auto|right].
  exists c. split; auto. destruct H as [H|(k & ess & Hk & Hess & Hx)]; auto.
  right. exists k, ess. repeat split; auto.
  assert (k < K) by (apply (p_ccov _ _ _ _ HP); eauto).
  rewrite nth_error_app1 in Hess; auto. lia.
Qed.

Lemma part_snoc G es ec comps :
  part G (length G) ec comps -> part (G ++ [es]) (length G) ec comps.
Proof.
  intros HP. pose proof HP as [p1 p2 p3 p4 p5 p6 p7 p8].
  constructor; auto.
  intros ci x y Hx Hy. apply (linked_mono G).
  - intros z Hz. apply in_app_iff; auto.
  - apply (p8 ci); eapply node_snoc; eauto.
Qed.

Record wf_graph (g : graph) : Prop := {
  wg_len : length (element_component g) = length (g_elements g);
  wg_part : part (hyperedges g) (length (g_constraints g)) (element_component g) (components g);
  wg_inc : forall gc e, In gc (g_constraints g) -> In e (incident_elements gc) ->
     e < length (g_elements g);
  wg_con : forall e, e < length (g_elements g) ->
     (nth_error (element_component g) e <> Some None <->
      exists gc, In gc (g_constraints g) /\ In e (incident_elements gc))
}.

Lemma wf_graph_new : wf_graph graph_new.
Proof.
  constructor; simpl; auto; try contradiction.
  - constructor; simpl.
    + intros [|e] ci; discriminate.
    + intros [|e] c; discriminate.
    + intros [|e] [|f] c; discriminate.
    + intros [|e] [|f] c; discriminate.
    + intros [|e] c; discriminate.
    + intros k. split; [lia|]. intros (ci & c & H & _). destruct ci; discriminate.
    + intros [|e] c; discriminate.
    + intros ci x y [Hx|(c & Hc & _)]; [destruct x|destruct ci]; discriminate.
  - intros e He; lia.
Qed.

Lemma wf_graph_add_element d g : wf_graph g -> wf_graph (graph_add_element d g).
Proof.
  intros [w1 w2 w3 w4]. constructor; simpl.
  - rewrite !app_length; simpl; lia.
  - destruct w2 as [p1 p2 p3 p4 p5 p6 p7 p8].
    assert (Hnode : forall ci x, node (hyperedges g) (element_component g ++ [None]) (components g) ci x ->
                     node (hyperedges g) (element_component g) (components g) ci x).
    { intros ci x [H|H]; [left|right; auto].
      apply nth_error_snoc in H. destruct H as [[_ H]|[_ H]]; auto; discriminate. }
    constructor; auto.
    + intros e ci H. apply nth_error_snoc in H. destruct H as [[_ H]|[_ H]]; [eauto|discriminate].
    + intros ci c e H1 H2. rewrite app_length. specialize (p2 _ _ _ H1 H2). lia.
    + intros e x H. apply nth_error_snoc in H. destruct H as [[_ H]|[-> ->]]; auto.
      split; [congruence|]. intros (ci & c & Hc & Hin). specialize (p2 _ _ _ Hc Hin). lia.
    + intros ci x y Hx Hy. apply (p8 ci); auto.
  - intros gc e H1 H2. rewrite app_length. specialize (w3 _ _ H1 H2). lia.
  - intros e He. rewrite app_length in He; simpl in He.
    destruct (Nat.eq_dec e (length (g_elements g))) as [->|Hne].
    + rewrite <- w1, nth_error_app_new. split; [congruence|].
      intros (gc & H1 & H2). specialize (w3 _ _ H1 H2). lia.
    + rewrite nth_error_app1 by lia. apply w4. lia.
Qed.

Lemma largest_component_spec g elements best size :
  largest_component g elements = Done (best, size) ->
  forall ci, best = Some ci ->
    (exists e, In e elements /\ nth_error (element_component g) e = Some (Some ci)) /\
    ci < length (components g).
Proof.
  unfold largest_component. intros H.
  set (f := fun '(target, size) e => _) in H.
  assert (G : forall l st st', incl l elements ->
     (forall ci, fst st = Some ci ->
        (exists e, In e elements /\ nth_error (element_component g) e = Some (Some ci)) /\
        ci < length (components g)) ->
     ofold f l st = Done st' ->
     forall ci, fst st' = Some ci ->
        (exists e, In e elements /\ nth_error (element_component g) e = Some (Some ci)) /\
        ci < length (components g)).
  { induction l; simpl; intros [t sz] st' Hincl Hst Hrun.
    - injection Hrun; intros <-; auto.
    - apply obind_done in Hrun. destruct Hrun as (st1 & H1 & Hrun).
      eapply IHl; [| |exact Hrun].
      + intros x Hx; apply Hincl; simpl; auto.
      + simpl in H1. odone. destruct a0 as [ci0|]; odone; simpl; auto.
        apply nth_error_lt in Ha0 as Hlt.
        destruct (sz <? length (c_elements a0)); odone; simpl; auto.
        intros cj E. injection E; intros <-. split; auto.
        exists a. split; auto. apply Hincl; simpl; auto. }
  intros ci ->. apply (G elements (None, 0) (Some ci, size)); auto.
  - apply incl_refl.
  - simpl; discriminate.
Qed.

Lemma largest_component_ok g elements :
  part (hyperedges g) (length (g_constraints g)) (element_component g) (components g) ->
  (forall e, In e elements -> e < length (element_component g)) ->
  exists r, largest_component g elements = Done r.
Proof.
  intros HP Hr. unfold largest_component.
  set (f := fun '(target, size) e => _).
  destruct (ofold_ok (fun _ => True) f elements) with (s := (@None nat, 0)) as (r & H & _); auto; eauto.
  intros [t sz] e He _. simpl.
  destruct (oget_ok (element_component g) e) as [oc Hoc]; auto. rewrite Hoc; simpl.
  destruct oc as [ci|]; eauto.
  apply oget_done in Hoc. apply (p_valid _ _ _ _ HP) in Hoc.
  destruct (oget_ok _ _ Hoc) as [c Hc]. rewrite Hc; simpl.
  destruct (_ <? _); eauto.
Qed.

(** Adding an empty component at the end changes nothing. *)
Lemma part_add_empty G K ec comps :
  part G K ec comps -> part G K ec (comps ++ [empty_component]).
Proof.
  intros [p1 p2 p3 p4 p5 p6 p7 p8].
  assert (Hel : forall ci c e, nth_error (comps ++ [empty_component]) ci = Some c ->
            In e (c_elements c) -> nth_error comps ci = Some c).
  { intros ci c e H Hin. apply nth_error_snoc in H. destruct H as [[_ H]|[_ ->]]; auto. inversion Hin. }
  assert (Hcon : forall ci c e, nth_error (comps ++ [empty_component]) ci = Some c ->
            In e (c_constraints c) -> nth_error comps ci = Some c).
  { intros ci c e H Hin. apply nth_error_snoc in H. destruct H as [[_ H]|[_ ->]]; auto. inversion Hin. }
  constructor.
  - intros e ci H. rewrite app_length. specialize (p1 _ _ H). lia.
  - eauto.
  - eauto.
  - eauto.
  - intros e x Hx. rewrite (p5 e x Hx). split; intros (ci & c & H1 & H2); exists ci, c; split; eauto.
    now apply nth_error_app_old.
  - intros k. rewrite (p6 k). split; intros (ci & c & H1 & H2); exists ci, c; split; eauto.
    now apply nth_error_app_old.
  - intros ci c H. apply nth_error_snoc in H. destruct H as [[_ H]|[_ ->]]; eauto.
    split; constructor.
  - intros ci x y Hx Hy.
    assert (Hn : forall z, node G ec (comps ++ [empty_component]) ci z -> node G ec comps ci z).
    { intros z [Hz|(c & Hc & Hz)]; [left; auto|right].
      destruct Hz as [Hz|(k & es & Hk & Hz)]; exists c; split; eauto.
      }
    eauto.
Qed.

Lemma merge_part g K elements g' :
  K = length (g_constraints g) ->
  elements <> [] ->
  length (element_component g) = length (g_elements g) ->
  part (hyperedges g) K (element_component g) (components g) ->
  merge_connected_components K elements g = Done g' ->
  g_elements g' = g_elements g /\ g_constraints g' = g_constraints g /\
  length (element_component g') = length (element_component g) /\
  part (hyperedges g ++ [elements]) (S K) (element_component g') (components g') /\
  (forall e, In e elements -> e < length (element_component g)) /\
  (forall e, e < length (element_component g) ->
     (nth_error (element_component g') e <> Some None <->
      nth_error (element_component g) e <> Some None \/ In e elements)).
Proof.
  intros HK Hne Hlen HP Hrun. unfold merge_connected_components in Hrun.
  apply obind_done in Hrun. destruct Hrun as ([best sz] & Hbest & Hrun).
  assert (HlenG : length (hyperedges g) = K) by (unfold hyperedges; rewrite map_length; auto).
  set (G := hyperedges g) in *. set (G' := G ++ [elements]).
  assert (HG' : In elements G') by (apply in_app_iff; simpl; auto).
  (* the target and the components it is chosen from *)
  assert (Htc : exists target comps tc,
     (match best with Some ci => (ci, components g)
        | None => (length (components g), components g ++ [empty_component]) end) = (target, comps) /\
     nth_error comps target = Some tc /\ part G' K (element_component g) comps /\
     (forall x, node G' (element_component g) comps target x ->
        forall e, In e elements -> linked G' x e)).
  { destruct best as [ci|].
    - destruct (largest_component_spec _ _ _ _ Hbest ci eq_refl) as ((e0 & He0 & Hc0) & Hci).
      destruct (nth_error_ex _ _ Hci) as [tc Htc].
      exists ci, (components g), tc. split; auto. split; auto.
      assert (HP' : part G' K (element_component g) (components g)).
      { subst K. unfold G'. rewrite <- HlenG. apply part_snoc. rewrite HlenG. auto. }
      split; auto. intros x Hx e He. eapply linked_trans.
      + apply (p_conn _ _ _ _ HP' ci x e0); auto. left; auto.
      + eapply linked_one; eauto.
    - exists (length (components g)), (components g ++ [empty_component]), empty_component.
      split; auto. split; [apply nth_error_app_new|].
      split.
      + apply part_add_empty. subst K. unfold G'. rewrite <- HlenG. apply part_snoc. rewrite HlenG. auto.
      + intros x [Hx|(c & Hc & Hx)].
        * apply (p_valid _ _ _ _ HP) in Hx. lia.
        * rewrite nth_error_app_new in Hc. injection Hc; intros <-. simpl in Hx.
          destruct Hx as [[]|(? & ? & [] & _)]. }
  destruct Htc as (target & comps & tc0 & Heq & Htc0 & HP' & Hc0).
  rewrite Heq in Hrun. apply obind_done in Hrun. destruct Hrun as (tc & Htc & Hrun).
  apply oget_done in Htc. rewrite Htc0 in Htc. injection Htc; intros <-.
  assert (Htlt : target < length comps) by (eapply nth_error_lt; eauto).
  apply obind_done in Hrun. destruct Hrun as ([[ec' comps'] tc'] & Hloop & Hrun).
  set (I := fun (pre : list nat) (st : list (option nat) * list component * component) =>
     let '(ec, cs, tc) := st in
     length ec = length (element_component g) /\ length cs = length comps /\
     nth_error cs target = Some empty_component /\
     part G' K ec (lset cs target tc) /\
     (forall e, In e pre -> e < length (element_component g)) /\
     (forall x, node G' ec (lset cs target tc) target x -> forall e, In e elements -> linked G' x e) /\
     (forall e, e < length (element_component g) ->
        (nth_error ec e <> Some None <->
         nth_error (element_component g) e <> Some None \/ In e pre))).
  assert (HI : I elements (ec', comps', tc')).
  { apply (ofold_inv_prefix I (merge_step target) elements) with (s := (element_component g, lset comps target empty_component, tc0)); auto.
    - intros pre e post [[ec cs] tc] [[ec1 cs1] tc1] Hel HI Hstep.
      unfold I in HI. destruct HI as (I1 & I2 & I3 & I4 & I5 & I6 & I7).
      assert (He : In e elements) by (rewrite Hel; apply in_app_iff; simpl; auto).
      destruct (merge_step_part G' K target elements e ec cs tc ec1 cs1 tc1)
        as (J1 & J2 & J3 & J4 & J5 & J6 & J7 & J8); auto.
      { rewrite I2; auto. }
      assert (He' : e < length ec).
      { apply nth_error_lt in J4. lia. }
      unfold I. split; [lia|]. split; [lia|]. split; [auto|]. split; [auto|].
      split.
      { intros x Hx. apply in_app_iff in Hx. destruct Hx as [Hx|[<-|[]]]; auto. lia. }
      split.
      { intros x Hx e1 He1. eapply linked_trans; [apply J8; eauto|]. eapply linked_one; eauto. }
      intros x Hxlt. split.
      + intros Hx. destruct (J5 _ Hx) as [Hx'|Hx'].
        * apply I7 in Hx'; auto. rewrite in_app_iff. tauto.
        * right. apply in_app_iff; subst; simpl; auto.
      + intros Hx. rewrite in_app_iff in Hx. simpl in Hx.
        destruct (Nat.eq_dec x e) as [->|].
        * rewrite J4. congruence.
        * apply J6. apply I7; auto. destruct Hx as [Hx|[Hx|[Hx|[]]]]; auto; congruence.
    - unfold I. rewrite lset_length.
      assert (Hll : lset (lset comps target empty_component) target tc0 = comps).
      { apply nth_error_ext. intros i. rewrite nth_error_lset, lset_length.
        destruct (Nat.eqb_spec target i) as [<-|].
        - destruct (Nat.ltb_spec target (length comps)); [auto|lia].
        - apply nth_error_lset_ne; auto. }
      rewrite Hll. split; [auto|]. split; [auto|].
      split; [apply nth_error_lset_eq; auto|]. split; [auto|].
      split; [intros e []|]. split; [auto|]. intros e He. simpl. tauto. }
  unfold I in HI. destruct HI as (I1 & I2 & I3 & I4 & I5 & I6 & I7).
  apply obind_done in Hrun. destruct Hrun as (comps'' & Hset & Hrun).
  apply oset_done in Hset. destruct Hset as [Hset ->].
  injection Hrun; clear Hrun; intros <-. simpl. fold G'.
  repeat (split; [now auto|]). split; [|split; auto].
  (* put the constraint into the target *)
  set (cs := lset comps' target tc') in *.
  set (tcf := Component (c_elements tc') (set_insert K (c_constraints tc'))).
  assert (Hcst : nth_error cs target = Some tc') by (apply nth_error_lset_eq; auto).
  assert (Hcst' : nth_error (lset comps' target tcf) target = Some tcf) by (apply nth_error_lset_eq; auto).
  assert (Hcsj : forall j, j <> target -> nth_error (lset comps' target tcf) j = nth_error cs j).
  { intros j Hj. unfold cs. rewrite !nth_error_lset_ne; auto. }
  assert (HKn : forall ci c, nth_error cs ci = Some c -> ~ In K (c_constraints c)).
  { intros ci c Hc Hin. assert (K < K); [|lia]. apply (p_ccov _ _ _ _ I4). eauto. }
  assert (Hel : forall j c x, nth_error (lset comps' target tcf) j = Some c -> In x (c_elements c) ->
            exists c1, nth_error cs j = Some c1 /\ In x (c_elements c1)).
  { intros j c x Hj Hx. destruct (Nat.eq_dec j target) as [->|N].
    - rewrite Hcst' in Hj. injection Hj; intros <-. exists tc'. auto.
    - rewrite Hcsj in Hj by auto. eauto. }
  assert (Hel' : forall j c x, nth_error cs j = Some c -> In x (c_elements c) ->
            exists c1, nth_error (lset comps' target tcf) j = Some c1 /\ In x (c_elements c1)).
  { intros j c x Hj Hx. destruct (Nat.eq_dec j target) as [->|N].
    - rewrite Hcst in Hj. injection Hj; intros <-. exists tcf. auto.
    - rewrite <- Hcsj in Hj by auto. eauto. }
  assert (Hcon : forall j c x, nth_error (lset comps' target tcf) j = Some c -> In x (c_constraints c) ->
            (j = target /\ x = K) \/ (exists c1, nth_error cs j = Some c1 /\ In x (c_constraints c1))).
  { intros j c x Hj Hx. destruct (Nat.eq_dec j target) as [->|N].
    - rewrite Hcst' in Hj. injection Hj; intros <-. unfold tcf in Hx; simpl in Hx.
      apply in_set_insert in Hx. destruct Hx; eauto.
    - rewrite Hcsj in Hj by auto. eauto. }
  constructor.
  - intros e ci H. apply (p_valid _ _ _ _ I4) in H. unfold cs in H. now rewrite !lset_length in *.
  - intros ci c e H1 H2. destruct (Hel _ _ _ H1 H2) as (c1 & H3 & H4).
    eapply (p_range _ _ _ _ I4); eauto.
  - intros ci cj c c' e H1 H2 H3 H4.
    destruct (Hel _ _ _ H1 H3) as (c1 & D1 & E1). destruct (Hel _ _ _ H2 H4) as (c2 & D2 & E2).
    eapply (p_disj _ _ _ _ I4); eauto.
  - intros ci cj c c' k H1 H2 H3 H4.
    destruct (Hcon _ _ _ H1 H3) as [[-> ->]|(c1 & D1 & E1)];
    destruct (Hcon _ _ _ H2 H4) as [[? ?]|(c2 & D2 & E2)]; subst; auto.
    + exfalso. eapply HKn; eauto.
    + exfalso. eapply HKn; eauto.
    + eapply (p_cdisj _ _ _ _ I4); eauto.
  - intros e x Hx. rewrite (p_cov _ _ _ _ I4 e x Hx).
    split; intros (ci & c & H1 & H2).
    + destruct (Hel' _ _ _ H1 H2) as (c1 & ? & ?); eauto.
    + destruct (Hel _ _ _ H1 H2) as (c1 & ? & ?); eauto.
  - intros k. split.
    + intros Hk. destruct (Nat.eq_dec k K) as [->|].
      * exists target, tcf. split; auto. unfold tcf; simpl. apply in_set_insert; auto.
      * assert (Hk' : k < K) by lia. apply (p_ccov _ _ _ _ I4) in Hk'.
        destruct Hk' as (ci & c & H1 & H2). destruct (Nat.eq_dec ci target) as [->|N].
        -- exists target, tcf. split; auto. unfold tcf; simpl. apply in_set_insert.
           rewrite Hcst in H1. injection H1; intros <-; auto.
        -- exists ci, c. now rewrite Hcsj.
    + intros (ci & c & H1 & H2). destruct (Hcon _ _ _ H1 H2) as [[-> ->]|(c1 & D1 & E1)]; [lia|].
      assert (k < K); [|lia]. apply (p_ccov _ _ _ _ I4). eauto.
  - intros ci c H. destruct (Nat.eq_dec ci target) as [->|N].
    + rewrite Hcst' in H. injection H; intros <-. destruct (p_sorted _ _ _ _ I4 _ _ Hcst).
      unfold tcf; simpl. split; auto. now apply ssorted_insert.
    + rewrite Hcsj in H by auto. eapply (p_sorted _ _ _ _ I4); eauto.
  - assert (Hnode : forall ci x, node G' ec' (lset comps' target tcf) ci x ->
        node G' ec' cs ci x \/ (ci = target /\ In x elements)).
    { intros ci x [Hx|(c & Hc & Hx)]; [left; left; auto|].
      destruct Hx as [Hx|(k & es & Hk & Hes & Hx)].
      - left. right. destruct (Hel _ _ _ Hc Hx) as (c1 & ? & ?). eauto.
      - destruct (Hcon _ _ _ Hc Hk) as [[-> ->]|(c1 & D1 & E1)].
        + right. split; auto. unfold G' in Hes. rewrite <- HlenG in Hes.
          rewrite nth_error_app_new in Hes. congruence.
        + left. right. exists c1. split; auto. right. eauto. }
    destruct elements as [|e0 rest] eqn:Eel; [congruence|]. rewrite <- Eel in *.
    assert (He0 : In e0 elements) by (rewrite Eel; simpl; auto).
    intros ci x y Hx Hy.
    destruct (Hnode _ _ Hx) as [Hx'|[-> Hx']]; destruct (Hnode _ _ Hy) as [Hy'|[? Hy']]; subst.
    + eapply (p_conn _ _ _ _ I4); eauto.
    + apply I6; auto.
    + apply linked_sym. apply I6; auto.
    + eapply linked_one; eauto.
Qed.

Lemma push_incident_spec k elements : forall es es',
  push_incident_constraint k elements es = Done es' ->
  length es' = length es /\
  (forall i ge, nth_error es' i = Some ge -> exists ge0, nth_error es i = Some ge0 /\ dof ge = dof ge0).
Proof.
  unfold push_incident_constraint. induction elements as [|e l IH]; simpl; intros es es' H.
  - odone. split; eauto.
  - odone. apply oset_done in Ha. destruct Ha as [Hlt ->].
    apply IH in H. destruct H as [H1 H2]. rewrite lset_length in H1. split; auto.
    intros i ge Hi. destruct (H2 _ _ Hi) as (g0 & Hg0 & D).
    rewrite nth_error_lset in Hg0. destruct (Nat.eqb_spec e i) as [<-|].
    + destruct (Nat.ltb_spec e (length es)); [|discriminate]. injection Hg0; intros <-.
      exists a0. split; auto.
    + eauto.
Qed.

Lemma wf_graph_add_constraint val elements g g' :
  elements <> [] -> wf_graph g -> graph_add_constraint val elements g = Done g' ->
  wf_graph g' /\
  g_constraints g' = g_constraints g ++ [GConstraint val elements] /\
  length (g_elements g') = length (g_elements g) /\
  (forall e, In e elements -> e < length (g_elements g)).
Proof.
  intros Hne [w1 w2 w3 w4] H. unfold graph_add_constraint in H.
  apply obind_done in H. destruct H as (g1 & Hm & H).
  apply obind_done in H. destruct H as (es & Hes & H). injection H; clear H; intros <-.
  destruct (merge_part g _ elements g1 eq_refl Hne w1 w2 Hm) as (M1 & M2 & M3 & M4 & M5 & M6).
  apply push_incident_spec in Hes. destruct Hes as [P1 _].
  assert (Hlt : forall e, In e elements -> e < length (g_elements g)).
  { intros e He. rewrite <- w1. auto. }
  split; [|simpl; rewrite M2, P1, M1; auto].
  constructor; simpl.
  - rewrite M3, P1, M1; auto.
  - unfold hyperedges; simpl. rewrite M2, map_app, app_length; simpl.
    rewrite Nat.add_1_r. exact M4.
  - rewrite M2, P1, M1. intros gc e Hgc He. apply in_app_iff in Hgc.
    destruct Hgc as [Hgc|[<-|[]]]; eauto.
  - intros e He. rewrite P1, M1 in He. rewrite M6 by (rewrite w1; auto). rewrite M2, w4 by auto.
    split.
    + intros [(gc & H1 & H2)|H1].
      * exists gc. split; auto. apply in_app_iff; auto.
      * exists (GConstraint val elements). split; auto. apply in_app_iff; simpl; auto.
    + intros (gc & H1 & H2). apply in_app_iff in H1. destruct H1 as [H1|[<-|[]]]; eauto.
Qed.

Lemma push_incident_ok k elements es :
  (forall e, In e elements -> e < length es) ->
  exists es', push_incident_constraint k elements es = Done es'.
Proof.
  intros H. unfold push_incident_constraint.
  destruct (ofold_ok (fun es' : list gelement => length es' = length es)
     (fun es e => let! ge := oget es e in
        oset es e (GElement (dof ge) (incident_constraints ge ++ [k]))) elements)
     with (s := es) as (r & Hr & _); eauto.
  intros s e He Hs. destruct (oget_ok s e) as [ge Hge]; [rewrite Hs; auto|].
  rewrite Hge; simpl. rewrite oset_ok by (rewrite Hs; auto).
  eexists; split; eauto. now rewrite lset_length.
Qed.

Lemma graph_add_constraint_ok val elements g :
  wf_graph g -> (forall e, In e elements -> e < length (g_elements g)) ->
  exists g', graph_add_constraint val elements g = Done g'.
Proof.
  intros [w1 w2 w3 w4] Hr. unfold graph_add_constraint, merge_connected_components.
  assert (Hr' : forall e, In e elements -> e < length (element_component g)) by (rewrite w1; auto).
  destruct (largest_component_ok g elements w2 Hr') as [[best sz] Hb]. rewrite Hb; simpl.
  assert (Htc : exists target comps tc,
     (match best with Some ci => (ci, components g)
        | None => (length (components g), components g ++ [empty_component]) end) = (target, comps) /\
     nth_error comps target = Some tc /\ length (components g) <= length comps).
  { destruct best as [ci|].
    - destruct (largest_component_spec _ _ _ _ Hb ci eq_refl) as (_ & Hci).
      destruct (nth_error_ex _ _ Hci) as [tc Htc]. exists ci, (components g), tc. auto.
    - exists (length (components g)), (components g ++ [empty_component]), empty_component.
      split; auto. split; [apply nth_error_app_new|]. rewrite app_length; lia. }
  destruct Htc as (target & comps & tc & -> & Htc & Hlen).
  assert (Htlt : target < length comps) by (eapply nth_error_lt; eauto).
  apply oget_done in Htc. rewrite Htc; simpl.
  set (I := fun (st : list (option nat) * list component * component) =>
     let '(ec, cs, tc) := st in
     length ec = length (element_component g) /\ length cs = length comps /\
     forall e ci, nth_error ec e = Some (Some ci) -> ci < length comps).
  destruct (ofold_ok I (merge_step target) elements)
    with (s := (element_component g, lset comps target empty_component, tc))
    as ([[ec cs] tc'] & Hl & HI).
  - intros [[ec cs] tc1] e He (I1 & I2 & I3). unfold merge_step.
    destruct (oget_ok ec e) as [oc Hoc]; [rewrite I1; auto|]. rewrite Hoc; simpl.
    apply oget_done in Hoc.
    assert (He' : e < length ec) by (rewrite I1; auto).
    assert (Hec : forall x ci, nth_error (lset ec e (Some target)) x = Some (Some ci) -> ci < length comps).
    { intros x ci Hx. rewrite nth_error_lset in Hx. destruct (Nat.eqb_spec e x).
      - destruct (_ <? _); [|discriminate]. injection Hx; intros <-; auto.
      - eauto. }
    destruct oc as [ci|].
    + assert (Hci : ci < length cs) by (rewrite I2; eauto).
      destruct (oget_ok _ _ Hci) as [c Hc]. rewrite Hc; simpl.
      rewrite oset_ok by auto. simpl. eexists; split; eauto.
      unfold I. rewrite !lset_length. auto.
    + rewrite oset_ok by auto. simpl. eexists; split; eauto.
      unfold I. rewrite !lset_length. auto.
  - unfold I. rewrite lset_length. repeat split; auto.
    intros e ci H. apply (p_valid _ _ _ _ w2) in H. lia.
  - rewrite Hl; simpl. destruct HI as (I1 & I2 & I3).
    rewrite oset_ok by (rewrite I2; auto). simpl.
    destruct (push_incident_ok (length (g_constraints g)) elements (g_elements g) Hr) as [es Hes].
    rewrite Hes; simpl. eauto.
Qed.
