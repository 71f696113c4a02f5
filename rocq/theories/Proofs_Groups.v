(** The groups found by single-pass decomposition. *)
From Coq Require Import List Arith NArith Lia Bool Permutation.
From Verif Require Import Outcome Lib ModelGraph ModelMatching Spec_Scc Spec_Matching Spec_Groups
  Proofs_Graph Proofs_Matching Proofs_Scc.
Import ListNotations.

Lemma omap_in' {A B} (f : A -> outcome B) l bs a b :
  omap f l = Done bs -> In a l -> f a = Done b -> In b bs.
Proof.
  intros H Ha Hb. apply In_nth_error in Ha. destruct Ha as [i Hi].
  destruct (omap_nth' _ _ _ H _ _ Hi) as (b' & H1 & H2). apply nth_error_In in H1. congruence.
Qed.

Section Groups.
  Variable g : eqgraph.
  Variable free : list nat.
  Variable order : list nat -> list nat.
  Notation exprs := (eq_expressions g).
  Hypothesis Hnd : NoDup free.
  Hypothesis Hrange : forall v, In v free -> v < length (eq_variables g).
  Hypothesis Hcons : forall v l, nth_error (eq_variables g) v = Some l ->
    forall e, In e l <-> mentions exprs e v.
  Hypothesis Hroom : (N.of_nat (length exprs) < 2 ^ 32)%N \/
    exists gs, find_strongly_connected_expressions g free order = Done gs.
  Hypothesis Horder : forall l, Permutation (order l) l.
  Notation bg := (masked g free).

  Lemma masked_nb : forall a, In a (vertices_a bg) -> exists bs, neighbors_of_a bg a = Some bs.
  Proof. intros a Ha. simpl in *. apply nth_error_ex. auto. Qed.

  Lemma edge_mentions a b : edge bg a b <-> In a free /\ mentions exprs b a.
  Proof.
    unfold edge; simpl. split.
    - intros [Ha (bs & Hb & Hin)]. split; auto. eapply Hcons; eauto.
    - intros [Ha Hm]. split; auto. destruct (nth_error_ex (eq_variables g) a) as [l Hl]; auto.
      exists l. split; auto. eapply Hcons; eauto.
  Qed.

  Section Matched.
    Variable m : matching.
    Hypothesis Hv : valid bg m.
    Notation M := (a_to_b m).
    Notation feedsM := (feeds exprs free M).
    Notation keys := (map fst (b_to_a m)).

    Lemma in_M a b : In (a, b) M <-> aget M a = Some b.
    Proof. split; [apply in_aget, (v_nda _ _ Hv)|apply aget_in]. Qed.
    Lemma matched_iff e : matched M e <-> In e keys.
    Proof.
      unfold matched. split.
      - intros [v H]. apply in_M in H. apply (v_ab _ _ Hv) in H. apply aget_in in H.
        apply in_map_iff. exists (e, v). auto.
      - intros H. apply aget_key in H. destruct H as [v H]. exists v. apply in_M.
        now apply (v_ba _ _ Hv).
    Qed.
    Lemma unmatched_iff a : is_a_matched m a = false <-> forall f, ~ In (a, f) M.
    Proof.
      unfold is_a_matched, amem. destruct (aget M a) as [b|] eqn:E.
      - split; [discriminate|]. intros H. exfalso. apply (H b). now apply in_M.
      - split; auto. intros _ f H. apply in_M in H. congruence.
    Qed.
    Lemma key_range e : In e keys -> e < length exprs.
    Proof.
      intros H. apply matched_iff in H. destruct H as [v H]. apply in_M in H.
      apply (v_edge _ _ Hv) in H. apply edge_mentions in H. destruct H as [_ (vs & H & _)].
      eapply nth_error_lt; eauto.
    Qed.
    Lemma keys_room : (N.of_nat (length exprs) < 2 ^ 32)%N -> (N.of_nat (length keys) < 2 ^ 32)%N.
    Proof.
      intros HR. assert (length keys <= length (seq 0 (length exprs))).
      { apply NoDup_incl_length; [apply (v_ndb _ _ Hv)|]. intros e He. apply in_seq.
        apply key_range in He. lia. }
      rewrite seq_length in H. lia.
    Qed.

    Lemma determines_iff e v w : aget (b_to_a m) e = Some w ->
      (determines exprs free M e v <->
       mentions exprs e v /\ In v free /\ (v = w \/ is_a_matched m v = false)).
    Proof.
      intros Hw. unfold determines. rewrite unmatched_iff, in_M. split.
      - intros (H1 & H2 & [H3|H3]); repeat (split; auto). apply (v_ab _ _ Hv) in H3. left. congruence.
      - intros (H1 & H2 & [->|H3]); repeat (split; auto). left. now apply (v_ba _ _ Hv).
    Qed.

    Lemma matched_neighbors_ok x : In x keys ->
      exists ns, matched_neighbors bg m x = Done ns /\ incl ns keys /\
        forall y, In y ns <-> feedsM x y /\ x <> y.
    Proof.
      intros Hx. destruct (aget_key _ _ Hx) as [w Hw]. unfold matched_neighbors. rewrite Hw.
      cbn [ounwrap obind]. simpl neighbors_of_b.
      destruct (nth_error_ex exprs x (key_range x Hx)) as [vs Hvs]. rewrite Hvs. cbn [option_map ounwrap obind].
      match goal with |- context [omap ?f ?l] => destruct (omap_ok f l) as [ns Hns] end.
      { intros a Ha. apply filter_In in Ha. destruct Ha as [Ha _]. apply filter_In in Ha.
        destruct Ha as [_ Ha]. apply existsb_eqb in Ha. destruct (masked_nb a Ha) as [bs Hbs].
        rewrite Hbs. simpl. eauto. }
      rewrite Hns. cbn [obind]. eexists; split; [reflexivity|].
      assert (Hin : forall y, In y (concat ns) <-> exists v, determines exprs free M x v /\ mentions exprs y v).
      { intros y. rewrite in_concat. split.
        - intros (bs & Hbs & Hy). apply In_nth_error in Hbs. destruct Hbs as [k Hk].
          destruct (omap_nth _ _ _ Hns _ _ Hk) as (a & Ha & Hfa).
          apply ounwrap_done in Hfa. apply nth_error_In in Ha. apply filter_In in Ha.
          destruct Ha as [Ha Hc]. apply filter_In in Ha. destruct Ha as [Ha Hf].
          apply existsb_eqb in Hf. exists a. split.
          + apply (determines_iff _ _ _ Hw). split; [exists vs; auto|]. split; auto.
            apply orb_true_iff in Hc. destruct Hc as [Hc|Hc]; [left; now apply Nat.eqb_eq|right].
            now apply negb_true_iff.
          + simpl in Hfa. eapply Hcons; eauto.
        - intros (v & Hd & Hm). apply (determines_iff _ _ _ Hw) in Hd.
          destruct Hd as ((vs' & Hvs' & Hv') & Hfr & Hc). rewrite Hvs in Hvs'. inversion Hvs'; subst vs'.
          destruct (nth_error_ex (eq_variables g) v) as [l Hl]; [auto|].
          exists l. split.
          + eapply omap_in' with (a := v); eauto.
            * apply filter_In. split; [apply filter_In; split; auto; now apply existsb_eqb|].
              apply orb_true_iff. destruct Hc as [->|Hc]; [left; apply Nat.eqb_refl|right].
              now apply negb_true_iff.
            * simpl. now rewrite Hl.
          + eapply Hcons; eauto. }
      split.
      - intros y Hy. apply filter_In in Hy. destruct Hy as [_ Hy]. apply andb_true_iff in Hy.
        destruct Hy as [_ Hy]. apply amem_true in Hy. destruct Hy as [a Ha]. apply aget_in in Ha.
        apply in_map_iff. exists (y, a). auto.
      - intros y. rewrite filter_In, Hin, andb_true_iff, negb_true_iff, Nat.eqb_neq.
        unfold feeds. rewrite matched_iff, matched_iff. unfold amem. split.
        + intros ((v & Hd) & Hne & Hy). split; auto. split; auto. split; [|eauto].
          destruct (aget (b_to_a m) y) eqn:E; [|discriminate]. apply aget_in in E.
          apply in_map_iff. exists (y, n). auto.
        + intros ((_ & Hy & Hd) & Hne). split; auto. split; auto.
          apply aget_key in Hy. destruct Hy as [a ->]. auto.
    Qed.

    Notation EE := (E (matched_neighbors bg m)).
    Lemma E_feeds x y : EE x y -> feedsM x y.
    Proof.
      intros (ns & H & Hy). assert (Hx : In x keys).
      { unfold matched_neighbors in H. destruct (aget (b_to_a m) x) eqn:Ex; [|discriminate].
        apply aget_in in Ex. apply in_map_iff. exists (x, n). auto. }
      destruct (matched_neighbors_ok x Hx) as (ns' & H' & _ & HH). rewrite H in H'. inversion H'; subst.
      now apply HH in Hy.
    Qed.
    Lemma feeds_E x y : feedsM x y -> x = y \/ EE x y.
    Proof.
      intros H. destruct (Nat.eq_dec x y); auto. right.
      assert (Hx : In x keys) by (apply matched_iff; apply H).
      destruct (matched_neighbors_ok x Hx) as (ns & Hns & _ & HH). exists ns. split; auto.
      apply HH. auto.
    Qed.
    Lemma reaches_E_feeds x y : reaches EE x y <-> reaches feedsM x y.
    Proof.
      split; induction 1; try constructor.
      - eapply reaches_step; eauto. now apply E_feeds.
      - destruct (feeds_E _ _ H) as [->|]; auto. eapply reaches_step; eauto.
    Qed.

    Lemma group_of_ok es : (forall e, In e es -> In e keys) ->
      exists gr, group_of g free m order es = Done gr /\ group_expressions gr = es /\
        NoDup (group_free_variables gr) /\
        forall v, In v (group_free_variables gr) <-> exists e, In e es /\ determines exprs free M e v.
    Proof.
      intros Hes. unfold group_of.
      match goal with |- context [ofold ?f es ?st0] =>
        destruct (ofold_ok_prefix (fun pre acc => ssorted acc /\ forall v, In v acc <->
           exists e, In e pre /\ determines exprs free M e v) f es) with (s := st0)
          as (vs & Hvs & Hso & Hin) end.
      - intros pre e post acc Ees [Hso Hacc].
        assert (He : In e keys) by (apply Hes; rewrite Ees; apply in_app_iff; simpl; auto).
        destruct (aget_key _ _ He) as [w Hw]. unfold get_matched_for_b. rewrite Hw. cbn [ounwrap obind].
        destruct (nth_error_ex exprs e (key_range e He)) as [vars Hvars].
        rewrite (proj2 (oget_done _ _ _) Hvars). cbn [obind]. eexists; split; [reflexivity|].
        split; [now apply ssorted_extend|].
        assert (Hwf : edge bg w e) by (apply (v_edge _ _ Hv), (v_ba _ _ Hv), Hw).
        apply edge_mentions in Hwf.
        intros v. rewrite in_set_extend, Hacc, filter_In. split.
        + intros [(e' & He' & Hd)|[Hin Hc]].
          * exists e'. split; auto. apply in_app_iff; auto.
          * exists e. split; [apply in_app_iff; simpl; auto|]. apply (determines_iff _ _ _ Hw).
            split; [exists vars; auto|]. apply orb_true_iff in Hc. destruct Hc as [Hc|Hc].
            -- apply Nat.eqb_eq in Hc. subst v. split; [apply Hwf|auto].
            -- apply andb_true_iff in Hc. destruct Hc as [H1 H2]. apply existsb_eqb in H2.
               split; auto. right. now apply negb_true_iff.
        + intros (e' & He' & Hd). apply in_app_iff in He'. destruct He' as [He'|[<-|[]]]; [left; eauto|].
          right. apply (determines_iff _ _ _ Hw) in Hd. destruct Hd as ((vs & H1 & H2) & Hf & Hc).
          rewrite Hvars in H1. inversion H1; subst vs. split; auto. apply orb_true_iff.
          destruct Hc as [->|Hc]; [left; apply Nat.eqb_refl|right].
          rewrite Hc. simpl. now apply existsb_eqb.
      - split; [constructor|]. intros v. split; [intros []|intros (e & [] & _)].
      - rewrite Hvs. cbn [obind]. eexists; split; [reflexivity|]. cbn [group_expressions group_free_variables].
        split; auto. split.
        + eapply Permutation_NoDup; [apply Permutation_sym, Horder|]. now apply ssorted_nodup.
        + intros v. rewrite <- Hin. split; intros H; [eapply Permutation_in; [|exact H]; auto|].
          eapply Permutation_in; [apply Permutation_sym, Horder|]. auto.
    Qed.
  End Matched.

  Lemma nth_concat_pos {A} (l : list (list A)) i j x a b : NoDup (concat l) ->
    nth_error l i = Some a -> nth_error l j = Some b -> In x a -> In x b -> i = j.
  Proof.
    revert i j. induction l as [|s l IH]; intros i j N Hi Hj Ha Hb; [destruct i; discriminate|].
    simpl in N. destruct i as [|i], j as [|j]; auto; simpl in Hi, Hj.
    - inversion Hi; subst. exfalso. eapply nodup_app_disj; eauto. apply in_concat.
      exists b. split; auto. eapply nth_error_In; eauto.
    - inversion Hj; subst. exfalso. eapply nodup_app_disj; eauto. apply in_concat.
      exists a. split; auto. eapply nth_error_In; eauto.
    - f_equal. eapply IH; eauto. clear -N. induction s; simpl in N; auto. inversion N; auto.
  Qed.

  Theorem find_groups_ok : exists m gs,
    find_maximum_matching bg = Done m /\ valid bg m /\ is_maximum_matching bg (a_to_b m) /\
    find_strongly_connected_expressions g free order = Done gs /\
    group_order exprs free (a_to_b m) gs.
  Proof.
    unfold find_strongly_connected_expressions.
    destruct (find_maximum_matching_ok bg Hnd masked_nb) as (m & Hm & Hv & Hmax).
    exists m. rewrite Hm. cbn [obind].
    destruct (tarjan_pearce_ok (map fst (b_to_a m)) (matched_neighbors bg m)) as (sccs & Hs & Ho).
    { intros x Hx. destruct (matched_neighbors_ok m Hv x Hx) as (ns & H1 & H2 & _). eauto. }
    { destruct Hroom as [HR|[gs HR]]; [now apply keys_room|].
      unfold find_strongly_connected_expressions in HR. rewrite Hm in HR. cbn [obind] in HR.
      apply obind_done in HR. destruct HR as (sccs & HR & _). unfold tarjan_pearce in HR.
      apply obind_done in HR. destruct HR as (k & HR & _). now apply to_u32_done in HR. }
    rewrite Hs. cbn [obind].
    destruct (omap_ok (group_of g free m order) (rev sccs)) as [gs Hgs].
    { intros es Hes. destruct (group_of_ok m Hv es) as (gr & H & _).
      - intros e He. apply (so_all _ _ _ Ho). apply in_concat. exists es. split; auto. now apply in_rev.
      - eauto. }
    exists gs. rewrite Hgs. split; auto. split; auto. split; auto. split; auto.
    assert (Hnth : forall i gr, nth_error gs i = Some gr -> exists es,
       nth_error (rev sccs) i = Some es /\ group_expressions gr = es /\
       NoDup (group_free_variables gr) /\
       forall v, In v (group_free_variables gr) <->
         exists e, In e es /\ determines exprs free (a_to_b m) e v).
    { intros i gr Hi. destruct (omap_nth _ _ _ Hgs _ _ Hi) as (es & Hes & Hgr).
      exists es. split; auto. destruct (group_of_ok m Hv es) as (gr' & H1 & H2).
      - intros e He. apply (so_all _ _ _ Ho). apply in_concat. exists es. split; auto.
        apply in_rev. eapply nth_error_In; eauto.
      - rewrite Hgr in H1. inversion H1; subst. auto. }
    assert (Hmap : map group_expressions gs = rev sccs).
    { apply nth_error_ext. intros i. rewrite nth_error_map.
      destruct (nth_error gs i) as [gr|] eqn:Ei; simpl.
      - destruct (Hnth _ _ Ei) as (es & H1 & H2 & _). now rewrite H1, H2.
      - symmetry. apply nth_error_None. apply nth_error_None in Ei.
        rewrite <- (omap_length _ _ _ Hgs). auto. }
    assert (Hndr : NoDup (concat (rev sccs))).
    { eapply Permutation_NoDup; [|apply (so_once _ _ _ Ho)]. clear. induction sccs as [|s l IH]; simpl; auto.
      rewrite concat_app. simpl. rewrite app_nil_r.
      eapply perm_trans; [apply Permutation_app_comm|]. now apply Permutation_app_tail. }
    constructor.
    - now rewrite Hmap.
    - intros e. rewrite (matched_iff m Hv), (so_all _ _ _ Ho), in_concat. split.
      + intros (es & Hes & He). apply in_rev in Hes. rewrite <- Hmap in Hes.
        apply in_map_iff in Hes. destruct Hes as (gr & <- & Hg). eauto.
      + intros (gr & Hg & He). exists (group_expressions gr). split; auto. apply in_rev.
        rewrite <- Hmap. apply in_map_iff. eauto.
    - intros gr e f Hg He. rewrite (so_mutual _ _ _ Ho (group_expressions gr) e f); auto.
      + now rewrite !(reaches_E_feeds m Hv).
      + apply in_rev. rewrite <- Hmap. apply in_map_iff. eauto.
    - intros i j gi gj e f Hi Hj He Hf Hfe.
      destruct (Hnth _ _ Hi) as (es & Hes & Ees & _). destruct (Hnth _ _ Hj) as (fs & Hfs & Efs & _).
      rewrite Ees in He. rewrite Efs in Hf.
      destruct (feeds_E m Hv _ _ Hfe) as [->|HE].
      { assert (i = j); [|lia]. eapply nth_concat_pos; eauto. }
      apply nth_error_split in Hes. destruct Hes as (l1 & l2 & Er & Hl).
      assert (Es : sccs = rev l2 ++ es :: rev l1).
      { rewrite <- (rev_involutive sccs), Er, rev_app_distr. simpl. now rewrite <- app_assoc. }
      pose proof (so_order _ _ _ Ho _ _ _ _ _ Es He HE) as Hin.
      apply in_concat in Hin. destruct Hin as (fs' & Hfs' & Hf').
      (* fs' is at a position >= i in rev sccs *)
      assert (Hpos : exists k, i <= k /\ nth_error (rev sccs) k = Some fs').
      { apply in_app_iff in Hfs'. rewrite Er. destruct Hfs' as [Hfs'|[<-|[]]].
        - apply in_rev in Hfs'. rewrite rev_involutive in Hfs' || idtac.
          apply In_nth_error in Hfs'. destruct Hfs' as [k Hk]. exists (length l1 + S k). split; [lia|].
          rewrite nth_error_app2 by lia. replace (length l1 + S k - length l1) with (S k) by lia. auto.
        - exists (length l1). split; [lia|]. rewrite nth_error_app2, Nat.sub_diag by lia. auto. }
      destruct Hpos as (k & Hk & Hk'). assert (j = k); [|lia].
      eapply nth_concat_pos; eauto.
    - intros gr v Hg. apply In_nth_error in Hg. destruct Hg as [i Hi].
      destruct (Hnth _ _ Hi) as (es & _ & -> & _ & H). auto.
    - intros gr Hg. apply In_nth_error in Hg. destruct Hg as [i Hi].
      destruct (Hnth _ _ Hi) as (es & _ & _ & H & _). auto.
  Qed.
End Groups.
