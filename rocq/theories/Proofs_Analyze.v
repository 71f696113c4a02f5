(** Analysis never panics and only reports constraints of the system. *)
From Coq Require Import List Arith NArith ZArith Lia Bool.
From Verif Require Import Num Outcome Lib ModelExpr ModelGraph ModelSystem ModelSolve
  ModelNumerical ModelApi Spec_Sketch Spec_Graph Proofs_Graph Proofs_System Proofs_Calls.
Import ListNotations.

Section Analyze.
  Context {F : Type} {NF : Num F}.
  Implicit Types (s : system F) (sk : sketch F).

  Lemma row_sub_length (f : F) t x n : length t = n -> length x = n -> length (row_sub f t x) = n.
  Proof. intros H1 H2. unfold row_sub. rewrite map_length, combine_length. lia. Qed.

  Lemma eliminate_ok n cols (done : list (list F * bool)) row :
    length cols = n -> (forall c, In c cols -> c < n) -> length done < n ->
    (forall r b, In (r, b) done -> length r = n) -> length row = n ->
    exists rank row', eliminate cols done row = Done (rank, row') /\ length row' = n.
  Proof.
    intros Hc Hcr Hd Hr Hrow. unfold eliminate.
    match goal with |- context [ofold ?g] => set (f := g) end.
    destruct (ofold_ok_prefix (fun pre (st : nat * list F) => fst st <= length pre /\ length (snd st) = n)
       f done) with (s := (0, row)) as ([rank row'] & H & H1 & H2); simpl; eauto.
    intros pre [r b] post [rank row'] E [P1 P2]. simpl in P1, P2. unfold f.
    assert (length pre < n). { rewrite E in Hd. rewrite app_length in Hd. simpl in Hd. lia. }
    destruct (oget_ok cols rank) as [ci Hci]; [lia|]. rewrite Hci; simpl.
    apply oget_done in Hci. apply nth_error_In, Hcr in Hci.
    destruct (oget_ok row' ci) as [x Hx]; [lia|]. rewrite Hx; simpl.
    eexists; split; [reflexivity|]. rewrite app_length; simpl. split.
    - destruct b; lia.
    - apply row_sub_length; auto. apply (Hr r b). rewrite E. apply in_app_iff; simpl; auto.
  Qed.

  Lemma find_pivot_ok n cols (row : list F) ps :
    length cols = n -> (forall c, In c cols -> c < n) -> length row = n ->
    (forall p, In p ps -> p < n) ->
    exists o, find_pivot row cols ps = Done o /\ forall p, o = Some p -> In p ps.
  Proof.
    intros Hc Hcr Hrow. induction ps as [|p ps IH]; simpl; intros Hp.
    - exists None. split; auto; discriminate.
    - destruct (oget_ok cols p) as [ci Hci]; [rewrite Hc; auto|]. rewrite Hci; simpl.
      apply oget_done in Hci. apply nth_error_In, Hcr in Hci.
      destruct (oget_ok row ci) as [x Hx]; [lia|]. rewrite Hx; simpl.
      destruct (EPSILON <? nabs x)%num.
      + exists (Some p). split; auto. intros p' E; inversion E; auto.
      + destruct IH as (o & Ho & Hi); [auto|]. exists o. split; auto.
  Qed.

  Lemma oswap_ok {A} (l : list A) i j : i < length l -> j < length l ->
    exists l', oswap l i j = Done l' /\ length l' = length l /\ (forall x, In x l' -> In x l).
  Proof.
    intros Hi Hj. unfold oswap.
    destruct (oget_ok l i Hi) as [a Ha]. rewrite Ha; simpl.
    destruct (oget_ok l j Hj) as [b Hb]. rewrite Hb; simpl.
    rewrite oset_ok by auto; simpl. rewrite oset_ok by now rewrite lset_length.
    eexists; split; [reflexivity|]. rewrite !lset_length. split; auto.
    apply oget_done in Ha, Hb. intros x Hx. apply In_nth_error in Hx. destruct Hx as [k Hk].
    rewrite !nth_error_lset, lset_length in Hk.
    destruct (Nat.eqb j k).
    - destruct (Nat.ltb j (length l)); [|discriminate]. inversion Hk; subst.
      eapply nth_error_In; eauto.
    - destruct (Nat.eqb i k).
      + destruct (Nat.ltb i (length l)); [|discriminate]. inversion Hk; subst.
        eapply nth_error_In; eauto.
      + eapply nth_error_In; eauto.
  Qed.

  Lemma gj_row_ok n (done : list (list F * bool)) cols cur row :
    length cols = n -> (forall c, In c cols -> c < n) -> length done < n ->
    cur <= length done ->
    (forall r b, In (r, b) done -> length r = n) -> length row = n ->
    exists done' cols' cur', gj_row n (done, cols, cur) row = Done (done', cols', cur') /\
      length cols' = n /\ (forall c, In c cols' -> c < n) /\ length done' = S (length done) /\
      cur' <= length done' /\ (forall r b, In (r, b) done' -> length r = n).
  Proof.
    intros Hc Hcr Hd Hcur Hr Hrow. unfold gj_row.
    destruct (eliminate_ok _ _ _ _ Hc Hcr Hd Hr Hrow) as (rank & row' & He & Hl).
    rewrite He; simpl.
    destruct (find_pivot_ok n cols row' (seq cur (n - cur)) Hc Hcr Hl) as (o & Ho & Hi).
    { intros p Hp. apply in_seq in Hp. lia. }
    rewrite Ho; simpl. destruct o as [p|].
    - specialize (Hi p eq_refl). apply in_seq in Hi.
      destruct (oswap_ok cols cur p) as (cols' & Hsw & Hsl & Hsi); [lia..|].
      rewrite Hsw; simpl. destruct (oget_ok cols' cur) as [ci Hci]; [lia|]. rewrite Hci; simpl.
      apply oget_done in Hci. apply nth_error_In, Hsi, Hcr in Hci.
      destruct (oget_ok row' ci) as [x Hx]; [lia|]. rewrite Hx; simpl.
      set (row'' := map _ row').
      assert (Hl'' : length row'' = n) by (unfold row''; now rewrite map_length).
      match goal with |- context [omap ?g done] => destruct (omap_ok g done) as [done' Hdone] end.
      { intros [r b] Hin. apply Hr in Hin. destruct (oget_ok r ci) as [y Hy]; [lia|].
        rewrite Hy; simpl; eauto. }
      rewrite Hdone; simpl. do 3 eexists; split; [reflexivity|].
      split; [lia|]. split; [auto|]. rewrite app_length, (omap_length _ _ _ Hdone); simpl.
      split; [lia|]. split; [lia|]. intros r b Hin. apply in_app_iff in Hin.
      destruct Hin as [Hin|[Hin|[]]].
      + destruct (omap_in _ _ _ _ Hdone Hin) as ([r0 b0] & Hin0 & H0).
        apply obind_done in H0. destruct H0 as (y & _ & H0). inversion H0; subst.
        apply row_sub_length; auto. eapply Hr; eauto.
      + inversion Hin; subst; auto.
    - do 3 eexists; split; [reflexivity|]. rewrite app_length; simpl. repeat split; auto; try lia.
      intros r b Hin. apply in_app_iff in Hin. destruct Hin as [Hin|[Hin|[]]]; eauto.
      inversion Hin; subst; auto.
  Qed.

  Lemma gauss_jordan_ok n (m : list (list F)) :
    (forall r, In r m -> length r = n) ->
    exists flags m' cols, incremental_gauss_jordan_elimination m n (seq 0 n) = Done (flags, m', cols) /\
      length flags = length m.
  Proof.
    intros Hm. unfold incremental_gauss_jordan_elimination.
    set (k := Nat.min (length m) n).
    destruct (ofold_ok_prefix
      (fun pre (st : list (list F * bool) * list nat * nat) =>
         let '(done, cols, cur) := st in
         length cols = n /\ (forall c, In c cols -> c < n) /\ length done = length pre /\
         cur <= length done /\ (forall r b, In (r, b) done -> length r = n))
      (gj_row n) (firstn k m)) with (s := (@nil (list F * bool), seq 0 n, 0))
      as ([[done cols] cur] & H & I1 & I2 & I3 & I4 & I5).
    - intros pre row post [[done cols] cur] E (I1 & I2 & I3 & I4 & I5).
      assert (Hlen : length pre < n).
      { assert (L : length (firstn k m) = k) by (rewrite firstn_length; lia).
        rewrite E, app_length in L; simpl in L. lia. }
      destruct (gj_row_ok n done cols cur row) as (d' & c' & u' & Hg & J1 & J2 & J3 & J4 & J5);
        auto; try lia.
      { apply Hm. assert (Hin : In row (firstn k m)) by (rewrite E; apply in_app_iff; simpl; auto).
        rewrite <- (firstn_skipn k m). apply in_app_iff; auto. }
      exists (d', c', u'). split; auto. rewrite app_length; simpl. repeat split; auto; lia.
    - repeat split; auto.
      + apply seq_length.
      + intros c Hc. apply in_seq in Hc. lia.
      + intros r b [].
    - rewrite H; simpl. do 3 eexists; split; [reflexivity|].
      rewrite app_length, map_length, repeat_length, I3, firstn_length. lia.
  Qed.

  Lemma assign_gradient_ok (xs : list (variable F)) g acc n :
    length acc = n -> (forall v i, In (Free v i) xs -> i < n) ->
    exists acc', assign_gradient xs g acc = Done acc' /\ length acc' = n.
  Proof.
    intros Hl Hx. unfold assign_gradient.
    apply (ofold_ok (fun acc => length acc = n)); auto.
    intros acc' [x d] Hin Hl'. destruct x as [v i|v]; eauto.
    rewrite oset_ok. 2:{ rewrite Hl'. apply in_combine_l in Hin. eauto. }
    eexists; split; eauto. now rewrite lset_length.
  Qed.

  Lemma analysis_jacobian_ok s sk : models s sk ->
    exists m, analysis_jacobian s = Done m /\ length m = length (sys_expressions s) /\
      forall r, In r m -> length r = length (sys_variables s).
  Proof.
    intros M. unfold analysis_jacobian.
    match goal with |- context [omap ?g] => set (f := g) end.
    assert (Hf : forall e, In e (sys_expressions s) ->
      exists r, f e = Done r /\ length r = length (sys_variables s)).
    { intros e He. apply In_nth_error in He. destruct He as [j Hj].
      destruct (m_expr _ _ M _ _ Hj) as (i & r & idx & es & k & _ & _ & Hc & Hk & _).
      apply nth_error_In in Hk.
      destruct (gather_identity s e) as (xs & Hxs & _).
      { intros v Hv. eapply compile_vars; eauto. }
      unfold f, calculate_residual_and_gradient. rewrite Hxs; simpl.
      destruct (compute_rg e (buffer xs)) as [res g] eqn:Erg.
      destruct (assign_gradient_ok xs g (repeat nzero (length (sys_variables s)))
         (length (sys_variables s))) as (acc & Ha & Hla).
      { apply repeat_length. }
      { intros v i' Hin. unfold gather in Hxs.
        destruct (omap_in _ _ _ _ Hxs Hin) as (v' & Hv' & Hm).
        unfold identity_map in Hm. apply obind_done in Hm. destruct Hm as (y & Hy & Hm).
        inversion Hm; subst. apply oget_done in Hy. eapply nth_error_lt; eauto. }
      rewrite Ha; simpl. eauto. }
    destruct (omap_ok f (sys_expressions s)) as [m Hm].
    { intros e He. destruct (Hf e He) as (r & Hr & _). eauto. }
    exists m. split; auto. split; [eapply omap_length; eauto|].
    intros r Hr. destruct (omap_in _ _ _ _ Hm Hr) as (e & He & Hfe).
    destruct (Hf e He) as (r' & Hr' & Hl). congruence.
  Qed.

  Lemma find_overconstraints_ok s sk : models s sk ->
    exists hs, find_overconstraints s = Done hs /\ incl hs (constraint_handles sk).
  Proof.
    intros M. unfold find_overconstraints.
    destruct (analysis_jacobian_ok _ _ M) as (m & Hm & Hlm & Hr). rewrite Hm; simpl.
    destruct (gauss_jordan_ok _ _ Hr) as (flags & m' & cols & Hg & Hlf).
    rewrite Hg; simpl.
    match goal with |- context [omap ?g ?l] => set (f := g); set (l0 := l) end.
    assert (Hf : forall i, In i l0 -> exists c, f i = Done c /\ In c (constraint_handles sk)).
    { intros i Hi. unfold l0 in Hi. apply filter_In in Hi. destruct Hi as [Hi _].
      apply in_seq in Hi. assert (Hlt : i < length (sys_expressions s)) by lia.
      destruct (nth_error_ex _ _ Hlt) as [e He].
      destruct (m_expr _ _ M _ _ He) as (j & r & idx & es & k & Q1 & Q2 & Q3 & Q4 & ->).
      destruct (m_rel _ _ M _ _ Q1) as (idx' & es' & R1 & R2 & R3).
      assert (idx' = idx) by congruence. assert (es' = es) by congruence. subst.
      destruct (R3 _ _ Q4) as [_ R4]. unfold f.
      rewrite (proj2 (oget_done _ _ _) R4); simpl. rewrite (proj2 (oget_done _ _ _) Q2); simpl.
      eexists; split; [reflexivity|]. rewrite <- (constraint_handles_eq _ _ M).
      unfold get_constraint_handles. apply in_map_iff.
      exists (j, EncodedConstraint (relation_tag r) idx). split; auto.
      apply nth_error_In with (n := j). rewrite nth_error_combine, nth_error_seq.
      pose proof (nth_error_lt _ _ _ Q2) as L.
      destruct (Nat.ltb_spec j (length (sys_constraints s))); [|lia]. now rewrite Q2. }
    destruct (omap_ok f l0) as [hs Hhs].
    { intros i Hi. destruct (Hf i Hi) as (c & Hc & _); eauto. }
    exists hs. split; auto. intros h Hh. destruct (omap_in _ _ _ _ Hhs Hh) as (i & Hi & E).
    destruct (Hf i Hi) as (c & Hc & Hin). congruence.
  Qed.
End Analyze.
