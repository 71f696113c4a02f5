(** The Levenberg-Marquardt optimizer: proofs for C23. *)
From Coq Require Import List Arith ZArith Lia Bool Floats.SpecFloat Reals Lra.
From Verif Require Import Num NumR Outcome Lib ModelExpr ModelSolve ModelLm Spec_Solver Spec_Descent Proofs_Real.
Import ListNotations.
Local Open Scope nat_scope.

Section Laws.
  Lemma orderly_R : orderly R.
  Proof.
    split.
    - intros a. cbn. ring.
    - intros a b c. change (Rltb a b = true -> Rltb b c = true -> Rltb a c = true).
      intros H1 H2. destruct (Rltb_spec a b), (Rltb_spec b c), (Rltb_spec a c); auto; try discriminate. lra.
    - intros a. change (Rltb a a = false). destruct (Rltb_spec a a); auto. lra.
  Qed.

  (** Position of a float in the order *)
  Definition key (x : f64) : option (Z * Z * Z) :=
    match x with
    | S754_nan => None
    | S754_zero _ => Some (0, 0, 0)
    | S754_infinity false => Some (2, 0, 0)
    | S754_infinity true => Some (-2, 0, 0)
    | S754_finite false m e => Some (1, e, Zpos m)
    | S754_finite true m e => Some (-1, - e, Zneg m)
    end%Z.
  Definition keylt (a b : Z * Z * Z) : Prop :=
    let '(a1, a2, a3) := a in let '(b1, b2, b3) := b in
    (a1 < b1 \/ a1 = b1 /\ (a2 < b2 \/ a2 = b2 /\ a3 < b3))%Z.
  Lemma ltb_key x y : SFltb x y = true <-> exists a b, key x = Some a /\ key y = Some b /\ keylt a b.
  Proof.
    unfold SFltb. destruct x as [s|s| |s m e], y as [t|t| |t n f]; try destruct s; try destruct t; simpl;
      split; intros H; try discriminate; try reflexivity;
      try (eexists; eexists; split; [reflexivity|split; [reflexivity|simpl; lia]]);
      try (destruct H as (a & b & Ha & Hb & H); inversion Ha; inversion Hb; subst; simpl in H; lia);
      try (destruct H as (a & b & Ha & Hb & H); discriminate).
    - eexists; eexists; split; [reflexivity|split; [reflexivity|simpl]].
      destruct (Z.compare_spec e f); try discriminate; [|lia].
      change (Pos.compare_cont Eq m n) with (Pos.compare m n) in H. destruct (Pos.compare_spec m n); try discriminate. lia.
    - destruct H as (a & b & Ha & Hb & H); inversion Ha; inversion Hb; subst; simpl in H.
      destruct (Z.compare_spec e f); try reflexivity; try lia.
      change (Pos.compare_cont Eq m n) with (Pos.compare m n). destruct (Pos.compare_spec m n); try reflexivity; lia.
    - eexists; eexists; split; [reflexivity|split; [reflexivity|simpl]].
      destruct (Z.compare_spec e f); try discriminate; [|lia].
      change (Pos.compare_cont Eq m n) with (Pos.compare m n) in H. destruct (Pos.compare_spec m n); try discriminate. lia.
    - destruct H as (a & b & Ha & Hb & H); inversion Ha; inversion Hb; subst; simpl in H.
      destruct (Z.compare_spec e f); try reflexivity; try lia.
      change (Pos.compare_cont Eq m n) with (Pos.compare m n). destruct (Pos.compare_spec m n); try reflexivity; lia.
  Qed.
  Lemma keylt_trans a b c : keylt a b -> keylt b c -> keylt a c.
  Proof. destruct a as [[? ?] ?], b as [[? ?] ?], c as [[? ?] ?]. simpl. lia. Qed.
  Lemma orderly_f64 : orderly f64.
  Proof.
    split.
    - intros a. change (SFmul f64_prec f64_emax (SFopp a) (SFopp a) = SFmul f64_prec f64_emax a a).
      destruct a as [s|s| |s m e]; try destruct s; reflexivity.
    - intros a b c. change (SFltb a b = true -> SFltb b c = true -> SFltb a c = true). rewrite !ltb_key.
      intros (x & y & Hx & Hy & H1) (y' & z & Hy' & Hz & H2). rewrite Hy in Hy'. inversion Hy'; subst y'.
      exists x, z. split; [auto|]. split; [auto|]. eapply keylt_trans; eauto.
    - intros a. change (SFltb a a = false). destruct (SFltb a a) eqn:E; auto. apply ltb_key in E.
      destruct E as (x & y & Hx & Hy & H). rewrite Hx in Hy. inversion Hy; subst. destruct y as [[? ?] ?]. simpl in H. lia.
  Qed.
End Laws.

Section Lm.
  Context {F : Type} {NF : Num F} (OF : orderly F).
  Context {S : Type} (solver : damped_solver F S) (p : problem F) (Cp : consistent p).

  Lemma norm_neg rs : norm_squared (map nneg rs) = norm_squared rs.
  Proof.
    unfold norm_squared. generalize (@nzero F NF). induction rs as [|r rs IH]; intros a; simpl; auto.
    rewrite (or_neg OF). apply IH.
  Qed.
  Lemma objective_norm x rs : calculate_residuals p x = Done rs -> objective p x = Some (norm_squared rs).
  Proof. intros H. unfold objective. now rewrite H. Qed.
  Lemma evaluate_objective x rs ts : lm_evaluate p x = Done (rs, ts) -> objective p x = Some (norm_squared rs).
  Proof.
    unfold lm_evaluate. intros H. apply obind_done in H. destruct H as ([rs' ts'] & H & E). inversion E; subst.
    rewrite norm_neg. apply objective_norm. eapply Cp; eauto.
  Qed.

  (** [lm_ssr] is the objective at [lm_variables] *)
  Definition good (st : lm_state F) : Prop := objective p (lm_variables st) = Some (lm_ssr st).
  Definition verdict_good (st : lm_state F) (v : lm_verdict F) : Prop :=
    match v with
    | LmRetry _ | LmStall => True
    | LmConverged x => better p x (lm_variables st)
    | LmAccepted st' => good st' /\ better p (lm_variables st') (lm_variables st)
    end.
  Lemma try_good sym st v : good st -> lm_try solver p sym st = Done v -> verdict_good st v.
  Proof.
    intros G H. unfold lm_try in H. apply obind_done in H. destruct H as (solved & _ & H).
    destruct solved as [b|]; [|inversion H; exact Logic.I].
    destruct (nltb (norm_squared (firstn (num_variables p) b)) (tenm 12)); [inversion H; exact Logic.I|].
    set (x := map (fun '(v, d) => nadd v d) (combine (lm_variables st) (firstn (num_variables p) b))) in *.
    apply obind_done in H. destruct H as (rs & Hr & H). cbv zeta in H.
    destruct (nltb (norm_squared rs) (lm_ssr st)) eqn:E; [|inversion H; exact Logic.I].
    assert (B : better p x (lm_variables st)).
    { exists (norm_squared rs), (lm_ssr st). split; [now apply objective_norm|]. split; [exact G|exact E]. }
    destruct (nleb (ndiv (nsub (lm_ssr st) (norm_squared rs)) (lm_ssr st)) (tenm 6)).
    - inversion H; subst. exact B.
    - apply obind_done in H. destruct H as ([rs' ts] & He & H). inversion H; subst. simpl. split; [|exact B].
      unfold good. simpl. now apply objective_norm.
  Qed.
  Lemma inner_good fuel sym st v : good st -> lm_inner solver p fuel sym st = Done v -> verdict_good st v.
  Proof.
    revert st. induction fuel as [|fuel IH]; intros st G H; simpl in H; [discriminate|].
    apply obind_done in H. destruct H as (w & Hw & H). destruct w as [l| | |].
    - assert (V : verdict_good (with_lambda l st) v) by (apply IH; auto). exact V.
    - inversion H; subst. exact Logic.I.
    - inversion H; subst. exact (try_good _ _ _ G Hw).
    - inversion H; subst. exact (try_good _ _ _ G Hw).
  Qed.
  Lemma outer_good fuel k sym st trace trace' : good st -> hd_error trace = Some (lm_variables st) ->
    descends p trace -> lm_outer solver p fuel k sym st trace = Done trace' ->
    descends p trace' /\ length trace' <= length trace + k /\ exists new, trace' = new ++ trace.
  Proof.
    revert st trace. induction k as [|k IH]; intros st trace G Hd D H; simpl in H.
    - inversion H; subst. split; [auto|]. split; [lia|]. now exists [].
    - destruct (nltb (lm_ssr st) (tenm 8)).
      { inversion H; subst. split; [auto|]. split; [lia|]. now exists []. }
      apply obind_done in H. destruct H as (v & Hv & H). apply inner_good in Hv; auto.
      destruct trace as [|t trace]; [discriminate|]. simpl in Hd. inversion Hd; subst t; clear Hd.
      destruct v as [l| |x|st']; simpl in Hv.
      + discriminate.
      + inversion H; subst. split; [auto|]. split; [lia|]. now exists [].
      + inversion H; subst. split; [exact (conj Hv D)|]. split; [simpl; lia|]. now exists [x].
      + destruct Hv as [G' B]. apply IH in H; auto.
        * destruct H as (D' & L & new & ->). split; [auto|]. split; [simpl in *; lia|].
          exists (new ++ [lm_variables st']). now rewrite <- app_assoc.
        * exact (conj B D).
  Qed.
  Theorem lm_descends fuel x trace : lm_trace solver p fuel x = Done trace ->
    descends p trace /\ length trace <= 101 /\ last trace [] = x.
  Proof.
    unfold lm_trace. intros H. apply obind_done in H. destruct H as ([rs ts] & He & H).
    apply obind_done in H. destruct H as (sym & _ & H).
    apply outer_good in H; simpl; auto.
    - destruct H as (D & L & new & ->). split; [auto|]. split; [simpl in L; lia|]. apply last_last.
    - unfold good. simpl. eapply evaluate_objective; eauto.
  Qed.
  Lemma descends_hd trace x : descends p trace -> last trace [] = x -> hd x trace = x \/ better p (hd x trace) x.
  Proof.
    intros D L. destruct trace as [|y trace]; simpl; auto. revert y D L.
    induction trace as [|z trace IH]; intros y D L; simpl in L; [auto|].
    destruct D as [B D]. right. destruct (IH z D L) as [E|B'].
    - now rewrite E in B.
    - destruct B as (a & b & Ha & Hb & H1), B' as (b' & c & Hb' & Hc & H2).
      rewrite Hb in Hb'. inversion Hb'; subst b'. exists a, c. split; [auto|]. split; [auto|].
      eapply (or_trans OF); eauto.
  Qed.
  Theorem lm_better fuel x y : levenberg_marquardt solver p fuel x = Done y -> y = x \/ better p y x.
  Proof.
    unfold levenberg_marquardt. intros H. apply obind_done in H. destruct H as (trace & Ht & H).
    inversion H; subst. apply lm_descends in Ht. destruct Ht as (D & _ & L). now apply descends_hd.
  Qed.
  Theorem lm_solved fuel x a y : objective p x = Some a -> nltb a (tenm 8) = true ->
    levenberg_marquardt solver p fuel x = Done y -> y = x.
  Proof.
    unfold levenberg_marquardt, lm_trace. intros Ha Hl H. apply obind_done in H. destruct H as (trace & Ht & H).
    apply obind_done in Ht. destruct Ht as ([rs ts] & He & Ht).
    apply obind_done in Ht. destruct Ht as (sym & _ & Ht). simpl in Ht.
    apply evaluate_objective in He. rewrite Ha in He. inversion He; subst. rewrite Hl in Ht. inversion Ht; subst.
    now inversion H.
  Qed.
End Lm.

(** The problems the program builds are consistent. *)
Lemma subsystem_consistent {F} {NF : Num F} (ss : subsystem F) : consistent (subsystem_problem ss).
Proof.
  intros x rs ts H. simpl in *. unfold ss_sparse in H. unfold ss_residuals.
  apply obind_done in H. destruct H as (rows & H & E). inversion E; subst; clear E.
  assert (Q : forall ids k, length ids = length ids -> forall rows,
    omap (fun '(row, id) => let! e := oget (ss_all_expressions ss) id in
        let! xs := gather (ss_map ss x) e in
        let '(r, g) := compute_rg e (buffer xs) in Done (r, sparse_row row xs g)) (combine (seq k (length ids)) ids) = Done rows ->
    omap (fun id => let! e := oget (ss_all_expressions ss) id in calculate_residual (ss_map ss x) e) ids = Done (map fst rows)).
  { clear. induction ids as [|id ids IH]; intros k _ rows H; cbn [length seq combine omap] in H.
    - inversion H. reflexivity.
    - apply obind_done in H. destruct H as (b & Hb & H). apply obind_done in H. destruct H as (bs & Hbs & H).
      inversion H; subst. apply obind_done in Hb. destruct Hb as (e & He & Hb).
      apply obind_done in Hb. destruct Hb as (xs & Hxs & Hb).
      cbn [omap]. rewrite (IH (S k) eq_refl bs Hbs), He. cbn [obind]. unfold calculate_residual. rewrite Hxs. cbn [obind].
      destruct (compute_rg e (buffer xs)) as [r g] eqn:Erg. inversion Hb; subst. reflexivity. }
  apply (Q _ 0 eq_refl _ H).
Qed.
