(** The sparse Jacobian is the derivative of the residuals; the dense one is
    when no variable occurs twice in an expression. *)
From Coq Require Import List Reals Lra Bool Arith Lia.
From Coquelicot Require Import Coquelicot.
From Verif Require Import Num NumR Outcome Lib ModelExpr ModelGraph ModelSystem ModelMatching ModelSolve
  ModelNumerical ModelApi Spec_History Demo DemoR Spec_Geometry Spec_Jacobian Proofs_Real Proofs_Geometry Proofs_Derive Proofs_Motion.
Import ListNotations.
Local Open Scope R_scope.

(** Slots whose variable is free variable [j] get the value [x] *)
Definition upd (j : nat) (x : R) (y : variable R) : variable R :=
  match y with Free v k => if Nat.eqb k j then Free x k else Free v k | Fixed v => Fixed v end.
Definition is_var (j : nat) (y : variable R) : bool :=
  match y with Free _ k => Nat.eqb k j | Fixed _ => false end.
Fixpoint slot_sum (j : nat) (ys : list (variable R)) (g : list R) : R :=
  match ys, g with
  | y :: ys', d :: g' => (if is_var j y then d else 0) + slot_sum j ys' g'
  | _, _ => 0
  end.

Lemma rate_slots j ys : forall g k w,
  (forall i, w (k + i)%nat = match nth_error ys i with Some y => if is_var j y then 1 else 0 | None => 0 end) ->
  rate_from k g w = slot_sum j ys g.
Proof.
  induction ys as [|y ys IH]; intros g k w H.
  - destruct g as [|d g]; [reflexivity|]. simpl slot_sum.
    assert (Z : forall g k w, (forall i, w (k + i)%nat = 0) -> rate_from k g w = 0).
    { clear. induction g as [|d g IH]; intros k w H; simpl; auto.
      rewrite (IH (S k) w) by (intros i; rewrite <- (H (S i)); f_equal; lia).
      replace (w k) with 0 by (rewrite <- (H 0%nat); f_equal; lia). ring. }
    apply Z. intros i. rewrite H. now destruct i.
  - destruct g as [|d g]; [reflexivity|]. simpl.
    rewrite (IH g (S k) w).
    + pose proof (H 0%nat) as H0. rewrite Nat.add_0_r in H0. rewrite H0. simpl. destruct (is_var j y); ring.
    + intros i. specialize (H (S i)). rewrite <- plus_n_Sm in H. simpl. exact H.
Qed.

Lemma row_derivative e ys j t :
  (forall v, In (Free v j) ys -> v = t) -> nondegenerate e (buffer ys) ->
  derivable_pt_lim (fun x => fst (compute_rg e (buffer (map (upd j x) ys)))) t
    (slot_sum j ys (snd (compute_rg e (buffer ys)))).
Proof.
  intros Hv Hn.
  set (p := fun i x => buffer (map (upd j x) ys) i).
  set (w := fun i => match nth_error ys i with Some y => if is_var j y then 1 else 0 | None => 0 end).
  assert (Pt : forall i, p i t = buffer ys i).
  { intros i. unfold p, buffer. f_equal. rewrite map_map. apply map_ext_in. intros y Hy.
    destruct y as [v k|v]; simpl; auto. destruct (Nat.eqb_spec k j); simpl; auto. subst. symmetry. now apply Hv. }
  assert (Dp : forall i, is_derive (p i) t (w i)).
  { intros i. unfold p, w, buffer. destruct (nth_error ys i) as [y|] eqn:E.
    - apply is_derive_ext with (fun x => variable_value (upd j x y)).
      + intros x. symmetry. apply nth_error_nth. now rewrite !nth_error_map, E.
      + destruct y as [v k|v]; simpl; [destruct (Nat.eqb k j); simpl|]; [apply D_id|apply D_const|apply D_const].
    - apply is_derive_ext with (fun _ => 0); [|apply D_const].
      intros x. symmetry. apply nth_overflow. rewrite !map_length. now apply nth_error_None. }
  assert (Hn' : nondegenerate e (fun i => p i t)).
  { unfold nondegenerate, slot_point in *. destruct e; cbv zeta in *; rewrite ?Pt; exact Hn. }
  pose proof (path_derivative e p w t Dp Hn') as D.
  rewrite (compute_ext e (fun i => p i t) (buffer ys) Pt) in D.
  unfold rate in D. rewrite (rate_slots j ys) in D by reflexivity.
  now apply is_derive_Reals.
Qed.

(** Changing one value of the list of free values *)
Definition replaceable (vm : list R -> variable_map R) : Prop :=
  forall xs j x i y, vm xs i = Done y ->
    vm (lset xs j x) i = Done (upd j x y) /\
    (forall v, y = Free v j -> nth_error xs j = Some v).

Lemma identity_replaceable : replaceable identity_map.
Proof.
  intros xs j x i y. unfold identity_map, oget. destruct (nth_error xs i) as [v|] eqn:E; [|discriminate].
  simpl. intros H. injection H as <-. rewrite nth_error_lset.
  assert (i < length xs)%nat by (apply nth_error_Some; congruence).
  split.
  - unfold upd. destruct (Nat.eqb_spec j i) as [<-|N].
    + rewrite Nat.eqb_refl. destruct (Nat.ltb_spec j (length xs)); [reflexivity|lia].
    + rewrite E. simpl. destruct (Nat.eqb_spec i j); [congruence|auto].
  - intros v' H'. injection H' as -> ->. auto.
Qed.
Lemma index_set_replaceable free vs : replaceable (index_set_map free vs).
Proof.
  intros xs j x i y. unfold index_set_map. destruct (index_of free i) as [k|] eqn:Ei.
  - unfold oget. destruct (nth_error xs k) as [v|] eqn:E; [|discriminate].
    simpl. intros H. injection H as <-. rewrite nth_error_lset.
    assert (k < length xs)%nat by (apply nth_error_Some; congruence).
    split.
    + unfold upd. destruct (Nat.eqb_spec j k) as [<-|N].
      * rewrite Nat.eqb_refl. destruct (Nat.ltb_spec j (length xs)); [reflexivity|lia].
      * rewrite E. simpl. destruct (Nat.eqb_spec k j); [congruence|auto].
    + intros v' H'. injection H' as -> ->. auto.
  - destruct (oget vs i) as [v| |]; try discriminate. simpl. intros H. injection H as <-. split; [auto|].
    intros; discriminate.
Qed.

Lemma gather_lset vm xs j x e ys : replaceable vm -> gather (vm xs) e = Done ys ->
  gather (vm (lset xs j x)) e = Done (map (upd j x) ys) /\
  (forall v, In (Free v j) ys -> nth_error xs j = Some v).
Proof.
  intros R. unfold gather. revert ys. induction (variable_indices e) as [|i l IH]; simpl; intros ys H.
  - injection H as <-. split; [auto|]. intros v [].
  - destruct (vm xs i) as [y| |] eqn:E; try discriminate. simpl in H.
    destruct (omap (vm xs) l) as [ys'| |] eqn:E'; try discriminate. simpl in H. injection H as <-.
    destruct (R xs j x i y E) as [R1 R2]. destruct (IH _ eq_refl) as [I1 I2].
    rewrite R1. simpl. rewrite I1. split; [auto|]. intros v [H|H]; auto.
Qed.

Lemma calculate_residual_lset vm xs j x e ys : replaceable vm -> gather (vm xs) e = Done ys ->
  calculate_residual (vm (lset xs j x)) e = Done (fst (compute_rg e (buffer (map (upd j x) ys)))).
Proof. intros R H. unfold calculate_residual. now rewrite (proj1 (gather_lset _ _ j x _ _ R H)). Qed.

Lemma residuals_partial vm es xs i e ys j : replaceable vm ->
  nth_error es i = Some e -> gather (vm xs) e = Done ys -> nondegenerate e (buffer ys) ->
  (forall e, In e es -> exists ys, gather (vm xs) e = Done ys) ->
  partial_derivative (fun xs => omap (calculate_residual (vm xs)) es) xs i j
    (slot_sum j ys (snd (compute_rg e (buffer ys)))).
Proof.
  intros R Ei Hg Hn Hall. unfold partial_derivative.
  assert (Hres : forall x, residual_at (fun xs => omap (calculate_residual (vm xs)) es) (lset xs j x) i =
    fst (compute_rg e (buffer (map (upd j x) ys)))).
  { intros x. unfold residual_at.
    destruct (omap_ok (calculate_residual (vm (lset xs j x))) es) as [rs Hrs].
    { intros e' He'. destruct (Hall e' He') as [ys' Hy]. eexists. eapply calculate_residual_lset; eauto. }
    rewrite Hrs. destruct (omap_nth' _ _ _ Hrs i e Ei) as (r & R2 & R1).
    rewrite (calculate_residual_lset vm xs j x e ys R Hg) in R1. injection R1 as <-.
    now apply nth_error_nth. }
  assert (Hv : forall v, In (Free v j) ys -> v = nth j xs 0).
  { intros v H. symmetry. apply nth_error_nth. exact (proj2 (gather_lset _ _ j 0 _ _ R Hg) v H). }
  pose proof (row_derivative e ys j (nth j xs 0) Hv Hn) as D.
  apply is_derive_Reals. apply is_derive_Reals in D.
  eapply is_derive_ext; [|exact D]. intros x. now rewrite Hres.
Qed.

(** ** The sparse Jacobian *)
Lemma entry_app ts us i j : entry (ts ++ us) i j = entry ts i j + entry us i j.
Proof. induction ts as [|[[r c] d] ts IH]; simpl; [ring|]. rewrite IH. ring. Qed.
Lemma entry_row row ys g i j : entry (sparse_row row ys g) i j = if Nat.eqb row i then slot_sum j ys g else 0.
Proof.
  unfold sparse_row. revert g. induction ys as [|y ys IH]; intros g; simpl.
  - now destruct (Nat.eqb row i).
  - destruct g as [|d g]; simpl; [now destruct (Nat.eqb row i)|].
    rewrite entry_app, IH. destruct y as [v k|v]; simpl; destruct (Nat.eqb row i); simpl; try ring;
      destruct (Nat.eqb k j); ring.
Qed.

Theorem sparse_jacobian (ss : subsystem R) xs rs ts :
  ss_sparse ss xs = Done (rs, ts) ->
  forall i id e, nth_error (ss_expressions ss) i = Some id -> nth_error (ss_all_expressions ss) id = Some e ->
  regular (ss_map ss xs) e ->
  forall j, partial_derivative (ss_residuals ss) xs i j (entry ts i j).
Proof.
  intros H i id e Hid He (ys & Hg & Hn) j. unfold ss_sparse in H.
  apply obind_done in H. destruct H as (rows & Hrows & H). injection H as <- <-.
  (* expressions of the subsystem *)
  assert (Hes : exists es, omap (oget (ss_all_expressions ss)) (ss_expressions ss) = Done es).
  { apply omap_ok. intros id' Hin. apply In_nth_error in Hin. destruct Hin as [n Hn'].
    assert (C : nth_error (combine (seq 0 (length (ss_expressions ss))) (ss_expressions ss)) n = Some (n, id')).
    { rewrite nth_error_combine, nth_error_seq, Hn'. apply nth_error_lt in Hn'. 
      destruct (Nat.ltb_spec n (length (ss_expressions ss))); [reflexivity|lia]. }
    destruct (omap_nth' _ _ _ Hrows _ _ C) as (b & _ & B1).
    apply obind_done in B1. destruct B1 as (e' & B1 & _). eauto. }
  destruct Hes as [es Hes].
  assert (Rext : forall xs, ss_residuals ss xs = omap (calculate_residual (ss_map ss xs)) es).
  { intros xs'. unfold ss_residuals. clear - Hes. revert es Hes.
    induction (ss_expressions ss) as [|a l IH]; simpl; intros es Hes.
    - injection Hes as <-. reflexivity.
    - apply obind_done in Hes. destruct Hes as (b & B1 & Hes). apply obind_done in Hes.
      destruct Hes as (bs & B2 & Hes). injection Hes as <-. rewrite B1. simpl. now rewrite (IH _ B2). }
  assert (Hei : nth_error es i = Some e).
  { destruct (omap_nth' _ _ _ Hes _ _ Hid) as (b & B2 & B1). apply oget_done in B1. congruence. }
  assert (Hall : forall e', In e' es -> exists ys, gather (ss_map ss xs) e' = Done ys).
  { intros e' Hin. apply In_nth_error in Hin. destruct Hin as [n Hn'].
    destruct (omap_nth _ _ _ Hes _ _ Hn') as (id' & I1 & I2).
    assert (C : nth_error (combine (seq 0 (length (ss_expressions ss))) (ss_expressions ss)) n = Some (n, id')).
    { rewrite nth_error_combine, nth_error_seq, I1. apply nth_error_lt in I1. 
      destruct (Nat.ltb_spec n (length (ss_expressions ss))); [reflexivity|lia]. }
    destruct (omap_nth' _ _ _ Hrows _ _ C) as (b & _ & B1).
    rewrite I2 in B1. simpl in B1. apply obind_done in B1. destruct B1 as (ys' & B1 & _). eauto. }
  assert (Pd : partial_derivative (ss_residuals ss) xs i j (slot_sum j ys (snd (compute_rg e (buffer ys))))).
  { pose proof (residuals_partial (ss_map ss) es xs i e ys j (index_set_replaceable _ _) Hei Hg Hn Hall) as P.
    unfold partial_derivative, residual_at in *. apply is_derive_Reals. apply is_derive_Reals in P.
    eapply is_derive_ext; [|exact P]. intros x. simpl. now rewrite Rext. }
  replace (entry (concat (map snd rows)) i j) with (slot_sum j ys (snd (compute_rg e (buffer ys)))); [exact Pd|].
  (* only row i contributes *)
  assert (Row : forall n b, nth_error rows n = Some b -> exists id' e' ys', nth_error (ss_expressions ss) n = Some id' /\
     nth_error (ss_all_expressions ss) id' = Some e' /\ gather (ss_map ss xs) e' = Done ys' /\
     snd b = sparse_row n ys' (snd (compute_rg e' (buffer ys')))).
  { intros n b Hb. destruct (omap_nth _ _ _ Hrows _ _ Hb) as ([r id'] & I1 & I2).
    rewrite nth_error_combine, nth_error_seq in I1.
    destruct (Nat.ltb n (length (ss_expressions ss))); [|discriminate].
    destruct (nth_error (ss_expressions ss) n) as [id''|] eqn:E; [|discriminate]. injection I1 as <- <-.
    apply obind_done in I2. destruct I2 as (e' & B1 & I2). apply obind_done in I2. destruct I2 as (ys' & B2 & I2).
    destruct (compute_rg e' (buffer ys')) as [r g] eqn:Ec. injection I2 as <-.
    exists id'', e', ys'. apply oget_done in B1. rewrite Ec. auto. }
  assert (Len : length rows = length (ss_expressions ss)).
  { apply omap_length in Hrows. rewrite Hrows, combine_length, seq_length. lia. }
  clear Hrows Hall Hes Rext Pd.
  assert (G : forall k (rs' : list (R * list (nat * nat * R))), (forall n b, nth_error rs' n = Some b -> exists id' e' ys', nth_error (ss_expressions ss) (k + n) = Some id' /\
     nth_error (ss_all_expressions ss) id' = Some e' /\ gather (ss_map ss xs) e' = Done ys' /\
     snd b = sparse_row (k + n) ys' (snd (compute_rg e' (buffer ys')))) ->
     entry (concat (map snd rs')) i j = if (Nat.leb k i && Nat.ltb i (k + length rs'))%bool then slot_sum j ys (snd (compute_rg e (buffer ys))) else 0).
  { intros k rs'. revert k. induction rs' as [|b rs' IH]; intros k Hr; simpl.
    - destruct (Nat.leb_spec k i); simpl; auto. destruct (Nat.ltb_spec i (k + 0)); auto. lia.
    - rewrite entry_app. rewrite (IH (S k)).
      2:{ intros n b' Hb'. specialize (Hr (S n) b' Hb'). replace (S k + n)%nat with (k + S n)%nat by lia. exact Hr. }
      destruct (Hr 0%nat b eq_refl) as (id' & e' & ys' & R1 & R2 & R3 & ->).
      rewrite Nat.add_0_r in *. rewrite entry_row.
      destruct (Nat.eqb_spec k i) as [->|Ne].
      + assert (id' = id) by congruence. subst id'. assert (e' = e) by congruence. subst e'.
        assert (ys' = ys) by congruence. subst ys'.
        destruct (Nat.leb_spec (S i) i); [lia|]. destruct (Nat.leb_spec i i); [|lia]. simpl.
        destruct (Nat.ltb_spec i (i + S (length rs'))); [ring|lia].
      + destruct (Nat.leb_spec (S k) i), (Nat.leb_spec k i); simpl; try lia; try ring.
        destruct (Nat.ltb_spec i (S (k + length rs'))), (Nat.ltb_spec i (k + S (length rs'))); try lia; ring. }
  rewrite (G 0%nat rows Row). simpl. apply nth_error_lt in Hid.
  destruct (Nat.ltb_spec i (length rows)); [auto|lia].
Qed.

(** ** The dense Jacobian *)
Definition vars_of (ys : list (variable R)) : list nat :=
  flat_map (fun y => match y with Free _ k => [k] | Fixed _ => [] end) ys.

Lemma slot_sum_absent j ys g : ~ In j (vars_of ys) -> slot_sum j ys g = 0.
Proof.
  revert g. induction ys as [|y ys IH]; intros g H; [reflexivity|]. destruct g as [|d g]; [reflexivity|].
  simpl in *. rewrite IH by (intros C; apply H; apply in_or_app; auto).
  destruct y as [v k|v]; simpl in *; [|ring]. destruct (Nat.eqb_spec k j) as [->|]; [|ring]. exfalso. auto.
Qed.

Lemma nth_lset_ne (row : list R) k j d : k <> j -> nth j (lset row k d) 0 = nth j row 0.
Proof.
  intros Ne. destruct (nth_error (lset row k d) j) eqn:E1.
  - pose proof E1 as E2. rewrite nth_error_lset_ne in E2 by auto.
    now rewrite (nth_error_nth _ _ 0 E1), (nth_error_nth _ _ 0 E2).
  - pose proof E1 as E2. rewrite nth_error_lset_ne in E2 by auto.
    apply nth_error_None in E1, E2. now rewrite !nth_overflow by auto.
Qed.

Lemma assign_slots ys : forall g row row', NoDup (vars_of ys) -> length g = length ys ->
  assign_gradient ys g row = Done row' ->
  length row' = length row /\
  (forall j, In j (vars_of ys) -> nth j row' 0 = slot_sum j ys g) /\
  (forall j, ~ In j (vars_of ys) -> nth j row' 0 = nth j row 0).
Proof.
  unfold assign_gradient. induction ys as [|y ys IH]; intros g row row' Nd Hl H.
  - simpl in H. injection H as <-. split; [auto|]. split; [intros j []|auto].
  - destruct g as [|d g]; [discriminate|]. simpl in H, Hl.
    destruct y as [v k|v]; simpl in *.
    + apply obind_done in H. destruct H as (r1 & H1 & H2). apply oset_done in H1. destruct H1 as [L1 ->].
      inversion Nd as [|k' l' Nk Nd' E]; subst k' l'.
      destruct (IH g _ _ Nd' (eq_add_S _ _ Hl) H2) as (I1 & I2 & I3). rewrite lset_length in I1. split; [auto|].
      split; intros j Hj.
      * destruct (Nat.eqb_spec k j) as [->|Ne].
        -- rewrite I3 by auto. rewrite slot_sum_absent by auto.
           rewrite (nth_error_nth (lset row j d) j 0 (nth_error_lset_eq _ _ _ L1)). ring.
        -- rewrite I2 by (destruct Hj; [congruence|auto]). ring.
      * rewrite I3 by auto. apply nth_lset_ne. auto.
    + destruct (IH g _ _ Nd (eq_add_S _ _ Hl) H) as (I1 & I2 & I3). split; [auto|].
      split; [|auto]. intros j Hj. rewrite I2 by auto. ring.
Qed.

Lemma gradient_length' (e : expr R) v : length (snd (compute_rg e v)) = length (variable_indices e).
Proof.
  destruct e; try reflexivity. cbn. unfold lct_rg. destruct (_ =? _)%num; reflexivity.
Qed.

(** Variables of an expression that are different have different places in
    the list of free values *)
Definition injective_map (vm : variable_map R) : Prop :=
  forall i i' v v' k, vm i = Done (Free v k) -> vm i' = Done (Free v' k) -> i = i'.
Lemma index_of_inj l i i' k : index_of l i = Some k -> index_of l i' = Some k -> i = i'.
Proof.
  revert k. induction l as [|a l IH]; simpl; intros k H H'; [discriminate|].
  destruct (Nat.eqb_spec i a), (Nat.eqb_spec i' a); subst; auto.
  - injection H as <-. destruct (index_of l i'); discriminate.
  - injection H' as <-. destruct (index_of l i); discriminate.
  - destruct (index_of l i) as [m|], (index_of l i') as [m'|]; try discriminate.
    simpl in *. injection H as <-. injection H' as ->. now apply (IH m).
Qed.
Lemma index_set_injective free vs xs : injective_map (index_set_map free vs xs).
Proof.
  intros i i' v v' k. unfold index_set_map.
  destruct (index_of free i) as [m|] eqn:E; [|destruct (oget vs i); discriminate].
  destruct (index_of free i') as [m'|] eqn:E'; [|intros _; destruct (oget vs i'); discriminate].
  destruct (oget xs m); try discriminate. destruct (oget xs m'); try discriminate. simpl.
  intros H H'. injection H as _ ->. injection H' as _ ->. eapply index_of_inj; eauto.
Qed.
Lemma identity_injective xs : injective_map (identity_map xs).
Proof.
  intros i i' v v' k. unfold identity_map. destruct (oget xs i); try discriminate.
  destruct (oget xs i'); try discriminate. simpl. intros H H'. injection H as _ ->. injection H' as _ ->. auto.
Qed.
Lemma gather_nodup vm e ys : injective_map vm -> NoDup (variable_indices e) -> gather vm e = Done ys ->
  NoDup (vars_of ys).
Proof.
  intros Inj. unfold gather. revert ys. induction (variable_indices e) as [|i l IH]; simpl; intros ys Nd H.
  - injection H as <-. constructor.
  - apply obind_done in H. destruct H as (y & H1 & H). apply obind_done in H. destruct H as (ys' & H2 & H).
    injection H as <-. inversion Nd as [|i' l' Ni Nd' E]; subst i' l'.
    destruct y as [v k|v]; simpl; [|eauto]. constructor; [|eauto].
    intros C. apply in_flat_map in C. destruct C as (y' & C1 & C2).
    destruct y' as [v' k'|v']; simpl in C2; [|contradiction]. destruct C2 as [->|[]].
    destruct (omap_in _ _ _ _ H2 C1) as (i' & J1 & J2).
    apply Ni. rewrite (Inj i i' v v' k H1 J2). exact J1.
Qed.
Lemma gather_length {vm : variable_map R} {e ys} : gather vm e = Done ys -> length ys = length (variable_indices e).
Proof. apply omap_length. Qed.

(** A row of the dense Jacobian, for an expression in which no variable
    occurs twice, given a row that is zero at the other variables *)
Lemma dense_row vm e row r row' ys : injective_map vm -> NoDup (variable_indices e) ->
  calculate_residual_and_gradient vm e row = Done (r, row') -> gather vm e = Done ys ->
  (forall j, ~ In j (vars_of ys) -> nth j row 0 = 0) ->
  forall j, nth j row' 0 = slot_sum j ys (snd (compute_rg e (buffer ys))).
Proof.
  intros Inj Nd H Hg Hz j. unfold calculate_residual_and_gradient in H. rewrite Hg in H. simpl in H.
  destruct (compute_rg e (buffer ys)) as [r0 g] eqn:E. simpl.
  apply obind_done in H. destruct H as (row1 & H1 & H). injection H as <- <-.
  assert (L : length g = length ys).
  { pose proof (gradient_length' e (buffer ys)) as L. rewrite E in L. simpl in L. now rewrite L, (gather_length Hg). }
  destruct (assign_slots ys g row row1 (gather_nodup _ _ _ Inj Nd Hg) L H1) as (_ & I2 & I3).
  destruct (in_dec Nat.eq_dec j (vars_of ys)) as [C|C]; [auto|].
  rewrite I3, Hz by auto. symmetry. now apply slot_sum_absent.
Qed.

Theorem analysis_jacobian_correct (s : system R) J : analysis_jacobian s = Done J ->
  forall i e, nth_error (sys_expressions s) i = Some e -> NoDup (variable_indices e) ->
  regular (identity_map (sys_variables s)) e ->
  forall j, partial_derivative (fun xs => omap (calculate_residual (identity_map xs)) (sys_expressions s))
              (sys_variables s) i j (nth j (nth i J []) 0).
Proof.
  intros H i e Hi Nd (ys & Hg & Hn) j. unfold analysis_jacobian in H.
  destruct (omap_nth' _ _ _ H _ _ Hi) as (row & J1 & J2).
  apply obind_done in J2. destruct J2 as ([r g] & J2 & J3). injection J3 as ->.
  rewrite (nth_error_nth _ _ [] J1).
  rewrite (dense_row _ _ _ _ _ _ (identity_injective _) Nd J2 Hg) by
    (intros k _; destruct (Nat.lt_ge_cases k (length (repeat 0 (length (sys_variables s)))));
      [apply nth_repeat|now apply nth_overflow]).
  apply residuals_partial; auto using identity_replaceable.
  intros e' Hin. apply In_nth_error in Hin. destruct Hin as [n Hn'].
  destruct (omap_nth' _ _ _ H _ _ Hn') as (b & _ & B1). apply obind_done in B1. destruct B1 as (x & B1 & _).
  unfold calculate_residual_and_gradient in B1. apply obind_done in B1. destruct B1 as (ys' & B1 & _). eauto.
Qed.

Theorem dense_jacobian (ss : subsystem R) xs J rs J' :
  ss_dense ss xs J = Done (rs, J') -> length J = length (ss_expressions ss) ->
  forall i id e ys, nth_error (ss_expressions ss) i = Some id -> nth_error (ss_all_expressions ss) id = Some e ->
  NoDup (variable_indices e) -> gather (ss_map ss xs) e = Done ys -> nondegenerate e (buffer ys) ->
  (forall j, ~ In j (vars_of ys) -> nth j (nth i J []) 0 = 0) ->
  forall j, partial_derivative (ss_residuals ss) xs i j (nth j (nth i J' []) 0).
Proof.
  intros H HJ i id e ys Hid He Nd Hg Hn Hz j. unfold ss_dense in H.
  apply obind_done in H. destruct H as (rows & Hrows & H). injection H as <- <-.
  assert (Cn : forall n id', nth_error (ss_expressions ss) n = Some id' ->
    exists row, nth_error J n = Some row /\ nth_error (combine (ss_expressions ss) J) n = Some (id', row)).
  { intros n id' Hn'. pose proof (nth_error_lt _ _ _ Hn') as L. rewrite <- HJ in L.
    destruct (nth_error_ex _ _ L) as [row Hrow]. exists row. rewrite nth_error_combine, Hn', Hrow. auto. }
  assert (Hes : exists es, omap (oget (ss_all_expressions ss)) (ss_expressions ss) = Done es).
  { apply omap_ok. intros id' Hin. apply In_nth_error in Hin. destruct Hin as [n Hn'].
    destruct (Cn _ _ Hn') as (row & _ & C).
    destruct (omap_nth' _ _ _ Hrows _ _ C) as (b & _ & B1).
    apply obind_done in B1. destruct B1 as (e' & B1 & _). eauto. }
  destruct Hes as [es Hes].
  assert (Rext : forall xs, ss_residuals ss xs = omap (calculate_residual (ss_map ss xs)) es).
  { intros xs'. unfold ss_residuals. clear - Hes. revert es Hes.
    induction (ss_expressions ss) as [|a l IH]; simpl; intros es Hes.
    - injection Hes as <-. reflexivity.
    - apply obind_done in Hes. destruct Hes as (b & B1 & Hes). apply obind_done in Hes.
      destruct Hes as (bs & B2 & Hes). injection Hes as <-. rewrite B1. simpl. now rewrite (IH _ B2). }
  assert (Hei : nth_error es i = Some e).
  { destruct (omap_nth' _ _ _ Hes _ _ Hid) as (b & B2 & B1). apply oget_done in B1. congruence. }
  assert (Hall : forall e', In e' es -> exists ys, gather (ss_map ss xs) e' = Done ys).
  { intros e' Hin. apply In_nth_error in Hin. destruct Hin as [n Hn'].
    destruct (omap_nth _ _ _ Hes _ _ Hn') as (id' & I1 & I2).
    destruct (Cn _ _ I1) as (row & _ & C).
    destruct (omap_nth' _ _ _ Hrows _ _ C) as (b & _ & B1).
    rewrite I2 in B1. simpl in B1. unfold calculate_residual_and_gradient in B1.
    apply obind_done in B1. destruct B1 as (ys' & B1 & _). eauto. }
  destruct (Cn _ _ Hid) as (row & Hrow & C).
  destruct (omap_nth' _ _ _ Hrows _ _ C) as ([r row'] & B1 & B2).
  apply obind_done in B2. destruct B2 as (e' & B2 & B3). apply oget_done in B2.
  assert (e' = e) by congruence. subst e'.
  rewrite (nth_error_nth (map snd rows) i [] (map_nth_error snd _ _ B1)). simpl.
  rewrite (nth_error_nth J i [] Hrow) in Hz.
  rewrite (dense_row _ _ _ _ _ _ (index_set_injective _ _ _) Nd B3 Hg Hz).
  pose proof (residuals_partial (ss_map ss) es xs i e ys j (index_set_replaceable _ _) Hei Hg Hn Hall) as P.
  unfold partial_derivative, residual_at in *. apply is_derive_Reals. apply is_derive_Reals in P.
  eapply is_derive_ext; [|exact P]. intros x. simpl. now rewrite Rext.
Qed.

Theorem dense_jacobian_zeros (ss : subsystem R) xs rs J' :
  let zeros := repeat (repeat 0 (length (ss_free_variables ss))) (length (ss_expressions ss)) in
  calculate_residuals_and_jacobian (subsystem_problem ss) xs zeros = Done (rs, J') ->
  forall i id e, nth_error (ss_expressions ss) i = Some id ->
    nth_error (ss_all_expressions ss) id = Some e -> regular (ss_map ss xs) e ->
    NoDup (variable_indices e) ->
  forall j, partial_derivative (calculate_residuals (subsystem_problem ss)) xs i j
    (nth j (nth i J' []) 0).
Proof.
  intros zeros H i id e Hid He (ys & Hg & Hn) Nd j.
  eapply (dense_jacobian ss xs zeros rs J' H) with (ys := ys); eauto.
  - unfold zeros. apply repeat_length.
  - intros k _. unfold zeros.
    assert (Z : forall n m a, nth m (nth a (repeat (repeat 0 n) (length (ss_expressions ss))) []) 0 = 0).
    { intros n m a. destruct (nth_in_or_default a (repeat (repeat 0 n) (length (ss_expressions ss))) []) as [I| ->];
        [apply repeat_spec in I; rewrite I; apply nth_repeat|now destruct m]. }
    apply Z.
Qed.

Lemma partial_unique f xs i j d d' : partial_derivative f xs i j d -> partial_derivative f xs i j d' -> d = d'.
Proof. unfold partial_derivative. intros. eapply uniqueness_limite; eauto. Qed.

Lemma dense_refuted : exists id (l : log R) s J i e j,
  history rdemo_env id l s /\ analysis_jacobian s = Done J /\
  nth_error (sys_expressions s) i = Some e /\ regular (identity_map (sys_variables s)) e /\
  ~ partial_derivative (fun xs => omap (calculate_residual (identity_map xs)) (sys_expressions s))
      (sys_variables s) i j (nth j (nth i J []) 0).
Proof.
  exists 7%N, rdemo_log, rdemo_state.
  assert (Vs : sys_variables rdemo_state = [0; 0; 1; 0; 2; 1]) by (vm_compute; reflexivity).
  assert (Es : sys_expressions rdemo_state = [LineLinePerpendicularity 0 2 2 4; PointLineDistance 4 0 2 1; LineLineAngle 0 2 2 4 5])
    by (vm_compute; reflexivity).
  unfold analysis_jacobian. rewrite Vs, Es.
  assert (J : exists g1 g2, omap (fun e =>
      let! (_, g) := calculate_residual_and_gradient (identity_map [0; 0; 1; 0; 2; 1]) e (repeat nzero (length [0; 0; 1; 0; 2; 1])) in
      Done g) [LineLinePerpendicularity 0 2 2 4; PointLineDistance 4 0 2 1; LineLineAngle 0 2 2 4 5] =
      Done [[- (2 - 1); - (1 - 0); - (1 - 0); - (0 - 0); 1 - 0; 0 - 0]; g1; g2]).
  { eexists. eexists. cbn. reflexivity. }
  destruct J as (g1 & g2 & J). eexists. exists 0%nat, (LineLinePerpendicularity 0 2 2 4), 2%nat.
  split; [exact rdemo_history|]. split; [exact J|]. clear J Vs Es.
  split; [reflexivity|]. split; [eexists; split; [reflexivity|exact Logic.I]|].
  cbn [nth]. intros P.
  assert (All : forall e, In e [LineLinePerpendicularity 0 2 2 4; PointLineDistance 4 0 2 1; LineLineAngle 0 2 2 4 5] ->
    exists ys, gather (identity_map [0; 0; 1; 0; 2; 1]) e = Done ys).
  { intros e [<-|[<-|[<-|[]]]]; eexists; reflexivity. }
  pose proof (residuals_partial identity_map
     [LineLinePerpendicularity 0 2 2 4; PointLineDistance 4 0 2 1; LineLineAngle 0 2 2 4 5]
     [0; 0; 1; 0; 2; 1] 0 (LineLinePerpendicularity 0 2 2 4)
     [Free 0 0; Free 0 1; Free 1 2; Free 0 3; Free 1 2; Free 0 3; Free 2 4; Free 1 5] 2
     identity_replaceable eq_refl eq_refl Logic.I All) as Q.
  pose proof (partial_unique _ _ _ _ _ _ P Q) as E. cbn in E. lra.
Qed.
