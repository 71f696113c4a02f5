(** Levenberg-Marquardt with the sparse QR factorization: it does not panic *)
From Coq Require Import List Arith NArith Lia Bool Sorted Permutation.
From Verif Require Import Num Outcome Lib ModelSystem ModelSolve ModelLm ModelSparse ModelForest ModelCholesky ModelQr ModelLbfgs ModelOptimize
  Spec_Solver Spec_Sparse Spec_Qr Proofs_Sparse Proofs_Format Proofs_Convert Proofs_Transpose Proofs_Elimination Proofs_Tree Proofs_QrSolve Proofs_Symbolic Proofs_QrSafe
  Proofs_Lbfgs.
Import ModelOptimize.
Import ListNotations.
Local Open Scope nat_scope.

(** A well-formed structure is determined by its shape and its entries. *)
Lemma units_entry s i j : well_formed s ->
  (entry (Matrix s (repeat tt (length (s_row_indices s)))) i j tt <-> structural s i j).
Proof.
  intros W. split.
  - intros (k & Hk & _). now exists k.
  - intros (k & Hk). exists k. split; [exact Hk|]. cbn [m_values].
    destruct Hk as (a & b & _ & _ & _ & Hk). apply nth_error_lt in Hk. rewrite nth_error_repeat.
    destruct (Nat.ltb_spec k (length (s_row_indices s))); [reflexivity|lia].
Qed.
Lemma structure_unique s s' : well_formed s -> well_formed s' -> shape s = shape s' ->
  (forall i j, structural s i j <-> structural s' i j) -> s = s'.
Proof.
  intros W W' Hsh H.
  assert (E : Matrix s (repeat tt (length (s_row_indices s))) = Matrix s' (repeat tt (length (s_row_indices s')))).
  { apply matrix_unique.
    - constructor; [exact W|apply repeat_length].
    - constructor; [exact W'|apply repeat_length].
    - exact Hsh.
    - intros i j []. rewrite !units_entry by assumption. apply H. }
  now injection E.
Qed.

Section Pushed.
  Context {F : Type} {NF : Num F}.

  Lemma push_all_holds (ts : triplets F) : forall t us, holds t us -> holds (push_all ts t) (us ++ ts).
  Proof.
    induction ts as [|[[i j] v] ts IH]; intros t us H; cbn [push_all fold_left]; [now rewrite app_nil_r|].
    replace (us ++ (i, j, v) :: ts) with ((us ++ [(i, j, v)]) ++ ts) by (now rewrite <- app_assoc).
    apply IH. now constructor.
  Qed.

  Lemma push_all_shape (ts : triplets F) : forall t,
    (forall i j v, In (i, j, v) ts -> i < t_nrows t /\ j < t_ncols t) ->
    t_nrows (push_all ts t) = t_nrows t /\ t_ncols (push_all ts t) = t_ncols t.
  Proof.
    induction ts as [|[[i j] v] ts IH]; intros t H; cbn [push_all fold_left]; [auto|].
    destruct (H i j v (or_introl eq_refl)) as [Hi Hj].
    assert (E1 : t_nrows (push_triplet i j v t) = t_nrows t) by (cbn; lia).
    assert (E2 : t_ncols (push_triplet i j v t) = t_ncols t) by (cbn; lia).
    destruct (IH (push_triplet i j v t)) as [I1 I2].
    - intros i' j' v' Hin. rewrite E1, E2. eapply H. right. exact Hin.
    - unfold push_all in *. rewrite I1, I2. auto.
  Qed.

  Lemma push_all_eq (ts : triplets F) : forall t,
    t_row_indices (push_all ts t) = t_row_indices t ++ map (fun t => fst (fst t)) ts /\
    t_col_indices (push_all ts t) = t_col_indices t ++ map (fun t => snd (fst t)) ts /\
    t_values (push_all ts t) = t_values t ++ map snd ts.
  Proof.
    induction ts as [|[[i j] v] ts IH]; intros t; cbn [push_all fold_left map]; [now rewrite !app_nil_r|].
    destruct (IH (push_triplet i j v t)) as (I1 & I2 & I3). unfold push_all in *. rewrite I1, I2, I3.
    cbn. now rewrite <- !app_assoc.
  Qed.

  Lemma push_all_max (ts : triplets F) : forall t,
    t_nrows (push_all ts t) = fold_left Nat.max (map (fun t => fst (fst t) + 1) ts) (t_nrows t) /\
    t_ncols (push_all ts t) = fold_left Nat.max (map (fun t => snd (fst t) + 1) ts) (t_ncols t).
  Proof.
    induction ts as [|[[i j] v] ts IH]; intros t; cbn [push_all fold_left map]; [auto|].
    destruct (IH (push_triplet i j v t)) as [I1 I2]. unfold push_all in *. rewrite I1, I2. auto.
  Qed.

  Lemma fold_max_le l : forall a b, fold_left Nat.max l a <= b <-> a <= b /\ Forall (fun x => x <= b) l.
  Proof.
    induction l as [|x l IH]; intros a b; cbn [fold_left]; [intuition auto|].
    rewrite IH. split.
    - intros [H1 H2]. split; [lia|]. constructor; [lia|exact H2].
    - intros [H1 H2]. inversion H2; subst. split; [lia|assumption].
  Qed.

  (** The shape is what it was said to be in [ModelOptimize.v]: pushing the
      augmented triplets onto a matrix of any smaller shape gives the same. *)
  Lemma pushed_shape nrows ncols (ts : triplets F) r c :
    r <= nrows + ncols -> c <= ncols -> 0 < ncols ->
    (forall i j v, In (i, j, v) ts -> i < nrows /\ j < ncols) ->
    push_all (augment nrows ncols ts) (triplet_new r c)
    = push_all (augment nrows ncols ts) (triplet_new (nrows + ncols) ncols).
  Proof.
    intros Hr Hc Hn Hts.
    assert (B : forall i j v, In (i, j, v) (augment nrows ncols ts) -> i < nrows + ncols /\ j < ncols).
    { intros i j v Hin. apply in_app_or in Hin as [Hin|Hin]; [apply Hts in Hin; lia|].
      apply in_map_iff in Hin. destruct Hin as (k & [= <- <- _] & Hk). apply in_seq in Hk. lia. }
    assert (L : In (nrows + (ncols - 1), ncols - 1, nzero) (augment nrows ncols ts)).
    { apply in_or_app. right. apply in_map_iff. exists (ncols - 1). split; [reflexivity|]. apply in_seq. lia. }
    destruct (push_all_eq (augment nrows ncols ts) (triplet_new r c)) as (A1 & A2 & A3).
    destruct (push_all_eq (augment nrows ncols ts) (triplet_new (nrows + ncols) ncols)) as (B1 & B2 & B3).
    destruct (push_all_max (augment nrows ncols ts) (triplet_new r c)) as (A4 & A5).
    destruct (push_all_shape (augment nrows ncols ts) (triplet_new (nrows + ncols) ncols)) as (B4 & B5); [exact B|].
    cbn [triplet_new t_row_indices t_col_indices t_values t_nrows t_ncols app] in *.
    assert (E4 : t_nrows (push_all (augment nrows ncols ts) (triplet_new r c)) = nrows + ncols).
    { rewrite A4. apply Nat.le_antisymm.
      - apply fold_max_le. split; [exact Hr|]. apply Forall_forall. intros x Hx. apply in_map_iff in Hx.
        destruct Hx as ([[i j] v] & <- & Hin). apply B in Hin. cbn. lia.
      - match goal with |- _ <= ?M => pose proof (proj1 (fold_max_le _ _ M) (le_n _)) as [_ Hf] end.
        rewrite Forall_forall in Hf. specialize (Hf (nrows + (ncols - 1) + 1)).
        cut (nrows + (ncols - 1) + 1 <= fold_left Nat.max (map (fun t => fst (fst t) + 1) (augment nrows ncols ts)) r); [lia|].
        apply Hf. apply in_map_iff. exists (nrows + (ncols - 1), ncols - 1, nzero). auto. }
    assert (E5 : t_ncols (push_all (augment nrows ncols ts) (triplet_new r c)) = ncols).
    { rewrite A5. apply Nat.le_antisymm.
      - apply fold_max_le. split; [exact Hc|]. apply Forall_forall. intros x Hx. apply in_map_iff in Hx.
        destruct Hx as ([[i j] v] & <- & Hin). apply B in Hin. cbn. lia.
      - match goal with |- _ <= ?M => pose proof (proj1 (fold_max_le _ _ M) (le_n _)) as [_ Hf] end.
        rewrite Forall_forall in Hf. specialize (Hf (ncols - 1 + 1)).
        cut (ncols - 1 + 1 <= fold_left Nat.max (map (fun t => snd (fst t) + 1) (augment nrows ncols ts)) c); [lia|].
        apply Hf. apply in_map_iff. exists (nrows + (ncols - 1), ncols - 1, nzero). auto. }
    destruct (push_all (augment nrows ncols ts) (triplet_new r c)), (push_all (augment nrows ncols ts) (triplet_new (nrows + ncols) ncols)).
    cbn in *. congruence.
  Qed.

  Variable sort : (nat -> nat * nat) -> list nat -> list nat.
  Hypothesis Hsort : sorting sort.
  Variables nrows ncols : nat.

  Definition within (ts : triplets F) : Prop := forall i j v, In (i, j, v) ts -> i < nrows /\ j < ncols.

  Lemma augment_In ts i j : (exists v, In (i, j, v) (augment nrows ncols ts)) <->
    (exists v, In (i, j, v) ts) \/ (i = nrows + j /\ j < ncols).
  Proof.
    unfold augment. split.
    - intros (v & H). apply in_app_or in H as [H|H]; [left; eauto|right].
      apply in_map_iff in H. destruct H as (k & [= <- <- _] & Hk). apply in_seq in Hk. lia.
    - intros [(v & H)|[-> Hj]]; [exists v; apply in_or_app; auto|]. exists nzero. apply in_or_app. right.
      apply in_map_iff. exists j. split; [reflexivity|]. apply in_seq. lia.
  Qed.

  (** The augmented matrix *)
  Lemma augmented_ok ts : within ts -> exists a, augmented_matrix sort (nrows + ncols) ncols (augment nrows ncols ts) = Done a /\
    well_formed_matrix a /\ s_nrows (m_structure a) = nrows + ncols /\ s_ncols (m_structure a) = ncols /\
    forall i j, structural (m_structure a) i j <-> (exists v, In (i, j, v) ts) \/ (i = nrows + j /\ j < ncols).
  Proof.
    intros Hts. unfold augmented_matrix. set (us := augment nrows ncols ts).
    assert (Hh : holds (push_all us (triplet_new (nrows + ncols) ncols)) us).
    { apply (push_all_holds us _ []). constructor. }
    destruct (convert_spec nadd sort _ _ Hsort Hh) as (a & E & W & Sh & St & _).
    exists a. split; [exact E|]. split; [exact W|].
    destruct (push_all_shape us (triplet_new (nrows + ncols) ncols)) as [P1 P2].
    { intros i j v Hin. cbn. assert (H : exists v, In (i, j, v) us) by eauto. apply augment_In in H.
      destruct H as [(v' & H)|H]; [apply Hts in H|]; lia. }
    rewrite P1, P2 in Sh. cbn in Sh. unfold shape in Sh. injection Sh as S1 S2. split; [exact S1|]. split; [exact S2|].
    intros i j. rewrite St. apply augment_In.
  Qed.

  Lemma augmented_rank (a : matrix F) : well_formed_matrix a -> s_ncols (m_structure a) = ncols ->
    (forall j, j < ncols -> structural (m_structure a) (nrows + j) j) -> structural_full_rank (m_structure a).
  Proof.
    intros W S2 St. exists (map (fun j => nrows + j) (seq 0 ncols)). split; [rewrite map_length, seq_length; lia|]. split.
    - apply FinFun.Injective_map_NoDup; [intros x y; lia|apply seq_NoDup].
    - intros j i H. rewrite nth_error_map, nth_error_seq in H. destruct (Nat.ltb_spec j ncols) as [Hj|]; [|discriminate].
      cbn in H. injection H as <-. now apply St.
  Qed.

  Lemma damping_ok (a : matrix F) (d : F) : well_formed_matrix a -> s_ncols (m_structure a) = ncols ->
    (forall j, j < ncols -> exists i, structural (m_structure a) i j) ->
    exists vs, set_damping ncols d a = Done (Matrix (m_structure a) vs) /\ length vs = length (m_values a) /\
      (forall j p q, column (m_structure a) j p q -> j < ncols -> nth_error vs (q - 1) = Some d) /\
      forall k, (forall j p q, column (m_structure a) j p q -> j < ncols -> k <> q - 1) ->
        nth_error vs k = nth_error (m_values a) k.
  Proof.
    intros W S2 Ne. unfold set_damping.
    destruct (ofold_ok_prefix (fun (pre : list nat) (a' : matrix F) => m_structure a' = m_structure a /\
        length (m_values a') = length (m_values a) /\
        (forall j p q, column (m_structure a) j p q -> In j pre -> nth_error (m_values a') (q - 1) = Some d) /\
        forall k, (forall j p q, column (m_structure a) j p q -> j < ncols -> k <> q - 1) ->
          nth_error (m_values a') k = nth_error (m_values a) k)
      (fun (a : matrix F) idx =>
        let! (start, stop) := index_column_range (m_structure a) idx in
        let! values := oslice (m_values a) start stop in
        if length values =? 0 then Panic else
        let! values := oset (m_values a) (stop - 1) d in
        Done (Matrix (m_structure a) values)) (seq 0 ncols)) with (s := a) as (a' & E & E1 & E2 & E3 & E4).
    - intros pre j post a' El (H1 & H2 & H3 & H4).
      assert (Hj : j < ncols). { assert (In j (seq 0 ncols)) by (rewrite El; apply in_or_app; right; now left). apply in_seq in H. lia. }
      destruct (column_done a j W) as (p & q & vs & rs & Er & Hpq & Hcol & Hvs & _ & _ & Lv & _); [lia|].
      rewrite H1, Er. cbn [obind].
      destruct (oslice_done (m_values a') p q) as (vs' & -> & Lv'); [lia|lia|]. cbn [obind].
      assert (Hlt : p < q).
      { destruct (Ne j Hj) as (i & k & p' & q' & [C1 C2] & K1 & K2 & _). destruct Hcol as [D1 D2].
        rewrite C1 in D1. rewrite C2 in D2. injection D1 as <-. injection D2 as <-. lia. }
      destruct (Nat.eqb_spec (length vs') 0); [lia|]. rewrite oset_ok by lia. cbn [obind].
      eexists. split; [reflexivity|]. cbn [m_structure m_values]. split; [reflexivity|]. split; [now rewrite lset_length|].
      split; [|intros k Hk; rewrite nth_error_lset_ne; [now apply H4|specialize (Hk j p q Hcol Hj); lia]].
      intros j' p' q' Hc Hin. rewrite nth_error_lset. destruct (Nat.eqb_spec (q - 1) (q' - 1)) as [Eq|Eq].
      + destruct (Nat.ltb_spec (q - 1) (length (m_values a'))); [reflexivity|lia].
      + apply in_app_or in Hin as [Hin|[<-|[]]]; [eapply H3; eauto|].
        destruct Hcol as [_ D2], Hc as [_ C2]. rewrite C2 in D2. injection D2 as ->. lia.
    - split; [reflexivity|]. split; [reflexivity|]. split; [intros j p q _ []|reflexivity].
    - exists (m_values a'). split; [rewrite E; destruct a'; cbn in *; now subst|]. split; [exact E2|].
      split; [|exact E4]. intros j p q Hc Hj. eapply E3; [exact Hc|]. apply in_seq. lia.
  Qed.
End Pushed.

(** The triplets a problem gives at some point *)
Definition given {F} {NF : Num F} (p : problem F) (ts : triplets F) : Prop :=
  exists x rs, length x = num_variables p /\ calculate_residuals_and_sparse_jacobian p x = Done (rs, ts).

(** The matrices of the problem are given an ordering. *)
Definition orders_for {F} {NF : Num F} colamd sort (p : problem F) : Prop := forall ts a, given p ts ->
  augmented_matrix sort (num_residuals p + num_variables p) (num_variables p) (augment (num_residuals p) (num_variables p) ts) = Done a ->
  well_formed_matrix a -> exists q, colamd (m_structure a) = Done q /\ is_ordering (s_ncols (m_structure a)) q.

Section Safe.
  Context {F : Type} {NF : Num F}.
  Variable colamd : structure -> outcome (list nat).
  Variable sort : (nat -> nat * nat) -> list nat -> list nat.
  Hypothesis Hsort : sorting sort.
  Variable p : problem F.
  Hypothesis Hcolamd : orders_for colamd sort p.
  Hypothesis Hp : problem_ok p.
  Let nrows := num_residuals p.
  Let ncols := num_variables p.
  Let slv : damped_solver F symbolic_qr := qr_solver colamd sort.

  Notation given := (given p).
  Lemma given_within ts : given ts -> within nrows ncols ts.
  Proof.
    intros (x & rs & Lx & E) i j v Hin. destruct (po_sparse _ Hp x Lx) as (rs' & ts' & E' & _ & B).
    rewrite E in E'. injection E' as _ <-. exact (B _ _ _ Hin).
  Qed.

  (** The symbolic factorization fits every matrix the problem gives. *)
  Definition fits (sq : symbolic_qr) : Prop := exists s rho Rs Hs, symbolic_ok s sq rho Rs Hs /\
    forall ts, given ts -> exists a, augmented_matrix sort (nrows + ncols) ncols (augment nrows ncols ts) = Done a /\
      well_formed_matrix a /\ m_structure a = s /\ s_nrows s = nrows + ncols /\ s_ncols s = ncols /\
      forall i j, structural (m_structure a) i j <-> (exists v, In (i, j, v) ts) \/ (i = nrows + j /\ j < ncols).

  Lemma build_fits ts : given ts -> exists sq, ds_build slv (nrows + ncols) ncols (augment nrows ncols ts) = Done sq /\ fits sq.
  Proof.
    intros G. destruct (augmented_ok sort Hsort nrows ncols ts (given_within ts G)) as (a & E & W & S1 & S2 & St).
    destruct (symbolic_build_ok colamd (m_structure a) Colamd) as (sq & rho & Rs & Hs & Eb & SO).
    - apply W.
    - apply (augmented_rank nrows ncols a W S2). intros j Hj. apply St. right. auto.
    - intros _. exact (Hcolamd ts a G E W).
    - exists sq. split; [cbn [slv qr_solver ds_build]; rewrite E; exact Eb|].
      exists (m_structure a), rho, Rs, Hs. split; [exact SO|]. intros ts' G'.
      destruct (augmented_ok sort Hsort nrows ncols ts' (given_within ts' G')) as (a' & E' & W' & S1' & S2' & St').
      exists a'. split; [exact E'|]. split; [exact W'|]. split; [|auto].
      apply structure_unique; [apply W'|apply W|unfold shape; congruence|].
      intros i j. rewrite St, St'. destruct G as (x & rs & Lx & Ex). destruct G' as (x' & rs' & Lx' & Ex').
      pose proof (po_pattern _ Hp _ _ _ _ _ _ Lx Lx' Ex Ex') as Epat.
      assert (Hiff : forall us : triplets F, (exists v, In (i, j, v) us) <-> In (i, j) (map fst us)).
      { intros us. rewrite in_map_iff. split; [intros (v & H); exists (i, j, v); auto|intros ([ij v] & <- & H); eauto]. }
      rewrite !Hiff, Epat. reflexivity.
  Qed.

  Lemma solve_total sq ts d b : fits sq -> given ts -> length b = nrows + ncols ->
    exists r, ds_solve slv sq (nrows + ncols) ncols (augment nrows ncols ts) d b = Done r /\
      forall y, r = Some y -> length y = nrows + ncols.
  Proof.
    intros (s & rho & Rs & Hs & SO & Hf) G Lb. destruct (Hf ts G) as (a & E & W & Es & S1 & S2 & St).
    cbn [slv qr_solver ds_solve]. rewrite E. cbn [obind].
    destruct (damping_ok ncols a d W) as (vs & Ed & Lv & _); [congruence| |].
    { intros j Hj. exists (nrows + j). apply St. right. auto. }
    rewrite Ed. cbn [obind].
    destruct (solve_safe s sq rho Rs Hs SO (Matrix (m_structure a) vs)) with (b := b) as (ok & x & Ex & Lx).
    - exact Es.
    - constructor; [apply W|]. cbn [m_values m_structure]. rewrite Lv. apply W.
    - congruence.
    - apply obind_done in Ex. destruct Ex as (q & -> & Ex). cbn [obind]. rewrite Ex. cbn [obind].
      eexists. split; [reflexivity|]. intros y Hy. destruct ok; [|discriminate]. injection Hy as <-. congruence.
  Qed.

  Record state_ok (st : lm_state F) : Prop := {
    st_variables : length (lm_variables st) = ncols;
    st_residuals : length (lm_residuals st) = nrows;
    st_jacobian : exists ts, given ts /\ lm_jacobian st = augment nrows ncols ts
  }.

  Lemma evaluate_ok x : length x = ncols -> exists rs ts, lm_evaluate p x = Done (rs, augment nrows ncols ts) /\
    length rs = nrows /\ given ts.
  Proof.
    intros Lx. destruct (po_sparse _ Hp x Lx) as (rs & ts & E & Lrs & _). unfold lm_evaluate. rewrite E. cbn [obind].
    exists (map nneg rs), ts. split; [reflexivity|]. split; [now rewrite map_length|]. exists x, rs. auto.
  Qed.

  Definition verdict_ok (v : lm_verdict F) : Prop :=
    match v with
    | LmRetry _ | LmStall => True
    | LmConverged x => length x = ncols
    | LmAccepted st => state_ok st
    end.

  Lemma try_ok sq st : fits sq -> state_ok st -> exists v, lm_try slv p sq st = Done v /\ verdict_ok v.
  Proof.
    intros Hf [Lv Lr (ts & G & Ej)]. unfold lm_try. fold nrows ncols. cbv zeta. rewrite Ej.
    destruct (solve_total sq ts (nsqrt (lm_lambda st)) (lm_residuals st ++ repeat nzero ncols) Hf G) as (r & -> & Lb).
    { rewrite app_length, repeat_length. lia. }
    cbn [obind]. destruct r as [b|]; [|eexists; split; [reflexivity|exact I]].
    specialize (Lb b eq_refl). destruct (nltb _ _); [eexists; split; [reflexivity|exact I]|].
    set (x := map _ _).
    assert (Lx : length x = ncols).
    { unfold x. rewrite map_length, combine_length, firstn_length, Lb. lia. }
    destruct (po_residuals _ Hp x Lx) as (rs & -> & Lrs). cbn [obind].
    destruct (nltb _ _); [|eexists; split; [reflexivity|exact I]].
    destruct (nleb _ _); [eexists; split; [reflexivity|exact Lx]|].
    destruct (evaluate_ok x Lx) as (rs' & ts' & -> & Lrs' & G'). cbn [obind].
    eexists. split; [reflexivity|]. constructor; cbn; [exact Lx|exact Lrs'|eauto].
  Qed.

  Lemma with_lambda_ok lambda st : state_ok st -> state_ok (with_lambda lambda st).
  Proof. intros [H1 H2 H3]. constructor; assumption. Qed.

  Lemma inner_ok fuel sq st : fits sq -> state_ok st ->
    lm_inner slv p fuel sq st = Timeout \/ exists v, lm_inner slv p fuel sq st = Done v /\ verdict_ok v.
  Proof.
    intros Hf. revert st. induction fuel as [|fuel IH]; intros st Hs; cbn [lm_inner]; [auto|].
    destruct (try_ok sq st Hf Hs) as (v & -> & Hv). cbn [obind].
    destruct v; [apply IH; now apply with_lambda_ok| | |]; right; eexists; (split; [reflexivity|exact Hv]).
  Qed.

  Lemma outer_ok fuel sq k : fits sq -> forall st trace, state_ok st -> Forall (fun x => length x = ncols) trace ->
    lm_outer slv p fuel k sq st trace = Timeout \/
    exists trace', lm_outer slv p fuel k sq st trace = Done trace' /\ Forall (fun x => length x = ncols) trace'.
  Proof.
    intros Hf. induction k as [|k IH]; intros st trace Hs Ht; cbn [lm_outer]; [eauto|].
    destruct (nltb _ _); [eauto|].
    destruct (inner_ok fuel sq st Hf Hs) as [->|(v & -> & Hv)]; cbn [obind]; [auto|].
    destruct v; cbn in Hv; [auto|eauto| |].
    - right. eexists. split; [reflexivity|]. now constructor.
    - apply IH; [exact Hv|]. constructor; [apply Hv|exact Ht].
  Qed.

  Lemma lm_safe fuel x : length x = ncols ->
    levenberg_marquardt slv p fuel x = Timeout \/
    exists y, levenberg_marquardt slv p fuel x = Done y /\ length y = ncols.
  Proof.
    intros Lx. unfold levenberg_marquardt, lm_trace. generalize 100 as rounds. intros rounds.
    destruct (evaluate_ok x Lx) as (rs & ts & -> & Lrs & G). cbn [obind]. fold nrows ncols.
    destruct (build_fits ts G) as (sq & -> & Hf). cbn [obind].
    match goal with |- context [lm_outer slv p fuel rounds sq ?st ?tr] => destruct (outer_ok fuel sq rounds Hf st tr) as [->|(trace & -> & Ht)] end.
    - constructor; cbn; eauto.
    - now constructor.
    - now left.
    - right. cbn [obind]. eexists. split; [reflexivity|]. destruct trace as [|y trace]; [exact Lx|]. cbn. now inversion Ht.
  Qed.
End Safe.

Lemma orders_all {F} {NF : Num F} colamd sort (p : problem F) : orders colamd -> orders_for colamd sort p.
Proof. intros H ts a _ _ W. apply H. apply W. Qed.

(** Conversion does not add entries. *)
Lemma group_length {T} (add : T -> T -> T) l : length (group add l) <= length l.
Proof.
  induction l as [|t l IH] using rev_ind; [cbn; lia|]. rewrite group_snoc, app_length. cbn [length].
  destruct (group add l) as [|z g] eqn:E using rev_ind; [cbn; lia|]. rewrite gadd_snoc. destruct (same t z); rewrite !app_length in *; cbn [length] in *; lia.
Qed.
Lemma augmented_length {F} {NF : Num F} sort nrows ncols (ts : triplets F) a : sorting sort ->
  within nrows ncols ts ->
  augmented_matrix sort (nrows + ncols) ncols (augment nrows ncols ts) = Done a ->
  length (s_row_indices (m_structure a)) <= length ts + ncols.
Proof.
  intros Hs Hts H. unfold augmented_matrix in H.
  assert (Hh : holds (push_all (augment nrows ncols ts) (triplet_new (nrows + ncols) ncols)) (augment nrows ncols ts)).
  { apply (push_all_holds (augment nrows ncols ts) _ []). constructor. }
  apply holds_contents in Hh. destruct (from_triplet_mat_csc nadd sort _ _ Hs Hh) as (srt & P & _ & _ & E).
  rewrite E in H. injection H as <-. cbn [csc m_structure s_row_indices]. rewrite map_length.
  eapply Nat.le_trans; [apply group_length|]. rewrite (Permutation_length P), map_length. unfold augment.
  now rewrite app_length, map_length, seq_length.
Qed.
Lemma orders_sized {F} {NF : Num F} K colamd sort (p : problem F) : sorting sort -> problem_ok p ->
  orders_below (18 * K + 1)%N colamd -> Spec_Solver.sized K p -> orders_for colamd sort p.
Proof.
  intros Hs Hp Hc [S1 S2 S3] ts a G E W. pose proof (given_within p Hp ts G) as Wt.
  destruct (augmented_ok sort Hs _ _ ts Wt) as (a' & E' & _ & R1 & R2 & _). rewrite E in E'. injection E' as <-.
  pose proof (augmented_length sort _ _ ts a Hs Wt E) as L. destruct G as (x & rs & Lx & Ex). apply S3 in Ex; [|exact Lx].
  apply Hc; [apply W|lia|lia|lia].
Qed.

Lemma fiksi_optimize_safe {F} {NF : Num F} colamd sort fuel order assembly o (p : problem F) x : sorting sort ->
  orders_for colamd sort p -> problem_ok p -> length x = num_variables p ->
  env_optimize (fiksi_env colamd sort fuel order assembly) o p x <> Panic /\
  forall x', env_optimize (fiksi_env colamd sort fuel order assembly) o p x = Done x' -> length x' = length x.
Proof.
  intros Hs Hc Hp Lx. split.
  - cbn [fiksi_env env_optimize]. destruct o; cbn [optimize].
    + destruct (lm_safe colamd sort Hs p Hc Hp fuel x Lx) as [->|(y & -> & _)]; discriminate.
    + now apply (lbfgs_safe p Hp (fun _ => True) I (fun _ _ _ _ _ _ _ _ _ => I) fuel x).
  - intros x' E. cbn [fiksi_env env_optimize] in E. destruct o; cbn [optimize] in E.
    + destruct (lm_safe colamd sort Hs p Hc Hp fuel x Lx) as [H|(y & H & Ly)]; rewrite H in E; [discriminate|].
      injection E as <-. congruence.
    + now apply (lbfgs_safe p Hp (fun _ => True) I (fun _ _ _ _ _ _ _ _ _ => I) fuel x).
Qed.
Lemma fiksi_env_safe {F} {NF : Num F} colamd sort fuel order assembly : orders colamd -> sorting sort ->
  env_safe (fiksi_env (F := F) colamd sort fuel order assembly).
Proof.
  intros Hc Hs. split; intros; eapply fiksi_optimize_safe; eauto using orders_all.
Qed.
Lemma fiksi_env_safe_upto {F} {NF : Num F} K colamd sort fuel order assembly : orders_below (18 * K + 1)%N colamd -> sorting sort ->
  env_safe_upto K (fiksi_env (F := F) colamd sort fuel order assembly).
Proof.
  intros Hc Hs. split; intros; eapply fiksi_optimize_safe; eauto using orders_sized.
Qed.
