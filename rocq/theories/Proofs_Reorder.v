(** In exact arithmetic the order of the variables of a problem does not matter to
    Levenberg-Marquardt: runs of the textbook carry over to the problem with its
    variables in another order. *)
From Coq Require Import List Arith NArith Lia Bool Permutation Reals Lra.
From Verif Require Import Num NumR Outcome Lib ModelExpr ModelGraph ModelSystem ModelMatching ModelSolve
  Spec_Linear Spec_Jacobian Spec_Descent Spec_Gradient Spec_Lm Proofs_Linear Proofs_Triangular Proofs_QrSolve Proofs_Safe Proofs_Solve.
Import ListNotations.
Local Open Scope R_scope.

(** ** Lists in another order *)
Section Pull.
  Variable n : nat.
  Variables sigma tau : nat -> nat.
  Hypothesis Hsigma : forall i, (i < n)%nat -> (sigma i < n)%nat.
  Hypothesis Htau : forall i, (i < n)%nat -> (tau i < n)%nat.
  Hypothesis Hst : forall i, (i < n)%nat -> sigma (tau i) = i.
  Hypothesis Hts : forall i, (i < n)%nat -> tau (sigma i) = i.

  Definition pull (x : list R) : list R := map (fun i => nth (sigma i) x 0) (seq 0 n).
  Definition push (x : list R) : list R := map (fun i => nth (tau i) x 0) (seq 0 n).
  Lemma pull_length x : length (pull x) = n.
  Proof. unfold pull. now rewrite map_length, seq_length. Qed.
  Lemma push_length x : length (push x) = n.
  Proof. unfold push. now rewrite map_length, seq_length. Qed.
  Lemma nth_pull x i : (i < n)%nat -> nth i (pull x) 0 = nth (sigma i) x 0.
  Proof.
    intros Hi. unfold pull. rewrite (nth_indep _ 0 (nth (sigma 0%nat) x 0)) by now rewrite map_length, seq_length.
    rewrite (map_nth (fun i => nth (sigma i) x 0)). now rewrite seq_nth.
  Qed.
  Lemma nth_push x i : (i < n)%nat -> nth i (push x) 0 = nth (tau i) x 0.
  Proof.
    intros Hi. unfold push. rewrite (nth_indep _ 0 (nth (tau 0%nat) x 0)) by now rewrite map_length, seq_length.
    rewrite (map_nth (fun i => nth (tau i) x 0)). now rewrite seq_nth.
  Qed.
  Lemma pull_push z : length z = n -> pull (push z) = z.
  Proof.
    intros L. apply nth_ext with (d := 0) (d' := 0); [now rewrite pull_length|]. intros i Hi. rewrite pull_length in Hi.
    rewrite nth_pull, nth_push by auto. now rewrite Hts.
  Qed.
  Lemma sigma_perm : Permutation (map sigma (seq 0 n)) (seq 0 n).
  Proof.
    apply NoDup_Permutation_bis.
    - assert (G : forall l, NoDup l -> (forall i, In i l -> (i < n)%nat) -> NoDup (map sigma l)).
      { induction l as [|a l IH]; intros N Hl; [constructor|]. inversion N; subst. cbn [map]. constructor.
        - intros Q. apply in_map_iff in Q. destruct Q as (b & E & Hb). apply (f_equal tau) in E.
          rewrite !Hts in E by (apply Hl; simpl; auto). subst. auto.
        - apply IH; auto. intros i Hi. apply Hl. simpl; auto. }
      apply G; [apply seq_NoDup|]. intros i Hi. apply in_seq in Hi. lia.
    - now rewrite map_length.
    - intros j Hj. apply in_map_iff in Hj. destruct Hj as (i & <- & Hi). apply in_seq in Hi.
      apply in_seq. specialize (Hsigma i). lia.
  Qed.
  Lemma rsum_sigma f : rsum (fun j => f (sigma j)) (seq 0 n) = rsum f (seq 0 n).
  Proof. rewrite <- (rsum_map f sigma). apply rsum_perm, sigma_perm. Qed.
  Lemma nth_displaced x d t i : length x = length d -> nth i (displaced x d t) 0 = nth i x 0 + t * nth i d 0.
  Proof.
    unfold displaced. revert d i. induction x as [|v x IH]; intros [|w d] i L; try discriminate.
    - destruct i; cbn; lra.
    - destruct i; cbn [combine map nth]; [reflexivity|]. apply IH. cbn in L. lia.
  Qed.
  Lemma displaced_length x d t : length x = length d -> length (displaced x d t) = length x.
  Proof. intros L. unfold displaced. rewrite map_length, combine_length. lia. Qed.
  Lemma pull_displaced x d t : length x = n -> length d = n -> displaced (pull x) (pull d) t = pull (displaced x d t).
  Proof.
    intros Lx Ld. apply nth_ext with (d := 0) (d' := 0).
    - rewrite displaced_length; rewrite !pull_length; auto.
    - intros i Hi. rewrite displaced_length in Hi by now rewrite !pull_length. rewrite pull_length in Hi.
      rewrite nth_displaced by now rewrite !pull_length. rewrite !nth_pull by auto.
      rewrite nth_displaced by congruence. reflexivity.
  Qed.

  (** ** Problems with their variables in another order *)
  Variables p p' : problem R.
  Hypothesis Hn : num_variables p = n.
  Hypothesis Hn' : num_variables p' = n.
  Hypothesis Hm : num_residuals p' = num_residuals p.
  Hypothesis Hres : forall x, length x = n -> calculate_residuals p' (pull x) = calculate_residuals p x.
  Hypothesis Hjac : forall x i j, length x = n -> (j < n)%nat -> jacobian_at p' (pull x) i j = jacobian_at p x i (sigma j).

  Lemma squares_pull x : length x = n -> squares p' (pull x) = squares p x.
  Proof. intros L. unfold squares, objective. now rewrite Hres. Qed.
  Lemma damped_pull x lambda d : length x = n ->
    damped (num_residuals p') (num_variables p') (jacobian_at p' (pull x)) (residuals_at p' (pull x)) lambda (pull d) =
    damped (num_residuals p) (num_variables p) (jacobian_at p x) (residuals_at p x) lambda d.
  Proof.
    intros L. unfold damped. rewrite Hm, Hn, Hn'. f_equal.
    - apply rsum_ext. intros i _. f_equal. f_equal.
      + unfold residuals_at, residual_at. now rewrite Hres.
      + unfold product. rewrite <- (rsum_sigma (fun j => jacobian_at p x i j * nth j d 0)). apply rsum_ext.
        intros j Hj. apply in_seq in Hj. rewrite Hjac, nth_pull by (auto; lia). reflexivity.
    - f_equal. rewrite <- (rsum_sigma (fun j => nth j d 0 ^ 2)). apply rsum_ext.
      intros j Hj. apply in_seq in Hj. now rewrite nth_pull by lia.
  Qed.
  Lemma step_pull x lambda d : length x = n -> step p x lambda d -> step p' (pull x) lambda (pull d).
  Proof.
    intros L [Ld Hd]. split; [now rewrite pull_length, Hn'|]. intros z Lz. rewrite Hn' in Lz.
    rewrite <- (pull_push z Lz). rewrite !damped_pull by auto. apply Hd. now rewrite push_length.
  Qed.
  Lemma length_squared_pull d : length_squared p' (pull d) = length_squared p d.
  Proof.
    unfold length_squared. rewrite Hn, Hn'. rewrite <- (rsum_sigma (fun j => nth j d 0 ^ 2)). apply rsum_ext.
    intros j Hj. apply in_seq in Hj. now rewrite nth_pull by lia.
  Qed.
  Lemma step_len x lambda d : step p x lambda d -> length d = n.
  Proof. intros [L _]. congruence. Qed.
  Lemma rejected_pull x lambda : length x = n -> rejected p x lambda -> rejected p' (pull x) lambda.
  Proof.
    intros L (d & S & H1 & H2). assert (Ld := step_len _ _ _ S). exists (pull d).
    split; [now apply step_pull|]. rewrite length_squared_pull, pull_displaced by auto.
    rewrite !squares_pull; auto. rewrite displaced_length; congruence.
  Qed.
  Lemma first_step_pull x lambda lambda' d : length x = n -> first_step p x lambda lambda' d -> first_step p' (pull x) lambda lambda' (pull d).
  Proof.
    intros L (a & E & S & H). exists a. split; [exact E|]. split; [now apply step_pull|].
    intros b Hb. apply rejected_pull; auto.
  Qed.
  Lemma run_pull k lambda x l : run p k lambda x l -> length x = n -> run p' k lambda (pull x) (map pull l).
  Proof.
    induction 1 as [k lambda x H|lambda x|k lambda x lambda' d H1 F H2|k lambda x lambda' d H1 F H2 H3 H4|k lambda x lambda' d l H1 F H2 H3 R IH];
      intros L; cbn [map]; try (assert (Ld : length d = n) by (destruct F as (a & _ & S & _); eapply step_len; eauto));
      try (assert (LD : length (displaced x d 1) = n) by (rewrite displaced_length; congruence)).
    - apply run_solved. now rewrite squares_pull.
    - apply run_out.
    - apply run_short with (lambda' := lambda') (d := pull d); [now rewrite squares_pull|now apply first_step_pull|now rewrite length_squared_pull].
    - rewrite <- pull_displaced by auto.
      apply run_slow with (lambda' := lambda'); [now rewrite squares_pull|now apply first_step_pull|now rewrite length_squared_pull|..];
        rewrite pull_displaced, !squares_pull; auto.
    - apply run_on with (lambda' := lambda') (d := pull d); [now rewrite squares_pull|now apply first_step_pull|now rewrite length_squared_pull|..].
      + rewrite pull_displaced, !squares_pull; auto.
      + rewrite pull_displaced by auto. auto.
  Qed.
  Lemma last_pull l x : last (map pull l) (pull x) = pull (last l x).
  Proof. induction l as [|a l IH]; [reflexivity|]. destruct l; [reflexivity|exact IH]. Qed.
End Pull.

(** ** The variables of a subsystem in another order *)
Definition place (free free' : list nat) (j : nat) : nat :=
  match index_of free (nth j free' 0%nat) with Some i => i | None => 0%nat end.

Lemma place_lt free free' j : Permutation free free' -> (j < length free')%nat -> (place free free' j < length free)%nat.
Proof.
  intros P Hj. unfold place. destruct (index_of free (nth j free' 0%nat)) as [i|] eqn:E.
  - apply index_of_some in E. apply nth_error_Some. congruence.
  - apply index_of_none in E. exfalso. apply E. eapply Permutation_in; [apply Permutation_sym; exact P|]. now apply nth_In.
Qed.
Lemma place_index free free' v i : Permutation free free' -> index_of free' v = Some i -> index_of free v = Some (place free free' i).
Proof.
  intros P E. apply index_of_some in E. unfold place. rewrite (nth_error_nth _ _ 0%nat E).
  destruct (index_of free v) as [k|] eqn:Ek; [reflexivity|]. apply index_of_none in Ek. exfalso. apply Ek.
  eapply Permutation_in; [apply Permutation_sym; exact P|]. eapply nth_error_In; eauto.
Qed.
Lemma place_place free free' i : Permutation free free' -> NoDup free -> (i < length free)%nat ->
  place free free' (place free' free i) = i.
Proof.
  intros P N Hi. assert (P' := Permutation_sym P).
  assert (E : index_of free (nth i free 0%nat) = Some i) by (apply index_of_nodup; [auto|now apply nth_error_nth']).
  assert (E' := place_index _ _ _ _ P' E). apply (place_index _ _ _ _ P) in E'. congruence.
Qed.

Definition relabel (f : nat -> nat) (x : variable R) : variable R :=
  match x with Free v i => Free v (f i) | Fixed v => Fixed v end.
Lemma relabel_value f x : variable_value (relabel f x) = variable_value x.
Proof. now destruct x. Qed.
Lemma gather_relabel (vm vm' : variable_map R) f e :
  (forall v, vm' v = let! x := vm v in Done (relabel f x)) ->
  gather vm' e = let! xs := gather vm e in Done (map (relabel f) xs).
Proof.
  intros H. unfold gather. induction (variable_indices e) as [|v vs IH]; [reflexivity|]. cbn [omap].
  rewrite H. destruct (vm v) as [x| |]; cbn [obind]; [|reflexivity..]. rewrite IH.
  destruct (omap vm vs); reflexivity.
Qed.
Lemma buffer_relabel f xs : buffer (map (relabel f) xs) = buffer xs.
Proof.
  assert (E : map variable_value (map (relabel f) xs) = map variable_value xs).
  { rewrite map_map. apply map_ext. intros x. apply relabel_value. }
  unfold buffer. now rewrite E.
Qed.

Definition relabel_triplet (f : nat -> nat) (t : nat * nat * R) : nat * nat * R := let '(r, c, d) := t in (r, f c, d).
Lemma sparse_row_relabel f row xs g : sparse_row row (map (relabel f) xs) g = map (relabel_triplet f) (sparse_row row xs g).
Proof.
  unfold sparse_row. revert g. induction xs as [|x xs IH]; intros [|d g]; try reflexivity.
  cbn [map combine flat_map]. rewrite IH, map_app. destruct x; reflexivity.
Qed.

Section Subsystem.
  Variables (vs : list R) (all : list (expr R)) (es free free' : list nat).
  Hypothesis P : Permutation free free'.
  Hypothesis N : NoDup free.
  Let n := length free.
  Let sigma := place free free'.
  Let tau := place free' free.
  Let ss := Subsystem vs all es free.
  Let ss' := Subsystem vs all es free'.
  Let Ln : length free' = n := eq_sym (Permutation_length P).
  Let N' : NoDup free' := Permutation_NoDup P N.

  Lemma sigma_lt i : (i < n)%nat -> (sigma i < n)%nat.
  Proof. intros Hi. apply place_lt; [exact P|]. now rewrite Ln. Qed.
  Lemma tau_lt i : (i < n)%nat -> (tau i < n)%nat.
  Proof. intros Hi. rewrite <- Ln. apply place_lt; [now apply Permutation_sym|exact Hi]. Qed.
  Lemma sigma_tau i : (i < n)%nat -> sigma (tau i) = i.
  Proof. intros Hi. now apply place_place. Qed.
  Lemma tau_sigma i : (i < n)%nat -> tau (sigma i) = i.
  Proof. intros Hi. apply place_place; [now apply Permutation_sym|exact N'|now rewrite Ln]. Qed.

  Lemma map_pull x v : length x = n -> ss_map ss' (pull n sigma x) v = let! y := ss_map ss x v in Done (relabel tau y).
  Proof.
    intros L. unfold ss_map, index_set_map. cbn [ss_free_variables ss_variables ss ss'].
    destruct (index_of free v) as [i|] eqn:E.
    - pose proof (place_index free' free v i (Permutation_sym P) E) as E'. rewrite E'. fold tau.
      assert (Hi : (i < n)%nat) by (apply index_of_some in E; apply nth_error_Some; congruence).
      unfold oget. rewrite (nth_error_nth' (pull n sigma x) 0) by (rewrite pull_length; now apply tau_lt).
      rewrite nth_pull by now apply tau_lt. rewrite sigma_tau by auto. rewrite (nth_error_nth' x 0) by congruence. reflexivity.
    - assert (E' : index_of free' v = None).
      { apply index_of_none. apply index_of_none in E. intros Q. apply E. eapply Permutation_in; [apply Permutation_sym; exact P|exact Q]. }
      rewrite E'. destruct (oget vs v); reflexivity.
  Qed.

  Lemma residuals_pull x : length x = n -> ss_residuals ss' (pull n sigma x) = ss_residuals ss x.
  Proof.
    intros L. unfold ss_residuals. cbn [ss_expressions ss_all_expressions ss ss'].
    apply omap_ext. intros id _. destruct (oget all id) as [e| |]; cbn [obind]; [|reflexivity..]. unfold calculate_residual.
    rewrite (gather_relabel (ss_map ss x) _ tau e) by (intros v; now apply map_pull).
    destruct (gather (ss_map ss x) e); cbn [obind]; [|reflexivity..]. now rewrite buffer_relabel.
  Qed.

  Lemma sparse_pull x : length x = n ->
    ss_sparse ss' (pull n sigma x) = let! (rs, ts) := ss_sparse ss x in Done (rs, map (relabel_triplet tau) ts).
  Proof.
    intros L. unfold ss_sparse. cbn [ss_expressions ss_all_expressions ss ss'].
    generalize (combine (seq 0 (length es)) es). intros rows.
    match goal with |- obind (omap ?f' _) _ = obind (obind (omap ?f _) _) _ =>
      assert (E : omap f' rows = let! l := omap f rows in Done (map (fun '(r, ts) => (r, map (relabel_triplet tau) ts)) l)) end.
    { induction rows as [|[row id] rows IH]; [reflexivity|]. cbn [omap]. rewrite IH.
      destruct (oget all id) as [e| |]; cbn [obind]; [|reflexivity..].
      rewrite (gather_relabel (ss_map ss x) _ tau e) by (intros v; now apply map_pull).
      destruct (gather (ss_map ss x) e) as [xs| |]; cbn [obind]; [|reflexivity..]. rewrite buffer_relabel.
      destruct (compute_rg e (buffer xs)) as [r g]. cbn [obind]. rewrite sparse_row_relabel.
      match goal with |- context [omap ?f rows] => destruct (omap f rows) end; reflexivity. }
    rewrite E. match goal with |- context [omap ?f rows] => destruct (omap f rows) as [l| |] end; cbn [obind]; [|reflexivity..].
    f_equal. f_equal.
    - rewrite map_map. apply map_ext. now intros [r ts].
    - rewrite map_map, concat_map, map_map. f_equal. apply map_ext. now intros [r ts].
  Qed.

  Lemma entry_relabel ts i j : (j < n)%nat -> (forall r c d, In (r, c, d) ts -> (c < n)%nat) ->
    entry (map (relabel_triplet tau) ts) i j = entry ts i (sigma j).
  Proof.
    intros Hj. induction ts as [|[[r c] d] ts IH]; intros H; [reflexivity|]. cbn [map relabel_triplet entry].
    rewrite IH by (intros r' c' d' Q; apply (H r' c' d'); simpl; auto). f_equal.
    assert (Hc : (c < n)%nat) by (apply (H r c d); simpl; auto).
    replace (Nat.eqb (tau c) j) with (Nat.eqb c (sigma j)); [reflexivity|].
    destruct (Nat.eqb_spec c (sigma j)) as [Q1|Q1], (Nat.eqb_spec (tau c) j) as [Q2|Q2]; auto.
    - exfalso. apply Q2. rewrite Q1. now apply tau_sigma.
    - exfalso. apply Q1. rewrite <- Q2. now rewrite sigma_tau.
  Qed.

  Lemma map_free x v a i : ss_map ss x v = Done (Free a i) -> (i < n)%nat.
  Proof.
    unfold ss_map, index_set_map. cbn [ss_free_variables ss_variables ss]. destruct (index_of free v) as [k|] eqn:E.
    - destruct (oget x k); cbn [obind]; [|discriminate..]. intros [= <- <-]. apply index_of_some in E.
      apply nth_error_Some. congruence.
    - destruct (oget vs v); cbn [obind]; discriminate.
  Qed.
  Lemma sparse_in_range x rs ts r c d : ss_sparse ss x = Done (rs, ts) -> In (r, c, d) ts -> (c < n)%nat.
  Proof.
    intros H. unfold ss_sparse in H. apply obind_done in H. destruct H as (rows & H & E). inversion E; subst; clear E.
    intros Q. apply in_concat in Q. destruct Q as (t & Ht & Q). apply in_map_iff in Ht. destruct Ht as ([r0 t0] & <- & Ht).
    destruct (omap_in _ _ _ _ H Ht) as ([row id] & _ & Hf). cbv beta iota in Hf.
    apply obind_done in Hf. destruct Hf as (e & _ & Hf). apply obind_done in Hf. destruct Hf as (xs & Hx & Hf).
    destruct (compute_rg e (buffer xs)) as [r1 g]. inversion Hf; subst; clear Hf. cbn [snd] in Q.
    unfold sparse_row in Q. apply in_flat_map in Q. destruct Q as ([y dy] & Hy & Q).
    destruct y as [a i|a]; [|destruct Q]. destruct Q as [Q|[]]. inversion Q; subst.
    apply in_combine_l in Hy. destruct (omap_in _ _ _ _ Hx Hy) as (v & _ & Hv). eapply map_free; eauto.
  Qed.
  Lemma jacobian_pull x i j : length x = n -> (j < n)%nat ->
    jacobian_at (subsystem_problem ss') (pull n sigma x) i j = jacobian_at (subsystem_problem ss) x i (sigma j).
  Proof.
    intros L Hj. unfold jacobian_at. cbn [calculate_residuals_and_sparse_jacobian subsystem_problem].
    rewrite sparse_pull by auto. destruct (ss_sparse ss x) as [[rs ts]| |] eqn:E; cbn [obind]; [|reflexivity..].
    apply entry_relabel; auto. intros r c d. eapply sparse_in_range; eauto.
  Qed.

  (** The run of the textbook, in the other order *)
  Lemma run_reordered k lambda x l : length x = n -> run (subsystem_problem ss) k lambda x l ->
    run (subsystem_problem ss') k lambda (pull n sigma x) (map (pull n sigma) l).
  Proof.
    intros L R. eapply (run_pull n sigma tau sigma_lt tau_sigma (subsystem_problem ss) (subsystem_problem ss')); eauto.
    - intros y Ly. cbn [calculate_residuals subsystem_problem]. now apply residuals_pull.
    - intros y i j Ly Hj. now apply jacobian_pull.
  Qed.
End Subsystem.
