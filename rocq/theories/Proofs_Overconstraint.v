(** Which constraints [Analyze] reports: proofs for C21. *)
From Coq Require Import List Arith NArith ZArith Lia Bool Reals Lra Permutation Sorted.
From Verif Require Import Num NumR Outcome Lib ModelExpr ModelGraph ModelSystem ModelMatching ModelSolve
  ModelNumerical ModelApi Spec_Sketch Spec_Graph Spec_Solver Spec_History Spec_Rank Proofs_Graph
  Proofs_System Proofs_Calls Proofs_Analyze Proofs_History Proofs_Api Proofs_Real Proofs_Rank Demo DemoR.
Import ListNotations.
Local Open Scope nat_scope.

Section Report.
  Context {F : Type} {NF : Num F}.
  Implicit Types s : system F.

  Lemma compile_length els (r : relation F) es : compile els r = Some es ->
    length es = match relation_tag r with CPointPointCoincidence => 2 | _ => 1 end.
  Proof.
    destruct r; simpl; intros H;
      repeat match type of H with
      | match ?x with _ => _ end = _ => destruct x as [?|]; try discriminate
      | match ?x with _ => _ end = _ => destruct x; try discriminate
      end; inversion H; subst; reflexivity.
  Qed.

  (** The owner of a row *)
  Lemma row_owner s sk i : models s sk -> i < length (sys_expressions s) ->
    exists h, In h (constraint_handles sk) /\ In i (constraint_rows s h) /\
      nth_error (sys_expression_to_constraint s) i = Some (ch_id h) /\
      exists idx, nth_error (sys_constraints s) (ch_id h) = Some (EncodedConstraint (ch_tag h) idx) /\ ch_system h = sys_id s.
  Proof.
    intros M Hi. destruct (nth_error_ex _ _ Hi) as [e He].
    destruct (m_expr _ _ M _ _ He) as (j & r & idx & es & k & Q1 & Q2 & Q3 & Q4 & ->).
    destruct (m_rel _ _ M _ _ Q1) as (idx' & es' & R1 & R2 & R3).
    assert (idx' = idx) by congruence. assert (es' = es) by congruence. subst.
    destruct (R3 _ _ Q4) as [_ R4].
    exists (CHandle (sk_id sk) j (relation_tag r)). split.
    - unfold constraint_handles. apply in_map_iff. exists j. rewrite Q1. split; [auto|].
      apply in_seq. pose proof (nth_error_lt _ _ _ Q1). lia.
    - split.
      + unfold constraint_rows. simpl. rewrite R1. apply compile_length in R2.
        pose proof (nth_error_lt _ _ _ Q4) as L. rewrite R2 in L.
        destruct (relation_tag r); simpl; lia.
      + simpl. split; [auto|]. exists idx. split; [auto|]. symmetry. exact (m_id _ _ M).
  Qed.
  Lemma owner_row s sk h i : models s sk -> In h (constraint_handles sk) -> In i (constraint_rows s h) ->
    i < length (sys_expressions s) /\
    nth_error (sys_expression_to_constraint s) i = Some (ch_id h) /\
    exists idx, nth_error (sys_constraints s) (ch_id h) = Some (EncodedConstraint (ch_tag h) idx) /\ ch_system h = sys_id s.
  Proof.
    intros M Hh Hi. unfold constraint_handles in Hh. apply in_map_iff in Hh. destruct Hh as (j & <- & Hj).
    apply in_seq in Hj. destruct (nth_error_ex (sk_relations sk) j) as [r Hr]; [lia|]. rewrite Hr in *.
    destruct (m_rel _ _ M _ _ Hr) as (idx & es & R1 & R2 & R3).
    unfold constraint_rows in Hi. simpl in *. rewrite R1 in Hi. apply compile_length in R2.
    assert (Q : exists k, i = idx + k /\ k < length es).
    { rewrite R2. destruct (relation_tag r); simpl in Hi;
      repeat destruct Hi as [<-|Hi]; try contradiction; solve [exists 0; lia|exists 1; lia]. }
    destruct Q as (k & -> & Lk). destruct (nth_error_ex _ _ Lk) as [e He]. destruct (R3 _ _ He) as [R4 R5].
    split; [exact (nth_error_lt _ _ _ R4)|]. split; [auto|]. exists idx. split; [auto|]. symmetry. exact (m_id _ _ M).
  Qed.

  Lemma reported env id l s hs : env_ok env -> history env id l s -> find_overconstraints s = Done hs ->
    exists J flags m cols, analysis_jacobian s = Done J /\
      (forall r, In r J -> length r = length (sys_variables s)) /\
      incremental_gauss_jordan_elimination J (length (sys_variables s)) (seq 0 (length (sys_variables s))) = Done (flags, m, cols) /\
      length flags = length J /\
      (forall h, In h hs <-> In h (created_constraints l) /\ exists i, In i (constraint_rows s h) /\ nth_error flags i = Some false) /\
      (forall i, i < length J -> exists h, In h (created_constraints l) /\ In i (constraint_rows s h)) /\
      (forall h i, In h (created_constraints l) -> In i (constraint_rows s h) -> i < length J) /\
      (forall h h' i, In h (created_constraints l) -> In h' (created_constraints l) ->
         In i (constraint_rows s h) -> In i (constraint_rows s h') -> h = h').
  Proof.
    intros EO H Hf. destruct (history_inv _ _ _ _ EO H) as [sk I]. assert (M := iv_models _ _ _ _ I).
    rewrite (iv_ch _ _ _ _ I). unfold find_overconstraints in Hf.
    destruct (analysis_jacobian_ok _ _ M) as (J & HJ & HlJ & HrJ). rewrite HJ in Hf. simpl in Hf.
    destruct (gauss_jordan_ok _ _ HrJ) as (flags & m & cols & Hg & Hlf). rewrite Hg in Hf. simpl in Hf.
    exists J, flags, m, cols. split; [auto|]. split; [auto|]. split; [auto|]. split; [auto|].
    assert (Same : forall h h' i, In h (constraint_handles sk) -> In h' (constraint_handles sk) ->
         In i (constraint_rows s h) -> In i (constraint_rows s h') -> h = h').
    { intros h h' i K K' Hi Hi'. destruct (owner_row _ _ _ _ M K Hi) as (_ & E & idx & E2 & E3).
      destruct (owner_row _ _ _ _ M K' Hi') as (_ & E' & idx' & E2' & E3').
      destruct h as [a b c], h' as [a' b' c']; simpl in *. assert (b = b') by congruence. subst b'.
      rewrite E2 in E2'. inversion E2'. congruence. }
    split; [|split; [|split]].
    - intros h. split.
      + intros Hh. destruct (omap_in _ _ _ _ Hf Hh) as (i & Hi & E). apply filter_In in Hi.
        destruct Hi as [Hi Hb]. apply in_seq in Hi.
        destruct (row_owner _ _ i M) as (h' & K & Ki & E1 & idx & E2 & E3); [lia|].
        rewrite (proj2 (oget_done _ _ _) E1) in E. simpl in E. rewrite (proj2 (oget_done _ _ _) E2) in E. simpl in E.
        assert (h = h') by (destruct h' as [a b c]; simpl in *; inversion E; subst; auto). subst h'.
        split; [auto|]. exists i. split; [auto|]. destruct (nth_error_ex flags i) as [b Hb']; [lia|].
        rewrite (nth_error_nth _ _ _ Hb') in Hb. destruct b; [discriminate|auto].
      + intros (K & i & Hi & Hb). destruct (owner_row _ _ _ _ M K Hi) as (L & E1 & idx & E2 & E3).
        assert (Hin : In i (filter (fun i => negb (nth i flags false)) (seq 0 (length flags)))).
        { apply filter_In. split; [apply in_seq; lia|]. now rewrite (nth_error_nth _ _ _ Hb). }
        apply In_nth_error in Hin. destruct Hin as [q Hq]. destruct (omap_nth' _ _ _ Hf _ _ Hq) as (b & Hb' & E).
        rewrite (proj2 (oget_done _ _ _) E1) in E. simpl in E. rewrite (proj2 (oget_done _ _ _) E2) in E. simpl in E.
        apply nth_error_In in Hb'. inversion E; subst b. destruct h as [a b c]; simpl in *. now rewrite <- E3 in Hb'.
    - intros i Hi. destruct (row_owner _ _ i M) as (h & K & Ki & _); [lia|]. eauto.
    - intros h i K Hi. destruct (owner_row _ _ _ _ M K Hi) as (L & _). lia.
    - exact Same.
  Qed.
End Report.

Local Open Scope R_scope.

Lemma sorted_independent n (J : list (list R)) is : Sorted.StronglySorted lt is ->
  (forall i, In i is -> exists row, nth_error J i = Some row /\ ~ dependent n (firstn i J) row) ->
  independent n (map (fun i => nth i J []) is).
Proof.
  induction is as [|i is IH] using rev_ind; intros St H.
  - apply independent_nil.
  - rewrite map_app. simpl.
    assert (St' : Sorted.StronglySorted lt is /\ forall k, In k is -> (k < i)%nat).
    { clear -St. induction is as [|a is IH]; simpl in *; [split; [constructor|tauto]|].
      inversion St; subst. destruct (IH H1) as [A B]. split.
      - constructor; auto. rewrite Forall_app in H2. tauto.
      - rewrite Forall_app in H2. destruct H2 as [_ H2]. inversion H2; subst.
        intros k [<-|Hk]; auto. }
    destruct St' as [St' Lt]. destruct (H i) as (row & Hr & Hd); [apply in_app_iff; simpl; auto|].
    rewrite (nth_error_nth _ _ _ Hr). apply independent_snoc.
    + apply IH; auto. intros k Hk. apply H. apply in_app_iff. auto.
    + intros D. apply Hd. apply (dep_trans n (map (fun i => nth i J []) is)); auto.
      intros r Hk. apply in_map_iff in Hk. destruct Hk as (k & <- & Hk). apply dep_in.
      destruct (H k) as (rk & Hrk & _); [apply in_app_iff; auto|]. rewrite (nth_error_nth _ _ _ Hrk).
      assert (Lk := Lt _ Hk). apply (nth_error_In _ k).
      rewrite <- (firstn_skipn i J) in Hrk. assert (Li := nth_error_lt _ _ _ Hr).
      rewrite nth_error_app1 in Hrk by (rewrite firstn_length; lia). auto.
Qed.

Theorem reported_rows (env : solver_env R) id l s hs : env_ok env -> history env id l s ->
  find_overconstraints s = Done hs ->
  exists J, analysis_jacobian s = Done J /\
    forall h, In h hs -> In h (created_constraints l) /\
      exists i row, In i (constraint_rows s h) /\ nth_error J i = Some row /\
        ((length (sys_variables s) <= i)%nat \/ nearly_dependent EPSILON (length (sys_variables s)) (firstn i J) row).
Proof.
  intros EO H Hf. destruct (reported _ _ _ _ _ EO H Hf) as (J & flags & m & cols & HJ & Hr & Hg & Lf & Rep & _ & Bound & _).
  exists J. split; [auto|]. intros h Hh. apply Rep in Hh. destruct Hh as (K & i & Hi & Hb). split; [auto|].
  assert (L := Bound _ _ K Hi). destruct (nth_error_ex _ _ L) as [row Hrow]. exists i, row.
  split; [auto|]. split; [auto|]. destruct (le_lt_dec (length (sys_variables s)) i); [auto|right].
  destruct (gauss_jordan_flags _ _ _ _ _ Hr Hg) as (_ & A & _). eauto.
Qed.

Theorem reported_exactly (env : solver_env R) id l s hs : env_ok env -> history env id l s ->
  find_overconstraints s = Done hs ->
  exists J, analysis_jacobian s = Done J /\
    let n := length (sys_variables s) in
    ((length J <= n)%nat ->
     (forall i row, nth_error J i = Some row -> nearly_dependent EPSILON n (firstn i J) row -> dependent n (firstn i J) row) ->
     (forall h, In h hs <-> In h (created_constraints l) /\
        exists i row, In i (constraint_rows s h) /\ nth_error J i = Some row /\ dependent n (firstn i J) row) /\
     (forall is, StronglySorted lt is ->
        (forall i, In i is -> exists h, In h (created_constraints l) /\ ~ In h hs /\ In i (constraint_rows s h)) ->
        independent n (map (fun i => nth i J []) is))).
Proof.
  intros EO H Hf. destruct (reported _ _ _ _ _ EO H Hf) as (J & flags & m & cols & HJ & Hr & Hg & Lf & Rep & Own & Bound & Uniq).
  exists J. split; [auto|]. intros n LJ Gap.
  destruct (gauss_jordan_flags _ _ _ _ _ Hr Hg) as (_ & A & _ & Ex).
  destruct Ex as [Ex1 _].
  { intros i row Hi Hb Hn. apply Gap; eauto. }
  assert (Q : forall h, In h hs <-> In h (created_constraints l) /\
        exists i row, In i (constraint_rows s h) /\ nth_error J i = Some row /\ dependent n (firstn i J) row).
  { intros h. rewrite Rep. split.
    - intros (K & i & Hi & Hb). split; [auto|]. assert (L := Bound _ _ K Hi).
      destruct (nth_error_ex _ _ L) as [row Hrow]. exists i, row. split; [auto|]. split; [auto|].
      apply Gap; auto. apply A; auto. unfold n in *. lia.
    - intros (K & i & row & Hi & Hrow & D). split; [auto|]. exists i. split; [auto|].
      assert (L := Bound _ _ K Hi). destruct (nth_error_ex flags i) as [b Hb]; [lia|].
      destruct b; [|auto]. exfalso. exact (Ex1 i row Hrow Hb D). }
  split; [exact Q|]. intros is St His. apply sorted_independent; auto.
  intros i Hi. destruct (His i Hi) as (h & K & Nh & Hih). assert (L := Bound _ _ K Hih).
  destruct (nth_error_ex _ _ L) as [row Hrow]. exists row. split; [auto|]. intros D. apply Nh.
  apply Q. split; [auto|]. exists i, row. auto.
Qed.

(** ** Concrete systems *)
Definition twice_calls : list (call R) := [
  CreatePoint 0 0; CreatePoint 1 0;
  CreatePointPointDistance (rp 0) (rp 1) 1; CreatePointPointDistance (rp 0) (rp 1) 1].
Definition extra_calls : list (call R) := [
  CreatePoint 0 0; CreatePoint 1 0; CreatePoint 3 0;
  CreatePointPointDistance (rp 0) (rp 1) 1; CreatePointPointDistance (rp 0) (rp 1) 1;
  CreatePointPointDistance (rp 0) (rp 1) 1; CreatePointPointDistance (rp 0) (rp 1) 1;
  CreatePointPointDistance (rp 0) (rp 1) 1; CreatePointPointDistance (rp 0) (rp 1) 1;
  CreatePointPointDistance (rp 1) (rp 2) 2].
Definition after (cs : list (call R)) : log R * system R :=
  match replay rdemo_env cs [] (system_new 7%N) with Some x => x | None => ([], system_new 7%N) end.
Lemma after_history cs : replay rdemo_env cs [] (system_new 7%N) <> None ->
  history rdemo_env 7%N (fst (after cs)) (snd (after cs)).
Proof.
  intros H. apply (replay_history rdemo_env 7%N cs [] (system_new 7%N)); [constructor|].
  unfold after. destruct (replay _ _ _ _) as [[l s]|] eqn:E; [auto|congruence].
Qed.

Lemma unit_sqrt : sqrt ((0 - 1) * (0 - 1) + (0 - 0) * (0 - 0)) = 1.
Proof. replace ((0 - 1) * (0 - 1) + (0 - 0) * (0 - 0)) with 1 by ring. apply sqrt_1. Qed.
Lemma eps_lt_1 : EPSILON < 1.
Proof.
  unfold EPSILON, tenm. change (IZR 1 / IZR (10 ^ 8) < 1). apply Rmult_lt_reg_r with (IZR (10 ^ 8)).
  - apply IZR_lt. reflexivity.
  - unfold Rdiv. rewrite Rmult_assoc, Rinv_l, !Rmult_1_r by (apply IZR_neq; discriminate).
    rewrite Rmult_1_l. apply IZR_lt. reflexivity.
Qed.

Lemma twice_jacobian : exists row, analysis_jacobian (snd (after twice_calls)) = Done [row; row] /\
  length row = 4%nat /\ nth 0 row 0 = -1.
Proof.
  assert (Vs : sys_variables (snd (after twice_calls)) = [0; 0; 1; 0]) by (vm_compute; reflexivity).
  assert (Es : sys_expressions (snd (after twice_calls)) = [PointPointDistance 0 2 1; PointPointDistance 0 2 1])
    by (vm_compute; reflexivity).
  unfold analysis_jacobian. rewrite Vs, Es. eexists. split; [cbn; reflexivity|]. split; [reflexivity|].
  cbn. rewrite unit_sqrt. lra.
Qed.
Lemma twice_aux (l : log R) (s : system R) row : history rdemo_env 7%N l s ->
  length (sys_variables s) = 4%nat -> analysis_jacobian s = Done [row; row] -> length row = 4%nat -> nth 0 row 0 = -1 ->
  created_constraints l = [CHandle 7%N 0 CPointPointDistance; CHandle 7%N 1 CPointPointDistance] ->
  constraint_rows s (CHandle 7%N 0 CPointPointDistance) = [0%nat] ->
  constraint_rows s (CHandle 7%N 1 CPointPointDistance) = [1%nat] ->
  sys_expression_to_constraint s = [0; 1]%nat ->
  sys_constraints s = [EncodedConstraint CPointPointDistance 0; EncodedConstraint CPointPointDistance 1] ->
  sys_id s = 7%N ->
  (forall i r, nth_error [row; row] i = Some r -> nearly_dependent EPSILON 4 (firstn i [row; row]) r -> dependent 4 (firstn i [row; row]) r) /\
  find_overconstraints s = Done [CHandle 7%N 1 CPointPointDistance].
Proof.
  intros H Vs HJ Lr R0 C R1 R2 Xe Xc Xi.
  assert (Gap : forall i r, nth_error [row; row] i = Some r -> nearly_dependent EPSILON 4 (firstn i [row; row]) r ->
    dependent 4 (firstn i [row; row]) r).
  { intros [|[|i]] r Hi N; cbn [nth_error firstn] in *.
    - inversion Hi; subst r. destruct N as (cs & Lc & Hc). specialize (Hc 0%nat ltac:(lia)).
      destruct cs; [|discriminate]. cbn [lin] in Hc. rewrite R0, Rminus_0_r, Rabs_left in Hc by lra.
      pose proof eps_lt_1. lra.
    - inversion Hi; subst r. apply dep_in. simpl. auto.
    - destruct i; discriminate. }
  split; [exact Gap|].
  destruct (history_inv _ _ _ _ rdemo_env_ok H) as [sk I]. destruct (find_overconstraints_ok _ _ (iv_models _ _ _ _ I)) as (hs & Hf & _).
  destruct (reported_exactly _ _ _ _ _ rdemo_env_ok H Hf) as (J & HJ' & Q). rewrite HJ in HJ'. inversion HJ'; subst J; clear HJ'.
  cbn zeta in Q. rewrite Vs in Q. destruct Q as [Q _]; [simpl; lia|exact Gap|].
  assert (In1 : In (CHandle 7%N 1 CPointPointDistance) hs).
  { apply Q. rewrite C. split; [simpl; auto|]. exists 1%nat, row. rewrite R2. split; [simpl; auto|]. split; [auto|].
    apply dep_in. simpl. auto. }
  assert (All : forall h, In h hs -> h = CHandle 7%N 1 CPointPointDistance).
  { intros h Hh. apply Q in Hh. rewrite C in Hh. destruct Hh as ([E|[E|[]]] & i & r & Hi & Hr & D); symmetry in E; [|exact E]. subst h.
    rewrite R1 in Hi. destruct Hi as [<-|[]]. cbn [nth_error firstn] in *. inversion Hr; subst r.
    destruct D as (cs & Lc & Hc). specialize (Hc 0%nat ltac:(lia)). destruct cs; [|discriminate]. cbn [lin] in Hc. lra. }
  (* one row, one report *)
  destruct (reported _ _ _ _ _ rdemo_env_ok H Hf) as (J & flags & m & cols & HJ' & _ & Hg & Lf & Rep & _).
  rewrite HJ in HJ'. inversion HJ'; subst J; clear HJ'.
  unfold find_overconstraints in Hf. rewrite HJ in Hf. cbn [obind] in Hf. rewrite Hg in Hf. cbn [obind] in Hf.
  destruct flags as [|f0 [|f1 [|]]]; try discriminate Lf.
  assert (f0 = true).
  { destruct f0; [auto|]. exfalso. assert (K : In (CHandle 7%N 0 CPointPointDistance) hs).
    { apply Rep. rewrite C, R1. split; [simpl; auto|]. exists 0%nat. simpl. auto. }
    apply All in K. discriminate K. }
  assert (f1 = false).
  { apply Rep in In1. destruct In1 as (_ & i & Hi & Hb). rewrite R2 in Hi. destruct Hi as [<-|[]]. cbn [nth_error] in Hb. now inversion Hb. }
  subst f0 f1.
  rewrite Xe, Xc, Xi in Hf. unfold find_overconstraints. rewrite HJ. cbn [obind]. rewrite Hg. cbn [obind]. rewrite Xe, Xc, Xi.
  reflexivity.
Qed.


Lemma twice_example :
  history rdemo_env 7%N (fst (after twice_calls)) (snd (after twice_calls)) /\
  length (sys_variables (snd (after twice_calls))) = 4%nat /\
  exists J, analysis_jacobian (snd (after twice_calls)) = Done J /\ length J = 2%nat /\
  (forall i row, nth_error J i = Some row -> nearly_dependent EPSILON 4 (firstn i J) row -> dependent 4 (firstn i J) row) /\
  find_overconstraints (snd (after twice_calls)) = Done [CHandle 7%N 1 CPointPointDistance].
Proof.
  assert (H : history rdemo_env 7%N (fst (after twice_calls)) (snd (after twice_calls))).
  { apply after_history. vm_compute. discriminate. }
  assert (Vs : length (sys_variables (snd (after twice_calls))) = 4%nat) by (vm_compute; reflexivity).
  split; [exact H|]. split; [exact Vs|]. destruct twice_jacobian as (row & HJ & Lr & R0).
  exists [row; row]. split; [exact HJ|]. split; [reflexivity|].
  apply (twice_aux (fst (after twice_calls)) (snd (after twice_calls)) row H Vs HJ Lr R0); vm_compute; reflexivity.
Qed.

Lemma extra_reported : exists (l : log R) s hs h J i row,
  history rdemo_env 7%N l s /\ find_overconstraints s = Done hs /\ analysis_jacobian s = Done J /\
  In h hs /\ constraint_rows s h = [i] /\ nth_error J i = Some row /\
  ~ nearly_dependent EPSILON (length (sys_variables s)) (firstn i J) row.
Proof.
  assert (H : history rdemo_env 7%N (fst (after extra_calls)) (snd (after extra_calls))).
  { apply after_history. vm_compute. discriminate. }
  destruct (history_inv _ _ _ _ rdemo_env_ok H) as [sk I]. destruct (find_overconstraints_ok _ _ (iv_models _ _ _ _ I)) as (hs & Hf & _).
  exists (fst (after extra_calls)), (snd (after extra_calls)), hs, (CHandle 7%N 6 CPointPointDistance).
  assert (Vs : sys_variables (snd (after extra_calls)) = [0; 0; 1; 0; 3; 0]) by (vm_compute; reflexivity).
  assert (Es : sys_expressions (snd (after extra_calls)) = repeat (PointPointDistance 0 2 1) 6 ++ [PointPointDistance 2 4 2])
    by (vm_compute; reflexivity).
  assert (J : exists row r6, analysis_jacobian (snd (after extra_calls)) = Done (repeat row 6 ++ [r6]) /\ nth 4 row 0 = 0 /\ nth 4 r6 0 = 1).
  { unfold analysis_jacobian. rewrite Vs, Es. eexists. eexists. cbn [repeat app]. split; [cbn; reflexivity|].
    cbn. split; [lra|]. replace ((1 - 3) * (1 - 3) + (0 - 0) * (0 - 0)) with (2 * 2) by ring. rewrite sqrt_square by lra. lra. }
  destruct J as (row & r6 & HJ & R0 & R6). exists (repeat row 6 ++ [r6]), 6%nat, r6.
  assert (Rw : constraint_rows (snd (after extra_calls)) (CHandle 7%N 6 CPointPointDistance) = [6%nat]) by (vm_compute; reflexivity).
  split; [exact H|]. split; [exact Hf|]. split; [exact HJ|]. split; [|split; [exact Rw|split; [reflexivity|]]].
  - destruct (reported _ _ _ _ _ rdemo_env_ok H Hf) as (J & flags & m & cols & HJ' & Hr & Hg & Lf & Rep & _).
    rewrite HJ in HJ'. inversion HJ'; subst J; clear HJ'. apply Rep. split; [vm_compute; tauto|].
    exists 6%nat. rewrite Rw. split; [simpl; auto|].
    destruct (gauss_jordan_flags _ _ _ _ _ Hr Hg) as (_ & _ & B & _). apply B. rewrite Vs. simpl. lia.
  - rewrite Vs. intros (cs & Lc & Hc). specialize (Hc 4%nat ltac:(simpl; lia)).
    assert (Z : forall k cs, lin cs (repeat row k) 4 = 0).
    { clear -R0. induction k; intros [|c cs]; cbn [repeat lin]; auto. rewrite IHk, R0. ring. }
    change (firstn 6 (repeat row 6 ++ [r6])) with (repeat row 6) in Hc. rewrite Z, R6, Rminus_0_r, Rabs_R1 in Hc.
    pose proof eps_lt_1. lra.
Qed.

(** The third row is a hundred times the second, and is not reported: the first
    row is too small to count but is subtracted all the same. *)
Definition tiny : R := EPSILON / 10.
Lemma tiny_facts : 0 < tiny < EPSILON /\ EPSILON < 100 * tiny.
Proof. unfold tiny. pose proof eps_pos. lra. Qed.

Lemma abs_small x : - EPSILON < x < EPSILON -> Rltb EPSILON (Rabs x) = false.
Proof. intros H. destruct (Rltb_spec EPSILON (Rabs x)); auto. unfold Rabs in *. destruct (Rcase_abs x); lra. Qed.
Lemma abs_big x : EPSILON < x \/ x < - EPSILON -> Rltb EPSILON (Rabs x) = true.
Proof. intros H. destruct (Rltb_spec EPSILON (Rabs x)); auto. unfold Rabs in *. pose proof eps_pos. destruct (Rcase_abs x); lra. Qed.
Lemma row_3 (a b c a' b' c' : R) : a = a' -> b = b' -> c = c' -> [a; b; c] = [a'; b'; c'].
Proof. congruence. Qed.

Lemma drift_1 : gj_row 3 ([], [0; 1; 2]%nat, 0%nat) [0; 0; tiny] = Done ([([0; 0; tiny], false)], [0; 1; 2]%nat, 0%nat).
Proof.
  pose proof tiny_facts as T. unfold gj_row, eliminate. cbn [ofold obind seq Nat.sub find_pivot oget nth_error].
  change (@nltb R _) with Rltb. change (@nabs R _) with Rabs. rewrite !abs_small by lra. reflexivity.
Qed.
Lemma drift_2 : gj_row 3 ([([0; 0; tiny], false)], [0; 1; 2]%nat, 0%nat) [0; 1; 0] =
  Done ([([0; 0; tiny], false); ([0; 1; 0], true)], [1; 0; 2]%nat, 1%nat).
Proof.
  pose proof tiny_facts as T. unfold gj_row, eliminate. cbn [ofold obind seq Nat.sub oget nth_error].
  replace (row_sub (0 : R) [0; 1; 0] [0; 0; tiny]) with [0; 1; 0].
  2:{ unfold row_sub. cbn [combine map]. apply row_3; cbn; ring. }
  cbn [find_pivot obind oget nth_error]. change (@nltb R _) with Rltb. change (@nabs R _) with Rabs.
  rewrite (abs_small 0) by lra. rewrite (abs_big 1) by (pose proof eps_lt_1; lra).
  cbn [oswap obind oget oset nth_error length Nat.ltb Nat.leb lset].
  replace (map (fun x : R => (x * (nunit / 1))%num) [0; 1; 0]) with [0; 1; 0].
  2:{ cbn [map]. apply row_3; cbn; field. }
  cbn [omap obind oget nth_error].
  replace (row_sub (0 : R) [0; 0; tiny] [0; 1; 0]) with [0; 0; tiny].
  2:{ unfold row_sub. cbn [combine map]. apply row_3; cbn; ring. }
  reflexivity.
Qed.
Lemma drift_3 : exists st, gj_row 3 ([([0; 0; tiny], false); ([0; 1; 0], true)], [1; 0; 2]%nat, 1%nat) [0; 100; 0] = Done st /\
  map snd (fst (fst st)) = [false; true; true].
Proof.
  pose proof tiny_facts as T. unfold gj_row, eliminate. cbn [ofold obind seq Nat.sub oget nth_error].
  replace (row_sub (100 : R) [0; 100; 0] [0; 0; tiny]) with [0; 100; - (100 * tiny)].
  2:{ unfold row_sub. cbn [combine map]. apply row_3; cbn; ring. }
  cbn [obind oget nth_error].
  replace (row_sub (100 : R) [0; 100; - (100 * tiny)] [0; 1; 0]) with [0; 0; - (100 * tiny)].
  2:{ unfold row_sub. cbn [combine map]. apply row_3; cbn; ring. }
  cbn [find_pivot obind oget nth_error]. change (@nltb R _) with Rltb. change (@nabs R _) with Rabs.
  rewrite (abs_small 0) by lra. rewrite (abs_big (- (100 * tiny))) by lra.
  cbn [oswap obind oget oset nth_error length Nat.ltb Nat.leb lset map omap].
  eexists. split; [reflexivity|]. reflexivity.
Qed.
Lemma drift : exists matrix flags m cols, (forall r, In r matrix -> length r = 3%nat) /\
  incremental_gauss_jordan_elimination matrix 3 [0; 1; 2]%nat = Done (flags, m, cols) /\
  length matrix = 3%nat /\ flags = [false; true; true] /\
  dependent 3 [nth 1 matrix []] (nth 2 matrix []).
Proof.
  exists [[0; 0; tiny]; [0; 1; 0]; [0; 100; 0]].
  destruct drift_3 as ([[done cols] cur] & H & E). cbn [fst] in E.
  exists [false; true; true]. exists (map fst done), cols. split.
  { intros r [<-|[<-|[<-|[]]]]; reflexivity. }
  split; [|split; [reflexivity|split; [reflexivity|]]].
  - unfold incremental_gauss_jordan_elimination. cbn [length Nat.min firstn skipn ofold].
    rewrite drift_1. cbn [obind]. rewrite drift_2. cbn [obind]. rewrite H. cbn [obind].
    rewrite E. cbn [Nat.sub repeat app]. rewrite app_nil_r. reflexivity.
  - exists [100]. split; [reflexivity|]. intros [|[|[|j]]] Hj; cbn [nth lin]; try ring. lia.
Qed.
