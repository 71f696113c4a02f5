(** A system on which [solve] never returns in binary64: a point fixed at the
    origin and another one there, made coincident.  The root mean square of all
    coordinates is 0, so scaling makes them all NaN. *)
From Coq Require Import List Arith NArith ZArith Lia Bool Permutation.
From Verif Require Import Num Outcome Lib ModelExpr ModelGraph ModelSystem ModelSolve ModelApi ModelLm ModelSparse
  ModelForest ModelQr ModelLbfgs Spec_Solver Spec_History Spec_Sparse Spec_Qr Demo Proofs_Sparse Proofs_Transpose
  Props_Sparse Proofs_Optimize ModelOptimize.
Import ListNotations.
Local Open Scope nat_scope.

(* ----- conversion does not depend on the sort if no cell occurs twice ----- *)

Lemma values_at_distinct {T} (ts : list (nat * nat * T)) i j : NoDup (map fst ts) -> length (values_at ts i j) <= 1.
Proof.
  unfold values_at. induction ts as [|[[r c] v] ts IH]; intros N; [cbn; lia|].
  inversion N as [|? ? Hn N' E1]; subst. specialize (IH N'). cbn [filter fst snd].
  destruct ((r =? i) && (c =? j)) eqn:E; [|exact IH].
  apply andb_true_iff in E as [E1 E2]. apply Nat.eqb_eq in E1, E2. subst r c.
  match goal with |- context [filter ?f ts] => set (g := f) in * end.
  enough (Hf : filter g ts = []) by (rewrite Hf; cbn; lia).
  destruct (filter g ts) as [|[[r c] w] l] eqn:Ef; [reflexivity|]. exfalso. apply Hn.
  assert (Hin : In (r, c, w) (filter g ts)) by (rewrite Ef; now left).
  apply filter_In in Hin. destruct Hin as [Hin E]. apply andb_true_iff in E as [E1 E2].
  apply Nat.eqb_eq in E1, E2. cbn in E1, E2. subst. change (i, j) with (fst (i, j, w)). now apply in_map.
Qed.

Lemma perm_short {A} (l l' m : list A) : length m <= 1 -> Permutation l m -> Permutation l' m -> l = l'.
Proof.
  intros L P P'. destruct m as [|x [|]]; cbn in L; [| |lia].
  - apply Permutation_sym, Permutation_nil in P, P'. congruence.
  - apply Permutation_sym, Permutation_length_1_inv in P, P'. congruence.
Qed.

Lemma convert_distinct {T} (add : T -> T -> T) sort sort' a ts :
  sorting sort -> sorting sort' -> holds a ts -> NoDup (map fst ts) ->
  from_triplet_mat add sort a = from_triplet_mat add sort' a.
Proof.
  intros H H' Hh N.
  destruct (convert_spec add sort a ts H Hh) as (m & E & W & S & _ & V).
  destruct (convert_spec add sort' a ts H' Hh) as (m' & E' & W' & S' & _ & V').
  rewrite E, E'. f_equal. apply matrix_unique; auto; [congruence|].
  intros i j v. destruct (V i j) as (vs & P & Hv), (V' i j) as (vs' & P' & Hv'). rewrite Hv, Hv'.
  now rewrite (perm_short vs vs' _ (values_at_distinct ts i j N) P P').
Qed.

Lemma augmented_distinct {F} {NF : Num F} sort sort' nrows ncols ts : sorting sort -> sorting sort' -> NoDup (map fst ts) ->
  augmented_matrix sort nrows ncols ts = augmented_matrix sort' nrows ncols ts.
Proof.
  intros H H' N. unfold augmented_matrix. apply (convert_distinct _ _ _ _ ts); auto.
  apply (push_all_holds ts _ []). constructor.
Qed.

(* ----- the system ----- *)

Definition origin_calls : list (call f64) :=
  let p i := EHandle 0%N i TPoint in
  [CreatePoint (lit 0) (lit 0); CreatePoint (lit 0) (lit 0); Fix (p 0); CreateCoincidence (p 0) (p 1)].
Definition origin : log f64 * system f64 :=
  match replay demo_env origin_calls [] (system_new 0) with Some r => r | None => ([], system_new 0) end.

Definition origin_ss : subsystem f64 :=
  Eval vm_compute in
  match component_free_variables (snd origin) [0; 1] with
  | Done free =>
      let s := scale_system (calculate_system_scale (snd origin)) (snd origin) in
      subsystem_new (sys_variables_transformed s) (sys_expressions_transformed s) free [0; 1]
  | _ => Subsystem [] [] [] []
  end.
Definition nan2 : list f64 := Eval vm_compute in [lit 0 / lit 0; lit 0 / lit 0]%num.

Lemma component_stuck {F} {NF : Num F} env o scale rng s c e l free rng' vt values es :
  c_elements c = e :: l -> component_free_variables s (c_elements c) = Done free ->
  perturb_variables free rng (sys_variables_transformed s) = Done (rng', vt) ->
  omap (oget vt) free = Done values -> component_expressions (F := F) s (c_constraints c) = Done es ->
  env_optimize env o (subsystem_problem (subsystem_new vt (sys_expressions_transformed s) free es)) values = Timeout ->
  solve_component env (Options o DecomposeNone true) scale (rng, s) c = Timeout.
Proof.
  intros E1 E2 E3 E4 E5 E6. unfold solve_component. rewrite E1, <- E1. cbn [o_perturb o_decomposer o_optimizer].
  rewrite E2. cbn [obind]. rewrite E3. cbn [obind]. unfold solve_none.
  cbn [with_values sys_variables_transformed sys_expressions_transformed].
  match goal with |- context [component_expressions ?s' (c_constraints c)] =>
    change (component_expressions s' (c_constraints c)) with (component_expressions s (c_constraints c)) end.
  rewrite E4. cbn [obind]. rewrite E5. cbn [obind]. rewrite E6. reflexivity.
Qed.

Definition origin_scaled : system f64 := scale_system (calculate_system_scale (snd origin)) (snd origin).
Definition origin_component : component :=
  match components (sys_graph origin_scaled) with [c] => c | _ => Component [] [] end.
Lemma origin_solve opt order assembly o : opt o (subsystem_problem origin_ss) nan2 = Timeout ->
  solve (SolverEnv opt order assembly) (Options o DecomposeNone true) (snd origin) = Timeout.
Proof.
  intros E. unfold solve. cbv zeta. fold origin_scaled.
  assert (Ec : components (sys_graph origin_scaled) = [origin_component]) by (vm_compute; reflexivity).
  rewrite Ec. cbn [ofold].
  erewrite component_stuck; [reflexivity|vm_compute; reflexivity..|].
  cbn [env_optimize].
  match goal with |- opt o (subsystem_problem ?ss) _ = _ =>
    replace ss with origin_ss by (vm_compute; reflexivity) end.
  exact E.
Qed.

(* ----- Levenberg-Marquardt: the damping grows to infinity ----- *)

Section Chain.
  Context {F S : Type} {NF : Num F}.
  Variables (solver : damped_solver F S) (p : problem F) (sym : S).

  Lemma fixed_inner st l : lm_try solver p sym st = Done (LmRetry l) -> with_lambda l st = st ->
    forall fuel, lm_inner solver p fuel sym st = Timeout.
  Proof.
    intros E El. induction fuel as [|fuel IH]; [reflexivity|]. cbn [lm_inner]. rewrite E. cbn [obind]. now rewrite El.
  Qed.

  (** [n] retries from [st] on *)
  Fixpoint retries (n : nat) (st : lm_state F) : option (lm_state F) :=
    match n with
    | O => Some st
    | Datatypes.S n => match lm_try solver p sym st with
                       | Done (LmRetry l) => retries n (with_lambda l st)
                       | _ => None
                       end
    end.
  Lemma retries_inner n : forall st st', retries n st = Some st' ->
    (forall fuel, lm_inner solver p fuel sym st' = Timeout) -> forall fuel, lm_inner solver p fuel sym st = Timeout.
  Proof.
    induction n as [|n IH]; cbn [retries]; intros st st' E H fuel; [injection E as <-; auto|].
    destruct (lm_try solver p sym st) as [[l| | |]| |] eqn:Et; try discriminate.
    destruct fuel as [|fuel]; [reflexivity|]. cbn [lm_inner]. rewrite Et. cbn [obind]. eapply IH; eauto.
  Qed.
End Chain.

Definition origin_problem : problem f64 := subsystem_problem origin_ss.
Definition ordered (q : list nat) : structure -> outcome (list nat) := fun _ => Done q.

(** After [n] retries the damping is infinite, and stays so *)
Definition runaway (solver : damped_solver f64 symbolic_qr) (p : problem f64) (sym : symbolic_qr) (n : nat)
  (st : lm_state f64) : bool :=
  match retries solver p sym n st with
  | Some st =>
      match lm_lambda st, lm_try solver p sym st with
      | SpecFloat.S754_infinity false, Done (LmRetry (SpecFloat.S754_infinity false)) => true
      | _, _ => false
      end
  | None => false
  end.
Lemma runaway_inner solver p sym n st : runaway solver p sym n st = true ->
  forall fuel, lm_inner solver p fuel sym st = Timeout.
Proof.
  unfold runaway. intros H.
  destruct (retries _ _ sym n st) as [st'|] eqn:Er; [|discriminate].
  eapply retries_inner; [exact Er|].
  destruct (lm_lambda st') as [|[]| |] eqn:El; try discriminate.
  destruct (lm_try _ _ _ st') as [[[|[]| |]| | |]| |] eqn:Et; try discriminate.
  apply (fixed_inner _ _ _ _ _ Et). destruct st'. cbn in *. now rewrite El.
Qed.
Lemma try_same {F} {NF : Num F} colamd colamd' sort sort' (p : problem F) sym st : sorting sort -> sorting sort' ->
  NoDup (map fst (lm_jacobian st)) ->
  lm_try (qr_solver colamd sort) p sym st = lm_try (qr_solver colamd' sort') p sym st.
Proof.
  intros H H' N. unfold lm_try. cbn [ds_solve qr_solver].
  now rewrite (augmented_distinct sort sort' _ _ _ H H' N).
Qed.
Lemma inner_same {F} {NF : Num F} colamd colamd' sort sort' (p : problem F) sym fuel : sorting sort -> sorting sort' ->
  forall st, NoDup (map fst (lm_jacobian st)) ->
  lm_inner (qr_solver colamd sort) p fuel sym st = lm_inner (qr_solver colamd' sort') p fuel sym st.
Proof.
  intros H H'. induction fuel as [|fuel IH]; intros st N; [reflexivity|]. cbn [lm_inner].
  rewrite (try_same colamd colamd' sort sort' p sym st H H' N).
  destruct (lm_try _ p sym st) as [[l| | |]| |]; try reflexivity. cbn [obind]. now apply IH.
Qed.

Lemma permutation_01 q : Permutation q [0; 1] -> q = [0; 1] \/ q = [1; 0].
Proof.
  intros P. pose proof (Permutation_length P) as L. destruct q as [|a [|b [|]]]; try discriminate.
  apply Permutation_sym, Permutation_length_2_inv in P. tauto.
Qed.

(** A problem in two variables on which every retry fails *)
Section TwoVariables.
  Variables (p : problem f64) (x : list f64) (m : nat).
  Definition hang_state : lm_state f64 :=
    match lm_evaluate p x with
    | Done (rs, ts) => LmState x rs ts (norm_squared rs) (nunit / lit 2)%num
    | _ => LmState [] [] [] nzero nzero
    end.
  Definition hang_sym (q : list nat) : outcome symbolic_qr :=
    ds_build (qr_solver (F := f64) (ordered q) insertion_sort) m 2 (lm_jacobian hang_state).
  Definition final (q : list nat) : bool :=
    match hang_sym q with
    | Done sym => runaway (qr_solver (ordered q) insertion_sort) p sym 1030 hang_state
    | _ => false
    end.
  Lemma final_inner q sym : final q = true -> hang_sym q = Done sym ->
    forall fuel, lm_inner (qr_solver (ordered q) insertion_sort) p fuel sym hang_state = Timeout.
  Proof.
    unfold final. intros H Es. rewrite Es in H. exact (runaway_inner _ _ _ _ _ H).
  Qed.

  Theorem two_hang colamd sort fuel : orders_below 16 colamd -> sorting sort ->
    lm_evaluate p x = Done (lm_residuals hang_state, lm_jacobian hang_state) ->
    num_residuals p + num_variables p = m -> num_variables p = 2 -> m < 16 ->
    NoDup (map fst (lm_jacobian hang_state)) ->
    match augmented_matrix insertion_sort m 2 (lm_jacobian hang_state) with
    | Done a => (length (s_row_indices (m_structure a)) <? 16) && (s_ncols (m_structure a) =? 2) && (s_nrows (m_structure a) =? m)
    | _ => false
    end = true ->
    LmState x (lm_residuals hang_state) (lm_jacobian hang_state)
      (norm_squared (lm_residuals hang_state)) (nunit / lit 2)%num = hang_state ->
    nltb (lm_ssr hang_state) (tenm 8) = false ->
    final [0; 1] = true -> final [1; 0] = true ->
    levenberg_marquardt (qr_solver colamd sort) p fuel x = Timeout.
  Proof.
    intros Hc Hs Ee En E2 Hm16 N Hb Est Eb F1 F2. unfold levenberg_marquardt, lm_trace.
    rewrite Ee. cbn [obind]. cbn [ds_build qr_solver]. rewrite En, E2.
    rewrite (augmented_distinct sort insertion_sort m 2 _ Hs insertion_sort_sorting N).
    destruct (augmented_matrix insertion_sort m 2 (lm_jacobian hang_state)) as [a| |] eqn:Ea; try discriminate.
    apply andb_true_iff in Hb as [Hb Hm]. apply andb_true_iff in Hb as [Ha Hn].
    apply Nat.ltb_lt in Ha. apply Nat.eqb_eq in Hn, Hm. cbn [obind].
    assert (W : well_formed (m_structure a)).
    { unfold augmented_matrix in Ea.
      destruct (convert_spec nadd insertion_sort (push_all (lm_jacobian hang_state) (triplet_new m 2))
        (lm_jacobian hang_state) insertion_sort_sorting) as (m' & E & W & _).
      { apply (push_all_holds (lm_jacobian hang_state) _ []). constructor. }
      rewrite E in Ea. injection Ea as <-. apply W. }
    destruct (Hc _ W) as (q & Eq & Hq); [lia|lia|lia|]. rewrite Hn in Hq.
    assert (Hf : final q = true) by (destruct (permutation_01 q Hq) as [-> | ->]; assumption).
    assert (Es : symbolic_build colamd (m_structure a) Colamd = hang_sym q).
    { unfold hang_sym. cbn [ds_build qr_solver]. rewrite Ea. cbn [obind]. unfold symbolic_build, ordered.
      now rewrite Eq. }
    rewrite Es. destruct (hang_sym q) as [sym| |] eqn:Eo; [|unfold final in Hf; rewrite Eo in Hf; discriminate..].
    cbn [obind]. change 100 with (S 99). generalize 99 as n. intros n. cbn [lm_outer].
    rewrite Est, Eb.
    rewrite (inner_same colamd (ordered q) sort insertion_sort _ _ _ Hs insertion_sort_sorting _ N).
    rewrite (final_inner q sym Hf Eo). reflexivity.
  Qed.
End TwoVariables.
Ltac two_hang m := apply (two_hang _ _ m); [assumption|assumption|vm_compute; reflexivity|reflexivity|reflexivity|lia|
  vm_compute; repeat constructor; cbn; intuition discriminate|vm_compute; reflexivity..].

Theorem lm_hangs colamd sort fuel : orders_below 16 colamd -> sorting sort ->
  levenberg_marquardt (qr_solver colamd sort) origin_problem fuel nan2 = Timeout.
Proof. intros Hc Hs. two_hang 4. Qed.

(* ----- L-BFGS: a bisection between NaNs ----- *)

Section LbfgsStuck.
  Context {F : Type} {NF : Num F}.
  Variables (p : problem F) (vs dir : list F) (phi0 dphi0 : F).

  (** The bisection goes round in a circle *)
  Lemma bisection_stuck buf a d :
    calculate_phi p vs dir buf ((nunit - hz_theta) * pp a + hz_theta * pp d)%num = Done (d, buf) ->
    (nzero <=? dphi d)%num = false -> (phi d <=? phi0 + hz_epsilon)%num = false ->
    forall fuel, update_loop p vs dir phi0 fuel buf a d = Timeout.
  Proof.
    intros E1 E2 E3. induction fuel as [|fuel IH]; [reflexivity|]. cbn [update_loop]. rewrite E1. cbn [obind].
    now rewrite E2, E3.
  Qed.
  Lemma bisection_step buf buf' a b d :
    calculate_phi p vs dir buf ((nunit - hz_theta) * pp a + hz_theta * pp b)%num = Done (d, buf') ->
    (nzero <=? dphi d)%num = false -> (phi d <=? phi0 + hz_epsilon)%num = false ->
    (forall fuel, update_loop p vs dir phi0 fuel buf' a d = Timeout) ->
    forall fuel, update_loop p vs dir phi0 fuel buf a b = Timeout.
  Proof.
    intros E1 E2 E3 H [|fuel]; [reflexivity|]. cbn [update_loop]. rewrite E1. cbn [obind]. now rewrite E2, E3.
  Qed.
  Lemma update_stuck fuel buf a b c :
    ((pp c <? pp a) || (pp b <? pp c))%num = false -> (nzero <=? dphi c)%num = false ->
    (phi c <=? phi0 + hz_epsilon)%num = false -> update_loop p vs dir phi0 fuel buf a c = Timeout ->
    update p vs dir phi0 fuel buf a b c = Timeout.
  Proof. intros E1 E2 E3 H. unfold update. now rewrite E1, E2, E3. Qed.
  Lemma secant2_stuck fuel buf buf' a b c : calculate_phi p vs dir buf (secant a b) = Done (c, buf') ->
    satisfies_wolfe phi0 dphi0 c = false -> update p vs dir phi0 fuel buf' a b c = Timeout ->
    secant2 p vs dir phi0 dphi0 fuel buf a b = Timeout.
  Proof. intros E1 E2 H. unfold secant2. rewrite E1. cbn [obind]. rewrite E2, H. reflexivity. Qed.
  Lemma run_stuck fuel buf buf1 buf2 b c : calculate_phi p vs dir buf nunit = Done (c, buf1) ->
    satisfies_wolfe phi0 dphi0 c = false -> calculate_phi p vs dir buf1 (lit 5) = Done (b, buf2) ->
    secant2 p vs dir phi0 dphi0 fuel buf2 (Param nzero phi0 dphi0) b = Timeout ->
    hz_run p vs dir phi0 dphi0 fuel buf = Timeout.
  Proof.
    intros E1 E2 E3 H. unfold hz_run. rewrite E1. cbn [obind]. rewrite E2, E3. cbn [obind].
    change 100 with (S 99). generalize 99 as n. intros n. cbn [search]. rewrite H. reflexivity.
  Qed.
  Lemma lbfgs_stuck fuel x rs jac d alpha :
    calculate_residuals_and_jacobian p x (repeat (repeat nzero (num_variables p)) (num_residuals p)) = Done (rs, jac) ->
    (sum_squares rs <? tenm 4)%num = false ->
    let z := repeat nzero (num_variables p) in
    let g := compute_gradient (num_variables p) jac rs in
    step_direction 0 (History (repeat z max_history) (repeat z max_history) (repeat nzero max_history))
      (repeat nzero max_history) g = Done (d, alpha) ->
    hz_run p x d (sum_squares rs) (dot_product g d) fuel (Buffers x rs jac g) = Timeout ->
    lbfgs fuel p x = Timeout.
  Proof.
    intros E1 E2 z g E3 H. unfold lbfgs, lbfgs_trace. rewrite E1. cbn [obind]. rewrite E2.
    change 100 with (S 99). generalize 99 as n. intros n. cbn [lbfgs_rounds]. unfold lbfgs_round. cbn [l_history l_buffers l_alpha l_variables l_ssr b_gradient].
    fold z. fold g. rewrite E3. cbn [obind]. unfold line_search. cbn [b_gradient]. rewrite H. reflexivity.
  Qed.
End LbfgsStuck.

Theorem lbfgs_hangs fuel : lbfgs fuel origin_problem nan2 = Timeout.
Proof.
  eapply lbfgs_stuck; [vm_compute; reflexivity|vm_compute; reflexivity|vm_compute; reflexivity|].
  eapply run_stuck; [vm_compute; reflexivity|vm_compute; reflexivity|vm_compute; reflexivity|].
  eapply secant2_stuck; [vm_compute; reflexivity|vm_compute; reflexivity|].
  eapply update_stuck; [vm_compute; reflexivity|vm_compute; reflexivity|vm_compute; reflexivity|].
  eapply bisection_step; [vm_compute; reflexivity|vm_compute; reflexivity|vm_compute; reflexivity|].
  eapply bisection_stuck; vm_compute; reflexivity.
Qed.

Theorem origin_hangs colamd sort order assembly o fuel : orders_below 16 colamd -> sorting sort ->
  solve (fiksi_env colamd sort fuel order assembly) (Options o DecomposeNone true) (snd origin) = Timeout.
Proof.
  intros Hc Hs. apply origin_solve. unfold optimize. fold origin_problem.
  destruct o; [now apply lm_hangs|apply lbfgs_hangs].
Qed.
Lemma origin_history env : history env 0%N (fst origin) (snd origin).
Proof.
  assert (E : replay env origin_calls [] (system_new 0) = Some origin) by (vm_compute; reflexivity).
  destruct origin as [l s]. exact (replay_history env 0%N origin_calls [] (system_new 0) l s (h_new _ _) E).
Qed.
