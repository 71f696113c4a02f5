(** An ordinary triangle on which L-BFGS never returns in binary64.  The step
    the line search is looking for is longer than 5, where its bracket ends;
    bisecting narrows the bracket down to the single point 5, the secant step
    between a point and itself is 0/0, and the bisection with NaN as one end
    goes on for ever. *)
From Coq Require Import List Arith NArith ZArith Lia Bool.
From Verif Require Import Num Outcome Lib ModelExpr ModelGraph ModelSystem ModelSolve ModelApi ModelLbfgs
  ModelOptimize ModelLm ModelSparse ModelQr Spec_Sparse Spec_Qr Proofs_Optimize Spec_Solver Spec_History Demo Proofs_Hang.
Import ListNotations.
Local Open Scope nat_scope.

(* ----- more fuel does not change what is returned ----- *)

Definition extends {A} (m m' : outcome A) : Prop := m <> Timeout -> m' = m.
Lemma extends_refl {A} (m : outcome A) : extends m m.
Proof. intros _. reflexivity. Qed.
Lemma extends_bind {A B} (m m' : outcome A) (k k' : A -> outcome B) :
  extends m m' -> (forall x, extends (k x) (k' x)) -> extends (obind m k) (obind m' k').
Proof.
  intros Hm Hk H. destruct m as [x| |]; [rewrite (Hm ltac:(discriminate)); apply Hk, H| |elim H; reflexivity].
  now rewrite (Hm ltac:(discriminate)).
Qed.
Lemma extends_done {A} (m m' : outcome A) x : extends m m' -> m = Done x -> m' = Done x.
Proof. intros H E. rewrite (H ltac:(rewrite E; discriminate)). exact E. Qed.
Lemma extends_timeout {A} (m m' : outcome A) : extends m m' -> m' = Timeout -> m = Timeout.
Proof. intros H E. destruct m as [x| |]; [rewrite H in E; discriminate..|reflexivity]. Qed.

Section Fuel.
  Context {F : Type} {NF : Num F}.
  Variables (p : problem F).

  Lemma update_loop_more vs d phi0 f f' : f <= f' -> forall buf a b,
    extends (update_loop p vs d phi0 f buf a b) (update_loop p vs d phi0 f' buf a b).
  Proof.
    revert f'. induction f as [|f IH]; intros f' L buf a b; [intros H; now elim H|].
    destruct f' as [|f']; [lia|]. cbn [update_loop].
    apply extends_bind; [apply extends_refl|]. intros [d' buf'].
    destruct (nzero <=? dphi d')%num; [apply extends_refl|].
    destruct (_ <=? _)%num; apply IH; lia.
  Qed.
  Lemma update_more vs d phi0 f f' buf a b c : f <= f' ->
    extends (update p vs d phi0 f buf a b c) (update p vs d phi0 f' buf a b c).
  Proof.
    intros L. unfold update. repeat (match goal with |- extends (if ?b then _ else _) _ => destruct b end;
      [apply extends_refl|]). now apply update_loop_more.
  Qed.
  Lemma secant_again_more vs d phi0 dphi0 f f' buf a b u v : f <= f' ->
    extends (secant_again p vs d phi0 dphi0 f buf a b u v) (secant_again p vs d phi0 dphi0 f' buf a b u v).
  Proof.
    intros L. unfold secant_again. apply extends_bind; [apply extends_refl|]. intros [c buf'].
    destruct (satisfies_wolfe _ _ _); [apply extends_refl|].
    apply extends_bind; [now apply update_more|]. intros [[a' b'] buf'']. apply extends_refl.
  Qed.
  Lemma secant2_more vs d phi0 dphi0 f f' buf a b : f <= f' ->
    extends (secant2 p vs d phi0 dphi0 f buf a b) (secant2 p vs d phi0 dphi0 f' buf a b).
  Proof.
    intros L. unfold secant2. apply extends_bind; [apply extends_refl|]. intros [c buf'].
    destruct (satisfies_wolfe _ _ _); [apply extends_refl|].
    apply extends_bind; [now apply update_more|]. intros [[a' b'] buf''].
    destruct (_ =? _)%num; [now apply secant_again_more|].
    destruct (_ =? _)%num; [now apply secant_again_more|apply extends_refl].
  Qed.

  (** The bracket after [j] rounds of the search, if it goes on *)
  Fixpoint searched (vs d : list F) (phi0 dphi0 : F) (fuel j : nat) (buf : buffers F) (a b c : param F)
    : outcome (buffers F * param F * param F * param F) :=
    match j with
    | O => Done (buf, a, b, c)
    | S j =>
        let! (r, buf) := secant2 p vs d phi0 dphi0 fuel buf a b in
        match r with
        | Satisfied c => Panic
        | Unsatisfied a_ b_ =>
            if (hz_gamma * (pp b - pp a) <? pp b_ - pp a_)%num then
              let! (c, buf) := calculate_phi p vs d buf (hz_theta * (pp a + pp b))%num in
              if satisfies_wolfe phi0 dphi0 c then Panic
              else
                let! (a, b, buf) := update p vs d phi0 fuel buf a b c in
                searched vs d phi0 dphi0 fuel j buf a b c
            else searched vs d phi0 dphi0 fuel j buf a_ b_ c
        end
    end.
  Lemma searched_search vs d phi0 dphi0 fuel f j : forall n buf a b c buf' a' b' c', f <= fuel ->
    searched vs d phi0 dphi0 f j buf a b c = Done (buf', a', b', c') ->
    search p vs d phi0 dphi0 fuel (j + n) buf a b c = search p vs d phi0 dphi0 fuel n buf' a' b' c'.
  Proof.
    induction j as [|j IH]; cbn [searched plus search]; intros n buf a b c buf' a' b' c' L E;
      [injection E as <- <- <- <-; reflexivity|].
    destruct (secant2 p vs d phi0 dphi0 f buf a b) as [[r buf1]| |] eqn:E1; try discriminate.
    rewrite (extends_done _ _ _ (secant2_more vs d phi0 dphi0 f fuel buf a b L) E1). cbn [obind] in *.
    destruct r as [|a_ b_]; [discriminate|]. destruct (_ <? _)%num; [|now apply IH].
    destruct (calculate_phi _ _ _ _ _) as [[c1 buf2]| |]; try discriminate. cbn [obind] in *.
    destruct (satisfies_wolfe _ _ _); [discriminate|].
    destruct (update p vs d phi0 f buf2 a b c1) as [[[a2 b2] buf3]| |] eqn:E2; try discriminate.
    rewrite (extends_done _ _ _ (update_more vs d phi0 f fuel buf2 a b c1 L) E2). cbn [obind] in *. now apply IH.
  Qed.
  Lemma search_more vs d phi0 dphi0 f f' : f <= f' -> forall n buf a b c,
    extends (search p vs d phi0 dphi0 f n buf a b c) (search p vs d phi0 dphi0 f' n buf a b c).
  Proof.
    intros L. induction n as [|n IH]; intros buf a b c; [apply extends_refl|]. cbn [search].
    apply extends_bind; [now apply secant2_more|]. intros [[c1|a_ b_] buf1]; [apply extends_refl|].
    destruct (_ <? _)%num; [|apply IH].
    apply extends_bind; [apply extends_refl|]. intros [c1 buf2].
    destruct (satisfies_wolfe _ _ _); [apply extends_refl|].
    apply extends_bind; [now apply update_more|]. intros [[a2 b2] buf3]. apply IH.
  Qed.
  Lemma line_search_more f f' vs d ssr buf : f <= f' ->
    extends (line_search f p vs d ssr buf) (line_search f' p vs d ssr buf).
  Proof.
    intros L. unfold line_search, hz_run. apply extends_bind; [apply extends_refl|]. intros [c buf1].
    destruct (satisfies_wolfe _ _ _); [apply extends_refl|].
    apply extends_bind; [apply extends_refl|]. intros [b buf2]. now apply search_more.
  Qed.
  Lemma round_more f f' k st : f <= f' -> extends (lbfgs_round f p k st) (lbfgs_round f' p k st).
  Proof.
    intros L. unfold lbfgs_round. apply extends_bind; [apply extends_refl|]. intros [d alpha].
    apply extends_bind; [now apply line_search_more|]. intros [c buf]. apply extends_refl.
  Qed.
  Lemma rounds_more f f' : f <= f' -> forall n k st rs,
    extends (lbfgs_rounds f p n k st rs) (lbfgs_rounds f' p n k st rs).
  Proof.
    intros L. induction n as [|n IH]; intros k st rs; [apply extends_refl|]. cbn [lbfgs_rounds].
    apply extends_bind; [now apply round_more|]. intros [[go st'] r]. destruct go; [apply IH|apply extends_refl].
  Qed.
  Lemma lbfgs_more f f' x : f <= f' -> extends (lbfgs f p x) (lbfgs f' p x).
  Proof.
    intros L. unfold lbfgs, lbfgs_trace. apply extends_bind; [|intros [? ?]; apply extends_refl].
    apply extends_bind; [apply extends_refl|]. intros [rs jac]. cbv zeta.
    destruct (_ <? _)%num; [apply extends_refl|now apply rounds_more].
  Qed.

  (** The state after [j] rounds, if there are that many *)
  Fixpoint went (fuel j k : nat) (st : lbfgs_state F) : outcome (lbfgs_state F) :=
    match j with
    | O => Done st
    | S j => let! (go, st, _) := lbfgs_round fuel p k st in if (go : bool) then went fuel j (S k) st else Panic
    end.
  Lemma went_rounds f fuel j : forall n k st st' rs, f <= fuel -> went f j k st = Done st' ->
    exists rs', lbfgs_rounds fuel p (j + n) k st rs = lbfgs_rounds fuel p n (j + k) st' rs'.
  Proof.
    induction j as [|j IH]; cbn [went plus lbfgs_rounds]; intros n k st st' rs L E;
      [injection E as <-; now exists rs|].
    destruct (lbfgs_round f p k st) as [[[go st1] r]| |] eqn:E1; try discriminate.
    rewrite (extends_done _ _ _ (round_more f fuel k st L) E1). cbn [obind] in *.
    destruct go; [|discriminate]. replace (S (j + k)) with (j + S k) by lia. now apply IH.
  Qed.

  Definition initial (x rs : list F) (jac : list (list F)) : lbfgs_state F :=
    let z := repeat nzero (num_variables p) in
    LbfgsState x (Buffers x rs jac (compute_gradient (num_variables p) jac rs))
      (History (repeat z max_history) (repeat z max_history) (repeat nzero max_history)) (repeat nzero max_history)
      (sum_squares rs).

  (** If after [j] rounds, and [i] rounds of the search in the next one, the
      secant step is stuck, there is no result *)
  Lemma lbfgs_never f j i x rs jac st d alpha c b buf1 buf2 buf3 a' b' c' :
    calculate_residuals_and_jacobian p x (repeat (repeat nzero (num_variables p)) (num_residuals p)) = Done (rs, jac) ->
    (sum_squares rs <? tenm 4)%num = false -> j < 100 -> i < 100 ->
    went f j 0 (initial x rs jac) = Done st ->
    step_direction j (l_history st) (l_alpha st) (b_gradient (l_buffers st)) = Done (d, alpha) ->
    let phi0 := l_ssr st in let dphi0 := dot_product (b_gradient (l_buffers st)) d in
    calculate_phi p (l_variables st) d (l_buffers st) nunit = Done (c, buf1) ->
    satisfies_wolfe phi0 dphi0 c = false ->
    calculate_phi p (l_variables st) d buf1 (lit 5) = Done (b, buf2) ->
    searched (l_variables st) d phi0 dphi0 f i buf2 (Param nzero phi0 dphi0) b c = Done (buf3, a', b', c') ->
    (forall fuel, secant2 p (l_variables st) d phi0 dphi0 fuel buf3 a' b' = Timeout) ->
    forall fuel, lbfgs fuel p x = Timeout.
  Proof.
    intros E1 E2 Hj Hi E3 E4 phi0 dphi0 E5 E6 E7 E8 H fuel.
    enough (G : forall fuel, f <= fuel -> lbfgs fuel p x = Timeout).
    { destruct (le_lt_dec f fuel) as [L|L]; [now apply G|].
      apply (extends_timeout _ _ (lbfgs_more fuel f x ltac:(lia))). now apply G. }
    clear fuel. intros fuel L. unfold lbfgs, lbfgs_trace. rewrite E1. cbn [obind]. rewrite E2.
    fold (initial x rs jac).
    destruct (went_rounds f fuel j (S (99 - j)) 0 (initial x rs jac) st [] L E3) as [rs' Er].
    replace (j + S (99 - j)) with 100 in Er by lia. rewrite Er. clear Er. cbn [lbfgs_rounds].
    enough (Eq : lbfgs_round fuel p (j + 0) st = Timeout) by (rewrite Eq; reflexivity).
    rewrite Nat.add_0_r. unfold lbfgs_round. rewrite E4. cbn [obind]. unfold line_search. fold phi0 dphi0.
    enough (Eq : hz_run p (l_variables st) d phi0 dphi0 fuel (l_buffers st) = Timeout) by (rewrite Eq; reflexivity).
    unfold hz_run. rewrite E5. cbn [obind]. rewrite E6, E7. cbn [obind].
    replace 100 with (i + S (99 - i)) by lia.
    rewrite (searched_search _ _ _ _ _ f i (S (99 - i)) _ _ _ _ _ _ _ _ L E8). cbn [search].
    now rewrite H.
  Qed.
End Fuel.

(* ----- the triangle ----- *)

(** Two points fixed at (0,0) and (1,0), a third one at (-2,2), to be at
    distance 4 from both *)
Definition triangle_calls : list (call f64) :=
  let p i := EHandle 0%N i TPoint in
  [CreatePoint (lit 0) (lit 0); CreatePoint (lit 1) (lit 0); CreatePoint (lit (-2)) (lit 2);
   Fix (p 0); Fix (p 1);
   CreatePointPointDistance (p 2) (p 0) (lit 4); CreatePointPointDistance (p 2) (p 1) (lit 4)].
Definition triangle : log f64 * system f64 :=
  match replay demo_env triangle_calls [] (system_new 0) with Some r => r | None => ([], system_new 0) end.

Definition triangle_scaled : system f64 := scale_system (calculate_system_scale (snd triangle)) (snd triangle).
Definition triangle_component : component :=
  match components (sys_graph triangle_scaled) with [c] => c | _ => Component [] [] end.
(** What the optimizer is given *)
Definition given (perturb : bool) : outcome (subsystem f64 * list f64) :=
  let s := triangle_scaled in
  let! free := component_free_variables s (c_elements triangle_component) in
  let! (_, vt) := if perturb then perturb_variables free 42%N (sys_variables_transformed s)
                  else Done (42%N, sys_variables_transformed s) in
  let! values := omap (oget vt) free in
  let! es := component_expressions s (c_constraints triangle_component) in
  Done (subsystem_new vt (sys_expressions_transformed s) free es, values).
Definition given_ss (perturb : bool) : subsystem f64 :=
  match given perturb with Done (ss, _) => ss | _ => Subsystem [] [] [] [] end.
Definition given_values (perturb : bool) : list f64 :=
  match given perturb with Done (_, v) => v | _ => [] end.

Lemma component_stuck2 {F} {NF : Num F} env o perturb scale rng s c e l free rng' vt values es :
  c_elements c = e :: l -> component_free_variables s (c_elements c) = Done free ->
  (if (perturb : bool) then perturb_variables free rng (sys_variables_transformed s)
   else Done (rng, sys_variables_transformed s)) = Done (rng', vt) ->
  omap (oget vt) free = Done values -> component_expressions (F := F) s (c_constraints c) = Done es ->
  env_optimize env o (subsystem_problem (subsystem_new vt (sys_expressions_transformed s) free es)) values = Timeout ->
  solve_component env (Options o DecomposeNone perturb) scale (rng, s) c = Timeout.
Proof.
  intros E1 E2 E3 E4 E5 E6. unfold solve_component. rewrite E1, <- E1. cbn [o_perturb o_decomposer o_optimizer].
  rewrite E2. cbn [obind]. rewrite E3. cbn [obind]. unfold solve_none.
  cbn [with_values sys_variables_transformed sys_expressions_transformed].
  match goal with |- context [component_expressions ?s' (c_constraints c)] =>
    change (component_expressions s' (c_constraints c)) with (component_expressions s (c_constraints c)) end.
  rewrite E4. cbn [obind]. rewrite E5. cbn [obind]. rewrite E6. reflexivity.
Qed.

Lemma triangle_solve opt order assembly o perturb :
  opt o (subsystem_problem (given_ss perturb)) (given_values perturb) = Timeout ->
  solve (SolverEnv opt order assembly) (Options o DecomposeNone perturb) (snd triangle) = Timeout.
Proof.
  intros E. unfold solve. cbv zeta. fold triangle_scaled.
  assert (Ec : components (sys_graph triangle_scaled) = [triangle_component]) by (vm_compute; reflexivity).
  rewrite Ec. cbn [ofold].
  destruct perturb;
    (erewrite component_stuck2; [reflexivity|vm_compute; reflexivity..|];
    cbn [env_optimize];
    match type of E with opt o (subsystem_problem ?s1) ?v1 = _ =>
      match goal with |- opt o (subsystem_problem ?s2) ?v2 = _ =>
        replace s2 with s1 by (vm_compute; reflexivity); replace v2 with v1 by (vm_compute; reflexivity) end end;
    exact E).
Qed.

Theorem lbfgs_triangle perturb fuel : lbfgs fuel (subsystem_problem (given_ss perturb)) (given_values perturb) = Timeout.
Proof.
  destruct perturb.
  all: eapply (lbfgs_never _ 1 2 53); [vm_compute; reflexivity|vm_compute; reflexivity|lia|lia|vm_compute; reflexivity|
    vm_compute; reflexivity|vm_compute; reflexivity|vm_compute; reflexivity|vm_compute; reflexivity|
    vm_compute; reflexivity|].
  all: intros f; eapply secant2_stuck; [vm_compute; reflexivity|vm_compute; reflexivity|];
    eapply update_stuck; [vm_compute; reflexivity|vm_compute; reflexivity|vm_compute; reflexivity|];
    eapply bisection_step; [vm_compute; reflexivity|vm_compute; reflexivity|vm_compute; reflexivity|];
    eapply bisection_stuck; vm_compute; reflexivity.
Qed.

Theorem triangle_hangs colamd sort order assembly perturb fuel :
  solve (fiksi_env colamd sort fuel order assembly) (Options LBfgs DecomposeNone perturb) (snd triangle) = Timeout.
Proof. apply triangle_solve. unfold optimize. apply lbfgs_triangle. Qed.

Lemma triangle_history env : history env 0%N (fst triangle) (snd triangle).
Proof.
  assert (E : replay env triangle_calls [] (system_new 0) = Some triangle) by (vm_compute; reflexivity).
  destruct triangle as [l s]. exact (replay_history env 0%N triangle_calls [] (system_new 0) l s (h_new _ _) E).
Qed.

(* ----- points at the same place ----- *)

(** A point fixed at (1,1), and another one there, to be at distance 1 from it *)
Definition stacked_calls : list (call f64) :=
  let p i := EHandle 0%N i TPoint in
  [CreatePoint (lit 1) (lit 1); CreatePoint (lit 1) (lit 1); Fix (p 0); CreatePointPointDistance (p 0) (p 1) (lit 1)].
Definition stacked : log f64 * system f64 :=
  match replay demo_env stacked_calls [] (system_new 0) with Some r => r | None => ([], system_new 0) end.
Definition stacked_scaled : system f64 := scale_system (calculate_system_scale (snd stacked)) (snd stacked).
Definition stacked_component : component :=
  match components (sys_graph stacked_scaled) with [c] => c | _ => Component [] [] end.
Definition stacked_given : outcome (subsystem f64 * list f64) :=
  let s := stacked_scaled in
  let! free := component_free_variables s (c_elements stacked_component) in
  let! values := omap (oget (sys_variables_transformed s)) free in
  let! es := component_expressions s (c_constraints stacked_component) in
  Done (subsystem_new (sys_variables_transformed s) (sys_expressions_transformed s) free es, values).
Definition stacked_problem : problem f64 :=
  subsystem_problem match stacked_given with Done (ss, _) => ss | _ => Subsystem [] [] [] [] end.
Definition stacked_values : list f64 := match stacked_given with Done (_, v) => v | _ => [] end.

Lemma stacked_solve opt order assembly o : opt o stacked_problem stacked_values = Timeout ->
  solve (SolverEnv opt order assembly) (Options o DecomposeNone false) (snd stacked) = Timeout.
Proof.
  intros E. unfold solve. cbv zeta. fold stacked_scaled.
  assert (Ec : components (sys_graph stacked_scaled) = [stacked_component]) by (vm_compute; reflexivity).
  rewrite Ec. cbn [ofold].
  erewrite component_stuck2; [reflexivity|vm_compute; reflexivity..|].
  cbn [env_optimize]. unfold stacked_problem in E.
  match type of E with opt o (subsystem_problem ?s1) ?v1 = _ =>
    match goal with |- opt o (subsystem_problem ?s2) ?v2 = _ =>
      replace s2 with s1 by (vm_compute; reflexivity); replace v2 with v1 by (vm_compute; reflexivity) end end.
  exact E.
Qed.

Theorem stacked_hangs colamd sort order assembly o fuel : orders_below 16 colamd -> sorting sort ->
  solve (fiksi_env colamd sort fuel order assembly) (Options o DecomposeNone false) (snd stacked) = Timeout.
Proof.
  intros Hc Hs. apply stacked_solve. unfold optimize. destruct o; [two_hang 3|].
  eapply lbfgs_stuck; [vm_compute; reflexivity|vm_compute; reflexivity|vm_compute; reflexivity|].
  eapply run_stuck; [vm_compute; reflexivity|vm_compute; reflexivity|vm_compute; reflexivity|].
  eapply secant2_stuck; [vm_compute; reflexivity|vm_compute; reflexivity|].
  eapply update_stuck; [vm_compute; reflexivity|vm_compute; reflexivity|vm_compute; reflexivity|].
  eapply bisection_step; [vm_compute; reflexivity|vm_compute; reflexivity|vm_compute; reflexivity|].
  eapply bisection_stuck; vm_compute; reflexivity.
Qed.
Lemma stacked_history env : history env 0%N (fst stacked) (snd stacked).
Proof.
  assert (E : replay env stacked_calls [] (system_new 0) = Some stacked) by (vm_compute; reflexivity).
  destruct stacked as [l s]. exact (replay_history env 0%N stacked_calls [] (system_new 0) l s (h_new _ _) E).
Qed.
