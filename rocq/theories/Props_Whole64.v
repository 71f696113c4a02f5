(** C50-C52: where they fail, shown by running the model in IEEE binary64. *)
From Coq Require Import List Arith NArith ZArith Permutation.
From Verif Require Import Num Outcome ModelExpr ModelGraph ModelSystem ModelSolve ModelApi
  ModelSparse ModelColamd ModelOptimize ModelAssembly Spec_Solver Spec_History Spec_Descent Demo
  Props_Sparse Props_Assembly.
Import ListNotations.
Local Open Scope nat_scope.

Definition run64 : solver_env f64 := whole_env colamd_ordering insertion_sort 60 60 ascending.
(** The same, except that solving does not return if the optimizer fails to
    bring the sum of squares of one of its problems below 1e-8 *)
Definition checked64 : solver_env f64 := {|
  env_optimize := fun o p x =>
    let! y := env_optimize run64 o p x in
    match objective p y with
    | Some a => if nltb a (tenm 8) then Done y else Timeout
    | None => Timeout
    end;
  env_order := env_order run64;
  env_assembly := env_assembly run64 |}.
Definition still : options := Options LevenbergMarquardt DecomposeNone false.


Definition at1 (p q : nat) : call f64 := CreatePointPointDistance (dp p) (dp q) (z64 1).
Definition on_axis (x : Z) : call f64 := CreatePoint (z64 x) (z64 0).
Definition star : list (call f64) :=
  map on_axis [1; 2; 3; 6; 7; 7; 7; 7]%Z ++
  map (fun '(a, b) => at1 a b) [(0, 1); (2, 3); (1, 2); (3, 4); (3, 5); (3, 6); (3, 7)].
Definition squares (s : system f64) (ks : list chandle) : outcome f64 :=
  let! xs := omap (fun k => constraint_residual k s) ks in Done (sum_squares xs).
Definition pair_at_5 a b c d : list (call f64) :=
  [CreatePoint (z64 a) (z64 b); CreatePoint (z64 c) (z64 d); CreatePointPointDistance (dp 0) (dp 1) (z64 5)].

Ltac play cs env opts l s s' H E2 :=
  destruct (replay env cs [] (system_new 7%N)) as [[l s]|] eqn:H; [|vm_compute in H; discriminate];
  exists l, s; split; [eapply replay_history; [constructor|exact H]|];
  vm_compute in H; inversion H; subst; clear H;
  match goal with |- context [solve env opts ?st] =>
    destruct (solve env opts st) as [s'| |] eqn:E2; [|vm_compute in E2; discriminate|vm_compute in E2; discriminate] end;
  exists s'; vm_compute in E2; inversion E2; subst; clear E2.

(** ** C50 and C52 are false when a constraint joins two groups.  Points at 1, 2,
    3, 6 on the axis are to be at distance 1 from one another, and four points
    at 7 at distance 1 from the one at 6.  Levenberg-Marquardt solves every
    problem it is given; afterwards a distance that was right is off by more
    than 1, and the sum of squares has more than doubled: the point at 6 has
    been moved by the group it was left in, and the groups of the constraints
    that tie the others to it do not contain it. *)
Theorem C50_merged_refuted : exists (l : log f64) s, history checked64 7%N l s /\
  exists s' k x, solve checked64 still s = Done s' /\ In (RConstraint k) (map snd l) /\
    constraint_residual k s = Done (z64 0) /\
    constraint_residual k s' = Done x /\ nltb (z64 1) x = true.
Proof.
  play star checked64 still l s s' H E2.
  eexists _, _. split; [reflexivity|]. split; [simpl; left; reflexivity|].
  split; [vm_compute; reflexivity|]. split; [vm_compute; reflexivity|]. vm_compute. reflexivity.
Qed.
Print Assumptions C50_merged_refuted.
Theorem C52_merged_refuted : exists (l : log f64) s, history checked64 7%N l s /\
  exists s' a b, solve checked64 still s = Done s' /\
    squares s (created_constraints l) = Done a /\ squares s' (created_constraints l) = Done b /\
    nltb (nmul (z64 2) a) b = true.
Proof.
  play star checked64 still l s s' H E2.
  eexists _, _. split; [reflexivity|].
  split; [vm_compute; reflexivity|]. split; [vm_compute; reflexivity|]. vm_compute. reflexivity.
Qed.
Print Assumptions C52_merged_refuted.

(** ** C52 is false of the single-pass decomposer, even if every equation has a free
    coordinate of its own.  The point at (100,1) should be 100 from (0,0) and 101 from
    (200,0), and nearly is; the point at (100,-249) is 250 from it and 251 from
    (100,-500), as it should be.  Solving the first pair of equations moves the first
    point by 9, out of reach of the second pair: the sum of squares grows more than
    twentyfold. *)
Definition chain : list (call f64) :=
  [CreatePoint (z64 0) (z64 0); CreatePoint (z64 200) (z64 0); CreatePoint (z64 100) (z64 (-500));
   CreatePoint (z64 100) (z64 1); CreatePoint (z64 100) (z64 (-249)); Fix (dp 0); Fix (dp 1); Fix (dp 2);
   CreatePointPointDistance (dp 3) (dp 0) (z64 100); CreatePointPointDistance (dp 3) (dp 1) (z64 101);
   CreatePointPointDistance (dp 4) (dp 3) (z64 250); CreatePointPointDistance (dp 4) (dp 2) (z64 251)].
Theorem C52_single_pass_refuted : exists (l : log f64) s, history run64 7%N l s /\
  exists s' a b, solve run64 (Options LevenbergMarquardt SinglePass false) s = Done s' /\
    squares s (created_constraints l) = Done a /\ squares s' (created_constraints l) = Done b /\
    nltb (nmul (z64 20) a) b = true.
Proof.
  play chain run64 (Options LevenbergMarquardt SinglePass false) l s s' H E2.
  eexists _, _. split; [reflexivity|].
  split; [vm_compute; reflexivity|]. split; [vm_compute; reflexivity|]. vm_compute. reflexivity.
Qed.
Print Assumptions C52_single_pass_refuted.

(** ** C50 is false of the single-pass decomposer when there are more equations
    than free coordinates, even if they agree: the third of three distances from
    fixed points is not looked at.  Without a decomposer the point at (1,-1) goes
    to (0,12), where all three hold; with it the point goes to (0,-12), which is
    32 instead of 8 away from (0,20).  Every problem given to the optimizer is
    solved. *)
Definition three_ways : list (call f64) :=
  [CreatePoint (z64 (-5)) (z64 0); CreatePoint (z64 5) (z64 0); CreatePoint (z64 0) (z64 20);
   CreatePoint (z64 1) (z64 (-1)); Fix (dp 0); Fix (dp 1); Fix (dp 2);
   CreatePointPointDistance (dp 3) (dp 0) (z64 13); CreatePointPointDistance (dp 3) (dp 1) (z64 13);
   CreatePointPointDistance (dp 3) (dp 2) (z64 8)].
Theorem C50_overdetermined_refuted : exists (l : log f64) s, history checked64 7%N l s /\
  exists s', solve checked64 (Options LevenbergMarquardt SinglePass false) s = Done s' /\
    (exists k x, In (RConstraint k) (map snd l) /\ constraint_residual k s' = Done x /\ nltb (z64 23) x = true) /\
    exists s2 a, solve checked64 (Options LevenbergMarquardt DecomposeNone false) s = Done s2 /\
      squares s2 (created_constraints l) = Done a /\ nltb a (tenm 8) = true.
Proof.
  play three_ways checked64 (Options LevenbergMarquardt SinglePass false) l s s' H E2.
  split; [reflexivity|]. split.
  - eexists _, _. split; [simpl; left; reflexivity|]. split; [vm_compute; reflexivity|]. vm_compute. reflexivity.
  - match goal with |- context [solve checked64 ?o ?st] =>
      destruct (solve checked64 o st) as [s2| |] eqn:E2; [|vm_compute in E2; discriminate|vm_compute in E2; discriminate] end.
    exists s2. vm_compute in E2. inversion E2; subst; clear E2. eexists.
    split; [reflexivity|]. split; [vm_compute; reflexivity|]. vm_compute. reflexivity.
Qed.
Print Assumptions C50_overdetermined_refuted.

(** ** C51 is false with the default options: the points (0,0) and (3,4) at
    distance 5 are moved by the perturbation, and not moved back. *)
Theorem C51_default_refuted : exists (l : log f64) s, history run64 7%N l s /\
  exists s', solve run64 default_options s = Done s' /\ squares s (created_constraints l) = Done (z64 0) /\
    get_value (dp 0) s = Done (VPoint (z64 0, z64 0)) /\ get_value (dp 1) s = Done (VPoint (z64 3, z64 4)) /\
    get_value (dp 0) s' <> get_value (dp 0) s /\ get_value (dp 1) s' <> get_value (dp 1) s.
Proof.
  play (pair_at_5 0 0 3 4)%Z run64 default_options l s s' H E2.
  split; [reflexivity|]. split; [vm_compute; reflexivity|].
  split; [vm_compute; reflexivity|]. split; [vm_compute; reflexivity|].
  split; vm_compute; discriminate.
Qed.
Print Assumptions C51_default_refuted.

(** It is false in binary64 even without perturbation: scaling the coordinate 7
    down and up again gives a number below 7. *)
Theorem C51_rounding_refuted : exists (l : log f64) s, history run64 7%N l s /\
  exists s' x y, solve run64 still s = Done s' /\ squares s (created_constraints l) = Done (z64 0) /\
    get_value (dp 0) s = Done (VPoint (z64 7, z64 11)) /\
    get_value (dp 0) s' = Done (VPoint (x, y)) /\ nltb x (z64 7) = true.
Proof.
  play (pair_at_5 7 11 10 15)%Z run64 still l s s' H E2.
  eexists _, _. split; [reflexivity|]. split; [vm_compute; reflexivity|].
  split; [vm_compute; reflexivity|]. split; [vm_compute; reflexivity|]. vm_compute. reflexivity.
Qed.
Print Assumptions C51_rounding_refuted.

(** L-BFGS takes a sketch for solved whose misfit is below 1e-4 to begin with (once
    running it goes on until 1e-6): two points 200 apart that are to be 201 apart
    stay where they are but for rounding; Levenberg-Marquardt moves them. *)
Definition nearly_201 : list (call f64) :=
  [CreatePoint (z64 0) (z64 0); CreatePoint (z64 200) (z64 0); CreatePointPointDistance (dp 0) (dp 1) (z64 201)].
Example C51_off_by_one : exists (l : log f64) s, history run64 7%N l s /\
  exists s', solve run64 (Options LBfgs DecomposeNone false) s = Done s' /\
    (exists b, squares s' (created_constraints l) = Done b /\ nltb (ndiv (z64 99) (z64 100)) b = true) /\
    exists s2 a, solve run64 still s = Done s2 /\
      squares s2 (created_constraints l) = Done a /\ nltb a (tenm 3) = true.
Proof.
  play nearly_201 run64 (Options LBfgs DecomposeNone false) l s s' H E2.
  split; [reflexivity|]. split; [eexists; split; [vm_compute; reflexivity|vm_compute; reflexivity]|].
  match goal with |- context [solve run64 ?o ?st] =>
    destruct (solve run64 o st) as [s2| |] eqn:E3; [|vm_compute in E3; discriminate|vm_compute in E3; discriminate] end.
  vm_compute in E3. inversion E3; subst; clear E3.
  eexists _, _. split; [reflexivity|]. split; [vm_compute; reflexivity|]. vm_compute. reflexivity.
Qed.

(** ** C56 is false: the line search goes backwards and uphill.  Two fixed points are 10 apart,
    and a third one, nearly in their middle, is to be 6 from both.  L-BFGS takes it to
    the line through the two, away from both solutions, and stops: the sum of squares is larger
    than before.  (Near the middle the slope grows with the distance from the line, so the
    secant through the slopes at steps 0 and 5 proposes the step back to the line; there the
    approximate Wolfe conditions hold.)  Levenberg-Marquardt solves the sketch. *)
Definition lbfgs_still : options := Options LBfgs DecomposeNone false.
Definition off_middle : f64 := ndiv (z64 1) (z64 256).
Definition nearly_between : list (call f64) :=
  [CreatePoint (z64 0) (z64 0); CreatePoint (z64 10) (z64 0); CreatePoint (z64 5) off_middle; Fix (dp 0); Fix (dp 1);
   CreatePointPointDistance (dp 2) (dp 0) (z64 6); CreatePointPointDistance (dp 2) (dp 1) (z64 6)].
Theorem C56_refuted : exists (l : log f64) s, history run64 7%N l s /\
  exists s' x y a b, solve run64 lbfgs_still s = Done s' /\
    get_value (dp 2) s = Done (VPoint (z64 5, off_middle)) /\
    get_value (dp 2) s' = Done (VPoint (x, y)) /\ nltb (nabs y) (tenm 6) = true /\
    squares s (created_constraints l) = Done a /\ squares s' (created_constraints l) = Done b /\ nltb a b = true /\
    exists s2 c, solve run64 still s = Done s2 /\
      squares s2 (created_constraints l) = Done c /\ nltb c (tenm 6) = true.
Proof.
  play nearly_between run64 lbfgs_still l s s' H E2.
  eexists _, _, _, _. split; [reflexivity|]. do 2 (split; [vm_compute; reflexivity|]).
  split; [vm_compute; reflexivity|]. do 2 (split; [vm_compute; reflexivity|]). split; [vm_compute; reflexivity|].
  match goal with |- context [solve run64 ?o ?st] =>
    destruct (solve run64 o st) as [s2| |] eqn:E3; [|vm_compute in E3; discriminate|vm_compute in E3; discriminate] end.
  vm_compute in E3. inversion E3; subst; clear E3.
  eexists _, _. split; [reflexivity|]. split; [vm_compute; reflexivity|]. vm_compute. reflexivity.
Qed.
Print Assumptions C56_refuted.

(** ** C57 is false of L-BFGS: three points on a line, at 0, 1 and 2, are to be at distance 1
    from one another, which they are in an equilateral triangle.  Started with perturbation,
    L-BFGS leaves them within 1e-4 of the line, with a sum of squares above 3/10.
    Levenberg-Marquardt finds the triangle. *)
Definition three_in_line : list (call f64) :=
  [CreatePoint (z64 0) (z64 0); CreatePoint (z64 1) (z64 0); CreatePoint (z64 2) (z64 0);
   CreatePointPointDistance (dp 0) (dp 1) (z64 1); CreatePointPointDistance (dp 1) (dp 2) (z64 1);
   CreatePointPointDistance (dp 0) (dp 2) (z64 1)].
Theorem C57_refuted : exists (l : log f64) s, history run64 7%N l s /\
  exists s' a, solve run64 (Options LBfgs DecomposeNone true) s = Done s' /\
    (forall i, i < 3 -> exists x y, get_value (dp i) s' = Done (VPoint (x, y)) /\ nltb (nabs y) (tenm 4) = true) /\
    squares s' (created_constraints l) = Done a /\ nltb (ndiv (z64 3) (z64 10)) a = true /\
    exists s2 b, solve run64 default_options s = Done s2 /\
      squares s2 (created_constraints l) = Done b /\ nltb b (tenm 6) = true.
Proof.
  play three_in_line run64 (Options LBfgs DecomposeNone true) l s s' H E2.
  eexists _. split; [reflexivity|]. split.
  - intros [|[|[|i]]] Hi; [| | |exfalso; inversion Hi; inversion H0; inversion H2; inversion H4];
      (eexists _, _; split; [vm_compute; reflexivity|vm_compute; reflexivity]).
  - split; [vm_compute; reflexivity|]. split; [vm_compute; reflexivity|].
    match goal with |- context [solve run64 ?o ?st] =>
      destruct (solve run64 o st) as [s2| |] eqn:E3; [|vm_compute in E3; discriminate|vm_compute in E3; discriminate] end.
    vm_compute in E3. inversion E3; subst; clear E3.
    eexists _, _. split; [reflexivity|]. split; [vm_compute; reflexivity|]. vm_compute. reflexivity.
Qed.
Print Assumptions C57_refuted.
