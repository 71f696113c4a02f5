(** Recursive assembly: C38, C43, and C06 and C08 for it.  Statements use the model,
    [Spec_Assembly.v], [Spec_History.v] and [Spec_Components.v] only. *)
From Coq Require Import List Arith NArith ZArith Lia Permutation.
From Verif Require Import Num Outcome Lib ModelExpr ModelGraph ModelSystem ModelSolve ModelApi ModelSparse ModelOptimize ModelAssembly
  Spec_Solver Spec_History Spec_Components Spec_Assembly Demo Proofs_Api Proofs_Assembly Proofs_AssemblyFrame Proofs_Plan
  Proofs_Incidence Props_Sparse.
Import ListNotations.
Local Open Scope nat_scope.

(** ** C08, with all parts of the solver as modelled: by any decomposer and in any
    order in which hash sets are gone through, solving leaves a point or length
    in no constraint where it is. *)
Theorem C08_whole_solver : forall (F : Type) (NF : Num F) colamd sort fuel search order id (l : log F) s o s' r h,
  (forall vs, Permutation (order vs) vs) ->
  history (whole_env colamd sort fuel search order) id l s ->
  step (whole_env colamd sort fuel search order) (Solve o) s = Done (s', r) ->
  In (RElement h) (map snd l) ->
  (forall p, In p (parts l h) -> ~ is_constrained l p) ->
  get_value h s' = get_value h s.
Proof.
  intros F NF colamd sort fuel search order id l s o s' r h O.
  exact (solve_frame_any _ id l s o s' r h (whole_env_ok colamd sort fuel search order O)).
Qed.
Print Assumptions C08_whole_solver.

(** ** C43: the plan for a group that constraints do not lead out of *)
Theorem C43_plan : forall order fuel search d g vertices edges plan,
  (forall vs, Permutation (order vs) vs) -> closed_part g vertices edges ->
  decompose order fuel search d g vertices edges = Done plan -> plan_for g edges plan.
Proof.
  intros order fuel search d g vertices edges plan O C. exact (decompose_covers order O g vertices edges C fuel search d plan).
Qed.
Print Assumptions C43_plan.
(** After a history which never brings together two groups (see C17) every group
    is such. *)
Theorem C43_groups : forall (F : Type) (NF : Num F) (env : solver_env F) id (l : log F) s c order fuel search plan,
  env_ok env -> history env id l s -> never_merges l -> In c (components (sys_graph s)) ->
  (forall vs, Permutation (order vs) vs) ->
  decompose order fuel search 3 (sys_graph s) (c_elements c) (c_constraints c) = Done plan ->
  plan_for (sys_graph s) (c_constraints c) plan.
Proof.
  intros F NF env id l s c order fuel search plan EO H T Hc O.
  apply decompose_covers; [exact O|]. eapply unmerged_closed; eauto.
Qed.
Print Assumptions C43_groups.

(** Hash sets gone through in ascending order *)
Fixpoint insert_up (x : nat) (l : list nat) : list nat :=
  match l with
  | [] => [x]
  | y :: l' => if x <=? y then x :: l else y :: insert_up x l'
  end.
Definition ascending (l : list nat) : list nat := fold_right insert_up [] l.
Lemma insert_up_perm x l : Permutation (insert_up x l) (x :: l).
Proof.
  induction l as [|y l IH]; simpl; [apply Permutation_refl|]. destruct (x <=? y); [apply Permutation_refl|].
  eapply Permutation_trans; [apply perm_skip, IH|apply perm_swap].
Qed.
Lemma ascending_perm l : Permutation (ascending l) l.
Proof.
  induction l as [|x l IH]; simpl; [constructor|].
  eapply Permutation_trans; [apply insert_up_perm|]. now apply perm_skip.
Qed.
(** Points joined by distances and angles; the points of each constraint *)
Definition points (n : nat) : list (call f64) := map (fun i => CreatePoint (z64 (Z.of_nat i)) (z64 0)) (seq 0 n).
Definition joins (cs : list (list nat)) : list (call f64) :=
  map (fun ps => match ps with
                 | [a; b] => CreatePointPointDistance (dp a) (dp b) (z64 1)
                 | [a; b; c] => CreatePointPointPointAngle (dp a) (dp b) (dp c) (z64 1)
                 | _ => GetElementHandles
                 end) cs.
Definition sketch_of n cs := replay demo_env (points n ++ joins cs) [] (system_new 7%N).
Lemma sketch_history n cs l s : sketch_of n cs = Some (l, s) -> history demo_env 7%N l s.
Proof. intros E. eapply replay_history; [constructor|exact E]. Qed.

(** Two triangles that share a side: five constraints *)
Definition triangles := [[0; 1]; [1; 2]; [2; 0]; [0; 3]; [3; 1]].
Example C43_example : exists l s c plan, history demo_env 7%N l s /\ In c (components (sys_graph s)) /\
  closed_part (sys_graph s) (c_elements c) (c_constraints c) /\
  decompose ascending 20 1000 3 (sys_graph s) (c_elements c) (c_constraints c) = Done plan /\
  map st_constraints plan = [[0]; [2]; [3]; [1]; [4]].
Proof.
  destruct (sketch_of 4 triangles) as [[l s]|] eqn:E; [|vm_compute in E; discriminate].
  assert (H := sketch_history _ _ _ _ E).
  assert (X : nth_error (components (sys_graph s)) 0 = Some (Component [0; 1; 2; 3] [0; 1; 2; 3; 4]) /\
    map incident_elements (g_constraints (sys_graph s)) = triangles /\
    exists plan, decompose ascending 20 1000 3 (sys_graph s) [0; 1; 2; 3] [0; 1; 2; 3; 4] = Done plan /\
      map st_constraints plan = [[0]; [2]; [3]; [1]; [4]]).
  { clear H. vm_compute in E. inversion E; subst; clear E. vm_compute. split; [auto|]. split; [auto|]. eexists. split; reflexivity. }
  destruct X as (X1 & X2 & plan & X3 & X4). apply nth_error_In in X1.
  exists l, s, (Component [0; 1; 2; 3] [0; 1; 2; 3; 4]), plan. split; [auto|]. split; [auto|]. split; [|auto].
  apply (group_closed demo_env 7%N l); [exact demo_env_ok|exact H|auto|].
  intros k gc Hk Hg. cbn [c_elements].
  assert (Y : nth_error triangles k = Some (incident_elements gc)) by (rewrite <- X2, nth_error_map, Hg; auto).
  apply nth_error_In in Y. simpl in Y. intros x Hx.
  repeat (destruct Y as [Y|Y]; [rewrite <- Y in Hx; simpl in Hx; simpl; intuition lia|]). destruct Y.
Qed.

(** The distance from 0 to 1 is asked to be 1 and is 2; nothing is asked of point 2.  Solving by
    recursive assembly returns, moves 1 and leaves 2. *)
Definition apart : list (call f64) := [
  CreatePoint (z64 0) (z64 0); CreatePoint (z64 2) (z64 0); CreatePoint (z64 5) (z64 5);
  CreatePointPointDistance (dp 0) (dp 1) (z64 1)].
Definition run_env : solver_env f64 := whole_env (fun s => Done (seq 0 (s_ncols s))) insertion_sort 30 30 ascending.
Example C08_example : exists l s s' r, history run_env 7%N l s /\
  step run_env (Solve (Options LevenbergMarquardt RecursiveAssembly false)) s = Done (s', r) /\
  In (RElement (dp 2)) (map snd l) /\ (forall p, In p (parts l (dp 2)) -> ~ is_constrained l p) /\
  get_value (dp 1) s' <> get_value (dp 1) s.
Proof.
  destruct (replay run_env apart [] (system_new 7%N)) as [[l s]|] eqn:E; [|vm_compute in E; discriminate].
  exists l, s. assert (H : history run_env 7%N l s) by (eapply replay_history; [constructor|exact E]).
  vm_compute in E. inversion E; subst; clear E.
  match goal with |- context [Solve ?o] => set (c := Solve o) end.
  destruct (step run_env c _) as [[s' r]| |] eqn:E2; vm_compute in E2; try discriminate.
  exists s', r. inversion E2; subst. split; [exact H|]. split; [reflexivity|]. split; [simpl; auto|]. split.
  - vm_compute. intros p [<-|[]] (c' & k & h & t & Hin & Hh & Hp). 
    destruct Hin as [Hin|Hin]; [|intuition discriminate]. inversion Hin; subst c' k. simpl in Hh.
    destruct Hh as [Hh|[Hh|[]]]; inversion Hh; subst h t; vm_compute in Hp; intuition discriminate.
  - vm_compute. discriminate.
Qed.

(** ** C38 is false: with three points and one angle, whatever the order in which hash
    sets are gone through, the search returns two points, which have freedom 4,
    although it should return sets with freedom below [3 + 1] only.  (The code
    compares with [-(3 + 1)].) *)
Lemma perm2 (a b : nat) l : Permutation l [a; b] -> l = [a; b] \/ l = [b; a].
Proof. intros P. now apply Permutation_sym, Permutation_length_2_inv in P. Qed.
Lemma perm3 (a b c : nat) l : Permutation l [a; b; c] ->
  In l [[a; b; c]; [a; c; b]; [b; a; c]; [b; c; a]; [c; a; b]; [c; b; a]].
Proof.
  intros P. destruct l as [|x l]; [apply Permutation_length in P; discriminate|].
  assert (Hx : In x [a; b; c]) by (eapply Permutation_in; [exact P|simpl; auto]).
  destruct Hx as [<-|[<-|[<-|[]]]].
  - apply Permutation_cons_inv, perm2 in P. simpl. intuition congruence.
  - assert (P' : Permutation (b :: l) (b :: [a; c])) by (eapply Permutation_trans; [exact P|apply perm_swap]).
    apply Permutation_cons_inv, perm2 in P'. simpl. intuition congruence.
  - assert (P' : Permutation (c :: l) (c :: [a; b])).
    { eapply Permutation_trans; [exact P|]. apply Permutation_sym. apply (Permutation_cons_append [a; b] c). }
    apply Permutation_cons_inv, perm2 in P'. simpl. intuition congruence.
Qed.
Theorem C38_refuted : exists l s, history demo_env 7%N l s /\
  components (sys_graph s) = [Component [0; 1; 2] [0]] /\
  forall order search, (forall vs, Permutation (order vs) vs) ->
  exists found, dense_bfs order (S search) 3 (work_graph (sys_graph s)) [] [0] [0; 1; 2] = Done (Some found) /\
    freedom (sys_graph s) [0] found = 4%Z.
Proof.
  destruct (sketch_of 3 [[0; 1; 2]]) as [[l s]|] eqn:E; [|vm_compute in E; discriminate].
  assert (H := sketch_history _ _ _ _ E). exists l, s. split; [auto|].
  assert (G : sys_graph s = Graph [GElement 2 [0]; GElement 2 [0]; GElement 2 [0]] [GConstraint 1 [0; 1; 2]]
    [Some 0; Some 0; Some 0] [Component [0; 1; 2] [0]]).
  { clear H. vm_compute in E. inversion E; subst; clear E. reflexivity. }
  rewrite G. clear. split; [reflexivity|]. intros order search O.
  pose proof (perm3 0 1 2 _ (O [0; 1; 2])) as P. simpl In in P. unfold dense_bfs.
  repeat (destruct P as [P|P]; [rewrite <- P; cbn -[Z.ltb Z.add Z.sub Z.opp];
    match goal with |- context [order [?a; ?b]] => destruct (perm2 a b _ (O [a; b])) as [->| ->] end;
    eexists; split; reflexivity|]).
  destruct P.
Qed.
Print Assumptions C38_refuted.

(** ** C06 is false for recursive assembly: four points, an angle at the second of the
    first three, and a distance from the first to the fourth.  If hash sets happen to
    be gone through in ascending order, solving panics, whatever the optimizers. *)
Theorem C06_assembly_refuted : forall colamd sort fuel search,
  exists l s, history (whole_env colamd sort (20 + fuel) (20 + search) ascending) 7%N l s /\
    allowed l (Solve (Options LevenbergMarquardt RecursiveAssembly false)) /\
    step (whole_env colamd sort (20 + fuel) (20 + search) ascending)
      (Solve (Options LevenbergMarquardt RecursiveAssembly false)) s = Panic.
Proof.
  intros colamd sort fuel search. set (env := whole_env colamd sort (20 + fuel) (20 + search) ascending).
  assert (E : exists l s, replay env (points 4 ++ joins [[0; 1; 2]; [0; 3]]) [] (system_new 7%N) = Some (l, s) /\
    sys_graph s = Graph [GElement 2 [0; 1]; GElement 2 [0]; GElement 2 [0]; GElement 2 [1]]
      [GConstraint 1 [0; 1; 2]; GConstraint 1 [0; 3]]
      [Some 0; Some 0; Some 0; Some 0] [Component [0; 1; 2; 3] [0; 1]] /\
    sys_elements s = [EPoint 0; EPoint 2; EPoint 4; EPoint 6]).
  { vm_compute. eexists _, _. split; [reflexivity|]. split; reflexivity. }
  destruct E as (l & s & E & G & Es).
  exists l, s. split; [eapply replay_history; [constructor|exact E]|]. split.
  { split; [intros h t []|split; [intros h []|exact I]]. }
  assert (D : decompose ascending (20 + fuel) (20 + search) 3 (sys_graph s) [0; 1; 2; 3] [0; 1] = Panic).
  { rewrite G. vm_compute. reflexivity. }
  cbn [step]. unfold solve. cbv zeta. unfold scale_system. cbn [sys_graph with_transformed].
  rewrite G. cbn [components ofold]. unfold solve_component at 1. cbn [c_elements c_constraints o_perturb o_decomposer].
  set (s0 := with_transformed _ _ s).
  assert (Hf : exists free, component_free_variables s0 [0; 1; 2; 3] = Done free).
  { unfold component_free_variables. subst s0. cbn [sys_elements with_transformed]. rewrite Es.
    cbn. repeat destruct (in_dec _ _ _); eexists; reflexivity. }
  destruct Hf as [free Hf]. rewrite Hf. cbn [obind env_assembly env whole_env fiksi_env].
  unfold recursive_assembly. cbn [sys_graph with_values s0 with_transformed]. rewrite D. reflexivity.
Qed.
Print Assumptions C06_assembly_refuted.
