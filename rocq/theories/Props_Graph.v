(** Properties C18-C20: matching, groups, single-pass solving. *)
From Coq Require Import List Arith NArith ZArith Permutation Lia.
From Verif Require Import Num Outcome Lib ModelExpr ModelGraph ModelSystem ModelMatching ModelSolve
  ModelApi Spec_Matching Spec_Scc Spec_Groups Spec_Solver Spec_History Spec_Pass
  Proofs_Matching Proofs_Groups Proofs_Pass Demo.
Import ListNotations.

(** ** C18 *)
Theorem C18_maximum_matching : forall g,
  NoDup (vertices_a g) ->
  (forall a, In a (vertices_a g) -> exists bs, neighbors_of_a g a = Some bs) ->
  exists m, find_maximum_matching g = Done m /\ is_maximum_matching g (a_to_b m) /\
    (forall a b, In (a, b) (a_to_b m) <-> In (b, a) (b_to_a m)).
Proof. exact maximum_matching_symmetric. Qed.
Print Assumptions C18_maximum_matching.
(** Variables 0, 1, 2; expression 0 mentions 0 and 1, expression 1 mentions 0,
    expression 2 mentions 2: the greedy choice (0 with 0) must be undone. *)
Definition g18 : eqgraph := EqGraph [[0; 1]; [0]; [2]] [[0; 1]; [0]; [2]].
Example C18_example : NoDup (vertices_a (masked g18 [0; 1; 2])) /\
  (forall a, In a (vertices_a (masked g18 [0; 1; 2])) ->
     exists bs, neighbors_of_a (masked g18 [0; 1; 2]) a = Some bs) /\
  exists m, find_maximum_matching (masked g18 [0; 1; 2]) = Done m /\ length (a_to_b m) = 3.
Proof.
  split; [repeat constructor; simpl; intuition lia|]. split.
  - intros a Ha. simpl in *. intuition (subst; simpl; eauto).
  - eexists. vm_compute. auto.
Qed.

(** ** C19 *)
Theorem C19_groups : forall (g : eqgraph) free order,
  NoDup free -> (forall v, In v free -> v < length (eq_variables g)) ->
  (forall v l, nth_error (eq_variables g) v = Some l ->
     forall e, In e l <-> mentions (eq_expressions g) e v) ->
  (N.of_nat (length (eq_expressions g)) < 2 ^ 32)%N ->
  (forall l, Permutation (order l) l) ->
  exists m gs, find_maximum_matching (masked g free) = Done m /\
    find_strongly_connected_expressions g free order = Done gs /\
    group_order (eq_expressions g) free (a_to_b m) gs.
Proof. exact groups_ordered. Qed.
Print Assumptions C19_groups.
(** Expressions 0 and 1 share variables 0 and 1; expression 2 needs variable 1
    and settles variable 2. *)
Definition g19 : eqgraph := EqGraph [[0; 1]; [0; 1; 2]; [2]] [[0; 1]; [0; 1]; [1; 2]].
Example C19_example :
  (forall v l, nth_error (eq_variables g19) v = Some l ->
     forall e, In e l <-> mentions (eq_expressions g19) e v) /\
  exists gs, find_strongly_connected_expressions g19 [0; 1; 2] (fun l => l) = Done gs /\
    map (@length nat) (map group_expressions gs) = [2; 1].
Proof.
  split.
  - intros v l Hv e. unfold mentions. simpl.
    assert (Q : forall vs, nth_error [[0; 1]; [0; 1]; [1; 2]] e = Some vs <->
       (e = 0 /\ vs = [0; 1]) \/ (e = 1 /\ vs = [0; 1]) \/ (e = 2 /\ vs = [1; 2])).
    { intros vs. destruct e as [|[|[|e]]]; simpl; [| | |destruct e; simpl];
        split; try discriminate; intuition (try congruence; try lia). }
    destruct v as [|[|[|v]]]; simpl in Hv; try (destruct v; discriminate); inversion Hv; subst; simpl.
    all: split; [intros H; intuition (subst; eauto; try lia); eexists; (split; [apply Q|]); [eauto|simpl; auto]|].
    all: intros (vs & H1 & H2); apply Q in H1; intuition (subst; simpl in *; intuition lia).
  - eexists. vm_compute. auto.
Qed.

(** ** C20 *)
(** [s] is any state reached through the API, scaled by any factor, with any
    current values [vs] and scaled values [vt]; [free] any set of variables.
    Single-pass solving splits the matched expressions into groups in
    dependency order and solves each group once; every variable is written by
    at most one group, nothing else is written, and an expression that is
    satisfied (in the sense [Z]) after its own group was solved is satisfied at
    the end. *)
Theorem C20_single_pass : forall (F : Type) (NF : Num F) (env : solver_env F) id (l : log F) s
    scale vs vt opt free s',
  env_ok env -> history env id l s -> small l ->
  length vs = length (sys_variables s) -> length vt = length (sys_variables s) ->
  NoDup free -> (forall v, In v free -> v < length (sys_variables s)) ->
  let s0 := with_values vs vt (scale_system scale s) in
  solve_single_pass env opt scale free s0 = Done s' ->
  exists M gs,
    is_maximum_matching (masked (sys_eqgraph s) free) M /\
    group_order (map variable_indices (sys_expressions s)) free M gs /\
    ofold (solve_group env opt scale) gs s0 = Done s' /\
    (forall i j gi gj v, nth_error gs i = Some gi -> nth_error gs j = Some gj ->
       In v (group_free_variables gi) -> In v (group_free_variables gj) -> i = j) /\
    (forall v, ~ (exists g, In g gs /\ In v (group_free_variables g)) ->
       nth_error (sys_variables s') v = nth_error vs v) /\
    (forall v g, In g gs -> In v (group_free_variables g) -> exists x,
       nth_error (sys_variables_transformed s') v = Some x /\
       nth_error (sys_variables s') v = Some (nmul scale x)) /\
    (forall Z : F -> Prop,
       (forall pre g post s1, gs = pre ++ g :: post ->
          ofold (solve_group env opt scale) (pre ++ [g]) s0 = Done s1 ->
          forall e, In e (group_expressions g) -> exists r, residual_in s1 e = Done r /\ Z r) ->
       forall e, matched M e -> exists r, residual_in s' e = Done r /\ Z r).
Proof. exact @single_pass. Qed.
Print Assumptions C20_single_pass.
Example C20_example :
  let s0 := with_values (sys_variables demo_state) (sys_variables demo_state)
              (scale_system nunit demo_state) in
  exists gs s', find_strongly_connected_expressions (sys_eqgraph demo_state) [2; 4] (@rev nat) = Done gs /\
    length gs = 2 /\ solve_single_pass demo_env LBfgs nunit [2; 4] s0 = Done s'.
Proof.
  eexists. destruct (solve_single_pass demo_env LBfgs nunit [2; 4] _) as [s'| |] eqn:E;
    vm_compute in E; try discriminate. exists s'. split; [vm_compute; reflexivity|]. auto.
Qed.
