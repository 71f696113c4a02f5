(** Property C17: the solving groups. *)
From Coq Require Import List Arith NArith ZArith Lia.
From Verif Require Import Num Outcome Lib ModelExpr ModelGraph ModelSystem ModelSolve ModelApi
  Spec_Graph Spec_Solver Spec_History Spec_Components Proofs_Components Demo.
Import ListNotations.

(** ** C17 *)
(** The parts of C17 that hold after every history: a point or length is in a
    group exactly when it is constrained, the groups are disjoint, every
    constraint is in exactly one group, and whatever is in one group is joined
    by constraints. *)
Theorem C17_groups_partial : forall (F : Type) (NF : Num F) (env : solver_env F) id (l : log F) s,
  env_ok env -> history env id l s ->
  (forall p, In (RElement p) (map snd l) ->
     (is_constrained l p <-> exists g, in_group s g p)) /\
  (forall p g g', in_group s g p -> in_group s g' p -> g = g') /\
  (forall g e, holds_element (sys_graph s) g e ->
     exists p, In (RElement p) (map snd l) /\ eh_id p = e) /\
  (forall k, In (RConstraint k) (map snd l) -> exists g, con_in_group s g k) /\
  (forall k g g', con_in_group s g k -> con_in_group s g' k -> g = g') /\
  (forall p q g, In (RElement p) (map snd l) -> In (RElement q) (map snd l) ->
     in_group s g p -> in_group s g q -> joined l p q) /\
  (forall p c k q g, In (RElement p) (map snd l) -> In (c, RConstraint k) l -> In q (touched l c) ->
     in_group s g p -> con_in_group s g k -> joined l p q).
Proof. intros F NF env id l s. exact (groups_always env id l s). Qed.
Print Assumptions C17_groups_partial.

(** All of C17, for histories in which no constraint brings together two groups
    that existed before. *)
Theorem C17_connected_partial : forall (F : Type) (NF : Num F) (env : solver_env F) id (l : log F) s,
  env_ok env -> history env id l s -> never_merges l ->
  (forall p q, In (RElement p) (map snd l) -> In (RElement q) (map snd l) -> is_constrained l p ->
     (joined l p q <-> exists g, in_group s g p /\ in_group s g q)) /\
  (forall c k p g, In (c, RConstraint k) l -> In p (touched l c) ->
     con_in_group s g k -> in_group s g p).
Proof. intros F NF env id l s. exact (groups_exact env id l s). Qed.
Print Assumptions C17_connected_partial.

(** Two points at a distance, a third point on the line through them, and a
    point without constraints *)
Definition c17_calls : list (call f64) := [
  CreatePoint (z64 0) (z64 0);                           (* 0 *)
  CreatePoint (z64 3) (z64 0);                           (* 1 *)
  CreatePoint (z64 3) (z64 4);                           (* 2 *)
  CreateLine (dp 0) (dp 1);                              (* 3 *)
  CreatePoint (z64 8) (z64 8);                           (* 4 *)
  CreatePointPointDistance (dp 0) (dp 1) (z64 5);        (* constraint 0 *)
  CreatePointLineIncidence (dp 2) (EHandle 7%N 3 TLine)  (* constraint 1 *)
].
Example C17_example : env_ok demo_env /\ exists l s, history demo_env 7%N l s /\
  never_merges l /\ is_constrained l (dp 2) /\ in_group s 0 (dp 0) /\ in_group s 0 (dp 2) /\
  ~ (exists g, in_group s g (dp 4)).
Proof.
  split; [exact demo_env_ok|].
  destruct (replay demo_env c17_calls [] (system_new 7%N)) as [[l s]|] eqn:E; [|vm_compute in E; discriminate].
  exists l, s. split; [eapply replay_history; [constructor|exact E]|].
  vm_compute in E. inversion E; subst; clear E. split; [|split; [|split; [|split]]].
  - cbn [never_merges]. split; [split; [exact I|]|].
    + intros p q _ _ (c & k & h & t & H & _). exfalso. vm_compute in H. intuition discriminate.
    + intros p q Hp Hq Cp Cq.
      match type of Cp with is_constrained ?L _ => set (L0 := L) in * end.
      assert (Z : forall x, is_constrained L0 x -> In x [dp 0; dp 1]).
      { intros x (c & k & h & t & H & Hh & Hin). cbn [In L0] in H.
        destruct H as [H|H]; [|intuition discriminate]. inversion H; subst c k; clear H.
        cbn [call_elements In] in Hh. destruct Hh as [Hh|[Hh|[]]]; inversion Hh; subst h t; clear Hh;
          vm_compute in Hin; destruct Hin as [<-|[]]; simpl; auto. }
      apply Z in Cp, Cq.
      eapply joined_step; [left; reflexivity|vm_compute; exact Cp|vm_compute; exact Cq|constructor].
  - eexists _, _, _, _. split; [left; reflexivity|]. split; [left; reflexivity|]. vm_compute. auto.
  - eexists. split; [reflexivity|]. vm_compute. auto.
  - eexists. split; [reflexivity|]. vm_compute. auto.
  - intros (g & c & H & Hin). destruct g as [|g]; [|destruct g; discriminate].
    inversion H; subst. vm_compute in Hin. intuition discriminate.
Qed.

(** C17 is false: after constraints between 0 and 1, 2 and 3, 1 and 2, 3 and 4
    (in this order) points 3 and 4 share a constraint and no group; the group of
    that constraint does not hold point 3. *)
Theorem C17_refuted : forall env : solver_env f64, exists l s, history env 7%N l s /\
  exists c k g, In (c, RConstraint k) l /\ con_in_group s g k /\
    In (dp 3) (touched l c) /\ In (dp 4) (touched l c) /\
    ~ in_group s g (dp 3) /\ ~ (exists g', in_group s g' (dp 3) /\ in_group s g' (dp 4)).
Proof.
  intros env.
  set (calls := map (fun i => CreatePoint (z64 i) (z64 (i * i))) [0; 1; 2; 3; 4]%Z ++
                map (fun '(a, b) => CreatePointPointDistance (dp a) (dp b) (z64 1)) [(0, 1); (2, 3); (1, 2); (3, 4)]).
  destruct (replay env calls [] (system_new 7%N)) as [[l s]|] eqn:E; [|vm_compute in E; discriminate].
  exists l, s. split; [eapply replay_history; [constructor|exact E]|].
  vm_compute in E. inversion E; subst; clear E.
  eexists _, _, 2. split; [left; reflexivity|]. split; [eexists; split; [reflexivity|vm_compute; auto]|].
  split; [vm_compute; auto|]. split; [vm_compute; auto|]. split.
  - intros (c & H & Hin). inversion H; subst. vm_compute in Hin. intuition discriminate.
  - intros (g & (c & H & Hin) & c' & H' & Hin').
    destruct g as [|[|[|g]]]; [| | |destruct g; discriminate]; inversion H; inversion H'; subst;
      vm_compute in Hin, Hin'; intuition discriminate.
Qed.
Print Assumptions C17_refuted.

(** A constraint can end up in a group that holds no element; solving skips that
    group, whatever the options: the constraint is silently ignored. *)
Theorem C17_ignored_refuted : forall env : solver_env f64, exists l s, history env 7%N l s /\
  exists k c, In (RConstraint k) (map snd l) /\ In c (components (sys_graph s)) /\
    In (ch_id k) (c_constraints c) /\
    forall opts scale rng s', solve_component env opts scale (rng, s') c = Done (rng, s').
Proof.
  intros env.
  set (calls := map (fun i => CreatePoint (z64 i) (z64 (i * i))) [0; 1; 2; 3; 4; 5; 6; 7]%Z ++
                map (fun '(a, b) => CreatePointPointDistance (dp a) (dp b) (z64 1))
                    [(0, 1); (2, 3); (1, 2); (4, 5); (6, 7); (5, 6); (3, 7)]).
  destruct (replay env calls [] (system_new 7%N)) as [[l s]|] eqn:E; [|vm_compute in E; discriminate].
  exists l, s. split; [eapply replay_history; [constructor|exact E]|].
  vm_compute in E. inversion E; subst; clear E.
  eexists _, _. split; [left; reflexivity|]. split; [vm_compute; do 4 right; left; reflexivity|].
  split; [vm_compute; auto|]. reflexivity.
Qed.
Print Assumptions C17_ignored_refuted.
