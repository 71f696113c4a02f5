(** Properties C01-C09: the API of one system and of several systems.
    Statements use the model ([ModelApi.v]) and the specifications
    [Spec_History.v] and [Spec_Solver.v] only.  [F] is any number type, so each
    theorem holds for exact reals and for IEEE doubles alike; [env] stands for
    whatever the optimizers, hash-set iteration and recursive assembly do. *)
From Coq Require Import List Arith NArith ZArith Bool.
From Verif Require Import Num Outcome ModelExpr ModelGraph ModelSystem ModelSolve ModelApi
  Spec_Solver Spec_History Proofs_History Proofs_Api Proofs_World Demo.
Import ListNotations.

(** ** C01 *)
Theorem C01_read_back : forall (F : Type) (NF : Num F) (env : solver_env F) id (l : log F) s h,
  env_ok env -> history env id l s -> no_solve l ->
  In (RElement h) (map snd l) -> eh_tag h = TPoint \/ eh_tag h = TLength ->
  exists v, latest l h = Some v /\ get_value h s = Done v.
Proof. exact @read_latest. Qed.
Print Assumptions C01_read_back.
Theorem C01_line : forall (F : Type) (NF : Num F) (env : solver_env F) id (l : log F) s p q h,
  env_ok env -> history env id l s -> In (CreateLine p q, RElement h) l ->
  exists a b, get_value p s = Done (VPoint a) /\ get_value q s = Done (VPoint b) /\
    get_value h s = Done (VLine a b).
Proof. exact @read_line. Qed.
Print Assumptions C01_line.
Theorem C01_circle : forall (F : Type) (NF : Num F) (env : solver_env F) id (l : log F) s p q h,
  env_ok env -> history env id l s -> In (CreateCircle p q, RElement h) l ->
  exists a b, get_value p s = Done (VPoint a) /\ get_value q s = Done (VLength b) /\
    get_value h s = Done (VCircle a b).
Proof. exact @read_circle. Qed.
Print Assumptions C01_circle.
(** Point 6 was created at (8, 8) and later moved to (9, 1). *)
Example C01_example : env_ok demo_env /\ history demo_env 7%N demo_log demo_state /\
  no_solve demo_log /\ In (RElement (dp 6)) (map snd demo_log) /\
  latest demo_log (dp 6) = Some (VPoint (z64 9, z64 1)) /\
  get_value (dp 6) demo_state = Done (VPoint (z64 9, z64 1)) /\
  In (CreateLine (dp 0) (dp 1), RElement (EHandle 7%N 4 TLine)) demo_log /\
  In (CreateCircle (dp 2) (EHandle 7%N 3 TLength), RElement (EHandle 7%N 5 TCircle)) demo_log.
Proof.
  split; [exact demo_env_ok|]. split; [exact demo_history|]. split; [exact demo_no_solve|].
  vm_compute. intuition.
Qed.

(** ** C02 *)
Theorem C02_values_kept : forall (F : Type) (NF : Num F) (env : solver_env F) id (l : log F) s c s' r h,
  env_ok env -> history env id l s -> allowed l c -> step env c s = Done (s', r) ->
  (forall o, c <> Solve o) -> In (RElement h) (map snd l) ->
  (forall p, updated c = Some p -> ~ In p (parts l h)) ->
  get_value h s' = get_value h s.
Proof. exact @value_step. Qed.
Print Assumptions C02_values_kept.
Theorem C02_handles_kept : forall (F : Type) (NF : Num F) (env : solver_env F) id (l : log F) s c s' r,
  env_ok env -> history env id l s -> allowed l c -> step env c s = Done (s', r) ->
  get_element_handles s' = get_element_handles s ++ match r with RElement h => [h] | _ => [] end /\
  get_constraint_handles s' = get_constraint_handles s ++ match r with RConstraint h => [h] | _ => [] end.
Proof. exact @handles_step. Qed.
Print Assumptions C02_handles_kept.
(** Moving point 2 leaves line 4 (points 0 and 1) where it is, and moves circle 5. *)
Example C02_example :
  exists s' r, step demo_env (UpdatePoint (dp 2) (z64 1) (z64 1)) demo_state = Done (s', r) /\
  allowedb demo_log (UpdatePoint (dp 2) (z64 1) (z64 1)) = true /\
  parts demo_log (EHandle 7%N 4 TLine) = [dp 0; dp 1] /\
  get_value (EHandle 7%N 4 TLine) s' = get_value (EHandle 7%N 4 TLine) demo_state /\
  get_value (EHandle 7%N 5 TCircle) s' <> get_value (EHandle 7%N 5 TCircle) demo_state.
Proof.
  destruct (step demo_env (UpdatePoint (dp 2) (z64 1) (z64 1)) demo_state) as [[s' r]| |] eqn:E;
    vm_compute in E; try discriminate. exists s', r. inversion E; subst.
  split; [auto|]. split; [reflexivity|]. split; [reflexivity|]. split; [reflexivity|].
  vm_compute. discriminate.
Qed.

(** ** C03 *)
Theorem C03_element_handles : forall (F : Type) (NF : Num F) (env : solver_env F) cs w rs i j h k,
  env_ok env -> wrun env cs world_new = Done (w, rs) -> (systems_created cs <= 2 ^ 32)%N ->
  nth_error rs i = Some (Some (RElement h)) -> nth_error rs j = Some (Some (RElement k)) ->
  (ehandle_eqb h k = true <-> i = j) /\ (as_id h = as_id k <-> i = j).
Proof. exact @element_handles_unique. Qed.
Print Assumptions C03_element_handles.
Theorem C03_constraint_handles : forall (F : Type) (NF : Num F) (env : solver_env F) cs w rs i j h k,
  env_ok env -> wrun env cs world_new = Done (w, rs) -> (systems_created cs <= 2 ^ 32)%N ->
  nth_error rs i = Some (Some (RConstraint h)) -> nth_error rs j = Some (Some (RConstraint k)) ->
  (chandle_eqb h k = true <-> i = j).
Proof. exact @constraint_handles_unique. Qed.
Print Assumptions C03_constraint_handles.
(** Beyond 2^32 systems the system numbers repeat: two different create calls
    return the same handle. *)
Theorem C03_unbounded_refuted : forall (F : Type) (NF : Num F) (env : solver_env F),
  exists cs w rs i j (h : ehandle), wrun env cs world_new = Done (w, rs) /\
    i <> j /\ nth_error rs i = Some (Some (RElement h)) /\ nth_error rs j = Some (Some (RElement h)).
Proof. exact @ids_wrap. Qed.
Print Assumptions C03_unbounded_refuted.
Example C03_example :
  let cs := [WNew; WCall 0 (CreatePoint (z64 0) (z64 1)); WNew;
             WCall 1 (CreatePoint (z64 0) (z64 1)); WCall 0 (CreatePoint (z64 2) (z64 2))] in
  (systems_created cs <= 2 ^ 32)%N /\
  exists w rs, wrun demo_env cs world_new = Done (w, rs) /\
    nth_error rs 1 = Some (Some (RElement (EHandle 0%N 0 TPoint))) /\
    nth_error rs 3 = Some (Some (RElement (EHandle 1%N 0 TPoint))) /\
    nth_error rs 4 = Some (Some (RElement (EHandle 0%N 1 TPoint))).
Proof. split; [vm_compute; discriminate|]. eexists _, _. vm_compute. intuition. Qed.

(** ** C04 *)
Theorem C04_listings : forall (F : Type) (NF : Num F) (env : solver_env F) id (l : log F) s,
  env_ok env -> history env id l s ->
  get_element_handles s = created_elements l /\ NoDup (created_elements l) /\
  get_constraint_handles s = created_constraints l /\ NoDup (created_constraints l).
Proof. exact @listings. Qed.
Print Assumptions C04_listings.
Example C04_example :
  created_elements demo_log = [dp 0; dp 1; dp 2; EHandle 7%N 3 TLength; EHandle 7%N 4 TLine;
                               EHandle 7%N 5 TCircle; dp 6] /\
  get_element_handles demo_state = created_elements demo_log /\
  created_constraints demo_log = [CHandle 7%N 0 CPointPointDistance; CHandle 7%N 1 CPointLineIncidence].
Proof. vm_compute. auto. Qed.

(** ** C05 *)
(** Full statement: every call given a handle of another system panics.  It
    holds for the calls that read (below) and fails for those that write. *)
Theorem C05_foreign_reads_partial : forall (F : Type) (NF : Num F) (env : solver_env F) (s : system F),
  (forall h, eh_system h <> sys_id s -> step env (GetValue h) s = Panic) /\
  (forall h, ch_system h <> sys_id s -> step env (GetResidual h) s = Panic).
Proof.
  intros F NF env s. split; intros h H; simpl.
  - now rewrite (foreign_read h s H).
  - now rewrite (foreign_residual h s H).
Qed.
Print Assumptions C05_foreign_reads_partial.
(** A handle of system 0 moves a point of system 1, fixes it, and becomes part
    of a line and of a constraint there. *)
Theorem C05_foreign_writes_refuted :
  exists (s : system f64) (h own : ehandle) s1 s2 s3 s4 hl hc,
    history demo_env 1%N [(CreatePoint (z64 3) (z64 4), RElement own)] s /\
    eh_system h = 0%N /\ sys_id s = 1%N /\
    step demo_env (UpdatePoint h (z64 5) (z64 6)) s = Done (s1, RUnit) /\
    get_value own s = Done (VPoint (z64 3, z64 4)) /\
    get_value own s1 = Done (VPoint (z64 5, z64 6)) /\
    step demo_env (Fix h) s = Done (s2, RUnit) /\ sys_fixed s = [] /\ sys_fixed s2 <> [] /\
    step demo_env (CreateLine h h) s = Done (s3, RElement hl) /\
    step demo_env (CreatePointPointDistance h h (z64 1)) s = Done (s4, RConstraint hc).
Proof.
  destruct (replay demo_env [CreatePoint (z64 3) (z64 4)] [] (system_new 1%N)) as [[l s]|] eqn:E;
    [|discriminate].
  pose proof (replay_history demo_env 1%N _ _ _ _ _ (h_new _ _) E) as H.
  vm_compute in E. inversion E; subst; clear E.
  exists (match replay demo_env [CreatePoint (z64 3) (z64 4)] [] (system_new 1%N) with
          | Some (_, s) => s | None => system_new 1%N end),
    (EHandle 0%N 0 TPoint), (EHandle 1%N 0 TPoint).
  eexists _, _, _, _, _, _. split; [exact H|].
  vm_compute. repeat split. discriminate.
Qed.
Print Assumptions C05_foreign_writes_refuted.

(** ** C06 *)
Theorem C06_calls_succeed : forall (F : Type) (NF : Num F) (env : solver_env F) id (l : log F) s c,
  env_ok env -> history env id l s -> allowed l c -> small l -> (forall o, c <> Solve o) ->
  exists s' r, step env c s = Done (s', r).
Proof. exact @step_done_small. Qed.
Print Assumptions C06_calls_succeed.
Theorem C06_solve_no_panic : forall (F : Type) (NF : Num F) (env : solver_env F) id (l : log F) s c,
  env_ok env -> env_safe env -> history env id l s -> allowed l c -> small l ->
  (forall o, c = Solve o -> o_decomposer o <> RecursiveAssembly) ->
  step env c s <> Panic.
Proof. exact @step_nopanic_small. Qed.
Print Assumptions C06_solve_no_panic.
Example C06_example : env_ok demo_env /\ env_safe demo_env /\ small demo_log /\
  allowedb demo_log (GetResidual (CHandle 7%N 1 CPointLineIncidence)) = true /\
  (exists s' r, step demo_env (Solve (Options LevenbergMarquardt SinglePass true)) demo_state = Done (s', r)).
Proof.
  split; [exact demo_env_ok|]. split; [exact demo_env_safe|]. split; [now vm_compute|].
  split; [reflexivity|].
  destruct (step demo_env _ demo_state) as [[s' r]| |] eqn:E; vm_compute in E; try discriminate. eauto.
Qed.

(** ** C07 and C08 *)
Theorem C07_fixed_do_not_move : forall (F : Type) (NF : Num F) (env : solver_env F) id (l : log F) s o s' r h,
  env_ok env -> history env id l s -> o_decomposer o <> RecursiveAssembly ->
  step env (Solve o) s = Done (s', r) -> In (RElement h) (map snd l) ->
  (forall p, In p (parts l h) -> is_fixed l p = true) ->
  get_value h s' = get_value h s.
Proof.
  intros F NF env id l s o s' r h EO H D S K P. eapply solve_frame; eauto.
Qed.
Print Assumptions C07_fixed_do_not_move.
(** Point by point: what is fixed or in no constraint stays. *)
Theorem C08_solve_touches : forall (F : Type) (NF : Num F) (env : solver_env F) id (l : log F) s o s' r h,
  env_ok env -> history env id l s -> o_decomposer o <> RecursiveAssembly ->
  step env (Solve o) s = Done (s', r) -> In (RElement h) (map snd l) ->
  (forall p, In p (parts l h) -> is_fixed l p = true \/ ~ is_constrained l p) ->
  get_value h s' = get_value h s.
Proof. exact @solve_frame. Qed.
Print Assumptions C08_solve_touches.
(** With any decomposer, what is in no constraint stays.  (Recursive assembly
    moves fixed points, as its documentation says.) *)
Theorem C08_any_decomposer : forall (F : Type) (NF : Num F) (env : solver_env F) id (l : log F) s o s' r h,
  env_ok env -> history env id l s ->
  step env (Solve o) s = Done (s', r) -> In (RElement h) (map snd l) ->
  (forall p, In p (parts l h) -> ~ is_constrained l p) ->
  get_value h s' = get_value h s.
Proof. exact @solve_frame_any. Qed.
Print Assumptions C08_any_decomposer.
(** Handle lists stay ([C02_handles_kept]); a constraint asks for the same
    before and after, in the values then current. *)
Theorem C08_constraints_kept : forall (F : Type) (NF : Num F) (env : solver_env F) id (l : log F) s o s' r k,
  env_ok env -> history env id l s -> step env (Solve o) s = Done (s', r) ->
  In (RConstraint k) (map snd l) ->
  exists c x x', current_call l k = Some c /\
    call_residual c (read s) = Some x /\ constraint_residual k s = Done x /\
    call_residual c (read s') = Some x' /\ constraint_residual k s' = Done x'.
Proof. exact @solve_residuals. Qed.
Print Assumptions C08_constraints_kept.
Example C07_C08_example : exists s' r,
  step demo_env (Solve (Options LBfgs DecomposeNone false)) demo_state = Done (s', r) /\
  is_fixed demo_log (dp 0) = true /\ is_fixed demo_log (dp 1) = false /\
  get_value (dp 0) s' = get_value (dp 0) demo_state /\
  get_value (dp 6) s' = get_value (dp 6) demo_state /\
  get_value (dp 1) s' <> get_value (dp 1) demo_state.
Proof.
  destruct (step demo_env _ demo_state) as [[s' r]| |] eqn:E; vm_compute in E; try discriminate.
  exists s', r. inversion E; subst. split; [auto|]. vm_compute. intuition discriminate.
Qed.

(** ** C09 *)
Theorem C09_parameter_exact : forall (F : Type) (NF : Num F) (env : solver_env F) id (l : log F) s c h x c' s' r s'' h',
  env_ok env -> history env id l s -> In (c, RConstraint h) l -> with_new_parameter c x = Some c' ->
  step env (UpdateParameter h x) s = Done (s', r) -> step env c' s' = Done (s'', RConstraint h') ->
  constraint_residual h s' = constraint_residual h' s''.
Proof. exact @parameter_exact. Qed.
Print Assumptions C09_parameter_exact.
Theorem C09_parameter_local : forall (F : Type) (NF : Num F) (env : solver_env F) id (l : log F) s h x s' r,
  env_ok env -> history env id l s -> allowed l (UpdateParameter h x) ->
  step env (UpdateParameter h x) s = Done (s', r) ->
  (forall k, In (RConstraint k) (map snd l) -> k <> h -> constraint_residual k s' = constraint_residual k s) /\
  (forall e, In (RElement e) (map snd l) -> get_value e s' = get_value e s).
Proof. exact @parameter_local. Qed.
Print Assumptions C09_parameter_local.
(** The distance asked of points 0 and 1 becomes 10 (it was 6): residual 3 - 10. *)
Example C09_example : exists s' r,
  step demo_env (UpdateParameter (CHandle 7%N 0 CPointPointDistance) (z64 10)) demo_state = Done (s', r) /\
  constraint_residual (CHandle 7%N 0 CPointPointDistance) demo_state = Done (z64 (-3)) /\
  constraint_residual (CHandle 7%N 0 CPointPointDistance) s' = Done (z64 (-7)) /\
  constraint_residual (CHandle 7%N 1 CPointLineIncidence) s' = Done (z64 12).
Proof.
  destruct (step demo_env _ demo_state) as [[s' r]| |] eqn:E; vm_compute in E; try discriminate.
  exists s', r. inversion E; subst. split; [auto|]. vm_compute. auto.
Qed.

(** ** Every residual is the formula of its constraint (used by C10)
    The residual a client reads is the formula of the call that created the
    constraint, with the parameter last set, in the element values the client
    reads at that moment. *)
Theorem C10_residual_formula : forall (F : Type) (NF : Num F) (env : solver_env F) id (l : log F) s k,
  env_ok env -> history env id l s -> In (RConstraint k) (map snd l) ->
  exists c x, current_call l k = Some c /\ call_residual c (read s) = Some x /\
    constraint_residual k s = Done x.
Proof. exact @residual_meaning. Qed.
Print Assumptions C10_residual_formula.
Example C10_residual_formula_example :
  current_call demo_log (CHandle 7%N 0 CPointPointDistance) =
    Some (CreatePointPointDistance (dp 0) (dp 1) (z64 6)) /\
  call_residual (CreatePointPointDistance (dp 0) (dp 1) (z64 6)) (read demo_state) = Some (z64 (-3)).
Proof. vm_compute. auto. Qed.
