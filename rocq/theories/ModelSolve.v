(** Model of /repo/fiksi/src/rand.rs, subsystem.rs, solve/mod.rs and
    assemble/mod.rs [solve].  The numerical optimizers (solve/lm.rs,
    solve/lbfgs.rs) are modelled in [ModelLm.v] and [ModelLbfgs.v]; here they
    are an argument of [solve]. *)
From Coq Require Import List Arith NArith ZArith.
From Verif Require Import Num Outcome ModelExpr ModelGraph ModelSystem ModelMatching.
Import ListNotations.
Local Open Scope num_scope.

(** rand.rs 24-30, [Rng::next_u32]: [state * A + C] modulo 2^32 *)
Definition lcg (state : N) : N := ((state * 1664525 + 1013904223) mod 2 ^ 32)%N.

Section Solve.
  Context {F : Type} {NF : Num F}.

  (** rand.rs 36-39, [Rng::next_f64]; returns the new state too *)
  Definition next_f64 (state : N) : N * F :=
    let state := lcg state in
    (state, (nunit / nofZ (2 ^ 32 - 1)) * nofZ (Z.of_N state)).

  (** solve/mod.rs 29-49, the [Problem] trait.  The code writes residuals and
      Jacobians into buffers of the caller; here they are returned.  The dense
      Jacobian is a list of rows and is updated in place by the code, so the
      previous contents are an argument. *)
  Record problem := Problem {
    num_variables : nat;
    num_residuals : nat;
    calculate_residuals : list F -> outcome (list F);
    calculate_residuals_and_jacobian :
      list F -> list (list F) -> outcome (list F * list (list F));
    calculate_residuals_and_sparse_jacobian :
      list F -> outcome (list F * list (nat * nat * F))
  }.

  (** subsystem.rs 9-23 *)
  Record subsystem := Subsystem {
    ss_variables : list F;
    ss_all_expressions : list (expr F);
    ss_expressions : list nat;
    ss_free_variables : list nat
  }.

  (** [IndexSet::from_iter]: first occurrences, in order *)
  Definition index_set (l : list nat) : list nat :=
    fold_left (fun acc x => if existsb (Nat.eqb x) acc then acc else acc ++ [x]) l [].

  (** subsystem.rs 26-38 *)
  Definition subsystem_new (variables : list F) (all : list (expr F))
      (free_variables expressions : list nat) : subsystem :=
    Subsystem variables all expressions (index_set free_variables).

  Definition ss_map (ss : subsystem) (values : list F) : variable_map F :=
    index_set_map (ss_free_variables ss) (ss_variables ss) values.

  (** subsystem.rs 93-104 *)
  Definition ss_residuals (ss : subsystem) (values : list F) : outcome (list F) :=
    omap (fun id => let! e := oget (ss_all_expressions ss) id in
                    calculate_residual (ss_map ss values) e) (ss_expressions ss).

  (** subsystem.rs 106-124 *)
  Definition ss_dense (ss : subsystem) (values : list F) (jacobian : list (list F))
    : outcome (list F * list (list F)) :=
    let! rows := omap (fun '(id, row) =>
        let! e := oget (ss_all_expressions ss) id in
        calculate_residual_and_gradient (ss_map ss values) e row)
      (combine (ss_expressions ss) jacobian) in
    Done (map fst rows, map snd rows).

  (** subsystem.rs 159-164: the triplets of one expression *)
  Definition sparse_row (row : nat) (xs : list (variable F)) (g : list F)
    : list (nat * nat * F) :=
    flat_map (fun '(x, d) =>
      match x with Free _ idx => [(row, idx, d)] | Fixed _ => [] end) (combine xs g).

  (** subsystem.rs 126-166 *)
  Definition ss_sparse (ss : subsystem) (values : list F)
    : outcome (list F * list (nat * nat * F)) :=
    let! rows := omap (fun '(row, id) =>
        let! e := oget (ss_all_expressions ss) id in
        let! xs := gather (ss_map ss values) e in
        let '(r, g) := compute_rg e (buffer xs) in
        Done (r, sparse_row row xs g))
      (combine (seq 0 (length (ss_expressions ss))) (ss_expressions ss)) in
    Done (map fst rows, concat (map snd rows)).

  (** subsystem.rs 72-167 *)
  Definition subsystem_problem (ss : subsystem) : problem :=
    Problem (length (ss_free_variables ss)) (length (ss_expressions ss))
            (ss_residuals ss) (ss_dense ss) (ss_sparse ss).

  (** solve/mod.rs 17-27 *)
  Inductive optimizer := LevenbergMarquardt | LBfgs.
  (** lib.rs 154-201 *)
  Inductive decomposer := DecomposeNone | SinglePass | RecursiveAssembly.
  (** lib.rs 205-218 *)
  Record options := Options {
    o_optimizer : optimizer;
    o_decomposer : decomposer;
    o_perturb : bool
  }.
  (** lib.rs 232-236 *)
  Definition default_options : options := Options LevenbergMarquardt DecomposeNone true.

  (** utils.rs 22-34 *)
  Definition mean_squares (l : list F) : F := sum_squares l / nofZ (Z.of_nat (length l)).
  Definition root_mean_squares (l : list F) : F := nsqrt (mean_squares l).

  (** assemble/mod.rs 34-42: the length parameters *)
  Definition length_parameter (e : expr F) : list F :=
    match e with
    | PointPointDistance _ _ d => [d]
    | PointLineDistance _ _ _ d => [d]
    | _ => []
    end.

  (** assemble/mod.rs 32-44 *)
  Definition calculate_system_scale (s : system F) : F :=
    root_mean_squares (sys_variables s ++ flat_map length_parameter (sys_expressions s)).

  Definition with_transformed (vt : list F) (et : list (expr F)) (s : system F) : system F :=
    System (sys_id s) (sys_graph s) (sys_eqgraph s) (sys_elements s)
           (sys_variables s) vt (sys_variable_to_primitive s) (sys_fixed s)
           (sys_constraints s) (sys_expressions s) et (sys_expression_to_constraint s).
  Definition with_values (vs vt : list F) (s : system F) : system F :=
    System (sys_id s) (sys_graph s) (sys_eqgraph s) (sys_elements s)
           vs vt (sys_variable_to_primitive s) (sys_fixed s)
           (sys_constraints s) (sys_expressions s) (sys_expressions_transformed s)
           (sys_expression_to_constraint s).

  (** assemble/mod.rs 59-79 *)
  Definition scale_system (scale : F) (s : system F) : system F :=
    let r := nunit / scale in
    with_transformed (map (fun v => v * r) (sys_variables s))
                     (map (transform r) (sys_expressions s)) s.

  (** assemble/mod.rs 91-111 *)
  Definition component_free_variables (s : system F) (elements : list nat)
    : outcome (list nat) :=
    ofold (fun acc id =>
      let! e := oget (sys_elements s) id in
      Done (set_extend acc
        (filter (fun v => negb (existsb (Nat.eqb v) (sys_fixed s)))
                (element_variables e)))) elements [].

  (** assemble/mod.rs 114-123 *)
  Definition perturb_variables (free : list nat) (rng : N) (vt : list F)
    : outcome (N * list F) :=
    ofold (fun '(rng, vt) v =>
      let! x := oget vt v in
      let '(rng, r1) := next_f64 rng in
      let '(rng, r2) := next_f64 rng in
      let! vt := oset vt v
        (x + (x * (nunit / nofZ 8196) * r1 + (nunit / nofZ 65568) * r2)) in
      Done (rng, vt)) free (rng, vt).

  (** assemble/mod.rs 136-145: the expressions of a set of constraints *)
  Definition component_expressions (s : system F) (constraints : list nat)
    : outcome (list nat) :=
    let! es := omap (fun c =>
      let! ec := oget (sys_constraints s) c in
      Done (map (fun o => (expressions_idx ec + o)%nat) (seq 0 (tag_valency (ec_tag ec)))))
      constraints in
    Done (concat es).

  (** assemble/mod.rs 161-166 *)
  Definition write_back (scale : F) (free : list nat) (values : list F)
      (vs : list F) : outcome (list F) :=
    ofold (fun vs '(i, v) =>
      let! x := oget values i in oset vs v (scale * x))
      (combine (seq 0 (length free)) free) vs.
  (** assemble/mod.rs 204-205 *)
  Definition write_back_transformed (free : list nat) (values : list F)
      (vt : list F) : outcome (list F) :=
    ofold (fun vt '(i, v) => let! x := oget values i in oset vt v x)
      (combine (seq 0 (length free)) free) vt.

  (** What [solve] is parameterised by: the two optimizers (given a problem
      and initial values, the final values), the iteration order of a
      [HashSet] of variables, and the recursive-assembly branch
      (assemble/mod.rs 212-277), which is modelled in [ModelAssembly.v]. *)
  Record solver_env := SolverEnv {
    env_optimize : optimizer -> problem -> list F -> outcome (list F);
    env_order : list nat -> list nat;
    env_assembly : F -> list nat -> list nat -> system F -> outcome (system F)
  }.

  (** assemble/mod.rs 127-167 *)
  Definition solve_none (env : solver_env) (opt : optimizer) (scale : F)
      (free : list nat) (constraints : list nat) (s : system F) : outcome (system F) :=
    let! values := omap (oget (sys_variables_transformed s)) free in
    let! es := component_expressions s constraints in
    let ss := subsystem_new (sys_variables_transformed s)
                (sys_expressions_transformed s) free es in
    let! values' := env_optimize env opt (subsystem_problem ss) values in
    let! vs := write_back scale (ss_free_variables ss) values' (sys_variables s) in
    Done (with_values vs (sys_variables_transformed s) s).

  (** assemble/mod.rs 175-208, one group *)
  Definition solve_group (env : solver_env) (opt : optimizer) (scale : F)
      (s : system F) (g : group) : outcome (system F) :=
    let! values := omap (oget (sys_variables_transformed s)) (group_free_variables g) in
    let ss := subsystem_new (sys_variables_transformed s)
                (sys_expressions_transformed s) (group_free_variables g)
                (group_expressions g) in
    let! values' := env_optimize env opt (subsystem_problem ss) values in
    let! vt := write_back_transformed (ss_free_variables ss) values'
                 (sys_variables_transformed s) in
    let! vs := write_back scale (ss_free_variables ss) values' (sys_variables s) in
    Done (with_values vs vt s).

  (** assemble/mod.rs 169-210 *)
  Definition solve_single_pass (env : solver_env) (opt : optimizer) (scale : F)
      (free : list nat) (s : system F) : outcome (system F) :=
    let! groups := find_strongly_connected_expressions (sys_eqgraph s) free (env_order env) in
    ofold (solve_group env opt scale) groups s.

  (** assemble/mod.rs 81-279, one connected component *)
  Definition solve_component (env : solver_env) (opts : options) (scale : F)
      (st : N * system F) (c : component) : outcome (N * system F) :=
    let '(rng, s) := st in
    match c_elements c with
    | [] => Done (rng, s)
    | _ =>
      let! free := component_free_variables s (c_elements c) in
      let! (rng, vt) :=
        if o_perturb opts
        then perturb_variables free rng (sys_variables_transformed s)
        else Done (rng, sys_variables_transformed s) in
      let s := with_values (sys_variables s) vt s in
      let! s :=
        match o_decomposer opts with
        | DecomposeNone => solve_none env (o_optimizer opts) scale free (c_constraints c) s
        | SinglePass => solve_single_pass env (o_optimizer opts) scale free s
        | RecursiveAssembly => env_assembly env scale (c_elements c) (c_constraints c) s
        end in
      Done (rng, s)
    end.

  (** assemble/mod.rs 46-280, [System::solve] *)
  Definition solve (env : solver_env) (opts : options) (s : system F)
    : outcome (system F) :=
    let scale := calculate_system_scale s in
    let s := scale_system scale s in
    let! (_, s) := ofold (solve_component env opts scale)
                         (components (sys_graph s)) (42%N, s) in
    Done s.
End Solve.
Arguments problem F : clear implicits.
Arguments subsystem F : clear implicits.
Arguments solver_env F : clear implicits.
