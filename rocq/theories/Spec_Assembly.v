(** What is asked of the recursive-assembly plan, and freedom of a set of
    elements. *)
From Coq Require Import List Arith ZArith Permutation.
From Verif Require Import ModelGraph ModelAssembly.
Import ListNotations.

(** A part of the sketch that constraints do not lead out of: its constraints
    are between its elements, and an element knows the constraints it is in. *)
Record closed_part (g : graph) (vertices edges : list nat) : Prop := {
  cp_vertices : NoDup vertices /\ forall v, In v vertices -> v < length (g_elements g);
  cp_edges : NoDup edges /\ forall c, In c edges -> c < length (g_constraints g);
  cp_inside : forall c gc, In c edges -> nth_error (g_constraints g) c = Some gc ->
    incl (incident_elements gc) vertices;
  cp_known : forall c gc v ge, In c edges -> nth_error (g_constraints g) c = Some gc ->
    In v (incident_elements gc) -> nth_error (g_elements g) v = Some ge ->
    In c (incident_constraints ge)
}.

(** Every constraint is solved in exactly one step, one that solves for all the
    elements of the constraint. *)
Record plan_for (g : graph) (edges : list nat) (plan : list plan_step) : Prop := {
  pf_once : Permutation (flat_map st_constraints plan) edges;
  pf_elements : forall st c gc, In st plan -> In c (st_constraints st) ->
    nth_error (g_constraints g) c = Some gc -> incl (incident_elements gc) (st_elements st)
}.

(** The freedom left to a set of elements by the constraints among them *)
Definition freedom (g : graph) (edges sub : list nat) : Z :=
  fold_right Z.add 0%Z (map (fun v => match nth_error (g_elements g) v with
                                      | Some e => Z.of_nat (dof e) | None => 0%Z end) sub) -
  fold_right Z.add 0%Z (map (fun c => match nth_error (g_constraints g) c with
                                      | Some gc => if forallb (fun u => mem u sub) (incident_elements gc)
                                                   then Z.of_nat (valency gc) else 0%Z
                                      | None => 0%Z end) edges).
