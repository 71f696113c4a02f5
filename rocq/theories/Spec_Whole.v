(** How far a sketch is from its constraints, as the client sees it. *)
From Coq Require Import List Reals.
From Verif Require Import Num NumR Outcome ModelExpr ModelSystem ModelSolve ModelApi Spec_History Spec_Components Spec_Descent.
Import ListNotations.
Local Open Scope R_scope.

(** A residual is an angle, a length, or a product of two lengths. *)
Definition dimension (t : constraint_tag) : nat :=
  match t with
  | CPointPointPointAngle | CLineLineAngle => 0
  | CPointPointCoincidence | CPointPointDistance | CPointLineDistance | CPointCircleIncidence
  | CSegmentSegmentLengthEquality | CLineCircleTangency => 1
  | CPointLineIncidence | CLineLineParallelism | CLineLinePerpendicularity => 2
  end.

(** The residual of constraint [k], with lengths measured in units of [u] *)
Definition relative_residual (u : R) (s : system R) (k : chandle) : outcome R :=
  let! x := constraint_residual k s in Done (x / u ^ dimension (ch_tag k)).
(** The sum of the squares of these over several constraints *)
Definition misfit (u : R) (s : system R) (ks : list chandle) : outcome R :=
  let! xs := omap (relative_residual u s) ks in
  Done (fold_right Rplus 0 (map (fun x => x * x) xs)).

(** Whenever the optimizer returns, the sum of the squared residuals of its
    problem is at most [eps * eps] at the point it returns ([eps = 0]: it solves
    every problem it returns from). *)
Definition reaches (eps : R) (env : solver_env R) (o : optimizer) : Prop :=
  forall p x y, env_optimize env o p x = Done y ->
    exists a, objective p y = Some a /\ a <= eps * eps.

(** Every constraint is solved together with all points and lengths its elements
    are made of. *)
Definition together (l : log R) (s : system R) : Prop :=
  forall c k p g, In (c, RConstraint k) l -> In p (touched l c) -> con_in_group s g k -> in_group s g p.

(** Every residual equation can be given a coordinate of its own: one that occurs
    in it and is not fixed.  (A sketch with more equations than free coordinates
    in some part is not like this.) *)
Definition assignable (s : system R) : Prop :=
  exists own : nat -> nat,
    (forall e x, nth_error (sys_expressions s) e = Some x ->
       In (own e) (variable_indices x) /\ ~ In (own e) (sys_fixed s)) /\
    (forall e f, e < length (sys_expressions s) -> f < length (sys_expressions s) -> own e = own f -> e = f)%nat.
