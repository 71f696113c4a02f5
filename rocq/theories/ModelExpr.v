(** Model of /repo/fiksi/src/constraints/expressions.rs and
    /repo/fiksi/src/variable_map.rs: the constraint equations, their
    gradients, and how variable values are gathered for them. *)
From Coq Require Import List ZArith.
From Verif Require Import Num Outcome.
Import ListNotations.
Local Open Scope num_scope.

(** expressions.rs 28-40 and the structs at 279-283, 305-311, 357-364,
    433-437, 487-492, 548-552, 580-585, 624-632, 700-705, 756-761, 803-808.
    Indices are [u32] in the code, [nat] here. *)
Inductive expr (F : Type) : Type :=
| VariableVariableEquality (variable1 variable2 : nat)
| PointPointDistance (point1 point2 : nat) (distance : F)
| PointPointPointAngle (point1 point2 point3 : nat) (angle : F)
| PointLineIncidence (point line_point1 line_point2 : nat)
| PointLineDistance (point line_point1 line_point2 : nat) (distance : F)
| PointCircleIncidence (point circle_center circle_radius : nat)
| SegmentSegmentLengthEquality (s1p1 s1p2 s2p1 s2p2 : nat)
| LineLineAngle (l1p1 l1p2 l2p1 l2p2 : nat) (angle : F)
| LineLineParallelism (l1p1 l1p2 l2p1 l2p2 : nat)
| LineLinePerpendicularity (l1p1 l1p2 l2p1 l2p2 : nat)
| LineCircleTangency (line_point1 line_point2 circle_center circle_radius : nat).
Arguments VariableVariableEquality {F}.
Arguments PointPointDistance {F}.
Arguments PointPointPointAngle {F}.
Arguments PointLineIncidence {F}.
Arguments PointLineDistance {F}.
Arguments PointCircleIncidence {F}.
Arguments SegmentSegmentLengthEquality {F}.
Arguments LineLineAngle {F}.
Arguments LineLineParallelism {F}.
Arguments LineLinePerpendicularity {F}.
Arguments LineCircleTangency {F}.

(** The two variables of the point stored at [i]. *)
Definition pt (i : nat) : list nat := [i; S i].

(** expressions.rs 48-182, [Expression::variable_indices].  The code writes
    into an 8-slot buffer and returns its prefix; here the prefix is returned. *)
Definition variable_indices {F} (e : expr F) : list nat :=
  match e with
  | VariableVariableEquality a b => [a; b]
  | PointPointDistance p1 p2 _ => pt p1 ++ pt p2
  | PointPointPointAngle p1 p2 p3 _ => pt p1 ++ pt p2 ++ pt p3
  | PointLineIncidence p l1 l2 => pt p ++ pt l1 ++ pt l2
  | PointLineDistance p l1 l2 _ => pt p ++ pt l1 ++ pt l2
  | PointCircleIncidence p c r => pt p ++ pt c ++ [r]
  | SegmentSegmentLengthEquality a b c d => pt a ++ pt b ++ pt c ++ pt d
  | LineLineAngle a b c d _ => pt a ++ pt b ++ pt c ++ pt d
  | LineLineParallelism a b c d => pt a ++ pt b ++ pt c ++ pt d
  | LineLinePerpendicularity a b c d => pt a ++ pt b ++ pt c ++ pt d
  | LineCircleTangency l1 l2 c r => pt l1 ++ pt l2 ++ pt c ++ [r]
  end.

Section Expr.
  Context {F : Type} {NF : Num F}.

  (** kurbo [Vec2]/[Point] (x, y) operations used by the expressions
      (external crate; these are its published definitions). *)
  Definition vec : Type := (F * F)%type.
  Definition vsub (p q : vec) : vec := (fst p - fst q, snd p - snd q).
  Definition cross (u v : vec) : F := fst u * snd v - snd u * fst v.
  Definition dot (u v : vec) : F := fst u * fst v + snd u * snd v.
  Definition hypot2 (u : vec) : F := dot u u.
  Definition vatan2 (u : vec) : F := natan2 (snd u) (fst u).

  (** expressions.rs 195-211, [Expression::transform] *)
  Definition transform (length_scale_recip : F) (e : expr F) : expr F :=
    match e with
    | PointPointDistance p1 p2 d => PointPointDistance p1 p2 (length_scale_recip * d)
    | PointLineDistance p l1 l2 d => PointLineDistance p l1 l2 (length_scale_recip * d)
    | e => e
    end.

  (** expressions.rs 294-300 *)
  Definition vve_rg (v1 v2 : F) : F * list F :=
    (v2 - v1, [- nunit; nunit]).

  (** expressions.rs 327-352 *)
  Definition ppd_rg (p1 p2 : vec) (param_distance : F) : F * list F :=
    let distance := nsqrt (square (fst p1 - fst p2) + square (snd p1 - snd p2)) in
    let residual := distance - param_distance in
    let distance_recip := nunit / distance in
    (residual,
     [ (fst p1 - fst p2) * distance_recip;
       (snd p1 - snd p2) * distance_recip;
       (- (fst p1 - fst p2)) * distance_recip;
       (- (snd p1 - snd p2)) * distance_recip ]).

  (** expressions.rs 393-400 and 664-671: bring a difference of two [atan2]
      values back to [-pi, pi]. *)
  Definition wrap_angle (angle : F) : F :=
    if npi <? angle then angle - lit 2 * npi
    else if angle <? - npi then angle + lit 2 * npi
    else angle.

  (** expressions.rs 375-424 *)
  Definition pppa_rg (p1 p2 p3 : vec) (param_angle : F) : F * list F :=
    let u := vsub p1 p2 in
    let v := vsub p3 p2 in
    let angle := wrap_angle (vatan2 v - vatan2 u) in
    let residual := angle - param_angle in
    let u_squared_recip := recip (hypot2 u) in
    let v_squared_recip := recip (hypot2 v) in
    let d1x := snd u * u_squared_recip in
    let d1y := (- fst u) * u_squared_recip in
    let d3x := (- snd v) * v_squared_recip in
    let d3y := fst v * v_squared_recip in
    let d2x := (- d1x) - d3x in
    let d2y := (- d1y) - d3y in
    (residual, [d1x; d1y; d2x; d2y; d3x; d3y]).

  (** expressions.rs 448-476 *)
  Definition pli_rg (p l1 l2 : vec) : F * list F :=
    let u := vsub l2 l1 in
    let v := vsub p l1 in
    (cross u v,
     [ - snd u; fst u;
       (- snd p) + snd l2; fst p - fst l2;
       snd v; - fst v ]).

  (** expressions.rs 503-543 *)
  Definition pld_rg (p l1 l2 : vec) (param_distance : F) : F * list F :=
    let u := vsub l2 l1 in
    let v := vsub p l1 in
    let crs := cross u v in
    let line_length_squared := hypot2 u in
    let line_length := nsqrt line_length_squared in
    let line_length_recip := nunit / line_length in
    let a := crs / line_length_squared in
    let b := (- a) * fst u in
    let c := fst p + a * snd u in
    (line_length_recip * crs - param_distance,
     [ (- line_length_recip) * snd u;
       line_length_recip * fst u;
       (- line_length_recip) * ((b - snd l2) + snd p);
       (- line_length_recip) * (fst l2 - c);
       line_length_recip * (b + snd v);
       (- line_length_recip) * (c - fst l1) ]).

  (** expressions.rs 563-575 *)
  Definition pci_rg (p c : vec) (r : F) : F * list F :=
    let '(residual, gradient) := ppd_rg p c r in
    (residual, gradient ++ [- nunit]).

  (** expressions.rs 596-619 *)
  Definition ssle_rg (a b c d : vec) : F * list F :=
    let '(residual1, gradient1) := ppd_rg a b nzero in
    let '(residual2, gradient2) := ppd_rg c d nzero in
    (residual2 - residual1, map nneg gradient1 ++ gradient2).

  (** expressions.rs 643-695 *)
  Definition lla_rg (l1p1 l1p2 l2p1 l2p2 : vec) (param_angle : F) : F * list F :=
    let u := vsub l1p2 l1p1 in
    let v := vsub l2p2 l2p1 in
    let angle := wrap_angle (vatan2 v - vatan2 u) in
    let residual := angle - param_angle in
    let u_squared_recip := recip (hypot2 u) in
    let v_squared_recip := recip (hypot2 v) in
    let d1x := (- snd u) * u_squared_recip in
    let d1y := fst u * u_squared_recip in
    let d2x := snd v * v_squared_recip in
    let d2y := (- fst v) * v_squared_recip in
    (residual, [d1x; d1y; - d1x; - d1y; d2x; d2y; - d2x; - d2y]).

  (** expressions.rs 716-751 *)
  Definition llp_rg (l1p1 l1p2 l2p1 l2p2 : vec) : F * list F :=
    let u := vsub l1p2 l1p1 in
    let v := vsub l2p2 l2p1 in
    (cross v u,
     [snd v; - fst v; - snd v; fst v; - snd u; fst u; snd u; - fst u]).

  (** expressions.rs 772-798 *)
  Definition llperp_rg (l1p1 l1p2 l2p1 l2p2 : vec) : F * list F :=
    let u := vsub l1p2 l1p1 in
    let v := vsub l2p2 l2p1 in
    (dot v u,
     [- fst v; - snd v; fst v; snd v; - fst u; - snd u; fst u; snd u]).

  (** expressions.rs 819-873.  kurbo's [distance_squared p q] is
      [hypot2 (p - q)]. *)
  Definition lct_rg (l1 l2 c : vec) (r : F) : F * list F :=
    let length2 := hypot2 (vsub l1 l2) in
    let length := nsqrt length2 in
    if length =? nzero then (nzero, repeat nzero 7)
    else
      let length_recip := nunit / length in
      let signed_area :=
        (fst l1 * (snd l2 - snd c) + fst l2 * (snd c - snd l1))
        + fst c * (snd l1 - snd l2) in
      let residual := length_recip * nabs signed_area - r in
      let sign := nsignum signed_area in
      let length3_recip := nunit / (length2 * length) in
      (residual,
       [ sign * length3_recip
         * (length2 * (snd l2 - snd c) + signed_area * (fst l2 - fst l1));
         sign * length3_recip
         * (length2 * ((- fst l2) + fst c) + signed_area * (snd l2 - snd l1));
         sign * length3_recip
         * (length2 * (snd c - snd l1) - signed_area * (fst l2 - fst l1));
         sign * length3_recip
         * (length2 * (fst l1 - fst c) - signed_area * (snd l2 - snd l1));
         sign * length_recip * (snd l1 - snd l2);
         sign * length_recip * ((- fst l1) + fst l2);
         - nunit ]).

  (** The point in slots [i], [i+1] of the value buffer. *)
  Definition bpt (v : nat -> F) (i : nat) : vec := (v i, v (S i)).

  (** expressions.rs 214-276, [compute_residual_and_gradient].  The buffer
      [variables : &[f64; 8]] is a function from slots to values; the gradient
      is the prefix of the 8-slot buffer that the code returns. *)
  Definition compute_rg (e : expr F) (v : nat -> F) : F * list F :=
    match e with
    | VariableVariableEquality _ _ => vve_rg (v 0) (v 1)
    | PointPointDistance _ _ d => ppd_rg (bpt v 0) (bpt v 2) d
    | PointPointPointAngle _ _ _ a => pppa_rg (bpt v 0) (bpt v 2) (bpt v 4) a
    | PointLineIncidence _ _ _ => pli_rg (bpt v 0) (bpt v 2) (bpt v 4)
    | PointLineDistance _ _ _ d => pld_rg (bpt v 0) (bpt v 2) (bpt v 4) d
    | PointCircleIncidence _ _ _ => pci_rg (bpt v 0) (bpt v 2) (v 4)
    | SegmentSegmentLengthEquality _ _ _ _ =>
        ssle_rg (bpt v 0) (bpt v 2) (bpt v 4) (bpt v 6)
    | LineLineAngle _ _ _ _ a =>
        lla_rg (bpt v 0) (bpt v 2) (bpt v 4) (bpt v 6) a
    | LineLineParallelism _ _ _ _ =>
        llp_rg (bpt v 0) (bpt v 2) (bpt v 4) (bpt v 6)
    | LineLinePerpendicularity _ _ _ _ =>
        llperp_rg (bpt v 0) (bpt v 2) (bpt v 4) (bpt v 6)
    | LineCircleTangency _ _ _ _ => lct_rg (bpt v 0) (bpt v 2) (bpt v 4) (v 6)
    end.

  (** variable_map.rs 8-20 *)
  Inductive variable : Type :=
  | Free (value : F) (idx : nat)
  | Fixed (value : F).

  Definition variable_value (x : variable) : F :=
    match x with Free v _ => v | Fixed v => v end.

  (** variable_map.rs 27-36: a [VariableMap] is its [get_value] method. *)
  Definition variable_map : Type := nat -> outcome variable.

  (** [IndexSet::get_index_of] over the insertion-ordered list of members. *)
  Fixpoint index_of (l : list nat) (x : nat) : option nat :=
    match l with
    | [] => None
    | y :: t => if Nat.eqb x y then Some 0 else option_map S (index_of t x)
    end.

  (** variable_map.rs 57-72 *)
  Definition index_set_map (free_variables : list nat)
      (variable_values free_variable_values : list F) : variable_map :=
    fun system_idx =>
      match index_of free_variables system_idx with
      | Some free_idx =>
          let! value := oget free_variable_values free_idx in
          Done (Free value free_idx)
      | None =>
          let! value := oget variable_values system_idx in Done (Fixed value)
      end.

  (** variable_map.rs 89-94 *)
  Definition identity_map (variable_values : list F) : variable_map :=
    fun system_idx =>
      let! value := oget variable_values system_idx in
      Done (Free value system_idx).

  (** The gather loop shared by expressions.rs 894-909, 979-994 and
      subsystem.rs 145-155. *)
  Definition gather (vm : variable_map) (e : expr F) : outcome (list variable) :=
    omap vm (variable_indices e).

  (** The 8-slot value buffer after the gather loop: zero where unwritten. *)
  Definition buffer (xs : list variable) : nat -> F :=
    fun i => nth i (map variable_value xs) nzero.

  (** expressions.rs 883-961, [calculate_residual] *)
  Definition calculate_residual (vm : variable_map) (e : expr F) : outcome F :=
    let! xs := gather vm e in Done (fst (compute_rg e (buffer xs))).

  (** expressions.rs 996-1009, [map_residual_and_gradient]: *assigns* (does
      not add) each partial derivative to its free variable's slot. *)
  Definition assign_gradient (xs : list variable) (g : list F)
      (gradient : list F) : outcome (list F) :=
    ofold (fun acc '(x, d) =>
             match x with Free _ idx => oset acc idx d | Fixed _ => Done acc end)
          (combine xs g) gradient.

  (** expressions.rs 962-1090, [calculate_residual_and_gradient] *)
  Definition calculate_residual_and_gradient (vm : variable_map) (e : expr F)
      (gradient : list F) : outcome (F * list F) :=
    let! xs := gather vm e in
    let '(r, g) := compute_rg e (buffer xs) in
    let! gradient' := assign_gradient xs g gradient in
    Done (r, gradient').

  (** expressions.rs 1093-1096, [Pose2D] *)
  Record pose := Pose { rotation : F; translation : vec }.

  (** expressions.rs 1099-1105 *)
  Definition pose_new : pose := Pose nzero (nzero, nzero).
  (** expressions.rs 1107-1113 *)
  Definition pose_from_array (a b c : F) : pose := Pose a (b, c).

  (** expressions.rs 1120-1137 *)
  Definition transform_point (self : pose) (point : vec) : vec :=
    let s := nsin (rotation self) in
    let c := ncos (rotation self) in
    let '(u, v) := point in
    (fst (translation self) + u * c - v * s,
     snd (translation self) + u * s + v * c).

  (** expressions.rs 1139-1159 *)
  Definition gradient_chain_rule_point (self : pose) (point : vec)
      (gradient : vec) : F * F * F :=
    let s := nsin (rotation self) in
    let c := ncos (rotation self) in
    let '(u, v) := point in
    (((- (u * s)) - v * c) * fst gradient + (u * c - v * s) * snd gradient,
     fst gradient, snd gradient).
End Expr.
Arguments vec F : clear implicits.
Arguments variable F : clear implicits.
Arguments variable_map F : clear implicits.
Arguments pose F : clear implicits.
