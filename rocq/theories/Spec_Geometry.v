(** Plane geometry over the real numbers: what each constraint means, with no
    reference to the formulas of the program. *)
From Coq Require Import List Reals.
From Verif Require Import Num NumR ModelExpr ModelSystem ModelSolve ModelApi.
Import ListNotations.
Local Open Scope R_scope.

Definition point : Type := (R * R)%type.
Definition minus (p q : point) : point := (fst p - fst q, snd p - snd q).
Definition dist (p q : point) : R :=
  sqrt ((fst p - fst q) ^ 2 + (snd p - snd q) ^ 2).

(** [p] is on the line through [a] and [b] *)
Definition on_line (p a b : point) : Prop :=
  exists t, fst p = fst a + t * (fst b - fst a) /\ snd p = snd a + t * (snd b - snd a).
(** [d] is the distance from [p] to the line: attained, and smallest *)
Definition line_distance (p a b : point) (d : R) : Prop :=
  (exists q, on_line q a b /\ dist p q = d) /\
  (forall q, on_line q a b -> d <= dist p q).
(** Turning left (counterclockwise) takes the direction from [a] to [b] to the
    side [p] is on: [p] is a point of the line moved by a positive multiple of
    the left normal *)
Definition left_of (p a b : point) : Prop :=
  exists t k, 0 < k /\
    fst p = fst a + t * (fst b - fst a) - k * (snd b - snd a) /\
    snd p = snd a + t * (snd b - snd a) + k * (fst b - fst a).
(** [p] is at distance [|d|], to the left when [d > 0], to the right when [d < 0] *)
Definition signed_line_distance (p a b : point) (d : R) : Prop :=
  line_distance p a b (Rabs d) /\ (0 < d -> left_of p a b) /\ (d < 0 -> left_of p b a).

(** [u] turned by the angle [a] (counterclockwise) *)
Definition rotate (a : R) (u : point) : point :=
  (cos a * fst u - sin a * snd u, sin a * fst u + cos a * snd u).
(** Turning [u] by [a] gives the direction of [v] *)
Definition turned (u v : point) (a : R) : Prop :=
  exists k, 0 < k /\ v = (k * fst (rotate a u), k * snd (rotate a u)).
Definition parallel (u v : point) : Prop := exists k, v = (k * fst u, k * snd u).
(** A multiple of [u] turned by a quarter *)
Definition perpendicular (u v : point) : Prop := exists k, v = (k * - snd u, k * fst u).
(** Opposite directions *)
Definition opposite (u v : point) : Prop := exists k, k < 0 /\ v = (k * fst u, k * snd u).

(** The geometric relation a constraint-creating call asks for *)
Definition satisfied (c : call R) (val : ehandle -> option (element_value R)) : Prop :=
  match c with
  | CreateCoincidence p q =>
      exists P, val p = Some (VPoint P) /\ val q = Some (VPoint P)
  | CreatePointPointDistance p q d =>
      exists P Q, val p = Some (VPoint P) /\ val q = Some (VPoint Q) /\ dist P Q = d
  | CreatePointPointPointAngle p q r a =>
      exists P Q S, val p = Some (VPoint P) /\ val q = Some (VPoint Q) /\ val r = Some (VPoint S) /\
        turned (minus P Q) (minus S Q) a
  | CreatePointLineIncidence p l =>
      exists P A B, val p = Some (VPoint P) /\ val l = Some (VLine A B) /\ on_line P A B
  | CreatePointLineDistance p l d =>
      exists P A B, val p = Some (VPoint P) /\ val l = Some (VLine A B) /\
        signed_line_distance P A B d
  | CreatePointCircleIncidence p c =>
      exists P C r, val p = Some (VPoint P) /\ val c = Some (VCircle C r) /\ dist P C = r
  | CreateSegmentSegmentLengthEquality a b c d =>
      exists A B C D, val a = Some (VPoint A) /\ val b = Some (VPoint B) /\
        val c = Some (VPoint C) /\ val d = Some (VPoint D) /\ dist A B = dist C D
  | CreateLineLineAngle k l a =>
      exists A B C D, val k = Some (VLine A B) /\ val l = Some (VLine C D) /\
        turned (minus B A) (minus D C) a
  | CreateLineLineParallelism k l =>
      exists A B C D, val k = Some (VLine A B) /\ val l = Some (VLine C D) /\
        parallel (minus B A) (minus D C)
  | CreateLineLinePerpendicularity k l =>
      exists A B C D, val k = Some (VLine A B) /\ val l = Some (VLine C D) /\
        perpendicular (minus B A) (minus D C)
  | CreateLineCircleTangency l c =>
      exists A B C r, val l = Some (VLine A B) /\ val c = Some (VCircle C r) /\
        line_distance C A B r
  | _ => False
  end.

(** General position: the lines named have two different points, the legs of
    an angle are not zero, and an angle parameter is strictly between minus
    and plus half a turn.  Nothing is asked of the other kinds. *)
Definition general (c : call R) (val : ehandle -> option (element_value R)) : Prop :=
  match c with
  | CreatePointPointPointAngle p q r a =>
      val p <> val q /\ val r <> val q /\ - PI < a < PI
  | CreatePointLineIncidence _ l | CreatePointLineDistance _ l _
  | CreateLineCircleTangency l _
  | CreateLineLineParallelism l _ | CreateLineLinePerpendicularity l _ =>
      forall A, val l <> Some (VLine A A)
  | CreateLineLineAngle k l a =>
      (forall A, val k <> Some (VLine A A)) /\ (forall A, val l <> Some (VLine A A)) /\
      - PI < a < PI
  | _ => True
  end.

(** Legs of an angle point in opposite directions *)
Definition legs_opposite (c : call R) (val : ehandle -> option (element_value R)) : Prop :=
  match c with
  | CreatePointPointPointAngle p q r _ =>
      exists P Q S, val p = Some (VPoint P) /\ val q = Some (VPoint Q) /\ val r = Some (VPoint S) /\
        opposite (minus P Q) (minus S Q)
  | CreateLineLineAngle k l _ =>
      exists A B C D, val k = Some (VLine A B) /\ val l = Some (VLine C D) /\
        opposite (minus B A) (minus D C)
  | _ => False
  end.

(** Legs of an angle have a direction *)
Definition legs_nonzero (c : call R) (val : ehandle -> option (element_value R)) : Prop :=
  match c with
  | CreatePointPointPointAngle p q r _ => val p <> val q /\ val r <> val q
  | CreateLineLineAngle k l _ =>
      (forall A, val k <> Some (VLine A A)) /\ (forall A, val l <> Some (VLine A A))
  | _ => True
  end.

(** Rigid motion: turn by [a] about the origin, then translate by [t].
    Lengths and radii stay. *)
Definition move (a : R) (t : point) (p : point) : point :=
  (fst t + fst (rotate a p), snd t + snd (rotate a p)).
Definition moved (a : R) (t : point) (v : element_value R) : element_value R :=
  match v with
  | VLength x => VLength x
  | VPoint p => VPoint (move a t p)
  | VLine p q => VLine (move a t p) (move a t q)
  | VCircle c r => VCircle (move a t c) r
  end.

(** Configurations (values of the slots of an expression, see
    [variable_indices]) at which a residual has a derivative *)
Definition slot_point (v : nat -> R) (i : nat) : point := (v i, v (S i)).
Definition nondegenerate (e : expr R) (v : nat -> R) : Prop :=
  let P := slot_point v in
  match e with
  | VariableVariableEquality _ _ | PointLineIncidence _ _ _
  | LineLineParallelism _ _ _ _ | LineLinePerpendicularity _ _ _ _ => True
  | PointPointDistance _ _ _ | PointCircleIncidence _ _ _ => P 0%nat <> P 2%nat
  | PointLineDistance _ _ _ _ => P 2%nat <> P 4%nat
  | SegmentSegmentLengthEquality _ _ _ _ => P 0%nat <> P 2%nat /\ P 4%nat <> P 6%nat
  | PointPointPointAngle _ _ _ _ =>
      P 0%nat <> P 2%nat /\ P 4%nat <> P 2%nat /\
      ~ opposite (minus (P 0%nat) (P 2%nat)) (minus (P 4%nat) (P 2%nat))
  | LineLineAngle _ _ _ _ _ =>
      P 0%nat <> P 2%nat /\ P 4%nat <> P 6%nat /\
      ~ opposite (minus (P 2%nat) (P 0%nat)) (minus (P 6%nat) (P 4%nat))
  | LineCircleTangency _ _ _ _ =>
      P 0%nat <> P 2%nat /\ ~ on_line (P 4%nat) (P 0%nat) (P 2%nat)
  end.

(** The same slots with slot [i] holding [x] *)
Definition with_slot (v : nat -> R) (i : nat) (x : R) : nat -> R :=
  fun j => if Nat.eqb j i then x else v j.
