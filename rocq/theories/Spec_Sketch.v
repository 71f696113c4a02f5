(** Specification of the API, independent of how the program stores things:
    a sketch is a list of items and a list of relations between items; lines
    and circles refer to items; there are no variable vectors, offsets or
    graphs.  [spec_call] says what each call does and returns; [None] means the
    call is not allowed (it panics). *)
From Coq Require Import List Arith NArith ZArith.
From Verif Require Import Num ModelSystem ModelSolve ModelApi.
Import ListNotations.

Inductive item (F : Type) : Type :=
| ILength (l : F)
| IPoint (x y : F)
| ILine (p q : nat)          (* the two points *)
| ICircle (c r : nat).       (* the centre point and the radius length *)
Arguments ILength {F}. Arguments IPoint {F}. Arguments ILine {F}. Arguments ICircle {F}.

(** A relation names items by their number. *)
Inductive relation (F : Type) : Type :=
| Coincide (p q : nat)
| Distance (p q : nat) (d : F)
| Angle (p q r : nat) (a : F)
| OnLine (p l : nat)
| LineDistance (p l : nat) (d : F)
| OnCircle (p c : nat)
| SameLength (a b c d : nat)
| LineAngle (k l : nat) (a : F)
| Parallel (k l : nat)
| Perpendicular (k l : nat)
| Tangent (l c : nat).
Arguments Coincide {F}. Arguments Distance {F}. Arguments Angle {F}. Arguments OnLine {F}.
Arguments LineDistance {F}. Arguments OnCircle {F}. Arguments SameLength {F}.
Arguments LineAngle {F}. Arguments Parallel {F}. Arguments Perpendicular {F}.
Arguments Tangent {F}.

(** A coordinate of the sketch: item and axis (0 for a length or an x, 1 for a y). *)
Definition coord : Type := (nat * nat)%type.

Record sketch (F : Type) := Sketch {
  sk_id : N;
  sk_items : list (item F);
  sk_relations : list (relation F);
  sk_fixed : list coord
}.
Arguments Sketch {F}. Arguments sk_id {F}. Arguments sk_items {F}.
Arguments sk_relations {F}. Arguments sk_fixed {F}.

Definition item_tag {F} (i : item F) : element_tag :=
  match i with
  | ILength _ => TLength
  | IPoint _ _ => TPoint
  | ILine _ _ => TLine
  | ICircle _ _ => TCircle
  end.
Definition relation_tag {F} (r : relation F) : constraint_tag :=
  match r with
  | Coincide _ _ => CPointPointCoincidence
  | Distance _ _ _ => CPointPointDistance
  | Angle _ _ _ _ => CPointPointPointAngle
  | OnLine _ _ => CPointLineIncidence
  | LineDistance _ _ _ => CPointLineDistance
  | OnCircle _ _ => CPointCircleIncidence
  | SameLength _ _ _ _ => CSegmentSegmentLengthEquality
  | LineAngle _ _ _ => CLineLineAngle
  | Parallel _ _ => CLineLineParallelism
  | Perpendicular _ _ => CLineLinePerpendicularity
  | Tangent _ _ => CLineCircleTangency
  end.
Definition relation_items {F} (r : relation F) : list nat :=
  match r with
  | Coincide p q | Distance p q _ => [p; q]
  | Angle p q r _ => [p; q; r]
  | OnLine p l | LineDistance p l _ => [p; l]
  | OnCircle p c => [p; c]
  | SameLength a b c d => [a; b; c; d]
  | LineAngle k l _ | Parallel k l | Perpendicular k l => [k; l]
  | Tangent l c => [l; c]
  end.

(** The same list with item number [i] (constraint number [i]) replaced. *)
Fixpoint replace {A} (l : list A) (i : nat) (a : A) : list A :=
  match l, i with
  | [], _ => []
  | _ :: t, O => a :: t
  | h :: t, S i' => h :: replace t i' a
  end.

Section Spec.
  Context {F : Type} {NF : Num F}.
  Notation "'do' x <- m ; k" :=
    (match m with Some x => k | None => None end)
    (at level 200, x pattern, right associativity).

  Definition sketch_new (id : N) : sketch F := Sketch id [] [] [].

  (** Values of items *)
  Definition point_of (sk : sketch F) (i : nat) : option (F * F) :=
    match nth_error (sk_items sk) i with Some (IPoint x y) => Some (x, y) | _ => None end.
  Definition length_of (sk : sketch F) (i : nat) : option F :=
    match nth_error (sk_items sk) i with Some (ILength l) => Some l | _ => None end.
  Definition line_of (sk : sketch F) (i : nat) : option ((F * F) * (F * F)) :=
    match nth_error (sk_items sk) i with
    | Some (ILine p q) =>
        do a <- point_of sk p; do b <- point_of sk q; Some (a, b)
    | _ => None
    end.
  Definition circle_of (sk : sketch F) (i : nat) : option ((F * F) * F) :=
    match nth_error (sk_items sk) i with
    | Some (ICircle c r) =>
        do a <- point_of sk c; do b <- length_of sk r; Some (a, b)
    | _ => None
    end.
  Definition value_of (sk : sketch F) (i : nat) : option (element_value F) :=
    do it <- nth_error (sk_items sk) i;
    match it with
    | ILength l => Some (VLength l)
    | IPoint x y => Some (VPoint (x, y))
    | ILine _ _ => do ab <- line_of sk i; Some (VLine (fst ab) (snd ab))
    | ICircle _ _ => do cr <- circle_of sk i; Some (VCircle (fst cr) (snd cr))
    end.

  (** Residuals, written out in the coordinates.  What they mean over the real
      numbers is the subject of [Spec_Geometry.v]. *)
  Local Open Scope num_scope.
  Definition sq (x : F) : F := x * x.
  (** difference of two directions, brought back to one turn *)
  Definition turn (a : F) : F :=
    if npi <? a then a - lit 2 * npi
    else if a <? - npi then a + lit 2 * npi else a.
  Definition residual_of (sk : sketch F) (r : relation F) : option F :=
    match r with
    | Coincide p q =>
        do (x1, y1) <- point_of sk p; do (x2, y2) <- point_of sk q;
        Some (nsqrt (nzero + sq (x2 - x1) + sq (y2 - y1)))
    | Distance p q d =>
        do (x1, y1) <- point_of sk p; do (x2, y2) <- point_of sk q;
        Some (nsqrt (sq (x1 - x2) + sq (y1 - y2)) - d)
    | Angle p q r a =>
        do (x1, y1) <- point_of sk p; do (x2, y2) <- point_of sk q;
        do (x3, y3) <- point_of sk r;
        Some (turn (natan2 (y3 - y2) (x3 - x2) - natan2 (y1 - y2) (x1 - x2)) - a)
    | OnLine p l =>
        do (x, y) <- point_of sk p; do ((x1, y1), (x2, y2)) <- line_of sk l;
        Some ((x2 - x1) * (y - y1) - (y2 - y1) * (x - x1))
    | LineDistance p l d =>
        do (x, y) <- point_of sk p; do ((x1, y1), (x2, y2)) <- line_of sk l;
        Some (nunit / nsqrt (sq (x2 - x1) + sq (y2 - y1))
              * ((x2 - x1) * (y - y1) - (y2 - y1) * (x - x1)) - d)
    | OnCircle p c =>
        do (x, y) <- point_of sk p; do ((xc, yc), r) <- circle_of sk c;
        Some (nsqrt (sq (x - xc) + sq (y - yc)) - r)
    | SameLength a b c d =>
        do (xa, ya) <- point_of sk a; do (xb, yb) <- point_of sk b;
        do (xc, yc) <- point_of sk c; do (xd, yd) <- point_of sk d;
        Some ((nsqrt (sq (xc - xd) + sq (yc - yd)) - nzero)
              - (nsqrt (sq (xa - xb) + sq (ya - yb)) - nzero))
    | LineAngle k l a =>
        do ((x1, y1), (x2, y2)) <- line_of sk k; do ((x3, y3), (x4, y4)) <- line_of sk l;
        Some (turn (natan2 (y4 - y3) (x4 - x3) - natan2 (y2 - y1) (x2 - x1)) - a)
    | Parallel k l =>
        do ((x1, y1), (x2, y2)) <- line_of sk k; do ((x3, y3), (x4, y4)) <- line_of sk l;
        Some ((x4 - x3) * (y2 - y1) - (y4 - y3) * (x2 - x1))
    | Perpendicular k l =>
        do ((x1, y1), (x2, y2)) <- line_of sk k; do ((x3, y3), (x4, y4)) <- line_of sk l;
        Some ((x4 - x3) * (x2 - x1) + (y4 - y3) * (y2 - y1))
    | Tangent l c =>
        do ((x1, y1), (x2, y2)) <- line_of sk l; do ((xc, yc), r) <- circle_of sk c;
        let length := nsqrt (sq (x1 - x2) + sq (y1 - y2)) in
        Some (if length =? nzero then nzero
              else nunit / length
                   * nabs (x1 * (y2 - yc) + x2 * (yc - y1) + xc * (y1 - y2)) - r)
    end.

  (** Every item a relation names exists and is of the right kind. *)
  Definition has_tag (sk : sketch F) (t : element_tag) (i : nat) : bool :=
    match nth_error (sk_items sk) i, t with
    | Some (ILength _), TLength | Some (IPoint _ _), TPoint
    | Some (ILine _ _), TLine | Some (ICircle _ _), TCircle => true
    | _, _ => false
    end.
  Definition relation_ok (sk : sketch F) (r : relation F) : bool :=
    let P := has_tag sk TPoint in
    let L := has_tag sk TLine in
    let C := has_tag sk TCircle in
    match r with
    | Coincide p q | Distance p q _ => P p && P q
    | Angle p q r _ => P p && P q && P r
    | OnLine p l | LineDistance p l _ => P p && L l
    | OnCircle p c => P p && C c
    | SameLength a b c d => P a && P b && P c && P d
    | LineAngle k l _ | Parallel k l | Perpendicular k l => L k && L l
    | Tangent l c => L l && C c
    end%bool.

  (** Coordinates an item is built from *)
  Definition item_coords (sk : sketch F) (i : nat) : list coord :=
    match nth_error (sk_items sk) i with
    | Some (ILength _) => [(i, 0)]
    | Some (IPoint _ _) => [(i, 0); (i, 1)]
    | Some (ILine p q) => [(p, 0); (p, 1); (q, 0); (q, 1)]
    | Some (ICircle c r) => [(c, 0); (c, 1); (r, 0)]
    | None => []
    end%nat.
  Definition coord_value (sk : sketch F) (c : coord) : option F :=
    match nth_error (sk_items sk) (fst c), snd c with
    | Some (ILength l), 0 => Some l
    | Some (IPoint x _), 0 => Some x
    | Some (IPoint _ y), 1 => Some y
    | _, _ => None
    end%nat.
  Definition coord_eqb (a b : coord) : bool :=
    (Nat.eqb (fst a) (fst b) && Nat.eqb (snd a) (snd b))%bool.

  (** Handles *)
  Definition element_handles (sk : sketch F) : list ehandle :=
    map (fun i => EHandle (sk_id sk) i
           match nth_error (sk_items sk) i with Some it => item_tag it | None => TPoint end)
        (seq 0 (length (sk_items sk))).
  Definition constraint_handles (sk : sketch F) : list chandle :=
    map (fun i => CHandle (sk_id sk) i
           match nth_error (sk_relations sk) i with
           | Some r => relation_tag r | None => CPointPointCoincidence end)
        (seq 0 (length (sk_relations sk))).

  Definition add_item (it : item F) (sk : sketch F) : option (sketch F * ret F) :=
    Some (Sketch (sk_id sk) (sk_items sk ++ [it]) (sk_relations sk) (sk_fixed sk),
          RElement (EHandle (sk_id sk) (length (sk_items sk)) (item_tag it))).
  Definition add_relation (r : relation F) (sk : sketch F) : option (sketch F * ret F) :=
    if relation_ok sk r then
      Some (Sketch (sk_id sk) (sk_items sk) (sk_relations sk ++ [r]) (sk_fixed sk),
            RConstraint (CHandle (sk_id sk) (length (sk_relations sk)) (relation_tag r)))
    else None.
  Definition set_item (i : nat) (it : item F) (sk : sketch F) : sketch F :=
    Sketch (sk_id sk) (replace (sk_items sk) i it) (sk_relations sk) (sk_fixed sk).
  Definition set_fixed (cs : list coord) (sk : sketch F) : sketch F :=
    Sketch (sk_id sk) (sk_items sk) (sk_relations sk) cs.

  (** The relation with another parameter *)
  Definition with_parameter (t : constraint_tag) (x : F) (r : relation F)
    : option (relation F) :=
    match t, r with
    | CPointPointDistance, Distance p q _ => Some (Distance p q x)
    | CPointPointPointAngle, Angle p q r _ => Some (Angle p q r x)
    | CPointLineDistance, LineDistance p l _ => Some (LineDistance p l x)
    | CLineLineAngle, LineAngle k l _ => Some (LineAngle k l x)
    | _, _ => None
    end.

  (** The calls whose result is determined by the sketch (all but [Analyze]
      and [Solve]). *)
  Definition spec_call (c : call F) (sk : sketch F) : option (sketch F * ret F) :=
    match c with
    | CreateLength l => add_item (ILength l) sk
    | CreatePoint x y => add_item (IPoint x y) sk
    | CreateLine p q =>
        if (has_tag sk TPoint (eh_id p) && has_tag sk TPoint (eh_id q))%bool
        then add_item (ILine (eh_id p) (eh_id q)) sk else None
    | CreateCircle c r =>
        if (has_tag sk TPoint (eh_id c) && has_tag sk TLength (eh_id r))%bool
        then add_item (ICircle (eh_id c) (eh_id r)) sk else None
    | CreateCoincidence p q => add_relation (Coincide (eh_id p) (eh_id q)) sk
    | CreatePointPointDistance p q d => add_relation (Distance (eh_id p) (eh_id q) d) sk
    | CreatePointPointPointAngle p q r a =>
        add_relation (Angle (eh_id p) (eh_id q) (eh_id r) a) sk
    | CreatePointLineIncidence p l => add_relation (OnLine (eh_id p) (eh_id l)) sk
    | CreatePointLineDistance p l d => add_relation (LineDistance (eh_id p) (eh_id l) d) sk
    | CreatePointCircleIncidence p c => add_relation (OnCircle (eh_id p) (eh_id c)) sk
    | CreateSegmentSegmentLengthEquality a b c d =>
        add_relation (SameLength (eh_id a) (eh_id b) (eh_id c) (eh_id d)) sk
    | CreateLineLineAngle k l a => add_relation (LineAngle (eh_id k) (eh_id l) a) sk
    | CreateLineLineParallelism k l => add_relation (Parallel (eh_id k) (eh_id l)) sk
    | CreateLineLinePerpendicularity k l =>
        add_relation (Perpendicular (eh_id k) (eh_id l)) sk
    | CreateLineCircleTangency l c => add_relation (Tangent (eh_id l) (eh_id c)) sk
    | Fix h =>
        if has_tag sk (eh_tag h) (eh_id h)
        then Some (set_fixed (item_coords sk (eh_id h) ++ sk_fixed sk) sk, RUnit)
        else None
    | Unfix h =>
        if has_tag sk (eh_tag h) (eh_id h)
        then Some (set_fixed
               (filter (fun c => negb (existsb (coord_eqb c) (item_coords sk (eh_id h))))
                       (sk_fixed sk)) sk, RUnit)
        else None
    | UpdatePoint h x y =>
        if has_tag sk TPoint (eh_id h)
        then Some (set_item (eh_id h) (IPoint x y) sk, RUnit) else None
    | UpdateLength h l =>
        if has_tag sk TLength (eh_id h)
        then Some (set_item (eh_id h) (ILength l) sk, RUnit) else None
    | UpdateParameter h x =>
        do r <- nth_error (sk_relations sk) (ch_id h);
        do r' <- with_parameter (ch_tag h) x r;
        Some (Sketch (sk_id sk) (sk_items sk) (replace (sk_relations sk) (ch_id h) r')
                     (sk_fixed sk), RUnit)
    | GetValue h =>
        if (N.eqb (eh_system h) (sk_id sk) && has_tag sk (eh_tag h) (eh_id h))%bool
        then do v <- value_of sk (eh_id h); Some (sk, RValue v) else None
    | GetResidual h =>
        do r <- nth_error (sk_relations sk) (ch_id h);
        if N.eqb (ch_system h) (sk_id sk)
        then do x <- residual_of sk r; Some (sk, RNumber x) else None
    | GetElementHandles => Some (sk, RElements (element_handles sk))
    | GetConstraintHandles => Some (sk, RConstraints (constraint_handles sk))
    | Analyze | Solve _ => None
    end.

  (** A coordinate of an item that some relation names *)
  Definition constrained (sk : sketch F) (c : coord) : Prop :=
    exists r i, In r (sk_relations sk) /\ In i (relation_items r) /\
                In c (item_coords sk i).

  (** What solving may do: same items up to coordinates, same relations, same
      fixed coordinates, and a coordinate keeps its value unless it is free
      and constrained. *)
  Definition item_shape_eq (a b : item F) : Prop :=
    match a, b with
    | ILength _, ILength _ | IPoint _ _, IPoint _ _ => True
    | ILine p q, ILine p' q' => p = p' /\ q = q'
    | ICircle c r, ICircle c' r' => c = c' /\ r = r'
    | _, _ => False
    end.
  Definition solved (sk sk' : sketch F) : Prop :=
    sk_id sk' = sk_id sk /\
    sk_relations sk' = sk_relations sk /\
    sk_fixed sk' = sk_fixed sk /\
    Forall2 item_shape_eq (sk_items sk) (sk_items sk') /\
    forall c, ~ constrained sk c \/ In c (sk_fixed sk) ->
      coord_value sk' c = coord_value sk c.
  (** The same without the protection of fixed coordinates (recursive
      assembly, whose documentation says it ignores them). *)
  Definition solved_assembly (sk sk' : sketch F) : Prop :=
    sk_id sk' = sk_id sk /\
    sk_relations sk' = sk_relations sk /\
    sk_fixed sk' = sk_fixed sk /\
    Forall2 item_shape_eq (sk_items sk) (sk_items sk') /\
    forall c, ~ constrained sk c -> coord_value sk' c = coord_value sk c.

  (** All calls *)
  Inductive spec_step : call F -> sketch F -> sketch F -> ret F -> Prop :=
  | spec_determined c sk sk' r :
      spec_call c sk = Some (sk', r) -> spec_step c sk sk' r
  | spec_analyze sk hs :
      incl hs (constraint_handles sk) -> spec_step Analyze sk sk (RConstraints hs)
  | spec_solve opts sk sk' :
      o_decomposer opts <> RecursiveAssembly ->
      solved sk sk' -> spec_step (Solve opts) sk sk' RUnit
  | spec_solve_assembly opts sk sk' :
      o_decomposer opts = RecursiveAssembly ->
      solved_assembly sk sk' -> spec_step (Solve opts) sk sk' RUnit.

  Inductive spec_run : list (call F) -> sketch F -> sketch F -> list (ret F) -> Prop :=
  | spec_nil sk : spec_run [] sk sk []
  | spec_cons c cs sk1 sk2 sk3 r rs :
      spec_step c sk1 sk2 r -> spec_run cs sk2 sk3 rs ->
      spec_run (c :: cs) sk1 sk3 (r :: rs).
End Spec.
