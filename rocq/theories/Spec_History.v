(** Histories of one system as its client sees them: a log of the calls made
    and what they returned (most recent first), and what can be read off such a
    log without knowing anything about how the system stores its data. *)
From Coq Require Import List Arith NArith ZArith.
From Verif Require Import Num Outcome ModelExpr ModelSystem ModelSolve ModelApi.
Import ListNotations.

Definition tag_dec (a b : element_tag) : {a = b} + {a <> b}.
Proof. decide equality. Defined.
Definition ehandle_dec (a b : ehandle) : {a = b} + {a <> b}.
Proof. decide equality; [apply tag_dec|apply Nat.eq_dec|apply N.eq_dec]. Defined.
Arguments ehandle_dec : simpl never.
Definition chandle_dec (a b : chandle) : {a = b} + {a <> b}.
Proof. decide equality; [decide equality|apply Nat.eq_dec|apply N.eq_dec]. Defined.
Arguments chandle_dec : simpl never.

Section History.
  Context {F : Type} {NF : Num F}.
  Definition log : Type := list (call F * ret F).

  (** The element handles a call is given, with the kind its signature asks for
      ([None]: any kind) *)
  Definition call_elements (c : call F) : list (ehandle * option element_tag) :=
    let P h := (h, Some TPoint) in
    let L h := (h, Some TLine) in
    let C h := (h, Some TCircle) in
    match c with
    | CreateLine p q => [P p; P q]
    | CreateCircle p r => [P p; (r, Some TLength)]
    | CreateCoincidence p q | CreatePointPointDistance p q _ => [P p; P q]
    | CreatePointPointPointAngle p q r _ => [P p; P q; P r]
    | CreatePointLineIncidence p l | CreatePointLineDistance p l _ => [P p; L l]
    | CreatePointCircleIncidence p c => [P p; C c]
    | CreateSegmentSegmentLengthEquality a b c d => [P a; P b; P c; P d]
    | CreateLineLineAngle k l _ | CreateLineLineParallelism k l
    | CreateLineLinePerpendicularity k l => [L k; L l]
    | CreateLineCircleTangency l c => [L l; C c]
    | Fix h | Unfix h | GetValue h => [(h, None)]
    | UpdatePoint h _ _ => [P h]
    | UpdateLength h _ => [(h, Some TLength)]
    | _ => []
    end.
  Definition call_constraints (c : call F) : list chandle :=
    match c with
    | UpdateParameter h _ | GetResidual h => [h]
    | _ => []
    end.
  (** The constraints that have a parameter *)
  Definition has_parameter (t : constraint_tag) : bool :=
    match t with
    | CPointPointDistance | CPointPointPointAngle | CPointLineDistance | CLineLineAngle => true
    | _ => false
    end.

  (** A well-typed call whose handles were all returned earlier by this system *)
  Definition allowed (l : log) (c : call F) : Prop :=
    (forall h t, In (h, t) (call_elements c) ->
       In (RElement h) (map snd l) /\ (forall t', t = Some t' -> eh_tag h = t')) /\
    (forall h, In h (call_constraints c) -> In (RConstraint h) (map snd l)) /\
    match c with
    | UpdateParameter h _ => has_parameter (ch_tag h) = true
    | _ => True
    end.

  (** [history env id l s]: a system created with number [id] was used through
      the calls of [l] only, each returned what [l] says, and it is now [s]. *)
  Inductive history (env : solver_env F) (id : N) : log -> system F -> Prop :=
  | h_new : history env id [] (system_new id)
  | h_call l s c s' r :
      history env id l s -> allowed l c -> step env c s = Done (s', r) ->
      history env id ((c, r) :: l) s'.

  (** Handles the calls of the log returned, oldest first *)
  Definition created_elements (l : log) : list ehandle :=
    flat_map (fun cr => match snd cr with RElement h => [h] | _ => [] end) (rev l).
  Definition created_constraints (l : log) : list chandle :=
    flat_map (fun cr => match snd cr with RConstraint h => [h] | _ => [] end) (rev l).

  (** Fewer than 2^31 elements and 2^31 constraints: ids and variable indices
      are [u32], and a point has two variables *)
  Definition small (l : log) : Prop :=
    (2 * N.of_nat (length (created_elements l)) < 2 ^ 32)%N /\
    (2 * N.of_nat (length (created_constraints l)) < 2 ^ 32)%N.

  (** No call of the log is a [Solve] *)
  Definition no_solve (l : log) : Prop := forall o r, ~ In (Solve o, r) l.

  (** The value most recently given to a point or a length, by create or update *)
  Fixpoint latest (l : log) (h : ehandle) : option (element_value F) :=
    match l with
    | [] => None
    | (CreatePoint x y, RElement h') :: l' =>
        if ehandle_dec h' h then Some (VPoint (x, y)) else latest l' h
    | (CreateLength x, RElement h') :: l' =>
        if ehandle_dec h' h then Some (VLength x) else latest l' h
    | (UpdatePoint h' x y, _) :: l' =>
        if ehandle_dec h' h then Some (VPoint (x, y)) else latest l' h
    | (UpdateLength h' x, _) :: l' =>
        if ehandle_dec h' h then Some (VLength x) else latest l' h
    | _ :: l' => latest l' h
    end.

  (** The points and lengths an element is made of: itself, or for a line or
      circle the handles it was created from *)
  Fixpoint parts (l : log) (h : ehandle) : list ehandle :=
    match l with
    | [] => [h]
    | (CreateLine p q, RElement h') :: l' => if ehandle_dec h' h then [p; q] else parts l' h
    | (CreateCircle c r, RElement h') :: l' => if ehandle_dec h' h then [c; r] else parts l' h
    | _ :: l' => parts l' h
    end.

  (** Is point or length [p] fixed: the last [Fix] or [Unfix] of an element it
      is part of was a [Fix] *)
  Fixpoint is_fixed (l : log) (p : ehandle) : bool :=
    match l with
    | [] => false
    | (Fix h, _) :: l' => if in_dec ehandle_dec p (parts l' h) then true else is_fixed l' p
    | (Unfix h, _) :: l' => if in_dec ehandle_dec p (parts l' h) then false else is_fixed l' p
    | _ :: l' => is_fixed l' p
    end.

  (** Point or length [p] is part of an element some constraint was created on *)
  Definition is_constrained (l : log) (p : ehandle) : Prop :=
    exists c k h t, In (c, RConstraint k) l /\ In (h, t) (call_elements c) /\ In p (parts l h).

  (** The element whose value a call sets *)
  Definition updated (c : call F) : option ehandle :=
    match c with UpdatePoint h _ _ | UpdateLength h _ => Some h | _ => None end.

  (** The same constraint-creating call with another parameter *)
  Definition with_new_parameter (c : call F) (x : F) : option (call F) :=
    match c with
    | CreatePointPointDistance p q _ => Some (CreatePointPointDistance p q x)
    | CreatePointPointPointAngle p q r _ => Some (CreatePointPointPointAngle p q r x)
    | CreatePointLineDistance p l _ => Some (CreatePointLineDistance p l x)
    | CreateLineLineAngle k l _ => Some (CreateLineLineAngle k l x)
    | _ => None
    end.

  (** The call that would create constraint [h] as it is now: the call that
      created it, with the parameter most recently set *)
  Fixpoint current_call (l : log) (h : chandle) : option (call F) :=
    match l with
    | [] => None
    | (UpdateParameter h' x, _) :: l' =>
        if chandle_dec h' h then
          match current_call l' h with Some c => with_new_parameter c x | None => None end
        else current_call l' h
    | (c, RConstraint h') :: l' => if chandle_dec h' h then Some c else current_call l' h
    | _ :: l' => current_call l' h
    end.

  (** The residual a constraint-creating call asks for, as a formula in the
      values of the elements it names ([val]).  The meaning of these formulas
      over the real numbers is the subject of [Spec_Geometry.v]. *)
  Local Open Scope num_scope.
  Definition call_residual (c : call F) (val : ehandle -> option (element_value F)) : option F :=
    let sq (x : F) := x * x in
    (* difference of two directions, brought back to one turn *)
    let turn (a : F) := if npi <? a then a - lit 2 * npi
                  else if a <? - npi then a + lit 2 * npi else a in
    match c with
    | CreateCoincidence p q =>
        match val p, val q with
        | Some (VPoint (x1, y1)), Some (VPoint (x2, y2)) =>
            Some (nsqrt (nzero + sq (x2 - x1) + sq (y2 - y1)))
        | _, _ => None
        end
    | CreatePointPointDistance p q d =>
        match val p, val q with
        | Some (VPoint (x1, y1)), Some (VPoint (x2, y2)) =>
            Some (nsqrt (sq (x1 - x2) + sq (y1 - y2)) - d)
        | _, _ => None
        end
    | CreatePointPointPointAngle p q r a =>
        match val p, val q, val r with
        | Some (VPoint (x1, y1)), Some (VPoint (x2, y2)), Some (VPoint (x3, y3)) =>
            Some (turn (natan2 (y3 - y2) (x3 - x2) - natan2 (y1 - y2) (x1 - x2)) - a)
        | _, _, _ => None
        end
    | CreatePointLineIncidence p l =>
        match val p, val l with
        | Some (VPoint (x, y)), Some (VLine (x1, y1) (x2, y2)) =>
            Some ((x2 - x1) * (y - y1) - (y2 - y1) * (x - x1))
        | _, _ => None
        end
    | CreatePointLineDistance p l d =>
        match val p, val l with
        | Some (VPoint (x, y)), Some (VLine (x1, y1) (x2, y2)) =>
            Some (nunit / nsqrt (sq (x2 - x1) + sq (y2 - y1))
                  * ((x2 - x1) * (y - y1) - (y2 - y1) * (x - x1)) - d)
        | _, _ => None
        end
    | CreatePointCircleIncidence p c =>
        match val p, val c with
        | Some (VPoint (x, y)), Some (VCircle (xc, yc) r) =>
            Some (nsqrt (sq (x - xc) + sq (y - yc)) - r)
        | _, _ => None
        end
    | CreateSegmentSegmentLengthEquality a b c d =>
        match val a, val b, val c, val d with
        | Some (VPoint (xa, ya)), Some (VPoint (xb, yb)),
          Some (VPoint (xc, yc)), Some (VPoint (xd, yd)) =>
            Some ((nsqrt (sq (xc - xd) + sq (yc - yd)) - nzero)
                  - (nsqrt (sq (xa - xb) + sq (ya - yb)) - nzero))
        | _, _, _, _ => None
        end
    | CreateLineLineAngle k l a =>
        match val k, val l with
        | Some (VLine (x1, y1) (x2, y2)), Some (VLine (x3, y3) (x4, y4)) =>
            Some (turn (natan2 (y4 - y3) (x4 - x3) - natan2 (y2 - y1) (x2 - x1)) - a)
        | _, _ => None
        end
    | CreateLineLineParallelism k l =>
        match val k, val l with
        | Some (VLine (x1, y1) (x2, y2)), Some (VLine (x3, y3) (x4, y4)) =>
            Some ((x4 - x3) * (y2 - y1) - (y4 - y3) * (x2 - x1))
        | _, _ => None
        end
    | CreateLineLinePerpendicularity k l =>
        match val k, val l with
        | Some (VLine (x1, y1) (x2, y2)), Some (VLine (x3, y3) (x4, y4)) =>
            Some ((x4 - x3) * (x2 - x1) + (y4 - y3) * (y2 - y1))
        | _, _ => None
        end
    | CreateLineCircleTangency l c =>
        match val l, val c with
        | Some (VLine (x1, y1) (x2, y2)), Some (VCircle (xc, yc) r) =>
            let length := nsqrt (sq (x1 - x2) + sq (y1 - y2)) in
            Some (if length =? nzero then nzero
                  else nunit / length
                       * nabs (x1 * (y2 - yc) + x2 * (yc - y1) + xc * (y1 - y2)) - r)
        | _, _ => None
        end
    | _ => None
    end.

  (** What a client reads: the value, when the read returns *)
  Definition read (s : system F) (h : ehandle) : option (element_value F) :=
    match get_value h s with Done v => Some v | _ => None end.
End History.

(** Handles returned by the calls of several systems *)
Section Returned.
  Context {F : Type}.
  (** Number of systems created *)
  Definition systems_created (cs : list (wcall F)) : N :=
    N.of_nat (length (filter (fun c => match c with WNew => true | _ => false end) cs)).
End Returned.
Arguments log F : clear implicits.
