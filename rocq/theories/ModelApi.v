(** The public API as one step function, and the process around it: a counter
    that numbers systems, several systems, and calls that may pass any handle
    to any system.  Each call is the corresponding method of
    /repo/fiksi/src/lib.rs, elements/mod.rs, constraints/mod.rs. *)
From Coq Require Import List Arith NArith.
From Verif Require Import Num Outcome ModelExpr ModelGraph ModelSystem ModelSolve
  ModelNumerical.
Import ListNotations.

Inductive call (F : Type) : Type :=
| CreateLength (length : F)
| CreatePoint (x y : F)
| CreateLine (point1 point2 : ehandle)
| CreateCircle (center radius : ehandle)
| CreateCoincidence (point1 point2 : ehandle)
| CreatePointPointDistance (point1 point2 : ehandle) (distance : F)
| CreatePointPointPointAngle (point1 point2 point3 : ehandle) (angle : F)
| CreatePointLineIncidence (point line : ehandle)
| CreatePointLineDistance (point line : ehandle) (distance : F)
| CreatePointCircleIncidence (point circle : ehandle)
| CreateSegmentSegmentLengthEquality (a b c d : ehandle)
| CreateLineLineAngle (line1 line2 : ehandle) (angle : F)
| CreateLineLineParallelism (line1 line2 : ehandle)
| CreateLineLinePerpendicularity (line1 line2 : ehandle)
| CreateLineCircleTangency (line circle : ehandle)
| Fix (h : ehandle)
| Unfix (h : ehandle)
| UpdatePoint (h : ehandle) (x y : F)
| UpdateLength (h : ehandle) (length : F)
| UpdateParameter (h : chandle) (x : F)
| GetValue (h : ehandle)
| GetResidual (h : chandle)
| GetElementHandles
| GetConstraintHandles
| Analyze
| Solve (opts : options).
Arguments CreateLength {F}. Arguments CreatePoint {F}. Arguments CreateLine {F}.
Arguments CreateCircle {F}. Arguments CreateCoincidence {F}.
Arguments CreatePointPointDistance {F}. Arguments CreatePointPointPointAngle {F}.
Arguments CreatePointLineIncidence {F}. Arguments CreatePointLineDistance {F}.
Arguments CreatePointCircleIncidence {F}.
Arguments CreateSegmentSegmentLengthEquality {F}. Arguments CreateLineLineAngle {F}.
Arguments CreateLineLineParallelism {F}. Arguments CreateLineLinePerpendicularity {F}.
Arguments CreateLineCircleTangency {F}. Arguments Fix {F}. Arguments Unfix {F}.
Arguments UpdatePoint {F}. Arguments UpdateLength {F}. Arguments UpdateParameter {F}.
Arguments GetValue {F}. Arguments GetResidual {F}. Arguments GetElementHandles {F}.
Arguments GetConstraintHandles {F}. Arguments Analyze {F}. Arguments Solve {F}.

(** What a call returns *)
Inductive ret (F : Type) : Type :=
| RUnit
| RElement (h : ehandle)
| RConstraint (h : chandle)
| RValue (v : element_value F)
| RNumber (x : F)
| RElements (hs : list ehandle)
| RConstraints (hs : list chandle).
Arguments RUnit {F}. Arguments RElement {F}. Arguments RConstraint {F}.
Arguments RValue {F}. Arguments RNumber {F}. Arguments RElements {F}.
Arguments RConstraints {F}.

Section Api.
  Context {F : Type} {NF : Num F} (env : solver_env F).

  Definition ret_element (m : outcome (system F * ehandle)) : outcome (system F * ret F) :=
    let! (s, h) := m in Done (s, RElement h).
  Definition ret_constraint (m : outcome (system F * chandle)) : outcome (system F * ret F) :=
    let! (s, h) := m in Done (s, RConstraint h).
  Definition ret_unit (m : outcome (system F)) : outcome (system F * ret F) :=
    let! s := m in Done (s, RUnit).

  (** One call of the public API on a system. *)
  Definition step (c : call F) (s : system F) : outcome (system F * ret F) :=
    match c with
    | CreateLength l => ret_element (length_create l s)
    | CreatePoint x y => ret_element (point_create x y s)
    | CreateLine p q => ret_element (line_create p q s)
    | CreateCircle p r => ret_element (circle_create p r s)
    | CreateCoincidence p q => ret_constraint (coincidence_create p q s)
    | CreatePointPointDistance p q d => ret_constraint (ppd_create p q d s)
    | CreatePointPointPointAngle p q r a => ret_constraint (pppa_create p q r a s)
    | CreatePointLineIncidence p l => ret_constraint (pli_create p l s)
    | CreatePointLineDistance p l d => ret_constraint (pld_create p l d s)
    | CreatePointCircleIncidence p c => ret_constraint (pci_create p c s)
    | CreateSegmentSegmentLengthEquality a b c d => ret_constraint (ssle_create a b c d s)
    | CreateLineLineAngle k l a => ret_constraint (lla_create k l a s)
    | CreateLineLineParallelism k l => ret_constraint (llp_create k l s)
    | CreateLineLinePerpendicularity k l => ret_constraint (llperp_create k l s)
    | CreateLineCircleTangency l c => ret_constraint (lct_create l c s)
    | Fix h => ret_unit (fix_element h s)
    | Unfix h => ret_unit (unfix_element h s)
    | UpdatePoint h x y => ret_unit (point_update_value h x y s)
    | UpdateLength h l => ret_unit (length_update_value h l s)
    | UpdateParameter h x => ret_unit (update_parameter h x s)
    | GetValue h => let! v := get_value h s in Done (s, RValue v)
    | GetResidual h => let! x := constraint_residual h s in Done (s, RNumber x)
    | GetElementHandles => Done (s, RElements (get_element_handles s))
    | GetConstraintHandles => Done (s, RConstraints (get_constraint_handles s))
    | Analyze => let! hs := find_overconstraints s in Done (s, RConstraints hs)
    | Solve opts => ret_unit (solve env opts s)
    end.

  (** A history: a list of calls, from the first to the last, and what they
      returned. *)
  Fixpoint run (cs : list (call F)) (s : system F) : outcome (system F * list (ret F)) :=
    match cs with
    | [] => Done (s, [])
    | c :: cs =>
        let! (s, r) := step c s in
        let! (s, rs) := run cs s in
        Done (s, r :: rs)
    end.

  (** The process: the next system id (a wrapping [AtomicU32]; lib.rs 308-311)
      and the systems created so far. *)
  Record world := World { w_next : N; w_systems : list (system F) }.
  Definition world_new : world := World 0 [].

  (** What a client can do: create a system, or call a method of an existing
      one, with whatever handles. *)
  Inductive wcall := WNew | WCall (i : nat) (c : call F).
  Definition wstep (c : wcall) (w : world) : outcome (world * option (ret F)) :=
    match c with
    | WNew => Done (World ((w_next w + 1) mod 2 ^ 32)%N
                          (w_systems w ++ [system_new (w_next w)]), None)
    | WCall i c =>
        let! s := oget (w_systems w) i in
        let! (s', r) := step c s in
        Done (World (w_next w) (lset (w_systems w) i s'), Some r)
    end.
  Fixpoint wrun (cs : list wcall) (w : world) : outcome (world * list (option (ret F))) :=
    match cs with
    | [] => Done (w, [])
    | c :: cs =>
        let! (w, r) := wstep c w in
        let! (w, rs) := wrun cs w in
        Done (w, r :: rs)
    end.
End Api.
Arguments world F : clear implicits.
Arguments wcall F : clear implicits.
