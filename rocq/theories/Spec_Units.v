(** Changing the unit of length: the same calls made by a client who writes
    [k * x] wherever another writes the length or coordinate [x].  Angles have
    no unit. *)
From Coq Require Import List Arith.
From Verif Require Import Num ModelSystem ModelSolve ModelApi.
Import ListNotations.

Section Units.
  Context {F : Type} {NF : Num F} (k : F).

  (** Constraints whose parameter is a length *)
  Definition length_like (t : constraint_tag) : bool :=
    match t with CPointPointDistance | CPointLineDistance => true | _ => false end.
  Definition rescaled (c : call F) : call F :=
    match c with
    | CreateLength l => CreateLength (nmul k l)
    | CreatePoint x y => CreatePoint (nmul k x) (nmul k y)
    | CreatePointPointDistance p q d => CreatePointPointDistance p q (nmul k d)
    | CreatePointLineDistance p l d => CreatePointLineDistance p l (nmul k d)
    | UpdatePoint h x y => UpdatePoint h (nmul k x) (nmul k y)
    | UpdateLength h l => UpdateLength h (nmul k l)
    | UpdateParameter h x => UpdateParameter h (if length_like (ch_tag h) then nmul k x else x)
    | c => c
    end.

  (** Values of elements are lengths *)
  Definition rescaled_value (v : element_value F) : element_value F :=
    let pt (p : F * F) := (nmul k (fst p), nmul k (snd p)) in
    match v with
    | VLength l => VLength (nmul k l)
    | VPoint p => VPoint (pt p)
    | VLine p q => VLine (pt p) (pt q)
    | VCircle c r => VCircle (pt c) (nmul k r)
    end.
  (** The residual of a constraint is an angle, a length or an area. *)
  Definition rescaled_residual (t : constraint_tag) (r : F) : F :=
    match t with
    | CPointPointPointAngle | CLineLineAngle => r
    | CPointLineIncidence | CLineLineParallelism | CLineLinePerpendicularity => nmul k (nmul k r)
    | _ => nmul k r
    end.
  (** What the call returns in the other unit *)
  Definition rescaled_ret (c : call F) (r : ret F) : ret F :=
    match c, r with
    | GetValue _, RValue v => RValue (rescaled_value v)
    | GetResidual h, RNumber x => RNumber (rescaled_residual (ch_tag h) x)
    | _, r => r
    end.
  (** A log in the other unit *)
  Definition rescaled_log (l : list (call F * ret F)) : list (call F * ret F) :=
    map (fun '(c, r) => (rescaled c, rescaled_ret c r)) l.
End Units.
