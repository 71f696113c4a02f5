(** What it means for an optimizer to improve a point. *)
From Coq Require Import List Bool.
From Verif Require Import Num Outcome ModelSolve.
Import ListNotations.

Section Descent.
  Context {F : Type} {NF : Num F}.
  Local Open Scope num_scope.

  (** What is needed of the arithmetic: true of the reals and of binary64 *)
  Record orderly : Prop := {
    or_neg : forall a : F, (- a) * (- a) = a * a;
    or_trans : forall a b c : F, (a <? b) = true -> (b <? c) = true -> (a <? c) = true;
    or_irrefl : forall a : F, (a <? a) = false
  }.

  (** The sum of the squared residuals at [x], if they can be computed *)
  Definition objective (p : problem F) (x : list F) : option F :=
    match calculate_residuals p x with
    | Done rs => Some (fold_left (fun sum r => sum + r * r) rs nzero)
    | _ => None
    end.
  Definition better (p : problem F) (x y : list F) : Prop :=
    exists a b, objective p x = Some a /\ objective p y = Some b /\ (a <? b) = true.

  (** Each point (most recent first) is better than the one before it. *)
  Fixpoint descends (p : problem F) (trace : list (list F)) : Prop :=
    match trace with
    | new :: ((old :: _) as rest) => better p new old /\ descends p rest
    | _ => True
    end.

  (** The two ways to compute the residuals agree *)
  Definition consistent (p : problem F) : Prop :=
    forall x rs ts, calculate_residuals_and_sparse_jacobian p x = Done (rs, ts) ->
      calculate_residuals p x = Done rs.
End Descent.
Arguments orderly F {NF}.
