(** The derivative of a residual vector. *)
From Coq Require Import List Reals Arith.
From Verif Require Import Num NumR Outcome ModelExpr ModelGraph ModelSystem ModelMatching ModelSolve
  Spec_Geometry.
Import ListNotations.
Local Open Scope R_scope.

(** Residual number [i] of a problem at [xs] (0 where there is none) *)
Definition residual_at (residuals : list R -> outcome (list R)) (xs : list R) (i : nat) : R :=
  match residuals xs with Done rs => nth i rs 0 | _ => 0 end.

(** [d] is the partial derivative of residual [i] with respect to variable [j] *)
Definition partial_derivative (residuals : list R -> outcome (list R)) (xs : list R)
    (i j : nat) (d : R) : Prop :=
  derivable_pt_lim (fun x => residual_at residuals (lset xs j x) i) (nth j xs 0) d.

(** The matrix entry a list of triplets stands for: duplicates are added *)
Fixpoint entry (ts : list (nat * nat * R)) (i j : nat) : R :=
  match ts with
  | [] => 0
  | (r, c, d) :: ts' => (if Nat.eqb r i && Nat.eqb c j then d else 0) + entry ts' i j
  end%bool.

(** Expression [e] is at a configuration where it has a derivative, when its
    variables have the values [vm] *)
Definition regular (vm : variable_map R) (e : expr R) : Prop :=
  exists ys, gather vm e = Done ys /\ nondegenerate e (buffer ys).
