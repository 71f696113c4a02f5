(** The BFGS approximation of the inverse Hessian (Nocedal and Wright, Numerical
    Optimization (2006), equations 6.17 and 7.19-7.20), in real matrices. *)
From Coq Require Import List Reals Arith.
From Verif Require Import Spec_Linear.
Import ListNotations.
Local Open Scope R_scope.

(** The update of [H] by the pair [(s, y)]:
    [transpose V * H * V + rho s (transpose s)], with [rho = 1 / (s . y)] and
    [V = I - rho y (transpose s)] *)
Definition bfgs_update (n : nat) (H : nat -> nat -> R) (s y : nat -> R) : nat -> nat -> R :=
  let rho := 1 / inner n s y in
  let V a b := delta a b - rho * y a * s b in
  fun i j =>
    rsum (fun a => rsum (fun b => V a i * H a b * V b j) (seq 0 n)) (seq 0 n)
    + rho * s i * s j.

(** The initial approximation is a multiple of the identity, chosen from the
    newest pair. *)
Definition bfgs_scale (n : nat) (newest : option ((nat -> R) * (nat -> R))) : R :=
  match newest with
  | Some (s, y) => if Rlt_dec 0 (inner n y y) then inner n s y / inner n y y else 1
  | None => 1
  end.

(** The approximation from a scale and pairs, oldest first *)
Definition bfgs_matrix (n : nat) (scale : R) (pairs : list ((nat -> R) * (nat -> R))) : nat -> nat -> R :=
  fold_left (fun H '(s, y) => bfgs_update n H s y) pairs (fun i j => scale * delta i j).

Definition lbfgs_matrix (n : nat) (pairs : list ((nat -> R) * (nat -> R))) : nat -> nat -> R :=
  bfgs_matrix n (bfgs_scale n (last (map Some pairs) None)) pairs.
