(** The real numbers as a number type: the meaning of the formulas in exact
    arithmetic. *)
From Coq Require Import Reals ZArith Bool.
From Verif Require Import Num.
Local Open Scope R_scope.

Definition Rltb (x y : R) : bool := if Rlt_dec x y then true else false.
Definition Rleb (x y : R) : bool := if Rle_dec x y then true else false.
Definition Reqb (x y : R) : bool := if Req_EM_T x y then true else false.

(** The angle of the point (x, y), in ]-pi, pi]; 0 at the origin (as IEEE for
    positive zeros). *)
Definition atan2 (y x : R) : R :=
  if Rlt_dec 0 x then atan (y / x)
  else if Rlt_dec x 0 then
    (if Rle_dec 0 y then atan (y / x) + PI else atan (y / x) - PI)
  else if Rlt_dec 0 y then PI / 2
  else if Rlt_dec y 0 then - (PI / 2)
  else 0.

(** Division is Coq's: where the code would divide by zero the quotient is
    unspecified, so no theorem may depend on it; statements guard against it.
    [signum 0 = 1] (IEEE +0). *)
#[export] Instance NumR : Num R := {|
  nzero := 0; nunit := 1;
  nadd := Rplus; nsub := Rminus; nmul := Rmult; ndiv := Rdiv; nneg := Ropp;
  nabs := Rabs; nsqrt := sqrt; nsin := sin; ncos := cos; natan2 := atan2;
  nsignum := fun x => if Rlt_dec x 0 then -1 else 1;
  npi := PI;
  nltb := Rltb; nleb := Rleb; neqb := Reqb;
  nofZ := IZR
|}.
