(** Numbers.

    The code computes with [f64].  The model is written once, over any type [F]
    with the operations the code uses, and is instantiated twice: at the real
    numbers [R] (the meaning of the formulas, in exact arithmetic; file
    [NumR.v]) and at IEEE-754 binary64 (the behaviour of the hardware, with
    rounding, infinities and NaN; [F64] below, from the standard library's
    [SpecFloat], with no axioms).  Theorems quantified over every [Num F] hold
    for both, whatever the arithmetic does. *)
From Coq Require Import ZArith Bool.
From Coq Require Import Floats.SpecFloat.

(** The [f64] operations used anywhere in /repo/fiksi/src and /repo/solvi/src:
    arithmetic, [abs], [sqrt], [sin], [cos], [atan2], [signum], the IEEE
    comparisons, and integer literals/conversions.  [npow10 k] is the literal
    [1e-k]. *)
Class Num (F : Type) := {
  nzero : F;
  nunit : F;
  nadd : F -> F -> F;
  nsub : F -> F -> F;
  nmul : F -> F -> F;
  ndiv : F -> F -> F;
  nneg : F -> F;
  nabs : F -> F;
  nsqrt : F -> F;
  nsin : F -> F;
  ncos : F -> F;
  natan2 : F -> F -> F;      (* [natan2 y x] is Rust's [y.atan2(x)] *)
  nsignum : F -> F;
  npi : F;
  nltb : F -> F -> bool;     (* IEEE [<] *)
  nleb : F -> F -> bool;     (* IEEE [<=] *)
  neqb : F -> F -> bool;     (* IEEE [==] *)
  nofZ : Z -> F              (* integer conversion, round to nearest *)
}.

Declare Scope num_scope.
Delimit Scope num_scope with num.
Notation "x + y" := (nadd x y) : num_scope.
Notation "x - y" := (nsub x y) : num_scope.
Notation "x * y" := (nmul x y) : num_scope.
Notation "x / y" := (ndiv x y) : num_scope.
Notation "- x" := (nneg x) : num_scope.
Notation "x <? y" := (nltb x y) : num_scope.
Notation "x <=? y" := (nleb x y) : num_scope.
Notation "x =? y" := (neqb x y) : num_scope.

Section Derived.
  Context {F : Type} {NF : Num F}.
  Local Open Scope num_scope.
  (** Integer literal [z] as an [f64]. *)
  Definition lit (z : Z) : F := nofZ z.
  (** The literal [1e-k]: the quotient of two exactly representable integers
      for the [k] used in the code (k <= 22), hence correctly rounded, except
      for [1e-50] whose last bit may differ; that literal only bounds a damping
      factor from below. *)
  Definition tenm (k : Z) : F := nofZ 1 / nofZ (10 ^ k).
  (** expressions.rs 21-25, [FloatExt::square] *)
  Definition square (x : F) : F := x * x.
  (** [f64::recip]: the same rounding of the same quotient. *)
  Definition recip (x : F) : F := nunit / x.
  (** [f64::max] and [f64::min] on arguments that are not NaN. *)
  Definition nmax (x y : F) : F := if x <? y then y else x.
End Derived.

(** Binary64.  [sin], [cos], [atan2] and [pi] are not specified by IEEE-754;
    they are left at NaN here, so an F64 result that depends on one of them
    says nothing, and no F64 theorem below evaluates an expression that does. *)
Definition f64 : Type := spec_float.
Definition f64_prec : Z := 53.
Definition f64_emax : Z := 1024.
(** [0.0], [1.0] and integer conversion *)
Definition f64_ofZ (z : Z) : f64 := binary_normalize f64_prec f64_emax z 0 false.
(** [f64::signum]: NaN for NaN, otherwise 1.0 with the sign of the argument
    (so [signum (+0.0) = 1.0] and [signum (-0.0) = -1.0]). *)
Definition f64_signum (x : f64) : f64 :=
  match x with
  | S754_nan => S754_nan
  | S754_zero s | S754_infinity s => if s then f64_ofZ (-1) else f64_ofZ 1
  | S754_finite s _ _ => if s then f64_ofZ (-1) else f64_ofZ 1
  end.

#[global] Instance F64 : Num f64 := {
  nzero := f64_ofZ 0;
  nunit := f64_ofZ 1;
  nadd := SFadd f64_prec f64_emax;
  nsub := SFsub f64_prec f64_emax;
  nmul := SFmul f64_prec f64_emax;
  ndiv := SFdiv f64_prec f64_emax;
  nneg := SFopp;
  nabs := SFabs;
  nsqrt := SFsqrt f64_prec f64_emax;
  nsin := fun _ => S754_nan;
  ncos := fun _ => S754_nan;
  natan2 := fun _ _ => S754_nan;
  nsignum := f64_signum;
  npi := S754_nan;
  nltb := SFltb;
  nleb := SFleb;
  neqb := SFeqb;
  nofZ := f64_ofZ
}.
