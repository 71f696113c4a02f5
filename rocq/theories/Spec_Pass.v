(** What single-pass solving is about: the residuals of a scaled system. *)
From Coq Require Import List Arith.
From Verif Require Import Num Outcome ModelExpr ModelGraph ModelSystem ModelMatching ModelSolve.
Import ListNotations.

Section Pass.
  Context {F : Type} {NF : Num F}.

  (** Residual of expression [e] of a scaled system *)
  Definition residual_in (s : system F) (e : nat) : outcome F :=
    let! x := oget (sys_expressions_transformed s) e in
    calculate_residual (identity_map (sys_variables_transformed s)) x.

End Pass.
