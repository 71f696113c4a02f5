(** Model of /repo/fiksi/src/solve/lm.rs, the Levenberg-Marquardt optimizer.

    The sparse QR factorization it calls (crate solvi) is an argument here,
    [damped_solver]; [ModelQr.v] models it. *)
From Coq Require Import List Arith ZArith Bool.
From Verif Require Import Num Outcome ModelSolve.
Import ListNotations.

Section Lm.
  Context {F : Type} {NF : Num F}.
  Local Open Scope num_scope.

  Definition triplets : Type := list (nat * nat * F).

  (** lm.rs 102 and 124-133.  [ds_build nrows ncols ts]: the symbolic
      factorization of the matrix of the given shape (including the damping
      rows) and structure.  [ds_solve sym nrows ncols ts d b]: with the damping
      entries (the last entry of each column of [ts]) set to [d], factorize and
      solve for the right-hand side [b] ([b] has [nrows] entries, and so has the
      answer); [None] when the solver reports failure ([solve_mut] returns
      [false]). *)
  Record damped_solver (S : Type) := DampedSolver {
    ds_build : nat -> nat -> triplets -> outcome S;
    ds_solve : S -> nat -> nat -> triplets -> F -> list F -> outcome (option (list F))
  }.
  Arguments ds_build {S}. Arguments ds_solve {S}.

  (** lm.rs 195-197.  (The sum of no numbers is 0.0 here; depending on the
      version of the standard library it is 0.0 or -0.0.) *)
  Definition norm_squared (v : list F) : F := fold_left (fun a x => a + x * x) v nzero.

  (** lm.rs 89-95 and 174-176: the rows that will hold the damping factors *)
  Definition augment (nrows ncols : nat) (ts : triplets) : triplets :=
    ts ++ map (fun idx => (nrows + idx, idx, nzero)%nat) (seq 0 ncols).

  (** The loop-carried variables of lm.rs 104-191: [variables], [residuals]
      (negated), [sparse_jacobian] (augmented), [sum_squared_residuals],
      [lambda] *)
  Record lm_state := LmState {
    lm_variables : list F;
    lm_residuals : list F;
    lm_jacobian : triplets;
    lm_ssr : F;
    lm_lambda : F
  }.

  (** How one round of the inner loop (113-190) ends *)
  Inductive lm_verdict :=
  | LmRetry (lambda : F)        (* 131-132 [continue], and 186-189 *)
  | LmStall                     (* 136-138: [break 'steps] *)
  | LmConverged (x : list F)    (* 160-164: accepted, then [break 'steps] *)
  | LmAccepted (st : lm_state). (* 165-185: accepted, then [break] *)

  Variable S : Type.
  Variable solver : damped_solver S.
  Variable p : problem F.
  Let nrows := num_residuals p.
  Let ncols := num_variables p.

  (** 81-88 and 166-176 *)
  Definition lm_evaluate (x : list F) : outcome (list F * triplets) :=
    let! (rs, ts) := calculate_residuals_and_sparse_jacobian p x in
    Done (map nneg rs, augment nrows ncols ts).

  (** 113-190, one round *)
  Definition lm_try (sym : S) (st : lm_state) : outcome lm_verdict :=
    let lambda := lm_lambda st in
    let! solved := ds_solve solver sym (nrows + ncols) ncols (lm_jacobian st) (nsqrt lambda)
                     (lm_residuals st ++ repeat nzero ncols) in
    match solved with
    | None => Done (LmRetry (lambda * lit 8))
    | Some b =>
        let delta := firstn ncols b in
        if norm_squared delta <? tenm 12 then Done LmStall else
        let x := map (fun '(v, d) => v + d) (combine (lm_variables st) delta) in
        let! rs := calculate_residuals p x in
        let ssr := norm_squared rs in
        if ssr <? lm_ssr st then
          let lambda := lambda * (nunit / lit 8) in
          let lambda := if lambda <? tenm 50 then tenm 50 else lambda in
          if (lm_ssr st - ssr) / lm_ssr st <=? tenm 6 then Done (LmConverged x) else
          let! (rs, ts) := lm_evaluate x in
          Done (LmAccepted (LmState x rs ts ssr lambda))
        else Done (LmRetry (lambda * lit 2))
    end.

  Definition with_lambda (lambda : F) (st : lm_state) : lm_state :=
    LmState (lm_variables st) (lm_residuals st) (lm_jacobian st) (lm_ssr st) lambda.

  (** 113-190, the inner loop; it has no bound in the code *)
  Fixpoint lm_inner (fuel : nat) (sym : S) (st : lm_state) : outcome lm_verdict :=
    match fuel with
    | O => Timeout
    | Datatypes.S fuel =>
        let! v := lm_try sym st in
        match v with
        | LmRetry lambda => lm_inner fuel sym (with_lambda lambda st)
        | v => Done v
        end
    end.

  (** 105-191, [k] more rounds of the outer loop.  Returns the contents
      [variables] has had, most recent first ([trace]: those so far). *)
  Fixpoint lm_outer (fuel : nat) (k : nat) (sym : S) (st : lm_state) (trace : list (list F))
    : outcome (list (list F)) :=
    match k with
    | O => Done trace
    | Datatypes.S k =>
        if lm_ssr st <? tenm 8 then Done trace else
        let! v := lm_inner fuel sym st in
        match v with
        | LmRetry _ => Timeout (* [lm_inner] does not return this *)
        | LmStall => Done trace
        | LmConverged x => Done (x :: trace)
        | LmAccepted st' => lm_outer fuel k sym st' (lm_variables st' :: trace)
        end
    end.

  (** 21-193 *)
  Definition lm_trace (fuel : nat) (x : list F) : outcome (list (list F)) :=
    let! (rs, ts) := lm_evaluate x in
    let! sym := ds_build solver (nrows + ncols) ncols ts in
    lm_outer fuel 100 sym (LmState x rs ts (norm_squared rs) (nunit / lit 2)) [x].

  Definition levenberg_marquardt (fuel : nat) (x : list F) : outcome (list F) :=
    let! trace := lm_trace fuel x in Done (hd x trace).
End Lm.
Arguments triplets F : clear implicits.
Arguments damped_solver F S : clear implicits.
Arguments DampedSolver {F S}.
Arguments ds_build {F S}. Arguments ds_solve {F S}.
Arguments lm_state F : clear implicits.
Arguments lm_verdict F : clear implicits.
Arguments LmRetry {F}. Arguments LmStall {F}. Arguments LmConverged {F}. Arguments LmAccepted {F}.
Arguments LmState {F}. Arguments lm_variables {F}. Arguments lm_residuals {F}. Arguments lm_jacobian {F}.
Arguments lm_ssr {F}. Arguments lm_lambda {F}.
Arguments lm_evaluate {F NF}. Arguments lm_try {F NF S}. Arguments with_lambda {F}.
Arguments lm_inner {F NF S}. Arguments lm_outer {F NF S}. Arguments lm_trace {F NF S}.
Arguments levenberg_marquardt {F NF S}.
