(** Model of /repo/fiksi/src/solve/lbfgs.rs, the L-BFGS optimizer with the
    Hager-Zhang line search.

    Simplifications: the flat buffers (Jacobian, histories) are lists of rows,
    and the elementwise loops over buffers of [num_variables] entries are maps;
    [debug_assert!] is not modelled. *)
From Coq Require Import List Arith ZArith Bool.
From Verif Require Import Num Outcome ModelSystem ModelSolve.
Import ListNotations.

Section Lbfgs.
  Context {F : Type} {NF : Num F}.
  Local Open Scope num_scope.

  (** lbfgs.rs 198-210 *)
  Definition compute_gradient (num_variables : nat) (jacobian : list (list F)) (residuals : list F) : list F :=
    map (fun i => fold_left (fun g '(row, r) => g + nth i row nzero * r) (combine jacobian residuals) nzero)
        (seq 0 num_variables).

  (** lbfgs.rs 213-216 *)
  Definition dot_product (a b : list F) : F :=
    fold_left (fun sum '(x, y) => sum + x * y) (combine a b) nzero.

  (* ----- mod hager_zhang ----- *)

  (** 224-242 *)
  Definition hz_delta : F := tenm 4.
  Definition hz_sigma : F := lit 9 / lit 10.
  Definition hz_epsilon : F := tenm 6.
  Definition hz_theta : F := nunit / lit 2.
  Definition hz_gamma : F := lit 66 / lit 100.

  (** 249-256 *)
  Record param := Param { pp : F; phi : F; dphi : F }.

  (** The buffers [Eval] (259-267) points to: [variables_scratch], [residuals],
      [jacobian] and [gradient] *)
  Record buffers := Buffers {
    b_variables : list F;
    b_residuals : list F;
    b_jacobian : list (list F);
    b_gradient : list F
  }.

  Section Search.
    Variable p : problem F.
    (** [Eval]'s [variables] and [direction] *)
    Variables (variables direction : list F).

    (** 270-285 *)
    Definition calculate_phi (b : buffers) (t : F) : outcome (param * buffers) :=
      let x := map (fun '(v, d) => v + t * d) (combine variables direction) in
      let! (rs, jac) := calculate_residuals_and_jacobian p x (b_jacobian b) in
      let g := compute_gradient (num_variables p) jac rs in
      Done (Param t (sum_squares rs) (dot_product g direction), Buffers x rs jac g).

    (** 290-292 *)
    Definition secant (a b : param) : F :=
      (pp a * dphi b - pp b * dphi a) / (dphi b - dphi a).

    (** 299-302 *)
    Variables (phi0 dphi0 : F).

    (** 306-321 *)
    Definition satisfies_wolfe (c : param) : bool :=
      ((phi c <=? phi0 + pp c * (hz_delta * dphi0)) && (hz_sigma * dphi0 <=? dphi c))
      || ((phi c <=? phi0 + hz_epsilon) && (dphi c <=? (lit 2 * hz_delta - nunit) * dphi0)
          && (hz_sigma * dphi0 <=? dphi c)).

    (** 346-358: the loop has no bound in the code *)
    Fixpoint update_loop (fuel : nat) (buf : buffers) (a b : param) : outcome (param * param * buffers) :=
      match fuel with
      | O => Timeout
      | S fuel =>
          let! (d, buf) := calculate_phi buf ((nunit - hz_theta) * pp a + hz_theta * pp b) in
          if nzero <=? dphi d then Done (a, d, buf)
          else if phi d <=? phi0 + hz_epsilon then update_loop fuel buf d b
          else update_loop fuel buf a d
      end.

    (** 324-360 *)
    Definition update (fuel : nat) (buf : buffers) (a b c : param) : outcome (param * param * buffers) :=
      if (pp c <? pp a) || (pp b <? pp c) then Done (a, b, buf)
      else if nzero <=? dphi c then Done (a, c, buf)
      else if phi c <=? phi0 + hz_epsilon then Done (c, b, buf)
      else update_loop fuel buf a c.

    (** 294-297 *)
    Inductive hz_result := Satisfied (c : param) | Unsatisfied (a b : param).

    (** 384-391 and 393-400: the second secant step, between [u] and [v] *)
    Definition secant_again (fuel : nat) (buf : buffers) (a_ b_ u v : param) : outcome (hz_result * buffers) :=
      let! (c_, buf) := calculate_phi buf (secant u v) in
      if satisfies_wolfe c_ then Done (Satisfied c_, buf)
      else
        let! (a, b, buf) := update fuel buf a_ b_ c_ in
        Done (Unsatisfied a b, buf).

    (** 367-404 *)
    Definition secant2 (fuel : nat) (buf : buffers) (a b : param) : outcome (hz_result * buffers) :=
      let! (c, buf) := calculate_phi buf (secant a b) in
      if satisfies_wolfe c then Done (Satisfied c, buf)
      else
        let! (a_, b_, buf) := update fuel buf a b c in
        if pp c =? pp b_ then secant_again fuel buf a_ b_ b b_
        else if pp c =? pp a_ then secant_again fuel buf a_ b_ a a_
        else Done (Unsatisfied a_ b_, buf).

    (** 424-446, [n] more rounds *)
    Fixpoint search (fuel n : nat) (buf : buffers) (a b c : param) : outcome (param * buffers) :=
      match n with
      | O => let! (_, buf) := calculate_phi buf (pp c) in Done (c, buf)
      | S n =>
          let! (r, buf) := secant2 fuel buf a b in
          match r with
          | Satisfied c => Done (c, buf)
          | Unsatisfied a_ b_ =>
              if hz_gamma * (pp b - pp a) <? pp b_ - pp a_ then
                let! (c, buf) := calculate_phi buf (hz_theta * (pp a + pp b)) in
                if satisfies_wolfe c then Done (c, buf)
                else
                  let! (a, b, buf) := update fuel buf a b c in
                  search fuel n buf a b c
              else search fuel n buf a_ b_ c
          end
      end.

    (** 408-417 and 450-460 *)
    Definition hz_run (fuel : nat) (buf : buffers) : outcome (param * buffers) :=
      let! (c, buf) := calculate_phi buf nunit in
      if satisfies_wolfe c then Done (c, buf)
      else
        let a := Param nzero phi0 dphi0 in
        let! (b, buf) := calculate_phi buf (lit 5) in
        search fuel 100 buf a b c.
  End Search.

  (** 481-505 *)
  Definition line_search (fuel : nat) (p : problem F) (variables direction : list F) (ssr : F) (buf : buffers)
    : outcome (param * buffers) :=
    hz_run p variables direction ssr (dot_product (b_gradient buf) direction) fuel buf.

  (* ----- lbfgs ----- *)

  (** The ring buffers (66-68), one entry for each of the [MAX_HISTORY] places *)
  Record history := History {
    h_s : list (list F);
    h_y : list (list F);
    h_rho : list F
  }.
  Definition max_history : nat := 5.

  Definition history_slot (k i : nat) : nat := (k + i) mod max_history.

  (** 86-88, 126-128 *)
  Definition history_get (h : history) (idx : nat) : outcome (list F * list F * F) :=
    let! s := oget (h_s h) idx in
    let! y := oget (h_y h) idx in
    let! rho := oget (h_rho h) idx in
    Done (s, y, rho).

  (** 83-99, one round; [(direction, alpha)] *)
  Definition first_loop (k : nat) (h : history) (st : list F * list F) (i : nat) : outcome (list F * list F) :=
    let '(direction, alpha) := st in
    let! (s, y, rho) := history_get h (history_slot k i) in
    let a := rho * dot_product s direction in
    let! alpha := oset alpha i a in
    Done (map (fun '(d, yj) => d - a * yj) (combine direction y), alpha).

  (** 101-121 *)
  Definition scale_direction (k : nat) (h : history) (direction : list F) : outcome (list F) :=
    match k with
    | O => Done direction
    | S k =>
        let! (s, y, _) := history_get h (k mod max_history) in
        let y_dot_y := dot_product y y in
        Done (if nzero <? y_dot_y then map (fun d => d * (dot_product s y / y_dot_y)) direction
              else direction)
    end.

  (** 123-139, one round *)
  Definition second_loop (k : nat) (h : history) (alpha : list F) (direction : list F) (i : nat) : outcome (list F) :=
    let! (s, y, rho) := history_get h (history_slot k i) in
    let! a := oget alpha i in
    let beta := rho * dot_product y direction in
    Done (map (fun '(d, sj) => d + sj * (a - beta)) (combine direction s)).

  (** 82-143: the step direction; also the new contents of [alpha] *)
  Definition step_direction (k : nat) (h : history) (alpha gradient : list F) : outcome (list F * list F) :=
    let history_len := Nat.min k max_history in
    let! (direction, alpha) := ofold (first_loop k h) (rev (seq 0 history_len)) (gradient, alpha) in
    let! direction := scale_direction k h direction in
    let! direction := ofold (second_loop k h alpha) (seq 0 history_len) direction in
    Done (map (fun d => d * lit (-1)) direction, alpha).

  (** The loop-carried variables of 77-192 *)
  Record lbfgs_state := LbfgsState {
    l_variables : list F;
    l_buffers : buffers;
    l_history : history;
    l_alpha : list F;
    l_ssr : F
  }.

  (** What one round did, for the theorems: the variables and gradient at its
      start, the direction and step size, the gradient at its end *)
  Record round := Round {
    r_variables : list F;
    r_gradient : list F;
    r_direction : list F;
    r_step : F;
    r_gradient' : list F;
    r_variables' : list F
  }.

  (** 77-192, one round; whether to go on *)
  Definition lbfgs_round (fuel : nat) (p : problem F) (k : nat) (st : lbfgs_state)
    : outcome (bool * lbfgs_state * round) :=
    let h := l_history st in
    let gradient := b_gradient (l_buffers st) in
    let! (direction, alpha) := step_direction k h (l_alpha st) gradient in
    let idx := (k mod max_history)%nat in
    let! (c, buf) := line_search fuel p (l_variables st) direction (l_ssr st) (l_buffers st) in
    let s := map (fun d => pp c * d) direction in
    let y := map (fun '(g', g) => g' - g) (combine (b_gradient buf) gradient) in
    let rho := nunit / dot_product s y in
    let! hs := oset (h_s h) idx s in
    let! hy := oset (h_y h) idx y in
    let! hrho := oset (h_rho h) idx rho in
    let r := Round (l_variables st) gradient direction (pp c) (b_gradient buf) (b_variables buf) in
    let stop := (nabs (l_ssr st - phi c) <? tenm 10) || (phi c <? tenm 6) in
    Done (negb stop, LbfgsState (b_variables buf) buf (History hs hy hrho) alpha (phi c), r).

  (** 77-192: [n] more rounds, from round [k] *)
  Fixpoint lbfgs_rounds (fuel : nat) (p : problem F) (n k : nat) (st : lbfgs_state) (rounds : list round)
    : outcome (list F * list round) :=
    match n with
    | O => Done (l_variables st, rounds)
    | S n =>
        let! (go_on, st, r) := lbfgs_round fuel p k st in
        if go_on then lbfgs_rounds fuel p n (S k) st (rounds ++ [r])
        else Done (l_variables st, rounds ++ [r])
    end.

  (** 20-193: the result and the rounds, oldest first *)
  Definition lbfgs_trace (fuel : nat) (p : problem F) (x : list F) : outcome (list F * list round) :=
    let n := num_variables p in
    let! (rs, jac) := calculate_residuals_and_jacobian p x (repeat (repeat nzero n) (num_residuals p)) in
    let ssr := sum_squares rs in
    if ssr <? tenm 4 then Done (x, []) else
    let zeros := repeat nzero n in
    let h := History (repeat zeros max_history) (repeat zeros max_history) (repeat nzero max_history) in
    lbfgs_rounds fuel p 100 0
      (LbfgsState x (Buffers x rs jac (compute_gradient n jac rs)) h (repeat nzero max_history) ssr) [].

  Definition lbfgs (fuel : nat) (p : problem F) (x : list F) : outcome (list F) :=
    let! (x, _) := lbfgs_trace fuel p x in Done x.
End Lbfgs.
Arguments param F : clear implicits.
Arguments buffers F : clear implicits.
Arguments history F : clear implicits.
Arguments hz_result F : clear implicits.
Arguments lbfgs_state F : clear implicits.
Arguments round F : clear implicits.
