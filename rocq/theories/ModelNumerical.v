(** Model of /repo/fiksi/src/analyze/numerical/mod.rs: incremental
    Gauss-Jordan elimination and the over-constraint analysis.  The row-major
    slice [matrix] is a list of rows. *)
From Coq Require Import List Arith NArith ZArith.
From Verif Require Import Num Outcome ModelExpr ModelGraph ModelSystem.
Import ListNotations.
Local Open Scope num_scope.

Section Numerical.
  Context {F : Type} {NF : Num F}.

  (** numerical/mod.rs 8 *)
  Definition EPSILON : F := tenm 8.

  (** 69-71 and 102-104: [target -= factor * source], column by column *)
  Definition row_sub (factor : F) (target source : list F) : list F :=
    map (fun '(t, x) => t - factor * x) (combine target source).

  (** 64-75: eliminate the pivot columns of the earlier rows from [row].
      [done] pairs each earlier row with whether it increased the rank. *)
  Definition eliminate (column_indices : list nat) (done : list (list F * bool))
      (row : list F) : outcome (nat * list F) :=
    ofold (fun '(rank, row) '(row_idx, increases) =>
      let! column_idx := oget column_indices rank in
      let! factor := oget row column_idx in
      Done (if increases : bool then S rank else rank,
            row_sub factor row row_idx)) done (0%nat, row).

  (** 80-87: position (in [column_indices], at or after [current_col]) of the
      first entry that is not zero up to [EPSILON] *)
  Fixpoint find_pivot (row : list F) (column_indices : list nat)
      (positions : list nat) : outcome (option nat) :=
    match positions with
    | [] => Done None
    | idx :: rest =>
        let! real_idx := oget column_indices idx in
        let! x := oget row real_idx in
        if EPSILON <? nabs x then Done (Some idx) else find_pivot row column_indices rest
    end.

  (** [slice::swap] *)
  Definition oswap {A} (l : list A) (i j : nat) : outcome (list A) :=
    let! a := oget l i in
    let! b := oget l j in
    let! l := oset l i b in
    oset l j a.

  (** 62-112, one row.  State: rows processed so far (with their flag), the
      column order and [current_col]. *)
  Definition gj_row (variables : nat)
      (st : list (list F * bool) * list nat * nat) (row : list F)
    : outcome (list (list F * bool) * list nat * nat) :=
    let '(done, column_indices, current_col) := st in
    let! (_, row) := eliminate column_indices done row in
    let! pivot := find_pivot row column_indices
                    (seq current_col (variables - current_col)) in
    match pivot with
    | None => Done (done ++ [(row, false)], column_indices, current_col)
    | Some idx =>
        let! column_indices := oswap column_indices current_col idx in
        let! column_idx := oget column_indices current_col in
        let! factor := oget row column_idx in
        let row := map (fun x => x * (nunit / factor)) row in
        let! done := omap (fun '(r, b) =>
            let! f := oget r column_idx in Done (row_sub f r row, b)) done in
        Done (done ++ [(row, true)], column_indices, S current_col)
    end.

  (** 33-115.  Returns the flags, the transformed matrix and the column order.
      Only the first [min nrows ncols] rows are processed (line 62). *)
  Definition incremental_gauss_jordan_elimination (matrix : list (list F))
      (ncols : nat) (column_indices : list nat)
    : outcome (list bool * list (list F) * list nat) :=
    let k := Nat.min (length matrix) ncols in
    let! (done, column_indices, _) :=
      ofold (gj_row ncols) (firstn k matrix) ([], column_indices, 0%nat) in
    Done (map snd done ++ repeat false (length matrix - k),
          map fst done ++ skipn k matrix, column_indices).

  (** 126-141: the Jacobian of all expressions in all variables *)
  Definition analysis_jacobian (s : system F) : outcome (list (list F)) :=
    omap (fun e =>
      let! (_, g) := calculate_residual_and_gradient
        (identity_map (sys_variables s)) e (repeat nzero (length (sys_variables s))) in
      Done g) (sys_expressions s).

  (** 123-163; lib.rs 454-458 wraps the result in [Analysis] *)
  Definition find_overconstraints (s : system F) : outcome (list chandle) :=
    let! jacobian := analysis_jacobian s in
    let! (flags, _, _) := incremental_gauss_jordan_elimination jacobian
        (length (sys_variables s)) (seq 0 (length (sys_variables s))) in
    omap (fun i =>
      let! c := oget (sys_expression_to_constraint s) i in
      let! ec := oget (sys_constraints s) c in
      Done (CHandle (sys_id s) c (ec_tag ec)))
      (filter (fun i => negb (nth i flags false)) (seq 0 (length flags))).
End Numerical.
