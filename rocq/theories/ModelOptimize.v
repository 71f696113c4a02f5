(** The optimizers, put together: lm.rs with the sparse QR factorization of
    solvi, and the choice of optimizer of assemble/mod.rs. *)
From Coq Require Import List Arith Bool.
From Verif Require Import Num Outcome ModelSystem ModelSolve ModelLm ModelSparse ModelForest ModelQr ModelLbfgs.
Import ListNotations.

Section Optimize.
  Context {F : Type} {NF : Num F}.

  (** The ordering crate and the standard library's sort *)
  Variable colamd : structure -> outcome (list nat).
  Variable sort : (nat -> nat * nat) -> list nat -> list nat.

  (** lm.rs 80-97 and 170-183: the triplets of the augmented Jacobian, pushed and
      converted.  Simplification: the shape is that given.  In the code it is what
      the pushes make of the matrix's shape before (nrows by ncols, or 0 by 0 after
      [clear]): the last triplet pushed is at row nrows + ncols - 1, column
      ncols - 1, so it is the same ([pushed_shape] in [Proofs_Optimize.v]) unless
      ncols is 0, when there is no second conversion. *)
  Definition push_all (ts : triplets F) (t : triplet_mat F) : triplet_mat F :=
    fold_left (fun t '(row, col, value) => push_triplet row col value t) ts t.
  Definition augmented_matrix (nrows ncols : nat) (ts : triplets F) : outcome (matrix F) :=
    from_triplet_mat nadd sort (push_all ts (triplet_new nrows ncols)).

  (** lm.rs 117-123, with [index_column_mut] (sparse_col_mat.rs 584-596) *)
  Definition set_damping (ncols : nat) (d : F) (a : matrix F) : outcome (matrix F) :=
    ofold (fun a idx =>
        let! (start, stop) := index_column_range (m_structure a) idx in
        let! values := oslice (m_values a) start stop in
        if length values =? 0 then Panic else
        let! values := oset (m_values a) (stop - 1) d in
        Done (Matrix (m_structure a) values)) (seq 0 ncols) a.

  (** lm.rs 97-103 and 117-134.  (The model converts the triplets before every
      factorization, the code once per outer round, setting the damping entries
      anew each time: the same, for the damping entries are all that changes.) *)
  Definition qr_solver : damped_solver F symbolic_qr :=
    DampedSolver
      (fun nrows ncols ts =>
         let! a := augmented_matrix nrows ncols ts in
         symbolic_build colamd (m_structure a) Colamd)
      (fun sq nrows ncols ts d b =>
         let! a := augmented_matrix nrows ncols ts in
         let! a := set_damping ncols d a in
         let! q := factorize sq a in
         let! (solved, b) := qr_solve sq q b in
         Done (if solved then Some b else None)).

  (** assemble/mod.rs 148-158 and 189-199.  [fuel]: how many rounds a loop
      without a bound may take *)
  Definition optimize (fuel : nat) (o : optimizer) (p : problem F) (x : list F) : outcome (list F) :=
    match o with
    | LevenbergMarquardt => levenberg_marquardt qr_solver p fuel x
    | LBfgs => lbfgs fuel p x
    end.

  (** The solver as it is.  [order]: the iteration order of hash sets;
      [assembly]: the recursive-assembly branch *)
  Definition fiksi_env (fuel : nat) (order : list nat -> list nat)
    (assembly : F -> list nat -> list nat -> system F -> outcome (system F)) : solver_env F :=
    SolverEnv (optimize fuel) order assembly.
End Optimize.
