(** Model of /repo/solvi/src/decomposition/sparse/qr.rs: sparse QR
    factorization with Householder reflections, and solving with it.

    Simplification: [usize] is [nat]; [usize::MAX] as "none" is [None].  The
    fill-reducing ordering (crate colamd_rs) is an argument of [symbolic_build]. *)
From Coq Require Import List Arith Bool.
From Verif Require Import Num Outcome ModelSparse ModelForest ModelCholesky.
Import ListNotations.

(** qr.rs 69-76 *)
Record symbolic_qr := SymbolicQr {
  sq_row_permutation : list (option nat);
  sq_r_structure : structure;
  sq_h_structure : structure;
  sq_col_permutation : list nat;
  sq_inverse : permutation_sequence
}.

(** qr.rs 156-159: [inv_permutation[col] = idx] *)
Definition invert_permutation (n : nat) (permutation : list nat) : outcome (list nat) :=
  ofold (fun inv '(idx, col) => oset inv col idx) (enumerate permutation) (repeat 0 n).

(** qr.rs 47-62 *)
Inductive qr_ordering := Natural | Colamd.

(** qr.rs 118-206.  [colamd a]: what [colamd_rs] makes of the structure [a]
    (119-153), a panic if it reports an error. *)
Definition symbolic_build (colamd : structure -> outcome (list nat)) (a : structure) (ordering : qr_ordering)
  : outcome symbolic_qr :=
  let! (permutation, sequence, a) :=
    match ordering with
    | Colamd =>
        let! permutation := colamd a in
        let! permuted := structure_permute_columns a permutation in
        let! inv := invert_permutation (s_ncols a) permutation in
        let! sequence := build_for_gather_permutation inv in
        Done (permutation, sequence, permuted)
    | Natural =>
        let permutation := seq 0 (s_ncols a) in
        let! sequence := build_for_gather_permutation permutation in
        Done (permutation, sequence, a)
    end in
  let! parents := elimination_tree false a in
  let! post := post_order parents in
  let! counts := cholesky_counts_build a parents post in
  let! cs := cholesky_structure_build a parents post counts in
  Done (SymbolicQr (cs_row_permutation cs) (cs_l_structure cs) (cs_h_structure cs) permutation sequence).

Section Qr.
  Context {F : Type} {NF : Num F}.
  Local Open Scope num_scope.

  (** qr.rs 226-240 *)
  Definition apply_householder (x : list F) (beta : F) (rows : list nat) (values : list F) : outcome (list F) :=
    let! tau := ofold (fun tau '(idx, row) =>
        let! v := oget values idx in
        let! xr := oget x row in
        Done (tau + v * xr)) (enumerate rows) nzero in
    let tau := tau * beta in
    ofold (fun x '(idx, row) =>
        let! v := oget values idx in
        let! xr := oget x row in
        oset x row (xr - v * tau)) (enumerate rows) x.

  (** qr.rs 244-275: the reflector's vector, the norm and beta *)
  Definition calculate_householder (v : list F) : outcome (list F * F * F) :=
    match v with
    | [] => Panic
    | v0 :: tail =>
        let sigma := fold_left (fun s x => s + x * x) tail nzero in
        if sigma =? nzero then
          Done (nunit :: tail, nabs v0, if nzero <=? v0 then nzero else nunit + nunit)
        else
          let norm := nsqrt (sigma + v0 * v0) in
          let v0' := if v0 <=? nzero then v0 - norm else (- sigma) / (v0 + norm) in
          Done (v0' :: tail, norm, - recip (norm * v0'))
    end.

  (** qr.rs 88-101, without what it borrows from the symbolic factorization and
      without the scratch space [x] *)
  Record qr := Qr {
    qr_r_values : list F;
    qr_h_values : list F;
    qr_betas : list F
  }.

  (** qr.rs 209-223 *)
  Definition qr_new (sq : symbolic_qr) : qr :=
    Qr (repeat nzero (length (s_row_indices (sq_r_structure sq))))
       (repeat nzero (length (s_row_indices (sq_h_structure sq))))
       (repeat nzero (s_ncols (sq_h_structure sq))).

  (** [self.row_permutation[row]] used as an index: [usize::MAX] is out of bounds *)
  Definition permuted_row (sq : symbolic_qr) (row : nat) : outcome nat :=
    let! p := oget (sq_row_permutation sq) row in ounwrap p.

  (** qr.rs 288-293: a column of [a], scattered *)
  Definition scatter (sq : symbolic_qr) (a : matrix F) (j : nat) : outcome (list F) :=
    let! col := oget (sq_col_permutation sq) j in
    let! (values, rows) := matrix_column a col in
    ofold (fun x '(value, row) =>
        let! p := permuted_row sq row in oset x p value)
      (combine values rows) (repeat nzero (s_nrows (sq_h_structure sq))).

  (** qr.rs 295-309, one entry of R's column; [(x, r_values)] *)
  Definition reflect_entry (sq : symbolic_qr) (h_values betas : list F) (j : nat)
    (st : list F * list F) (ir : nat * nat) : outcome (list F * list F) :=
    let '(x, r_values) := st in
    let '(idx, r_row) := ir in
    if (r_row =? j)%nat then Done (x, r_values) else
    let! a := oget (s_column_pointers (sq_h_structure sq)) r_row in
    let! b := oget (s_column_pointers (sq_h_structure sq)) (r_row + 1) in
    let! beta := oget betas r_row in
    let! rows := index_column (sq_h_structure sq) r_row in
    let! values := oslice h_values a b in
    let! x := apply_householder x beta rows values in
    let! p := oget (s_column_pointers (sq_r_structure sq)) j in
    let! xr := oget x r_row in
    let! r_values := oset r_values (p + idx) xr in
    let! x := oset x r_row nzero in
    Done (x, r_values).

  (** qr.rs 311-314: gather the rest of the column; [(x, h_values)] *)
  Definition gather_entry (start : nat) (st : list F * list F) (ir : nat * nat) : outcome (list F * list F) :=
    let '(x, h_values) := st in
    let '(idx, row) := ir in
    let! xr := oget x row in
    let! h_values := oset h_values (start + idx) xr in
    let! x := oset x row nzero in
    Done (x, h_values).

  (** qr.rs 285-321, one column *)
  Definition factorize_column (sq : symbolic_qr) (a : matrix F) (q : qr) (j : nat) : outcome qr :=
    let! x := scatter sq a j in
    let! r_rows := index_column (sq_r_structure sq) j in
    let! (x, r_values) := ofold (reflect_entry sq (qr_h_values q) (qr_betas q) j)
                            (enumerate r_rows) (x, qr_r_values q) in
    let! h_rows := index_column (sq_h_structure sq) j in
    let! start := oget (s_column_pointers (sq_h_structure sq)) j in
    let! stop := oget (s_column_pointers (sq_h_structure sq)) (j + 1) in
    let! (_, h_values) := ofold (gather_entry start) (enumerate h_rows) (x, qr_h_values q) in
    let! v := oslice h_values start stop in
    let! (v, norm, beta) := calculate_householder v in
    let h_values := firstn start h_values ++ v ++ skipn stop h_values in
    let! betas := oset (qr_betas q) j beta in
    let! rstop := oget (s_column_pointers (sq_r_structure sq)) (j + 1) in
    let! last := osub rstop 1 in
    let! r_values := oset r_values last norm in
    Done (Qr r_values h_values betas).

  (** qr.rs 281-322 *)
  Definition factorize (sq : symbolic_qr) (a : matrix F) : outcome qr :=
    ofold (factorize_column sq a) (seq 0 (s_ncols (m_structure a))) (qr_new sq).

  (** qr.rs 324-346: [Q^T b] *)
  Definition q_tr_mul (sq : symbolic_qr) (q : qr) (b : list F) : outcome (list F) :=
    let h := sq_h_structure sq in
    let! _ := oassert (length b =? s_nrows h)%nat in
    let! y := ofold (fun y i =>
        let! p := permuted_row sq i in
        let! x := oget b i in
        oset y p x) (seq 0 (s_nrows h)) (repeat nzero (length b)) in
    ofold (fun y j =>
        let! (start, stop) := index_column_range h j in
        let! rows := index_column h j in
        let! beta := oget (qr_betas q) j in
        let! values := oslice (qr_h_values q) start stop in
        apply_householder y beta rows values) (seq 0 (s_ncols h)) y.

  (** qr.rs 348-356: whether it succeeded, and what is left in [b] *)
  Definition qr_solve (sq : symbolic_qr) (q : qr) (b : list F) : outcome (bool * list F) :=
    let! y := q_tr_mul sq q b in
    let n := s_nrows (sq_r_structure sq) in
    let! front := oslice y 0 n in
    let! (solved, front) := solve_upper_triangular (Matrix (sq_r_structure sq) (qr_r_values q)) front in
    let! b := permute_slice (sq_inverse sq) (front ++ skipn n y) in
    Done (solved, b).

  (** What lm.rs 100-103 and 124-134 do: build from the structure of [a] once,
      then factorize a matrix of that structure and solve *)
  Definition qr_least_squares (colamd : structure -> outcome (list nat)) (ordering : qr_ordering)
    (a : matrix F) (b : list F) : outcome (bool * list F) :=
    let! sq := symbolic_build colamd (m_structure a) ordering in
    let! q := factorize sq a in
    qr_solve sq q b.
End Qr.
Arguments qr F : clear implicits.
