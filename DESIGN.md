# Formal model of endoli/fiksi in Rocq (Coq 8.16.1)

This file says what is modelled, how each property of `properties.jsonl` is
stated and proved, and what is trusted. Its first version was written before the
proofs; it is kept current as the model grows.

## 1. Shape of the model

* The model is a set of total Gallina functions, one per Rust function, in
  `rocq/theories/Model*.v`. Every definition cites the file and lines it models
  and says where it simplifies.
* `rocq/theories/Spec_*.v` hold the specifications: definitions in which the
  properties are stated, independent of how the code computes.
  `rocq/theories/Props_*.v` hold the property theorems (`Cnn_...`), each with
  `Print Assumptions` beneath it and an `Example` that meets its hypotheses.
  `rocq/theories/Proofs_*.v`, `Lib*.v` hold lemmas; `Demo.v` concrete histories.
* `f64` is abstracted by a class `Num F` of operations (`Num.v`). The same model
  text is instantiated twice:
  * at `R` (`NumR.v`) for geometry, calculus and linear algebra: those theorems are
    about exact arithmetic;
  * at IEEE-754 binary64 (`f64`: `Coq.Floats.SpecFloat`, computable, no axioms)
    where the property is about floating point (NaN, zero scale, comparisons,
    reproducibility).
  Structural properties (handles, graphs, fixed variables, frames, sparse
  structures, orderings) are proved for every `F` and every `Num F`, so they hold
  for both.
* Running a piece of the program gives an `outcome`: `Done a`, `Panic` (failed
  assertion, index out of range, `unwrap` of `None`, `unreachable!`, `usize`
  subtraction below zero, `u32` conversion that does not fit) or `Timeout` (an
  unbounded loop used up its fuel). Either a theorem shows that enough fuel exists
  (C24, C42) or the loop is shown to exhaust any fuel (`C24_refuted`), or the
  theorem speaks of every run that returns.
* `HashSet`/`HashMap` become duplicate-free lists; wherever the code iterates over
  one, the order is an arbitrary permutation `order`, over which the theorems
  quantify. `sort_unstable` is any function with the specification `sorting`.
* `usize` is `nat`; `usize::MAX` as a sentinel is `None`. `u32` wrap-around is
  explicit where the code relies on it (system ids, random numbers, ranks of the
  SCC search). `i32` in colamd is `Z`; theorems there bound the sizes so that 32-bit
  arithmetic could not overflow, and reads outside an array are `Panic`.

## 2. Trusted base

* Coq's kernel (and `coqchk`).
* Axioms: only the standard library's, as `Print Assumptions` lists them beneath
  every property theorem. `ASSUMPTIONS.md` (written by `tools/assumptions.py`) has
  the list per theorem. In short: every theorem that is not about real numbers is
  closed under the global context; the others use exactly
  `ClassicalDedekindReals.sig_forall_dec`, `ClassicalDedekindReals.sig_not_dec`,
  `FunctionalExtensionality.functional_extensionality_dep` (Coq's reals) and
  `Classical_Prop.classic` (through `Reals`/Coquelicot/Flocq lemmas).
  Coquelicot (derivatives) and Flocq (binary64 rounding, C22) are used as
  libraries of proved lemmas; no axiom of theirs is used.
* The reading of the Rust source: nothing mechanical ties the model to the code.
  Citations are per definition.
* Exact arithmetic in place of `f64` for the theorems that say so (`F = R`).
* In the binary64 instance `sin`, `cos` and `atan2` are the constant NaN
  (`Num.v`): they are not specified by IEEE-754 or by Rust. No theorem about
  binary64 depends on their values except through "for every `Num F`".
* Assumed of the environment, as explicit hypotheses of the theorems concerned:
  `sorting sort` (the standard library's sort sorts and permutes) and
  `Permutation (order l) l` (iterating over a hash set visits each member once).
  Both have proved inhabitants. The column ordering, the linear solver, the
  optimizers and recursive assembly were oracles at first; the theorems about the
  whole program (`whole_env`) use their models instead.

## 3. What models what

| source | model |
|---|---|
| fiksi/src/lib.rs, elements/mod.rs, constraints/mod.rs | `ModelSystem.v`, `ModelApi.v`, `ModelHandle.v` |
| fiksi/src/constraints/expressions.rs, variable_map.rs, pose in elements/mod.rs | `ModelExpr.v` |
| fiksi/src/graph.rs, analyze/graph/equations.rs (construction) | `ModelGraph.v` |
| fiksi/src/analyze/graph/equations.rs (matching, components, groups) | `ModelMatching.v` |
| fiksi/src/analyze/numerical/mod.rs | `ModelNumerical.v` |
| fiksi/src/rand.rs, subsystem.rs, utils.rs, solve/mod.rs, assemble/mod.rs (solve) | `ModelSolve.v` |
| fiksi/src/solve/lm.rs | `ModelLm.v` |
| fiksi/src/solve/lbfgs.rs | `ModelLbfgs.v` |
| optimizer choice, LM with the sparse QR | `ModelOptimize.v` |
| fiksi/src/analyze/graph/recursive_assembly.rs, assemble/mod.rs (recursive assembly, `ClusteredSystem`) | `ModelAssembly.v` |
| solvi/src/triplet_mat.rs, sparse_col_mat.rs | `ModelSparse.v` |
| solvi/src/permutation.rs, utils.rs (forests) | `ModelForest.v` |
| solvi/src/decomposition/sparse/cholesky.rs | `ModelCholesky.v` |
| solvi/src/decomposition/sparse/qr.rs (and the Householder code) | `ModelQr.v` |
| colamd_rs/src/colamd.rs, lib.rs, status.rs, options.rs (colamd) | `ModelColamd.v` |
| colamd_rs/src/colamd.rs, lib.rs (symamd) | `ModelSymamd.v` |
| fiksi_svg/src/lib.rs | `ModelSvg.v` |

Not modelled: `Debug`/`Display` formatting, examples, tests and
benches, the manual, the choice between `std` and `libm`, allocation, performance,
`debug_assert!` (the model is of a release build), and plain accessors that return
a field. The numerical quality of convergence (how fast an optimizer converges,
whether it finds a root rather than a local minimum) is not stated: no property of
the list claims it.

## 4. The properties, one by one

`MANIFEST.json` has the status, the theorem names and a note for each.

* **C01, C02, C04, C06, C09** (API of one system). A history is a log of calls
  with their results (`Spec_History.v`). The record the code keeps is shown to
  refine an abstract sketch (`Spec_Sketch.v`: created items with values, relations
  with parameters), by induction over histories. Read-back, frame conditions and
  listings follow. No call of a history panics (C06); for solving this includes
  the models of the optimizers, the QR solver and the column ordering
  (`Props_Solve.v`). Recursive assembly can panic: `C06_assembly_refuted`.
* **C03, C48** (handles of several systems). The process (`world`) numbers systems
  with a wrapping 32-bit counter; ids within a system are positions. Uniqueness,
  agreement of equality, order and hash, and creation order by induction over
  interleaved runs; wrap-around is exhibited by a run of 2^32 + 1 creations,
  handled symbolically.
* **C05** (foreign handles). Reads are proved to panic; writes do not check the
  system, refuted with a concrete run.
* **C07, C08** (what solving may change). For every optimizer: any function of
  problem and start values, so the frame theorem does not depend on numerics.
  The converse of C07 (unfixing restores freedom) is stated with optimizers that
  put all variables at one value: whatever it is, every constrained point and
  length that is not fixed ends there.
  C08_whole_solver also for the modelled recursive assembly.
* **C10, C11, C13–C16** (meaning of residuals and gradients). Over `R` with
  Coquelicot derivatives. `Spec_Geometry.v` states distance, angle, incidence,
  tangency by elementary geometry. C14 and C16 fail for opposite legs and for
  angles outside [-pi, pi] (the residual is not wrapped).
* **C12** (Jacobians with shared variables). Sparse Jacobian: derivative of the
  residuals along every coordinate, also when a constraint uses one coordinate
  twice. Dense Jacobian: refuted in that case (it overwrites instead of adding).
* **C17** (groups). Refuted: merging groups leaves stale group numbers behind.
  What does hold for every history is proved (`C17_groups_partial`), and the full
  property when no constraint joins two existing groups.
* **C18–C20, C43** (decompositions). Hopcroft-Karp: result is a maximum
  matching, by augmenting paths and König covers, with termination. Tarjan-Pearce:
  groups are the strongly connected components in dependency order. C20: a single
  pass in which each group is solved leaves every matched expression solved.
  C43: the plan of recursive assembly covers each constraint and element once.
* **C21** (over-constraint analysis). Over `R`; partial, with refutations.
* **C22** (random numbers). Full period of the generator modulo 2^32 by 2-adic
  induction; range in binary64 by Flocq's rounding lemmas; perturbation bound.
* **C23, C24** (Levenberg-Marquardt). Monotone, bounded number of steps, for every
  linear solver and arithmetic. In exact arithmetic, with the modelled QR and
  column ordering, the damping loop ends (`C24_program_partial`). In binary64 it
  does not always: `C24_refuted`.
* **C25, C26** (L-BFGS). Two-loop recursion equals the BFGS product form; the ring
  buffer is wrong in rounds 1–4; gradient and slope of the line search.
* **C27–C31** (sparse matrices). Conversion, transposition, permutation,
  validation, triangular solving, against a specification as functions from
  cells to values (`Spec_Sparse.v`).
* **C32–C35** (permutations, forests, elimination trees), against relational
  specifications (`Spec_Forest.v`, `Spec_Elimination.v`).
* **C36, C37** (Householder reflections, sparse QR least squares), over `R`;
  `C37_least_squares_partial` with the modelled column ordering;
  `C37_whenever_it_returns` for every matrix of every rank for which it returns: a column
  left without a row pushes another row out of the matrix, so that `q_tr_mul` panics.
* **C38** (density test of the recursive decomposition): refuted.
* **C39–C42** (colamd). The whole search is modelled. C42: for sorted columns it
  stays within its arrays, ends, and returns every column once. C39: refuted for
  unsorted columns. C40: workspace length. C41: the final numbering.
* **C44–C47** (symamd, notices, validation of the input).
* **C49** (reproducibility). Without a decomposer nothing depends on the order
  of hash sets. With one, two orders give different binary64 results: refuted by
  running the whole modelled solver in both orders.
  In exact arithmetic the dependence disappears for Levenberg-Marquardt
  [C49_exact, C49_exact_history]: runs of the textbook algorithm (C54) are carried
  over to the problem with its variables in another order, and are unique.
* **C50–C52, C55** (the sketch as a whole). Over `R`. The
  residuals of the constraints, which the client reads one by one through handles,
  are traced through compilation, grouping, scaling, the optimizer's call and
  writing back (`Proofs_Whole.v`, `Proofs_WholeR.v`). C50 and C52 need each
  constraint to be in one group with its points and lengths, which holds if no
  constraint joined two groups; otherwise they are refuted in binary64, as is C51 for the default options and for rounding (`Props_Whole64.v`).
  For the single-pass decomposer C50 holds if every equation can be given a free
  coordinate of its own: then a maximum matching covers every equation, the blocks are
  solved in dependency order, and no later block or group disturbs an earlier one
  (`Proofs_PassWhole.v`). Otherwise equations are dropped, and C50 is refuted.
  For recursive assembly C50 is refuted over `R`, for every optimizer at once: a
  solution of a step moves the points of a cluster rigidly (`Proofs_Clustered.v`,
  `Proofs_AssemblyBroken.v`). C55 is refuted by the same means.
  C51 is proved for every decomposer and both optimizers: each problem handed to the
  optimizer has a misfit of at most the misfit of the whole sketch where the optimizer
  starts, and both optimizers return such a start at once (`Proofs_Idle.v`; the same
  induction gives the positive part of C55).
* **C56** (downhill). `Spec_Downhill.v` states slopes and the Wolfe conditions for the rounds
  of a run. Over `R`: steps forward that satisfy them have positive curvature, so the
  approximation of the inverse Hessian stays positive definite, whichever pairs are used
  (`Proofs_Downhill.v`, from C25_actual). That the steps are such is refuted in binary64.
* **C57** (perturbation). Refuted for L-BFGS in binary64 by running the whole solver.
* **C53** (QR factors). Over `R`: the Householder vectors stored column by column are
  orthogonal maps whose product takes the columns of `A` to those of `R`
  (`Proofs_Factorize.v`, `Proofs_QrFactor.v`).
* **C54** (Levenberg-Marquardt). `Spec_Lm.v` states the method without matrices in
  sparse form, as a relation; the model with triplets, damping entries, COLAMD and QR
  refines it over `R` (`Proofs_LmExact.v`, `Proofs_LmTextbook.v`), and the relation is
  shown to be functional.
* **C58, C59** (pictures). `ModelSvg.v` follows the renderer down to the characters it writes;
  how numbers and colours are printed, and `kurbo`'s rectangle operations, are taken as given.
  `Spec_Svg.v` says what a picture is: shapes in layers, a colour that is the last one asked for,
  and the smallest rectangle around the points of the plane the shapes cover. C58 holds for
  every number type. C59 is proved in exact arithmetic when the drawing is more than one
  point, any large number standing for infinity, and refuted in binary64 otherwise.
* **C60** (unit of length). `Spec_Units.v` says what the calls and their results are in another
  unit. The proof carries a state to the state of the other client and shows that every
  function of the model commutes with that: the scale of the sketch is multiplied by the
  factor, so the problems handed to the optimizers are equal, and what they return is written
  back times the scale. The case of scale 0 (everything at the origin) is included. Residuals
  go through C10. In exact arithmetic; analysis is refuted by a run in binary64.
* **C61** (choice of optimizer). For every number type: runs of the calls in two environments
  that agree on what the options ask for are equal, by induction over the calls. Refuted for
  recursive assembly.

## 5. Findings

Properties a user would expect, refuted of the model by a concrete history or
input (theorem names in brackets). Each was checked by reading the cited code.

1. Merging two groups of connected elements updates the group numbers of only some
   of their members, so later constraints can be put into a wrong or emptied group,
   or be left out of solving [C17_refuted, C17_ignored_refuted]. graph.rs 178-225.
2. The dense Jacobian assigns instead of adding when a constraint uses the same
   variable twice, unlike the sparse one [C12_dense_refuted, C26_shared_refuted].
3. The over-constraint analysis reports every row numbered at or above the number
   of variables, and can miss dependent rows [C21_reported_refuted,
   C21_independent_refuted]. analyze/numerical/mod.rs 33-163.
4. The density test of the cluster search compares with `-(D + 1)` where it should
   compare with `D + 1` [C38_refuted]. recursive_assembly.rs 499-645.
5. A sketch whose coordinates and lengths are all zero has scale 0; every coordinate
   becomes NaN and solving never returns [C24_refuted]. assemble/mod.rs 32-79.
6. Handles of another system are accepted by writing methods
   [C05_foreign_writes_refuted].
7. Recursive assembly can panic on sketches of four points [C06_assembly_refuted],
   for some hash orders and not for others [C49_plan_refuted].
8. Angle residuals are not wrapped: an angle parameter outside [-pi, pi] can not be
   attained, and opposite legs are measured as different angles after a rotation
   [C16_refuted, C14_opposite_refuted].
9. The L-BFGS history picks slots that were never filled in rounds 1 to 4
   [C25_refuted]. The slope used by the line search is half the derivative, which
   is stated by C26_slope.
10. `permute_columns` appends the values of the whole matrix for every column
    [C29_values_refuted, C29_swap_refuted].
11. `empty()` is not a well-formed matrix and `try_from_data` can index out of
    bounds [C30_empty_refuted, C30_returns_refuted].
12. The triangular solver ignores that entries below the diagonal exist, and panics
    on tall matrices [C31_lower_refuted, C31_tall_refuted].
13. Building the symbolic QR of a structurally rank-deficient matrix panics
    [C37_panic_refuted].
14. colamd: for unsorted columns the clean-up branch takes indices for positions;
    the ordering depends on the order of the entries and the search can leave its
    arrays [C39_refuted, C39_bounds_refuted]. colamd.rs 502-655.
15. symamd: the notice of unsorted columns is overwritten by the inner call
    [C46_symmetric_refuted]; it reads past its row indices before checking that the
    pointers do not decrease [C47_symmetric_refuted]; its ordering depends on the
    order of the indices below the diagonal (Example C45_order).
16. Negative row counts and last pointers reach `unreachable!`
    [C47_negative_refuted].
17. System ids wrap around after 2^32 systems [C03_unbounded_refuted].
18. Solving with a decomposer is not reproducible from run to run: the hash sets are
    randomly seeded [C49_decomposed_refuted].
19. Because of finding 1, solving can break constraints that held, although each
    optimizer call succeeds, and increase the total error [C50_merged_refuted,
    C52_merged_refuted].
20. Solving a solved sketch moves it: by the perturbation with default options
    [C51_default_refuted], by scaling down and up without [C51_rounding_refuted].
21. L-BFGS never returns on ordinary sketches, such as a triangle with two corners
    fixed: the bracket of its line search ends at 5, and if a longer step is needed
    it is narrowed down to the point 5, where the secant step is 0/0
    [C24_ordinary_refuted]. lbfgs.rs 290-292, 324-360, 408-417.
22. Without perturbation, solving never returns if two points that are to be at a
    distance start at the same place: the gradient is 0/0 [C24_stacked_refuted].
23. The single-pass decomposer drops equations when there are more of them than free
    coordinates, even if they all agree: with three distances from fixed points, the
    point is put on the wrong side, where the third is off by 24, although solving
    without decomposer finds the right place [C50_overdetermined_refuted].
    equations.rs 154-220.
24. Recursive assembly breaks constraints that held: with two points on one circle the
    radius is solved for twice, and is not part of the cluster that was solved first.
    Whatever the optimizer, the first point ends up off the circle
    [C50_assembly_refuted]. assemble/mod.rs 407-446.
25. Because of finding 4, recursive assembly makes any two elements of a constraint on
    three or more elements rigid before the constraint is solved. A point can then not be
    moved onto a line through two others: the problem given to the optimizer has no
    solution [C55_refuted].
26. L-BFGS takes a sketch for solved if the sum of squares is below 1e-4 at the start
    (once it runs, it goes on until 1e-6): two points 200 apart that are to be 201 apart
    are left there [C51_decomposed, C51_off_by_one]. lbfgs.rs 36-56.
27. The line search of L-BFGS takes steps backwards: the secant through the slopes at the
    steps 0 and 5 proposes a negative step where the objective is concave, and nothing
    rejects it if the sum of squares grows by less than 1e-6. Next to a saddle point it goes
    to the saddle point and stops [C56_refuted]. lbfgs.rs 290-292, 306-321, 408-417.
28. Therefore perturbation does not help L-BFGS with the very sketch it is documented to help
    with: three points on a line with pairwise distances to keep stay on the line
    [C57_refuted]. lib.rs 212-217.
29. Solving in a single pass can make a sketch much worse although every equation has a
    coordinate of its own and no step of the optimizer makes its problem worse: a group
    solved early may move what a later, satisfied group depends on out of its reach
    [C52_single_pass_refuted]. This is in the nature of the method, but not documented.
30. The automatic frame of a picture is unusable when nothing is drawn (`viewBox="inf inf -inf
    -inf"`) or the drawing is a single point (width and height 0, which tells SVG viewers to
    draw nothing) [C59_degenerate_refuted]. Two finite points whose distance overflows also
    get an infinite frame [C59_overflow_refuted]. fiksi_svg/src/lib.rs 152-154.
31. Over-constraint analysis depends on the unit of length: it compares Jacobian entries of the
    sketch as drawn, which are not scaled as they are for solving, with the absolute threshold
    1e-8. A point to lie on a line a nanometre long, drawn in metres, is reported to be
    over-constrained; drawn in nanometres it is not [C60_analysis_refuted].
    fiksi/src/analyze/numerical/mod.rs 8 and 84.
32. Recursive assembly ignores the optimizer option and always runs Levenberg-Marquardt
    [C61_assembly_refuted]. fiksi/src/assemble/mod.rs 224; lib.rs 206-207 documents the option
    without this exception.

Noted by reading, not stated as theorems: `2 * nnz` in colamd is computed in `i32`;
the contraction step of the decomposition counts an edge between two frontier
vertices as a cluster edge (recursive_assembly.rs 431-449).

## 6. Testing the theorems

`seeded/mutants.json` lists edits of the model, each a realistic bug, with the
claim it breaks. `tools/mutate.py` applies them one at a time in a copy outside
`/verif`, rebuilds, and records in `seeded/LOG.jsonl` which lemmas fail and which
property theorems rest on them. A mutant whose claim is not among those theorems
means a theorem is too weak; such theorems were tightened (see the log).
