{
 "C01": [
  "proved",
  "Every history of API calls; points and lengths read back the last value set when nothing was solved, lines and circles always read back their parts."
 ],
 "C02": [
  "proved",
  "Every history."
 ],
 "C03": [
  "proved",
  "For fewer than 2^32 systems; C03_unbounded_refuted shows the bound is needed (the id counter wraps)."
 ],
 "C04": [
  "proved",
  "Every history."
 ],
 "C05": [
  "partial",
  "Reads reject foreign handles. Writes (fix, unfix, update, create) do not check: C05_foreign_writes_refuted."
 ],
 "C06": [
  "proved",
  "Every history and every call but solving by recursive assembly, for any optimizers satisfying env_safe (C06_calls_succeed, C06_solve_no_panic); for the whole program as modelled, column ordering included, up to 2^24 elements and constraints (C06_optimizers_no_panic, C06_program_no_panic). Solving by recursive assembly can panic (C06_assembly_refuted)."
 ],
 "C07": [
  "proved",
  "Every history and decomposer except recursive assembly, which is documented to ignore fixed elements. C07_free_moves: what is not, or no longer, fixed and is constrained goes where the optimizer puts it (decomposer None)."
 ],
 "C08": [
  "proved",
  "Every history. C08_solve_touches for the decomposers None and SinglePass; C08_any_decomposer for every decomposer without the protection of fixed coordinates, which recursive assembly ignores as documented; C08_whole_solver discharges the assumption about recursive assembly from its model."
 ],
 "C09": [
  "proved",
  "Every history."
 ],
 "C10": [
  "proved",
  "Formula for any number type; zero iff geometric relation over the reals, in general position."
 ],
 "C11": [
  "proved",
  "Partial and total derivatives over the reals, all eleven expressions, outside the stated degenerate sets."
 ],
 "C12": [
  "partial",
  "Sparse Jacobian (used by LM): proved with aliasing. Dense Jacobian (analysis, L-BFGS): proved without aliasing, refuted with."
 ],
 "C13": [
  "proved",
  "All expressions and positive scales, over the reals."
 ],
 "C14": [
  "partial",
  "All constraints, except angle constraints whose legs are opposite, for which it is refuted."
 ],
 "C15": [
  "proved",
  "Over the reals."
 ],
 "C16": [
  "partial",
  "Attainable exactly for parameters in [-pi, pi]; outside refuted for every history."
 ],
 "C17": [
  "partial",
  "The property is false of the code (C17_refuted, C17_ignored_refuted: merging leaves stale group numbers behind). Proved for every history: a point or length is in a group iff constrained, groups are disjoint, each constraint is in exactly one group, one group implies connected. Proved in full for histories in which no constraint joins two existing groups."
 ],
 "C18": [
  "proved",
  "All bipartite graphs."
 ],
 "C19": [
  "proved",
  "All graphs."
 ],
 "C20": [
  "proved",
  "All single-pass runs."
 ],
 "C21": [
  "partial",
  "The property is false of the code as stated: C21_reported_refuted (rows numbered at or above the number of variables are always reported) and C21_independent_refuted (unreported rows can be multiples of each other). Proved over the reals for every history: a reported constraint has such a row or one within 1e-8 of a combination of earlier rows; and the full property when there are no more rows than variables and no row is nearly but not exactly dependent."
 ],
 "C22": [
  "proved",
  "Full period and stream use exact; range [0,1] in binary64 (via Flocq); the displacement bound in exact arithmetic, the displacement formula in every arithmetic."
 ],
 "C23": [
  "proved",
  "For every linear solver, problem, start and arithmetic (reals and binary64), whenever the optimizer returns; whether it returns is C24."
 ],
 "C24": [
  "partial",
  "C24_exact_lm_partial and C24_program_partial: in exact arithmetic, Levenberg-Marquardt with the sparse QR solver and colamd returns from every reachable sketch of up to 2^24 elements and constraints (decomposers None and SinglePass), for any sort and hash order. C24_refuted: in binary64 with the default options, and with L-BFGS, solve never returns on two points at the origin (one fixed) made coincident, because the system scale is 0 and every coordinate becomes NaN. C24_ordinary_refuted: with L-BFGS it never returns on an ordinary triangle, with or without perturbation, because the line search only looks at steps up to 5. C24_stacked_refuted: without perturbation it never returns, with either optimizer, if two points that are to be apart start at the same place. Missing: L-BFGS in exact arithmetic, recursive assembly, and which binary64 sketches are safe."
 ],
 "C25": [
  "partial",
  "Proved for the first round and whenever the five-entry history is full (round 5 on); refuted for rounds 1 to 4, where the ring-buffer index picks unfilled slots; C25_actual states which pairs are used in every round."
 ],
 "C26": [
  "partial",
  "Gradient and line-search slope proved relative to the Jacobian the problem reports, and outright for the problems the program builds when no constraint uses a coordinate twice; refuted for such constraints, because the dense Jacobian overwrites."
 ],
 "C27": [
  "proved",
  "For every sort the standard library may use; in binary64 the order of additions among duplicates is that sort's."
 ],
 "C28": [
  "proved",
  "Matrices and structures; transposing twice gives back the same matrix."
 ],
 "C29": [
  "partial",
  "The structure is right. The values are not: C29_values_refuted, C29_swap_refuted (every column appends the values of the whole matrix)."
 ],
 "C30": [
  "partial",
  "Sound and complete when it returns; it can index out of bounds (C30_returns_refuted), and empty() is never well-formed (C30_empty_refuted)."
 ],
 "C31": [
  "partial",
  "Holds for upper-triangular matrices that are not tall; entries below the diagonal make it fail (C31_lower_refuted), tall matrices make it panic (C31_tall_refuted)."
 ],
 "C32": [
  "proved",
  "For every permutation and every slice; shorter slices panic as documented."
 ],
 "C33": [
  "proved",
  "For every rooted forest."
 ],
 "C34": [
  "proved",
  "For every rooted forest."
 ],
 "C35": [
  "proved",
  "Both variants, for every well-formed structure; also as the first entry below the diagonal of the symbolic Cholesky factor."
 ],
 "C36": [
  "proved",
  "The reflector computed for any vector maps it to a multiple of the first axis with the reported norm, is orthogonal, and applying it to a vector is the reflection it describes; exact arithmetic."
 ],
 "C37": [
  "partial",
  "Proved in exact arithmetic, with the columns as given or as ordered by colamd (fewer than 2^29 rows, columns and entries): whenever building, factorizing and solving returns, for any matrix of any rank, it reports success exactly when the columns are independent, and then minimises the residual (C37_whenever_it_returns). It does return, without panicking, for every matrix with independent columns, and more generally for every matrix in which each column can be given a row of its own. Refuted: a structurally rank-deficient matrix can make it panic (C37_panic_refuted). Nothing of the property is left open in exact arithmetic."
 ],
 "C38": [
  "partial",
  "Refuted (C38_refuted): with three points and one angle the search returns two points of freedom 4 in every iteration order; the code tests dof > -(D+1) instead of dof < D+1."
 ],
 "C39": [
  "partial",
  "Refuted: C39_refuted gives a matrix whose ordering changes when the two entries of one column are swapped. The jumbled branch of init_rows_cols takes entry values for positions. C39_bounds_refuted: a jumbled matrix with indices in range and a workspace of the required length on which the search leaves its tables. Sorted columns (nothing to normalise) are C42."
 ],
 "C40": [
  "proved",
  "The recommended length is the required length plus a fifth of the entries, is reported for all nonnegative sizes and only without overflow, and a workspace of that length is never refused. That the required length is enough for the search itself is C42."
 ],
 "C41": [
  "proved",
  "For every forest of absorbed columns whose groups have disjoint places; order_children then writes a permutation of the columns."
 ],
 "C42": [
  "proved",
  "C42_ordering: for every matrix with sorted columns, any options and a workspace of the required length, the call returns without an access out of bounds and without running out of any loop, and the first words of the result are a permutation of the columns. C42_refused: a shorter workspace is refused. C42_factorisation: the call made by the sparse QR returns an ordering for every well-formed matrix. Sizes below 2^29, so that the 32-bit arithmetic, done on integers in the model, cannot overflow. For unsorted columns see C39."
 ],
 "C43": [
  "proved",
  "C43_plan: for every graph, part closed under constraints, iteration order and dimension. C43_groups: the solving groups are such parts when no constraint ever merged two groups; otherwise C17_refuted shows that a group may not hold the elements of its constraints."
 ],
 "C44": [
  "proved",
  "The model of symamd (ModelSymamd.v) with the modelled colamd inside. Fewer than 2^28 indices and 2^29 columns, so that i32 arithmetic does not overflow."
 ],
 "C45": [
  "proved",
  "Equality of results and statistics. The order of the indices below the diagonal does matter (C45_order)."
 ],
 "C46": [
  "partial",
  "Proved for colamd whenever it returns an ordering, with no bound on sizes. Refuted for symamd: the inner colamd call overwrites the notice, so a jumbled symmetric matrix is always reported as Ok."
 ],
 "C47": [
  "partial",
  "C47_refused: error exactly for the first fault, for nonnegative sizes. Refuted in part: negative row counts and negative last pointers reach unreachable! (C47_negative_refuted), and symamd reads past its argument before checking that pointers do not decrease (C47_symmetric_refuted)."
 ],
 "C48": [
  "proved",
  "Equality, order and hash words agree; total order; order = creation order in every run with at most 2^32 systems (beyond that C03_unbounded_refuted)."
 ],
 "C49": [
  "partial",
  "Proved for every call sequence whose solves use no decomposer; refuted for SinglePass and RecursiveAssembly with binary64 witnesses (hash sets iterate in random order); for SinglePass the groups are proved independent of the order up to the order of variables within each group, and in exact arithmetic so is everything Levenberg-Marquardt makes of the sketch (C49_exact, C49_exact_history): what differs between runs is rounding."
 ],
 "C50": [
  "partial",
  "Proved over R for every optimizer, tolerance and history in which each constraint is in one group with its points and lengths (true when no constraint joined two groups, C50_unmerged), without a decomposer, and with SinglePass if every equation can be given a free coordinate of its own. Refuted in binary64 when merging left a constraint apart (C50_merged_refuted) and for SinglePass with more equations than coordinates (C50_overdetermined_refuted). Refuted over R for RecursiveAssembly and every optimizer (C50_assembly_refuted)."
 ],
 "C51": [
  "partial",
  "Proved over R without perturbation for both optimizers as modelled, every decomposer and every iteration order of hash sets (C51_decomposed; for L-BFGS from 1e-4 on, save with RecursiveAssembly). Refuted with the default options (perturbation) and in binary64 without perturbation (rounding)."
 ],
 "C52": [
  "partial",
  "Proved over R without a decomposer for every non-worsening optimizer and for Levenberg-Marquardt with the modelled QR, for histories in which each constraint is in one group with its points and lengths (see C50_unmerged); refuted in binary64 when merging left a constraint apart, and for SinglePass (solving one group can put the next out of reach)."
 ],
 "C53": [
  "proved",
  "Over R. Stated through Gram matrices: R^T R = P^T A^T A P and R^T Q^T b = P^T A^T b with the norm of b kept. The ordering by COLAMD needs fewer than 2^29 rows, columns and entries (its i32 arithmetic). Structures without full structural rank panic (C37_panic_refuted)."
 ],
 "C54": [
  "proved",
  "Over R. Spec_Lm.v is the specification; runs are proved unique. The stationary-point clause is for the problems built from sketches at points where the residuals have derivatives."
 ],
 "C55": [
  "partial",
  "Refuted: for a point to be put on a line through two others, the only problem handed to the optimizer has no solution, whatever the optimizer (C55_refuted, hash sets in ascending order). Proved: if the sketch is satisfied, the optimizer starts from a solution of each problem, so an optimizer that returns it leaves the sketch as it is (C55_satisfied_partial)."
 ],
 "C56": [
  "partial",
  "Proved over R: while all steps so far were forward and satisfied the (approximate) Wolfe conditions, the direction goes downhill and the sum of squares grows by at most 1e-6 in a round (C56_downhill_partial); the full step is taken exactly if it satisfies the conditions (C56_full_step). Refuted in binary64 (C56_refuted): the line search accepts a step backwards that makes the sum of squares larger."
 ],
 "C57": [
  "partial",
  "Refuted for L-BFGS in binary64 (C57_refuted): three points on a line, to be made an equilateral triangle, stay on the line although perturbed. Nothing is proved in general for Levenberg-Marquardt, which does solve that sketch."
 ],
 "C58": [
  "proved",
  "For every history of the sketch, every sequence of requests and every number type, rendering returns the text of a picture whose two layers hold each visible element once (C58_picture, C58_once). How numbers and colours are printed is a parameter; kurbo's rectangle operations are trusted as documented."
 ],
 "C59": [
  "partial",
  "In exact arithmetic the frame is the smallest rectangle around the drawing with a margin of a tenth of its longer side, and has positive size if the drawing is more than one point (C59_frame). Refuted otherwise: an empty drawing or a single point gives an infinite or empty frame (C59_degenerate_refuted), and in binary64 two finite points far enough apart give an infinite frame (C59_overflow_refuted). Missing: that rounding alone, without overflow, never lets the drawing out of its frame."
 ],
 "C60": [
  "partial",
  "In exact arithmetic the whole program except over-constraint analysis is independent of the unit of length: all calls and results, all options, for every positive factor (C60_units_partial). Analysis is not (C60_analysis_refuted): its threshold is absolute."
 ],
 "C61": [
  "partial",
  "Proved for every sequence of calls, every state and every number type: an optimizer no solve asks for plays no part (C61_unasked), and without recursive assembly all numerical work is done by the optimizer asked for (C61_chosen_partial). Refuted for recursive assembly, which always runs Levenberg-Marquardt (C61_assembly_refuted)."
 ]
}