{"claims": [
  {"property": "C01", "status": "proved", "theorems": ["C01_read_back", "C01_line", "C01_circle"], "note": "Every history of API calls; points and lengths read back the last value set when nothing was solved, lines and circles always read back their parts."},
  {"property": "C02", "status": "proved", "theorems": ["C02_values_kept", "C02_handles_kept"], "note": "Every history."},
  {"property": "C03", "status": "proved", "theorems": ["C03_element_handles", "C03_constraint_handles", "C03_unbounded_refuted"], "note": "For fewer than 2^32 systems; C03_unbounded_refuted shows the bound is needed (the id counter wraps)."},
  {"property": "C04", "status": "proved", "theorems": ["C04_listings"], "note": "Every history."},
  {"property": "C05", "status": "partial", "theorems": ["C05_foreign_reads_partial", "C05_foreign_writes_refuted"], "note": "Reads reject foreign handles. Writes (fix, unfix, update, create) do not check: C05_foreign_writes_refuted."},
  {"property": "C06", "status": "proved", "theorems": ["C06_calls_succeed", "C06_solve_no_panic", "C06_assembly_refuted", "C06_optimizers_no_panic", "C06_program_no_panic"], "note": "Every history and every call but solving by recursive assembly, for any optimizers satisfying env_safe (C06_calls_succeed, C06_solve_no_panic); for the whole program as modelled, column ordering included, up to 2^24 elements and constraints (C06_optimizers_no_panic, C06_program_no_panic). Solving by recursive assembly can panic (C06_assembly_refuted)."},
  {"property": "C07", "status": "proved", "theorems": ["C07_fixed_do_not_move", "C07_free_moves"], "note": "Every history and decomposer except recursive assembly, which is documented to ignore fixed elements. C07_free_moves: what is not, or no longer, fixed and is constrained goes where the optimizer puts it (decomposer None)."},
  {"property": "C08", "status": "proved", "theorems": ["C08_solve_touches", "C08_any_decomposer", "C08_constraints_kept", "C08_whole_solver"], "note": "Every history. C08_solve_touches for the decomposers None and SinglePass; C08_any_decomposer for every decomposer without the protection of fixed coordinates, which recursive assembly ignores as documented; C08_whole_solver discharges the assumption about recursive assembly from its model."},
  {"property": "C09", "status": "proved", "theorems": ["C09_parameter_exact", "C09_parameter_local"], "note": "Every history."},
  {"property": "C10", "status": "proved", "theorems": ["C10_residual_formula", "C10_zero_iff_satisfied"], "note": "Formula for any number type; zero iff geometric relation over the reals, in general position."},
  {"property": "C11", "status": "proved", "theorems": ["C11_gradient", "C11_total_derivative"], "note": "Partial and total derivatives over the reals, all eleven expressions, outside the stated degenerate sets."},
  {"property": "C12", "status": "partial", "theorems": ["C12_sparse_jacobian", "C12_analysis_jacobian_partial", "C12_dense_jacobian_partial", "C12_dense_refuted"], "note": "Sparse Jacobian (used by LM): proved with aliasing. Dense Jacobian (analysis, L-BFGS): proved without aliasing, refuted with."},
  {"property": "C13", "status": "proved", "theorems": ["C13_scaling", "C13_scaled_values"], "note": "All expressions and positive scales, over the reals."},
  {"property": "C14", "status": "partial", "theorems": ["C14_rigid_motion_partial", "C14_opposite_refuted"], "note": "All constraints, except angle constraints whose legs are opposite, for which it is refuted."},
  {"property": "C15", "status": "proved", "theorems": ["C15_pose_rigid", "C15_chain_rule"], "note": "Over the reals."},
  {"property": "C16", "status": "partial", "theorems": ["C16_attainable_partial", "C16_refuted"], "note": "Attainable exactly for parameters in [-pi, pi]; outside refuted for every history."},
  {"property": "C17", "status": "partial", "theorems": ["C17_groups_partial", "C17_connected_partial", "C17_refuted", "C17_ignored_refuted"], "note": "The property is false of the code (C17_refuted, C17_ignored_refuted: merging leaves stale group numbers behind). Proved for every history: a point or length is in a group iff constrained, groups are disjoint, each constraint is in exactly one group, one group implies connected. Proved in full for histories in which no constraint joins two existing groups."},
  {"property": "C18", "status": "proved", "theorems": ["C18_maximum_matching"], "note": "All bipartite graphs."},
  {"property": "C19", "status": "proved", "theorems": ["C19_groups"], "note": "All graphs."},
  {"property": "C20", "status": "proved", "theorems": ["C20_single_pass"], "note": "All single-pass runs."},
  {"property": "C21", "status": "partial", "theorems": ["C21_reported_partial", "C21_exact_partial", "C21_reported_refuted", "C21_independent_refuted"], "note": "The property is false of the code as stated: C21_reported_refuted (rows numbered at or above the number of variables are always reported) and C21_independent_refuted (unreported rows can be multiples of each other). Proved over the reals for every history: a reported constraint has such a row or one within 1e-8 of a combination of earlier rows; and the full property when there are no more rows than variables and no row is nearly but not exactly dependent."},
  {"property": "C22", "status": "proved", "theorems": ["C22_full_period", "C22_unit_interval", "C22_perturbation", "C22_bound", "C22_stream"], "note": "Full period and stream use exact; range [0,1] in binary64 (via Flocq); the displacement bound in exact arithmetic, the displacement formula in every arithmetic."},
  {"property": "C23", "status": "proved", "theorems": ["C23_steps", "C23_never_worse", "C23_solved_untouched", "C23_arithmetic", "C23_problems"], "note": "For every linear solver, problem, start and arithmetic (reals and binary64), whenever the optimizer returns; whether it returns is C24."},
  {"property": "C24", "status": "partial", "theorems": ["C24_exact_lm_partial", "C24_program_partial", "C24_refuted", "C24_ordinary_refuted", "C24_stacked_refuted"], "note": "C24_exact_lm_partial and C24_program_partial: in exact arithmetic, Levenberg-Marquardt with the sparse QR solver and colamd returns from every reachable sketch of up to 2^24 elements and constraints (decomposers None and SinglePass), for any sort and hash order. C24_refuted: in binary64 with the default options, and with L-BFGS, solve never returns on two points at the origin (one fixed) made coincident, because the system scale is 0 and every coordinate becomes NaN. C24_ordinary_refuted: with L-BFGS it never returns on an ordinary triangle, with or without perturbation, because the line search only looks at steps up to 5. C24_stacked_refuted: without perturbation it never returns, with either optimizer, if two points that are to be apart start at the same place. Missing: L-BFGS in exact arithmetic, recursive assembly, and which binary64 sketches are safe."},
  {"property": "C25", "status": "partial", "theorems": ["C25_chain", "C25_moves", "C25_direction_partial", "C25_refuted", "C25_actual"], "note": "Proved for the first round and whenever the five-entry history is full (round 5 on); refuted for rounds 1 to 4, where the ring-buffer index picks unfilled slots; C25_actual states which pairs are used in every round."},
  {"property": "C26", "status": "partial", "theorems": ["C26_gradient", "C26_slope", "C26_constraints_partial", "C26_shared_refuted"], "note": "Gradient and line-search slope proved relative to the Jacobian the problem reports, and outright for the problems the program builds when no constraint uses a coordinate twice; refuted for such constraints, because the dense Jacobian overwrites."},
  {"property": "C27", "status": "proved", "theorems": ["C27_convert", "C27_sum"], "note": "For every sort the standard library may use; in binary64 the order of additions among duplicates is that sort's."},
  {"property": "C28", "status": "proved", "theorems": ["C28_transpose", "C28_structure"], "note": "Matrices and structures; transposing twice gives back the same matrix."},
  {"property": "C29", "status": "partial", "theorems": ["C29_structure_partial", "C29_values_refuted", "C29_swap_refuted"], "note": "The structure is right. The values are not: C29_values_refuted, C29_swap_refuted (every column appends the values of the whole matrix)."},
  {"property": "C30", "status": "partial", "theorems": ["C30_sound", "C30_complete", "C30_returns_partial", "C30_returns_refuted", "C30_identity", "C30_empty_refuted"], "note": "Sound and complete when it returns; it can index out of bounds (C30_returns_refuted), and empty() is never well-formed (C30_empty_refuted)."},
  {"property": "C31", "status": "partial", "theorems": ["C31_upper_partial", "C31_sound", "C31_float_partial", "C31_lower_refuted", "C31_tall_refuted"], "note": "Holds for upper-triangular matrices that are not tall; entries below the diagonal make it fail (C31_lower_refuted), tall matrices make it panic (C31_tall_refuted)."},
  {"property": "C32", "status": "proved", "theorems": ["C32_gather", "C32_short"], "note": "For every permutation and every slice; shorter slices panic as documented."},
  {"property": "C33", "status": "proved", "theorems": ["C33_post_order"], "note": "For every rooted forest."},
  {"property": "C34", "status": "proved", "theorems": ["C34_levels"], "note": "For every rooted forest."},
  {"property": "C35", "status": "proved", "theorems": ["C35_symmetric", "C35_product", "C35_forest"], "note": "Both variants, for every well-formed structure; also as the first entry below the diagonal of the symbolic Cholesky factor."},
  {"property": "C36", "status": "proved", "theorems": ["C36_reflector", "C36_empty", "C36_apply", "C36_eliminate"], "note": "The reflector computed for any vector maps it to a multiple of the first axis with the reported norm, is orthogonal, and applying it to a vector is the reflection it describes; exact arithmetic."},
  {"property": "C37", "status": "partial", "theorems": ["C37_least_squares_partial", "C37_independent", "C37_whenever_it_returns", "C37_panic_refuted"], "note": "Proved in exact arithmetic, with the columns as given or as ordered by colamd (fewer than 2^29 rows, columns and entries): whenever building, factorizing and solving returns, for any matrix of any rank, it reports success exactly when the columns are independent, and then minimises the residual (C37_whenever_it_returns). It does return, without panicking, for every matrix with independent columns, and more generally for every matrix in which each column can be given a row of its own. Refuted: a structurally rank-deficient matrix can make it panic (C37_panic_refuted). Nothing of the property is left open in exact arithmetic."},
  {"property": "C38", "status": "partial", "theorems": ["C38_refuted"], "note": "Refuted (C38_refuted): with three points and one angle the search returns two points of freedom 4 in every iteration order; the code tests dof > -(D+1) instead of dof < D+1."},
  {"property": "C39", "status": "partial", "theorems": ["C39_refuted", "C39_bounds_refuted"], "note": "Refuted: C39_refuted gives a matrix whose ordering changes when the two entries of one column are swapped. The jumbled branch of init_rows_cols takes entry values for positions. C39_bounds_refuted: a jumbled matrix with indices in range and a workspace of the required length on which the search leaves its tables. Sorted columns (nothing to normalise) are C42."},
  {"property": "C40", "status": "proved", "theorems": ["C40_recommended", "C40_reported", "C40_accepted"], "note": "The recommended length is the required length plus a fifth of the entries, is reported for all nonnegative sizes and only without overflow, and a workspace of that length is never refused. That the required length is enough for the search itself is C42."},
  {"property": "C41", "status": "proved", "theorems": ["C41_every_column_once"], "note": "For every forest of absorbed columns whose groups have disjoint places; order_children then writes a permutation of the columns."},
  {"property": "C42", "status": "proved", "theorems": ["C42_ordering", "C42_refused", "C42_factorisation"], "note": "C42_ordering: for every matrix with sorted columns, any options and a workspace of the required length, the call returns without an access out of bounds and without running out of any loop, and the first words of the result are a permutation of the columns. C42_refused: a shorter workspace is refused. C42_factorisation: the call made by the sparse QR returns an ordering for every well-formed matrix. Sizes below 2^29, so that the 32-bit arithmetic, done on integers in the model, cannot overflow. For unsorted columns see C39."},
  {"property": "C43", "status": "proved", "theorems": ["C43_plan", "C43_groups"], "note": "C43_plan: for every graph, part closed under constraints, iteration order and dimension. C43_groups: the solving groups are such parts when no constraint ever merged two groups; otherwise C17_refuted shows that a group may not hold the elements of its constraints."},
  {"property": "C44", "status": "proved", "theorems": ["C44_symmetric_ordering"], "note": "The model of symamd (ModelSymamd.v) with the modelled colamd inside. Fewer than 2^28 indices and 2^29 columns, so that i32 arithmetic does not overflow."},
  {"property": "C45", "status": "proved", "theorems": ["C45_lower_part"], "note": "Equality of results and statistics. The order of the indices below the diagonal does matter (C45_order)."},
  {"property": "C46", "status": "partial", "theorems": ["C46_notice", "C46_symmetric_refuted"], "note": "Proved for colamd whenever it returns an ordering, with no bound on sizes. Refuted for symamd: the inner colamd call overwrites the notice, so a jumbled symmetric matrix is always reported as Ok."},
  {"property": "C47", "status": "partial", "theorems": ["C47_refused", "C47_negative_refuted", "C47_symmetric_refuted"], "note": "C47_refused: error exactly for the first fault, for nonnegative sizes. Refuted in part: negative row counts and negative last pointers reach unreachable! (C47_negative_refuted), and symamd reads past its argument before checking that pointers do not decrease (C47_symmetric_refuted)."},
  {"property": "C48", "status": "proved", "theorems": ["C48_elements_agree", "C48_constraints_agree", "C48_total", "C48_element_order", "C48_constraint_order"], "note": "Equality, order and hash words agree; total order; order = creation order in every run with at most 2^32 systems (beyond that C03_unbounded_refuted)."},
  {"property": "C49", "status": "partial", "theorems": ["C49_exact", "C49_exact_history", "C49_undecomposed", "C49_single_pass_partial", "C49_decomposed_refuted", "C49_plan_refuted"], "note": "Proved for every call sequence whose solves use no decomposer; refuted for SinglePass and RecursiveAssembly with binary64 witnesses (hash sets iterate in random order); for SinglePass the groups are proved independent of the order up to the order of variables within each group, and in exact arithmetic so is everything Levenberg-Marquardt makes of the sketch (C49_exact, C49_exact_history): what differs between runs is rounding."},
  {"property": "C50", "status": "partial", "theorems": ["C50_within_partial", "C50_solved_partial", "C50_unmerged", "C50_single_pass_partial", "C50_single_pass_solved_partial", "C50_assembly_refuted", "C50_merged_refuted", "C50_overdetermined_refuted"], "note": "Proved over R for every optimizer, tolerance and history in which each constraint is in one group with its points and lengths (true when no constraint joined two groups, C50_unmerged), without a decomposer, and with SinglePass if every equation can be given a free coordinate of its own. Refuted in binary64 when merging left a constraint apart (C50_merged_refuted) and for SinglePass with more equations than coordinates (C50_overdetermined_refuted). Refuted over R for RecursiveAssembly and every optimizer (C50_assembly_refuted)."},
  {"property": "C51", "status": "partial", "theorems": ["C51_solved_untouched", "C51_decomposed", "C51_default_refuted", "C51_rounding_refuted"], "note": "Proved over R without perturbation for both optimizers as modelled, every decomposer and every iteration order of hash sets (C51_decomposed; for L-BFGS from 1e-4 on, save with RecursiveAssembly). Refuted with the default options (perturbation) and in binary64 without perturbation (rounding)."},
  {"property": "C52", "status": "partial", "theorems": ["C52_improves_partial", "C52_never_worse_partial", "C52_merged_refuted", "C52_single_pass_refuted"], "note": "Proved over R without a decomposer for every non-worsening optimizer and for Levenberg-Marquardt with the modelled QR, for histories in which each constraint is in one group with its points and lengths (see C50_unmerged); refuted in binary64 when merging left a constraint apart, and for SinglePass (solving one group can put the next out of reach)."},
  {"property": "C53", "status": "proved", "theorems": ["C53_factors"], "note": "Over R. Stated through Gram matrices: R^T R = P^T A^T A P and R^T Q^T b = P^T A^T b with the norm of b kept. The ordering by COLAMD needs fewer than 2^29 rows, columns and entries (its i32 arithmetic). Structures without full structural rank panic (C37_panic_refuted)."},
  {"property": "C54", "status": "proved", "theorems": ["C54_textbook", "C54_normal_equations", "C54_downhill", "C54_stationary"], "note": "Over R. Spec_Lm.v is the specification; runs are proved unique. The stationary-point clause is for the problems built from sketches at points where the residuals have derivatives."},
  {"property": "C55", "status": "partial", "theorems": ["C55_refuted", "C55_satisfied_partial"], "note": "Refuted: for a point to be put on a line through two others, the only problem handed to the optimizer has no solution, whatever the optimizer (C55_refuted, hash sets in ascending order). Proved: if the sketch is satisfied, the optimizer starts from a solution of each problem, so an optimizer that returns it leaves the sketch as it is (C55_satisfied_partial)."},
  {"property": "C56", "status": "partial", "theorems": ["C56_downhill_partial", "C56_full_step", "C56_refuted"], "note": "Proved over R: while all steps so far were forward and satisfied the (approximate) Wolfe conditions, the direction goes downhill and the sum of squares grows by at most 1e-6 in a round (C56_downhill_partial); the full step is taken exactly if it satisfies the conditions (C56_full_step). Refuted in binary64 (C56_refuted): the line search accepts a step backwards that makes the sum of squares larger."},
  {"property": "C57", "status": "partial", "theorems": ["C57_refuted"], "note": "Refuted for L-BFGS in binary64 (C57_refuted): three points on a line, to be made an equilateral triangle, stay on the line although perturbed. Nothing is proved in general for Levenberg-Marquardt, which does solve that sketch."},
  {"property": "C58", "status": "proved", "theorems": ["C58_picture", "C58_once"], "note": "For every history of the sketch, every sequence of requests and every number type, rendering returns the text of a picture whose two layers hold each visible element once (C58_picture, C58_once). How numbers and colours are printed is a parameter; kurbo's rectangle operations are trusted as documented."},
  {"property": "C59", "status": "partial", "theorems": ["C59_degenerate_refuted", "C59_overflow_refuted", "C59_frame"], "note": "In exact arithmetic the frame is the smallest rectangle around the drawing with a margin of a tenth of its longer side, and has positive size if the drawing is more than one point (C59_frame). Refuted otherwise: an empty drawing or a single point gives an infinite or empty frame (C59_degenerate_refuted), and in binary64 two finite points far enough apart give an infinite frame (C59_overflow_refuted). Missing: that rounding alone, without overflow, never lets the drawing out of its frame."},
  {"property": "C60", "status": "partial", "theorems": ["C60_units_partial", "C60_analysis_refuted"], "note": "In exact arithmetic the whole program except over-constraint analysis is independent of the unit of length: all calls and results, all options, for every positive factor (C60_units_partial). Analysis is not (C60_analysis_refuted): its threshold is absolute."},
  {"property": "C61", "status": "partial", "theorems": ["C61_unasked", "C61_chosen_partial", "C61_assembly_refuted"], "note": "Proved for every sequence of calls, every state and every number type: an optimizer no solve asks for plays no part (C61_unasked), and without recursive assembly all numerical work is done by the optimizer asked for (C61_chosen_partial). Refuted for recursive assembly, which always runs Levenberg-Marquardt (C61_assembly_refuted)."}
]}
