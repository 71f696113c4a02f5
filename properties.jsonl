{"id": "C01", "title": "Element values read back exactly", "statement": "After any history of creating elements, updating values, fixing, unfixing and adding constraints (no solving), reading a point or length handle returns exactly the value most recently given to it by create or update, and reading a line or circle returns the current values of the points/length it was built from.", "quantifier": "every history of API calls on one system, every handle that history returned", "why_tests_cant": "The claim is about all interleavings of creates and updates over an unbounded number of elements; a test fixes one history.", "anchors": ["fiksi/src/lib.rs:System::add_element", "fiksi/src/elements/mod.rs:ElementHandle::get_value", "fiksi/src/elements/mod.rs:ElementHandle<Point>::update_value", "fiksi/src/elements/mod.rs:Point::create", "fiksi/src/elements/mod.rs:Line::create", "fiksi/src/elements/mod.rs:Circle::create", "fiksi/src/elements/mod.rs:Length::create"]}
{"id": "C02", "title": "Operations change nothing they do not name", "statement": "Updating one point or length changes the value of no element other than it and the lines/circles built on it; creating elements or constraints, fixing, unfixing and updating constraint parameters change no element value; and no operation removes or alters an existing handle.", "quantifier": "every reachable system state and every next operation", "why_tests_cant": "A frame condition quantifies over everything that is not touched, in every reachable state.", "anchors": ["fiksi/src/elements/mod.rs", "fiksi/src/lib.rs:System::add_element", "fiksi/src/lib.rs:System::add_constraint", "fiksi/src/constraints/mod.rs:update_parameter"]}
{"id": "C03", "title": "Handles are unique and identify one element of one system", "statement": "Two handles obtained from any systems created by the process are equal exactly when they denote the same element (constraint) of the same system, and the 64-bit id of a type-erased handle distinguishes them, as long as fewer than 2^32 systems/elements exist; after 2^32 system creations identifiers repeat.", "quantifier": "every history of system creation and element/constraint creation", "why_tests_cant": "Uniqueness is a statement about all pairs over unbounded histories including counter wrap-around.", "anchors": ["fiksi/src/lib.rs:System::new", "fiksi/src/elements/mod.rs:AnyElementHandle::as_id", "fiksi/src/constraints/mod.rs:AnyConstraintHandle"]}
{"id": "C04", "title": "Handle enumeration is exact", "statement": "The element (constraint) handle listing returns exactly the handles that were created, once each, in creation order, each convertible back to the typed handle originally returned by create and to no other type.", "quantifier": "every reachable system", "why_tests_cant": "Completeness of an enumeration over unbounded histories.", "anchors": ["fiksi/src/lib.rs:System::get_element_handles", "fiksi/src/lib.rs:System::get_constraint_handles", "fiksi/src/elements/mod.rs:AnyElementHandle::as_tagged_element", "fiksi/src/constraints/mod.rs:AnyConstraintHandle::as_tagged_constraint"]}
{"id": "C05", "title": "A foreign handle is rejected", "statement": "Using a handle with a system that did not create it never silently reads or modifies that system: the call panics.", "quantifier": "every pair of systems and every handle", "why_tests_cant": "Needs all pairs of systems and all methods; a test exercises a few.", "anchors": ["fiksi/src/elements/mod.rs:get_value", "fiksi/src/elements/mod.rs:update_value", "fiksi/src/elements/mod.rs:fix", "fiksi/src/constraints/mod.rs:calculate_residual", "fiksi/src/constraints/mod.rs:update_parameter"]}
{"id": "C06", "title": "Own handles never panic and never go out of range", "statement": "In every state reachable through the API, every operation applied to handles of the same system succeeds: no index out of range and no type confusion, for elements, constraints, residuals, parameters, fix/unfix and analysis/solve set-up.", "quantifier": "every reachable state, every operation, every own handle", "why_tests_cant": "Absence of panics over all histories.", "anchors": ["fiksi/src/lib.rs", "fiksi/src/elements/mod.rs", "fiksi/src/constraints/mod.rs", "fiksi/src/constraints/expressions.rs:variable_indices"]}
{"id": "C07", "title": "Fixed elements do not move", "statement": "Solving without decomposition or with single-pass decomposition leaves the value of every fixed element (every coordinate it is built from) bit-for-bit unchanged, whatever the numerical optimizer does; unfixing restores freedom; fixing a line or circle fixes the primitives it is built on.", "quantifier": "every reachable system, every fixed set, every optimizer outcome (including non-converging and NaN)", "why_tests_cant": "Must hold for every result the numerical optimizer could produce.", "anchors": ["fiksi/src/assemble/mod.rs:solve", "fiksi/src/elements/mod.rs:fix", "fiksi/src/elements/mod.rs:unfix"]}
{"id": "C08", "title": "Solving touches only constrained free coordinates", "statement": "Solving (no decomposition or single-pass) never changes elements that take part in no constraint, never changes constraint parameters, the handle lists, the fixed set or any residual definition; only free coordinates of elements incident to constraints can change.", "quantifier": "every reachable system, every optimizer outcome", "why_tests_cant": "Frame condition over all systems and all numerical outcomes.", "anchors": ["fiksi/src/assemble/mod.rs:solve", "fiksi/src/lib.rs:System::solve"]}
{"id": "C09", "title": "Parameter updates are exact and local", "statement": "After updating the parameter of a distance or angle constraint, the residual of that constraint is the one of a constraint created with the new parameter, and every other constraint's residual and every element value is unchanged.", "quantifier": "every reachable system and constraint handle", "why_tests_cant": "Relates two histories for all states.", "anchors": ["fiksi/src/constraints/mod.rs:update_parameter", "fiksi/src/constraints/mod.rs:calculate_residual"]}
{"id": "C10", "title": "Residuals mean what the constraint says", "statement": "For every constraint kind and all coordinates in general position, the residual reported through the API is zero exactly when the geometric relation holds: coincidence, distance equal to the parameter, signed point-line distance, incidence, point on circle, tangency, parallelism, perpendicularity, equal segment lengths, directed angle.", "quantifier": "all real coordinates and parameters", "why_tests_cant": "An equivalence over a continuum of inputs.", "anchors": ["fiksi/src/constraints/expressions.rs:compute_residual_and_gradient", "fiksi/src/constraints/mod.rs:calculate_residual"]}
{"id": "C11", "title": "Gradients are the true derivatives", "statement": "For every constraint kind, each gradient entry is the partial derivative of the residual with respect to that variable, at every non-degenerate configuration.", "quantifier": "all real coordinates outside the stated degenerate sets, all variables", "why_tests_cant": "Differentiation is a limit statement; tests sample finite differences.", "anchors": ["fiksi/src/constraints/expressions.rs:compute_residual_and_gradient"]}
{"id": "C12", "title": "Jacobian rows are correct when variables are shared", "statement": "The Jacobian handed to the optimizers and to the over-constraint analysis is the derivative of the residual vector in the free variables, also when one variable occurs several times in an expression (two lines sharing an endpoint).", "quantifier": "all expressions, all assignments of free variables including aliasing", "why_tests_cant": "Aliasing patterns and coordinates are unbounded.", "anchors": ["fiksi/src/constraints/expressions.rs:calculate_residual_and_gradient", "fiksi/src/subsystem.rs:calculate_residuals_and_jacobian", "fiksi/src/subsystem.rs:calculate_residuals_and_sparse_jacobian", "fiksi/src/assemble/mod.rs:DenseColMat::push_triplet"]}
{"id": "C13", "title": "Solving is invariant to the choice of scale", "statement": "Internally rescaling all coordinates and length parameters by a positive factor neither creates nor destroys solutions: a rescaled constraint is satisfied by rescaled coordinates exactly when the original is satisfied by the original coordinates.", "quantifier": "all expressions, all coordinates, all positive scales", "why_tests_cant": "Continuum of inputs.", "anchors": ["fiksi/src/constraints/expressions.rs:transform", "fiksi/src/assemble/mod.rs:solve"]}
{"id": "C14", "title": "Constraints are invariant under rigid motion", "statement": "Moving a whole cluster by a rotation and translation does not change the residual of any geometric constraint on it.", "quantifier": "all rotations, translations and coordinates", "why_tests_cant": "Continuum of inputs, including branch cuts of the angle.", "anchors": ["fiksi/src/constraints/expressions.rs:Pose2D", "fiksi/src/assemble/mod.rs:ClusteredSystem"]}
{"id": "C15", "title": "Pose transforms are rigid and their chain rule is right", "statement": "Transforming points by a pose preserves distances and orientation, and the pose chain rule gives the derivative of an expression with respect to the rotation angle, the translation and the cluster-local coordinates.", "quantifier": "all poses, points and differentiable expressions", "why_tests_cant": "Continuum of inputs and all functions.", "anchors": ["fiksi/src/constraints/expressions.rs:Pose2D::transform_point", "fiksi/src/constraints/expressions.rs:Pose2D::gradient_chain_rule_point"]}
{"id": "C16", "title": "Any angle parameter is attainable", "statement": "For every angle parameter there is a configuration with zero residual, i.e. angles that differ by a full turn describe the same constraint.", "quantifier": "all real parameters", "why_tests_cant": "Continuum of inputs.", "anchors": ["fiksi/src/constraints/expressions.rs:PointPointPointAngle", "fiksi/src/constraints/expressions.rs:LineLineAngle"]}
{"id": "C17", "title": "Connected components are the connected components", "statement": "At every moment two elements are in the same solving group exactly when they are connected through constraints, every constraint belongs to the one group that holds all of its elements, and the groups are disjoint.", "quantifier": "every history of element and constraint creation", "why_tests_cant": "Depends on the order in which components merge, over unbounded histories.", "anchors": ["fiksi/src/graph.rs:Graph::add_constraint", "fiksi/src/graph.rs:Graph::merge_connected_components"]}
{"id": "C18", "title": "The expression/variable matching is a maximum matching", "statement": "The assignment of expressions to free variables used for decomposition pairs each expression with a variable it mentions, uses every variable at most once, is symmetric, and no larger assignment exists; the computation terminates.", "quantifier": "every bipartite graph of expressions and variables and every free set", "why_tests_cant": "Maximality is a statement about all other matchings in all graphs.", "anchors": ["fiksi/src/analyze/graph/equations.rs:find_maximum_matching", "fiksi/src/analyze/graph/equations.rs:bfs", "fiksi/src/analyze/graph/equations.rs:dfs"]}
{"id": "C19", "title": "Decomposition groups are the strongly connected components in dependency order", "statement": "Grouping matched expressions puts every matched expression in exactly one group, two expressions share a group exactly when each depends on the other, and the groups come in an order in which every group only depends on itself and earlier groups.", "quantifier": "every expression graph and every matching", "why_tests_cant": "All graphs, all traversal orders.", "anchors": ["fiksi/src/analyze/graph/equations.rs:find_strongly_connected_expressions", "fiksi/src/analyze/graph/equations.rs:tarjan", "fiksi/src/analyze/graph/equations.rs:visit"]}
{"id": "C20", "title": "Single-pass solving is sound", "statement": "When each group in the single-pass order is solved exactly once, every free variable is written by at most one group, only free variables are written, and a group's expressions stay satisfied after all later groups are solved: if each group solve succeeds then all matched expressions are satisfied at the end.", "quantifier": "every system, every free set, every per-group solution", "why_tests_cant": "Composition over all graphs and all numerical outcomes.", "anchors": ["fiksi/src/assemble/mod.rs:solve", "fiksi/src/analyze/graph/equations.rs:find_strongly_connected_expressions"]}
{"id": "C21", "title": "Over-constraint analysis reports exactly the dependent constraints", "statement": "A constraint is reported as over-constraining only if its Jacobian row is linearly dependent on the rows of constraints before it, and rows that are not reported are linearly independent.", "quantifier": "all Jacobian matrices (all row and column counts)", "why_tests_cant": "All matrix shapes and values.", "anchors": ["fiksi/src/analyze/numerical/mod.rs:incremental_gauss_jordan_elimination", "fiksi/src/analyze/numerical/mod.rs:find_overconstraints", "fiksi/src/lib.rs:System::analyze"]}
{"id": "C22", "title": "The perturbation is deterministic and bounded", "statement": "Perturbing start values uses a fixed pseudo-random stream that only depends on the system, draws values in [0,1], does not repeat within 2^32 draws, and moves each scaled coordinate by at most a fixed relative plus absolute bound; unperturbed coordinates are not touched.", "quantifier": "all states of the generator and all coordinates", "why_tests_cant": "Full-period and bounds over 2^32 states and a continuum.", "anchors": ["fiksi/src/rand.rs:Rng", "fiksi/src/assemble/mod.rs:solve"]}
{"id": "C23", "title": "Levenberg-Marquardt never makes things worse", "statement": "The result of the Levenberg-Marquardt optimizer never has a larger sum of squared residuals than its start, it accepts at most 100 steps, each accepted step strictly decreases the sum, and it leaves already-solved inputs untouched.", "quantifier": "all problems, all starting values, all linear-solver outcomes", "why_tests_cant": "All problems and all numerical outcomes.", "anchors": ["fiksi/src/solve/lm.rs:levenberg_marquardt"]}
{"id": "C24", "title": "Solving terminates", "statement": "Solving a system always returns.", "quantifier": "every system and options", "why_tests_cant": "Termination over all inputs, including degenerate ones.", "anchors": ["fiksi/src/solve/lm.rs:levenberg_marquardt", "fiksi/src/solve/lbfgs.rs:hager_zhang::update", "fiksi/src/assemble/mod.rs:calculate_system_scale"]}
{"id": "C25", "title": "L-BFGS uses the most recent curvature pairs in order", "statement": "At iteration k the step direction is minus the inverse-Hessian approximation built from the min(k,5) most recent update pairs, oldest to newest, applied to the gradient.", "quantifier": "all iterations and all gradient/step histories", "why_tests_cant": "All histories and iteration numbers.", "anchors": ["fiksi/src/solve/lbfgs.rs:lbfgs"]}
{"id": "C26", "title": "The optimizers' gradient is the gradient of the objective", "statement": "The gradient the L-BFGS optimizer works with is the transpose-Jacobian-times-residual vector; it is half the derivative of the sum of squared residuals used in its line search.", "quantifier": "all residual functions and points", "why_tests_cant": "Limit statement over all functions.", "anchors": ["fiksi/src/solve/lbfgs.rs:compute_gradient", "fiksi/src/solve/lbfgs.rs:calculate_phi"]}
{"id": "C27", "title": "Triplet matrices convert to the same matrix", "statement": "Converting a coordinate list to sparse column form gives a well-formed matrix of the same shape whose entry (i,j) is the sum of all triplets at (i,j), with structural entries exactly where triplets exist.", "quantifier": "all triplet lists including duplicates, empty rows/columns and any order", "why_tests_cant": "All list orders and shapes.", "anchors": ["solvi/src/sparse_col_mat.rs:SparseColMat::from_triplet_mat", "solvi/src/triplet_mat.rs:TripletMat::push_triplet"]}
{"id": "C28", "title": "Transpose is the transpose", "statement": "The transpose of a well-formed sparse column matrix is well-formed, has swapped shape, and has entry (j,i) equal to the original entry (i,j) with the same structure; transposing twice gives the original.", "quantifier": "all well-formed sparse matrices", "why_tests_cant": "All matrices.", "anchors": ["solvi/src/sparse_col_mat.rs:SparseColMatStructure::transpose_with_values", "solvi/src/triplet_mat.rs:TripletMat::transpose"]}
{"id": "C29", "title": "Column permutation permutes columns", "statement": "Permuting the columns of a sparse matrix by p yields a well-formed matrix whose column k is column p[k] of the original, structure and values.", "quantifier": "all matrices and index lists", "why_tests_cant": "All matrices and permutations.", "anchors": ["solvi/src/sparse_col_mat.rs:permute_columns_with_values"]}
{"id": "C30", "title": "Format validation is exact", "statement": "Building a sparse structure from raw data succeeds exactly when the data is a well-formed sparse column structure; otherwise the error describes a real violation. Every constructor yields well-formed structures.", "quantifier": "all raw inputs", "why_tests_cant": "All malformed inputs.", "anchors": ["solvi/src/sparse_col_mat.rs:SparseColMatStructure::try_from_data", "solvi/src/sparse_col_mat.rs:SparseColMatStructure::empty", "solvi/src/sparse_col_mat.rs:SparseColMatStructure::identity"]}
{"id": "C31", "title": "Triangular solve solves the upper-triangular system", "statement": "If the upper-triangular solve reports success then the result satisfies the system formed by the upper triangle, it succeeds exactly when no diagonal entry is zero, and lower-triangular entries are ignored.", "quantifier": "all sparse matrices and right-hand sides", "why_tests_cant": "All matrices.", "anchors": ["solvi/src/sparse_col_mat.rs:solve_upper_triangular_mut"]}
{"id": "C32", "title": "Permutation sequences gather", "statement": "Building a swap sequence for a permutation p and applying it to a slice a yields p[i] -> a[p[i]] in place, using at most n swaps and leaving elements past the permutation length alone.", "quantifier": "all permutations and slices", "why_tests_cant": "All permutations of all lengths.", "anchors": ["solvi/src/permutation.rs:PermutationSequence::build_for_gather_permutation", "solvi/src/permutation.rs:PermutationSequence::permute_slice"]}
{"id": "C33", "title": "Post-order is a post-order", "statement": "For every rooted forest given by parents, the post-order lists every node exactly once, children before parents, and every subtree contiguously ending in its root.", "quantifier": "all forests", "why_tests_cant": "All forests.", "anchors": ["solvi/src/utils.rs:post_order"]}
{"id": "C34", "title": "Depth levels are distances to the root", "statement": "For every rooted forest the level of each node is its number of proper ancestors and the reported maximum is the maximum level.", "quantifier": "all forests", "why_tests_cant": "All forests.", "anchors": ["solvi/src/utils.rs:node_depth_levels"]}
{"id": "C35", "title": "Elimination tree is the elimination tree", "statement": "The computed parent of column k is the smallest later column j to which k is connected in the column graph using columns up to j only, i.e. the first off-diagonal entry of column k of the Cholesky factor; roots have none.", "quantifier": "all sparsity structures (symmetric and A^T A variant)", "why_tests_cant": "All structures; path compression hides bugs from small tests.", "anchors": ["solvi/src/decomposition/sparse/cholesky.rs:elimination_tree"]}
{"id": "C36", "title": "Householder reflections annihilate", "statement": "The reflector computed for a vector is orthogonal and maps the vector to its norm times the first unit vector; applying reflectors preserves norms.", "quantifier": "all real vectors of all lengths", "why_tests_cant": "Continuum of inputs.", "anchors": ["solvi/src/decomposition/sparse/qr.rs:calculate_householder", "solvi/src/decomposition/sparse/qr.rs:apply_householder"]}
{"id": "C37", "title": "QR solve gives the least-squares solution", "statement": "If the factorization of A followed by the solve for b reports success, the first n entries of the result minimise the Euclidean norm of A x - b; factorizing and solving never panics.", "quantifier": "all sparse matrices with at least as many rows as columns, all right-hand sides, all column orderings", "why_tests_cant": "All matrices and fill-in patterns.", "anchors": ["solvi/src/decomposition/sparse/qr.rs:Qr::factorize", "solvi/src/decomposition/sparse/qr.rs:Qr::solve_mut", "solvi/src/decomposition/sparse/cholesky.rs:CholeskyStructure::build"]}
{"id": "C38", "title": "Decomposer density test", "statement": "The cluster search of recursive assembly only returns sets of elements whose remaining degrees of freedom are below D+1 (a rigid candidate).", "quantifier": "all constraint hypergraphs", "why_tests_cant": "All graphs.", "anchors": ["fiksi/src/analyze/graph/recursive_assembly.rs:dense_bfs"]}
{"id": "C39", "title": "Column ordering accepts unsorted columns", "statement": "Ordering a matrix whose columns are unsorted or contain duplicates first normalises it to the same matrix with sorted, duplicate-free columns.", "quantifier": "all column forms", "why_tests_cant": "All inputs.", "anchors": ["colamd_rs/src/colamd.rs:init_rows_cols"]}
{"id": "C40", "title": "Recommended workspace suffices", "statement": "The recommended workspace length is at least the length the ordering requires, for all sizes, and is reported only when it does not overflow.", "quantifier": "all sizes", "why_tests_cant": "All integer inputs incl. overflow boundaries.", "anchors": ["colamd_rs/src/colamd.rs:colamd_recommended", "colamd_rs/src/colamd.rs:calculate_sizes"]}
{"id": "C41", "title": "Ordering output is a permutation", "statement": "Ordering the non-principal columns and emitting the ordering produces every column exactly once.", "quantifier": "all forests of absorbed columns", "why_tests_cant": "All absorption patterns.", "anchors": ["colamd_rs/src/colamd.rs:order_children"]}
{"id": "C42", "title": "Column ordering returns an ordering", "statement": "Ordering the columns of any well-formed sparse matrix, with a workspace of the required length, returns every column exactly once and never reads or writes outside its arrays.", "quantifier": "all sparsity patterns with fewer than 2^29 rows, columns and entries, all options", "why_tests_cant": "The search rewrites, compacts and links a shared workspace; all patterns and all stages of elimination.", "anchors": ["colamd_rs/src/colamd.rs:colamd", "colamd_rs/src/colamd.rs:find_ordering", "colamd_rs/src/colamd.rs:garbage_collection"]}
{"id": "C43", "title": "Assembly plan covers every constraint once", "statement": "The plan recursive assembly makes for a group solves every constraint of the group in exactly one step, and that step solves for all elements of the constraint.", "quantifier": "all constraint graphs and hash set iteration orders", "why_tests_cant": "All graphs, contraction sequences and iteration orders.", "anchors": ["fiksi/src/analyze/graph/recursive_assembly.rs:decompose"]}
{"id": "C44", "title": "Symmetric ordering returns a permutation for every matrix", "statement": "For every symmetric matrix given by in-range column pointers and row indices (in any order, with repetitions), `symamd` returns Ok and the first n words of the output are each of 0..n exactly once; it never reads or writes out of bounds and always returns.", "quantifier": "every n, every in-range column structure with fewer than 2^28 indices (sorted or not), every option setting, every previous content of the output slice", "why_tests_cant": "the matrix M built internally and the elimination on it depend on the whole sparsity pattern; tests exercise a handful of patterns", "anchors": ["colamd_rs/src/lib.rs: symamd", "colamd_rs/src/colamd.rs: symamd"]}
{"id": "C45", "title": "Only the strictly lower triangle matters to the symmetric ordering", "statement": "Two matrices whose columns have the same indices below the diagonal (ignoring repetitions) get the same permutation and the same statistics from `symamd`, whatever their diagonal and upper parts, and whatever the output slice held before.", "quantifier": "every pair of in-range column structures that agree below the diagonal, every option setting", "why_tests_cant": "the documentation states it for all matrices; a test compares two of them", "anchors": ["colamd_rs/src/lib.rs: symamd (documentation)", "colamd_rs/src/colamd.rs: symamd"]}
{"id": "C46", "title": "The reported status tells whether the columns were sorted", "statement": "Whenever `colamd` returns Ok, its statistics have status Ok exactly when every column's row indices are strictly increasing, and OkButJumbled otherwise; likewise for `symamd`.", "quantifier": "every input on which an ordering is returned, every option setting", "why_tests_cant": "the notice must be raised by any one out-of-order or repeated index anywhere", "anchors": ["colamd_rs/src/status.rs: Status, stats_to_result", "colamd_rs/src/colamd.rs: init_rows_cols, symamd"]}
{"id": "C47", "title": "Malformed matrices are refused with the first fault, well-formed ones are not", "statement": "`colamd` returns an error exactly when the start pointer is not zero, the workspace is too short, a column has negative length, or a row index is out of range, and the error names the first such fault with its column, index and sizes; other inputs are not refused, and malformed input never crashes.", "quantifier": "every number of rows and columns, every list of pointers of the right length, every row indices, every options", "why_tests_cant": "the validation must hold for all malformed inputs, wherever the fault is; the code reads raw pointers, so a missed check is memory unsafety", "anchors": ["colamd_rs/src/colamd.rs: colamd, init_rows_cols, symamd", "colamd_rs/src/status.rs: Error, stats_to_result"]}
{"id": "C48", "title": "Handles are consistent keys of ordered and hashed collections", "statement": "Equality, comparison and hashing of element and constraint handles agree with each other (handles are equal exactly when they compare as equal and exactly when they feed a hasher the same words), comparison is a total order, and among the handles a process obtains (at most 2^32 systems) the order is creation order: systems in the order they were created, then elements (constraints) in the order they were created.", "quantifier": "every pair or triple of handles, and every history of system, element and constraint creation", "why_tests_cant": "Consistency of equality, order and hash and agreement with creation order are statements about all pairs over unbounded interleaved histories.", "anchors": ["fiksi/src/elements/mod.rs:ElementHandle", "fiksi/src/elements/mod.rs:AnyElementHandle", "fiksi/src/constraints/mod.rs:ConstraintHandle", "fiksi/src/constraints/mod.rs:AnyConstraintHandle"]}
{"id": "C49", "title": "The same calls give the same numbers", "statement": "Running the same sequence of calls twice gives bit-for-bit the same results, whichever order the process's randomly seeded hash sets iterate in.", "quantifier": "every sequence of calls and every pair of hash iteration orders", "why_tests_cant": "A test run sees one hash seed per process and a handful of inputs; reproducibility ranges over all seeds and all call sequences.", "anchors": ["fiksi/src/collections.rs", "fiksi/src/assemble/mod.rs:solve", "fiksi/src/analyze/graph/equations.rs:find_strongly_connected_expressions", "fiksi/src/analyze/graph/recursive_assembly.rs:decompose"]}
{"id": "C50", "title": "A solved sketch satisfies every constraint", "statement": "After solving without a decomposer, if the optimizer solved each problem it was given (sum of squared residuals at most eps^2), every constraint the client created has a residual of at most eps times the scale of the sketch to the power of the residual's dimension (0 for angles, 1 for lengths, 2 for products of lengths); in particular with eps = 0 every constraint holds exactly.", "quantifier": "every history of calls, every optimizer, every tolerance, with and without perturbation", "why_tests_cant": "That compiling, grouping, scaling and writing back lose no constraint must hold for every sketch; a test checks a few sketches whose constraints happen to be grouped correctly.", "anchors": ["fiksi/src/assemble/mod.rs:solve", "fiksi/src/lib.rs:System::solve", "fiksi/src/lib.rs:System::add_constraint", "fiksi/src/constraints/mod.rs:ConstraintHandle::calculate_residual"]}
{"id": "C51", "title": "Solving a solved sketch changes nothing", "statement": "If the sum of squared relative residuals of all constraints is below 1e-8, solving leaves every element's value and every constraint's residual as they are.", "quantifier": "every history of calls and every such sketch", "why_tests_cant": "Idempotence over all sketches; rounding and the perturbation only show for some coordinates.", "anchors": ["fiksi/src/assemble/mod.rs:solve", "fiksi/src/solve/lm.rs:levenberg_marquardt"]}
{"id": "C52", "title": "Solving does not make a sketch worse", "statement": "Without perturbation, whatever the decomposer, the sum of squared relative residuals over all constraints after solving is at most what it was before, if the optimizer does not make any problem it is given worse; Levenberg-Marquardt does not.", "quantifier": "every history of calls, every such optimizer", "why_tests_cant": "Concerns every sketch, including those for which no solution exists.", "anchors": ["fiksi/src/assemble/mod.rs:solve", "fiksi/src/solve/lm.rs:levenberg_marquardt", "fiksi/src/graph.rs:merge"]}
{"id": "C53", "title": "The QR factors multiply back to the matrix", "statement": "For a structure in which every column has an entry in a row of its own (and fewer than 2^29 rows, columns and entries if COLAMD orders it), one symbolic factorization serves every matrix A of that structure: factorizing never panics; R is a well-formed square upper triangular matrix with a diagonal that is not negative; R^T R is A^T A in the chosen column order, which is the given order if that was asked for; applying Q^T to a vector keeps its norm; and R^T Q^T b is A^T b in the chosen order.", "quantifier": "every structure, both orderings, every sequence of values and right-hand sides, in exact arithmetic", "why_tests_cant": "Concerns every sparsity pattern and every choice of values, including values that cancel or are zero.", "anchors": ["solvi/src/decomposition/sparse/qr.rs:SymbolicQr::build", "solvi/src/decomposition/sparse/qr.rs:factorize", "solvi/src/decomposition/sparse/qr.rs:q_tr_mul", "solvi/src/decomposition/sparse/qr.rs:r"]}
{"id": "C54", "title": "Levenberg-Marquardt is the textbook's", "statement": "In exact arithmetic the Levenberg-Marquardt optimizer returns the last point of the unique textbook run: each step minimises |r + J d|^2 + lambda |d|^2 (the damped normal equations) for the current residuals r and Jacobian J, with duplicates added; lambda starts at 1/2, doubles until a step is short (|d|^2 < 1e-12) or lowers the sum of squares, and is then divided by 8 but not below 1e-50; the run ends when the sum of squares is below 1e-8, the step is short, the relative decrease is at most 1e-6, or after 100 rounds. Steps go downhill, and from a stationary point the optimizer does not move.", "quantifier": "every problem that can be evaluated everywhere and is that of a sketch of at most 2^24 elements and constraints, every starting point, every sort", "why_tests_cant": "The step is computed by a sparse factorization of a stacked matrix built from triplets; that it is the textbook step for every sketch and every sparsity pattern is a statement about all inputs.", "anchors": ["fiksi/src/solve/lm.rs:levenberg_marquardt", "solvi/src/decomposition/sparse/qr.rs:SymbolicQr::build", "solvi/src/decomposition/sparse/qr.rs:Qr::solve_mut"]}
{"id": "C55", "title": "Recursive assembly asks only for what can be had", "statement": "If the constraints of a sketch can all be satisfied by moving its free points, then each problem that solving with the recursive-assembly decomposer hands to the optimizer has a solution, so that an optimizer that solves every solvable problem leads to a satisfied sketch.", "quantifier": "every sketch (history of calls) whose constraints can be satisfied together, every optimizer, every iteration order of hash sets", "why_tests_cant": "whether a problem has a solution at all is a statement about every point of the search space, and a test that ends with a residual cannot tell an unsolvable problem from an optimizer that got stuck", "anchors": ["fiksi/src/analyze/graph/recursive_assembly.rs: decompose, dense_bfs", "fiksi/src/assemble/mod.rs: solve (RecursiveAssembly), ClusteredSystem::build"]}
{"id": "C56", "title": "L-BFGS goes downhill", "statement": "Solving with the L-BFGS optimizer never makes the sum of squared residuals larger: each of its rounds moves forward along a direction in which the sum of squares decreases, by a step that satisfies the (approximate) Wolfe conditions.", "quantifier": "every problem, starting point and round of a run", "why_tests_cant": "Whether the direction goes downhill depends on the curvature seen in all earlier rounds, and whether a step is acceptable on the shape of the objective; tests see a few well-behaved objectives.", "anchors": ["fiksi/src/solve/lbfgs.rs: lbfgs, hager_zhang::line_search, secant, satisfies_wolfe"]}
{"id": "C57", "title": "Perturbation gets the solver off singular starting positions", "statement": "With perturbation on, as by default, a sketch whose starting position is singular, such as three collinear points with pairwise distance constraints, is not left there by either optimizer if its constraints can be satisfied.", "quantifier": "every sketch with a singular starting position, both optimizers", "why_tests_cant": "Tests try a few singular starts with the default optimizer; whether a perturbed start leads away from the singular position depends on optimizer and sketch.", "anchors": ["fiksi/src/lib.rs: SolvingOptions::perturb", "fiksi/src/assemble/mod.rs: solve", "fiksi/src/solve/lbfgs.rs: hager_zhang"]}
{"id": "C58", "title": "A picture shows every visible element once, as it is", "statement": "Rendering a sketch to SVG succeeds and shows exactly the elements that are not hidden (lengths have no picture): each once, at the position and size the API reports, in the colour last set for it, points above lines and circles, otherwise in order of creation, under an id no other shape of the picture has. Requests about elements of other sketches have no effect. A viewbox given by the caller is used as given.", "quantifier": "every sketch history, every sequence of colour and hide requests, every viewbox and stroke width", "why_tests_cant": "The tests compare a handful of pictures with snapshots; omissions, duplicates, stale colours or mixed-up sketches depend on the combination of elements and requests.", "anchors": ["fiksi_svg/src/lib.rs: SystemRenderer::render_system, set_element_color, hide_element", "fiksi/src/elements/mod.rs: AnyElementHandle"]}
{"id": "C59", "title": "The automatic frame encloses the drawing", "statement": "When no viewbox is given, the frame of the picture encloses everything that is drawn, with a margin, and has positive width and height.", "quantifier": "every sketch history and every sequence of requests", "why_tests_cant": "The snapshots have a few ordinary drawings; nothing visible, a single point, or a circle reaching beyond all points are combinations outside them.", "anchors": ["fiksi_svg/src/lib.rs: SystemRenderer::render_system"]}
{"id": "C60", "title": "The unit of length does not matter", "statement": "Making the same sketch in another unit of length, that is with every length, coordinate and distance multiplied by the same positive number and every angle as it is, makes no difference: every call returns the same up to the unit (values are multiplied by that number, residuals by the power of it that fits an angle, a length or an area), solving with any options included, and the same constraints are reported as over-constraining.", "quantifier": "every history of calls, every positive factor, all solving options", "why_tests_cant": "Tests use sketches a few units wide; an absolute threshold anywhere in scaling, optimizers or analysis only shows for sketches of other magnitudes.", "anchors": ["fiksi/src/assemble/mod.rs: solve, calculate_system_scale", "fiksi/src/analyze/numerical/mod.rs: find_overconstraints", "fiksi/src/constraints/expressions.rs: Expression::transform"]}
{"id": "C61", "title": "The optimizer option chooses the optimizer", "statement": "Solving runs the optimizer named in the options and no other: what any sequence of calls returns does not depend on an optimizer that none of its solves asks for, and the numerical work of every solve is done by the one it asks for, with every decomposer.", "quantifier": "every sequence of calls, every state, both optimizers, all decomposers, all orders of hash sets", "why_tests_cant": "Both optimizers solve ordinary sketches, so a test that a sketch gets solved passes whichever of them ran; that no component or group of any sketch goes to the other one cannot be seen from examples.", "anchors": ["fiksi/src/lib.rs: SolvingOptions", "fiksi/src/assemble/mod.rs: solve"]}
