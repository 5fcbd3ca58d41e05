{"id": "C01", "title": "Integer gcd and lcm", "statement": "gcd(a,b) is the non-negative greatest common divisor of a and b (with gcd(0,b)=|b|) and lcm(a,b) is a common multiple that divides every common multiple, whenever the product of the arguments fits 64 bits. (With 64-bit wrap-around of a*b the claim is false.)", "quantifier": "all integers a, b", "why_tests_cant": "All pairs of 64-bit values cannot be enumerated; the failing pairs (product a multiple of 2^64) are never hit by random tests.", "anchors": ["lib/math_support.c:gcd", "lib/math_support.c:lcm"]}
{"id": "C02", "title": "Simplification keeps the set", "statement": "Simplifying a constraint system (gcd normalisation, sorting, duplicate removal) leaves exactly the same set of integer and rational points, never increases the number of constraints, and is idempotent.", "quantifier": "all constraint systems, all points", "why_tests_cant": "The set of inputs is infinite and the claim is universal; a test exercises finitely many systems of small size.", "anchors": ["lib/constraints.c:pluto_constraints_simplify"]}
{"id": "C03", "title": "Fourier-Motzkin elimination is the projection", "statement": "After eliminating variable pos from a system, a rational point satisfies the result iff it can be extended by a rational value at position pos to a point of the original system; every integer point of the original is kept.", "quantifier": "all systems of equalities/inequalities, all positions, all points", "why_tests_cant": "The set of inputs is infinite and the claim is universal; a test exercises finitely many systems of small size.", "anchors": ["lib/constraints.c:fourier_motzkin_eliminate"]}
{"id": "C04", "title": "Smart elimination (Gaussian or Fourier-Motzkin) is the projection", "statement": "The elimination that uses an equality when one involves the variable and Fourier-Motzkin otherwise also computes exactly the rational projection.", "quantifier": "all systems, all positions, all points", "why_tests_cant": "The set of inputs is infinite and the claim is universal; a test exercises finitely many systems of small size.", "anchors": ["lib/constraints.c:fourier_motzkin_eliminate_smart", "lib/constraints.c:pluto_constraints_gaussian_eliminate"]}
{"id": "C05", "title": "Equalities turned into inequalities", "statement": "Replacing all equalities e_i=0 by e_i>=0 and one inequality -(sum e_i)>=0 describes the same set of points.", "quantifier": "all systems, all points", "why_tests_cant": "The set of inputs is infinite and the claim is universal; a test exercises finitely many systems of small size.", "anchors": ["lib/constraints.c:pluto_constraints_to_pure_inequalities_single"]}
{"id": "C06", "title": "Farkas linearisation is sound", "statement": "If a coefficient vector c satisfies the system returned by farkas_lemma_affine(dom, phi) then the affine form with coefficients phi(c) is non-negative at every (rational, hence integer) point of dom.", "quantifier": "all domains, all phi matrices, all c, all points of dom", "why_tests_cant": "The set of inputs is infinite and the claim is universal; a test exercises finitely many systems of small size.", "anchors": ["lib/constraints.c:farkas_lemma_affine", "lib/constraints.c:pluto_constraints_best_elim_candidate"]}
{"id": "C07", "title": "Farkas linearisation is complete", "statement": "If dom is non-empty and the affine form with coefficients phi(c) is non-negative on all rational points of dom, then c satisfies the returned system: no valid hyperplane is lost.", "quantifier": "all non-empty domains, all phi matrices, all c", "why_tests_cant": "The set of inputs is infinite and the claim is universal; a test exercises finitely many systems of small size.", "anchors": ["lib/constraints.c:farkas_lemma_affine"]}
{"id": "C08", "title": "Permutability constraints are sound", "statement": "Every solution of the constraint system given to the ILP solver yields, for each statement, a hyperplane h such that h(target)-h(source) >= 0 for every instance of every dependence that is not yet satisfied.", "quantifier": "all programs (statements, dependences, parameters), all ILP solutions, all dependence instances and parameter values", "why_tests_cant": "Dependences have unboundedly many instances (parametric domains).", "anchors": ["lib/framework.cpp:compute_permutability_constraints_dep", "lib/framework.cpp:get_permutability_constraints"]}
{"id": "C09", "title": "Bounding function bounds every reuse distance", "statement": "In any solution the part (u,w) satisfies h(target)-h(source) <= u.p + w for every instance of every unsatisfied dependence (dependence distance is bounded by the cost being minimised).", "quantifier": "all programs, all solutions, all instances, all parameter values", "why_tests_cant": "Unbounded parametric domains.", "anchors": ["lib/framework.cpp:compute_permutability_constraints_dep"]}
{"id": "C10", "title": "Permutability constraints are complete", "statement": "Any integer coefficient vector that is weakly order-preserving and bounded on the rational points of each non-empty dependence polyhedron satisfies the generated system.", "quantifier": "all programs, all coefficient vectors", "why_tests_cant": "Quantifies over all hyperplanes and all points.", "anchors": ["lib/framework.cpp:compute_permutability_constraints_dep"]}
{"id": "C11", "title": "Feautrier (strong satisfaction) constraints", "statement": "Every solution of the Feautrier schedule constraints gives hyperplanes with h(target)-h(source) >= 1 for every instance of the dependence, and all such hyperplanes are solutions.", "quantifier": "all programs, all solutions, all instances", "why_tests_cant": "Unbounded parametric domains.", "anchors": ["lib/framework.cpp:get_feautrier_schedule_constraints_dep"]}
{"id": "C12", "title": "Dependence satisfaction test", "statement": "The test reports a dependence satisfied at a level iff h(target) > h(source) for every instance of the dependence.", "quantifier": "all dependences, all hyperplanes, given an exact emptiness oracle", "why_tests_cant": "Instance sets are infinite/parametric.", "anchors": ["lib/framework.cpp:dep_satisfaction_test"]}
{"id": "C13", "title": "Dependence direction classification", "statement": "get_dep_direction reports ZERO iff the distance along the level is 0 for all instances, otherwise PLUS iff it is >=0 for all, otherwise MINUS iff it is <=0 for all, otherwise STAR.", "quantifier": "all dependences, all levels, all instances, given an exact emptiness oracle", "why_tests_cant": "Instance sets are infinite/parametric.", "anchors": ["lib/framework.cpp:get_dep_direction"]}
{"id": "C14", "title": "Satisfaction bookkeeping", "statement": "Satisfaction levels are monotone: a dependence marked satisfied never becomes unsatisfied as hyperplanes are added, its level is the first level that strongly satisfies it, and the satisfaction count returned equals the number of newly satisfied dependences; recomputing levels from scratch gives the same answer.", "quantifier": "all programs, all sequences of added hyperplanes", "why_tests_cant": "Quantifies over histories of the driver.", "anchors": ["lib/pluto.c:dep_satisfaction_update", "lib/pluto.c:pluto_compute_dep_satisfaction"]}
{"id": "C15", "title": "The transformation found is legal", "statement": "Whenever the automatic transformation driver ends with all dependences satisfied, for every dependence and every instance (s,t) the schedule of the source is lexicographically before the schedule of the target; this holds for every answer the ILP solver may give and every fusion/cut decision.", "quantifier": "all programs, all runs of the driver, all ILP answers, all dependence instances", "why_tests_cant": "Quantifies over all schedules the search can produce and all instances.", "anchors": ["lib/pluto.c:pluto_auto_transform", "lib/pluto.c:find_permutable_hyperplanes", "lib/pluto.c:cut_all_sccs", "lib/pluto.c:cut_smart"]}
{"id": "C16", "title": "Distribution (SCC cuts) only satisfies, never violates", "statement": "A scalar hyperplane added by cutting between SCCs gives every unsatisfied dependence a distance >=0, and satisfies exactly those crossing the cut.", "quantifier": "all dependence graphs, all cut heuristics", "why_tests_cant": "All graphs, all cut points.", "anchors": ["lib/pluto.c:cut_all_sccs", "lib/pluto.c:cut_between_sccs", "lib/pluto.c:cut_scc_dim_based"]}
{"id": "C17", "title": "SCC computation is exact", "statement": "Two statements get the same SCC id iff each is reachable from the other in the dependence graph.", "quantifier": "all directed graphs", "why_tests_cant": "All graphs of all sizes.", "anchors": ["lib/ddg.c:dfs", "lib/ddg.c:dfs_for_scc", "lib/ddg.c:graph_transpose", "lib/pluto.c:ddg_compute_scc"]}
{"id": "C18", "title": "SCC ids are a topological order", "statement": "Along every dependence edge the SCC id does not decrease.", "quantifier": "all directed graphs", "why_tests_cant": "All graphs of all sizes.", "anchors": ["lib/ddg.c:dfs_for_scc", "lib/pluto.c:ddg_compute_scc"]}
{"id": "C19", "title": "Connected components", "statement": "Two statements get the same connected-component id iff they are connected in the undirected dependence graph.", "quantifier": "all graphs", "why_tests_cant": "All graphs of all sizes.", "anchors": ["lib/pluto.c:ddg_compute_cc", "lib/ddg.c:get_undirected_graph", "lib/ddg.c:dfs_vertex"]}
{"id": "C20", "title": "Transitive closure", "statement": "compute_transitive_closure marks (i,j) adjacent iff there is a path from i to j.", "quantifier": "all graphs", "why_tests_cant": "All graphs of all sizes.", "anchors": ["lib/ddg.c:compute_transitive_closure"]}
{"id": "C21", "title": "Linear independence of the next hyperplane", "statement": "Any solution meeting one statement's linear-independence constraints gives a hyperplane whose iterator part is not a linear combination of the hyperplanes found so far for that statement.", "quantifier": "all transformation matrices, all solutions", "why_tests_cant": "Quantifies over all matrices and all solutions.", "anchors": ["lib/framework.cpp:get_stmt_lin_ind_constraints"]}
{"id": "C22", "title": "Non-trivial solutions only", "statement": "The non-trivial-solution constraints exclude exactly the zero hyperplane among non-negative coefficient vectors for each statement that still needs hyperplanes.", "quantifier": "all programs, all coefficient vectors", "why_tests_cant": "All programs/solutions.", "anchors": ["lib/framework.cpp:get_non_trivial_sol_constraints"]}
{"id": "C23", "title": "Coefficient bounds", "statement": "Coefficient bounding constraints hold of a vector iff each bounded coefficient lies in its interval and no other coefficient is constrained.", "quantifier": "all programs, all coefficient vectors", "why_tests_cant": "All programs/solutions.", "anchors": ["lib/framework.cpp:get_coeff_bounding_constraints"]}
{"id": "C24", "title": "Tiling partitions the iteration space", "statement": "After tiling a band, projecting away the new tile dimensions gives exactly the original domain, and each iteration lies in exactly one tile whose coordinates are floor(h_k(i)/T_k).", "quantifier": "all statements, bands, positive tile sizes, iterations", "why_tests_cant": "Unbounded iteration spaces and tile sizes.", "anchors": ["lib/tile.c:pluto_tile_band", "lib/program.cpp:pluto_stmt_add_dim"]}
{"id": "C25", "title": "Tiling keeps the order of dependent iterations", "statement": "If a band is permutable (every dependence not satisfied outside has non-negative distance on every loop of the band), then in the tiled schedule every dependent pair that was ordered before is still ordered lexicographically.", "quantifier": "all bands, tile sizes, dependences, instances", "why_tests_cant": "Unbounded instances and tile sizes.", "anchors": ["lib/tile.c:pluto_tile_band"]}
{"id": "C26", "title": "Wavefront tile schedule", "statement": "Replacing the first tile loop of a band by the sum of the first loops preserves the lexicographic order of dependent tiles, and each dependence carried by the summed tile loops is then carried by the outermost one, so the inner summed loops are parallel.", "quantifier": "all bands, all numbers of wavefronted dimensions, all dependence instances", "why_tests_cant": "Unbounded instances.", "anchors": ["lib/tile.c:create_tile_schedule_band"]}
{"id": "C27", "title": "Diamond-tiling reschedule", "statement": "Swapping the evicted hyperplane back for the point loops is an involution and leaves the set of hyperplanes of the statement unchanged apart from order. After tiling (one or two levels), the rescheduled point loops run the iterations of every tile in the order of the original schedule, and all dependences stay respected.", "quantifier": "all statements, positions", "why_tests_cant": "All matrices.", "anchors": ["lib/tile.c:diamond_tile_reschedule"]}
{"id": "C28", "title": "Loop interchange / make innermost", "statement": "Interchanging two levels or moving a loop innermost permutes the schedule rows of exactly the affected statements; if all swapped levels belong to a permutable band, dependent pairs stay ordered.", "quantifier": "all schedules, levels, statements", "why_tests_cant": "All schedules.", "anchors": ["lib/transforms.c:pluto_stmt_loop_interchange", "lib/transforms.c:pluto_interchange", "lib/transforms.c:pluto_make_innermost_loop"]}
{"id": "C29", "title": "Loops reported parallel are parallel", "statement": "If a loop is reported parallel then no two iterations of that loop (with equal outer coordinates) executed by its statements are related by a (non input) dependence.", "quantifier": "all programs, loops, dependence instances", "why_tests_cant": "Missing one dependence instance is a data race that a test may never observe.", "anchors": ["lib/polyloop.c:pluto_loop_is_parallel"]}
{"id": "C30", "title": "Permutable bands reported are permutable", "statement": "If a band of loops with no scalar dimension inside is reported permutable then every reordering of its loops keeps every dependent pair ordered; with inner scalar dimensions tiling the band keeps the order.", "quantifier": "all programs, bands, permutations, instances", "why_tests_cant": "All permutations and all instances.", "anchors": ["lib/polyloop.c:pluto_get_permutable_band"]}
{"id": "C31", "title": "Exported schedule", "statement": "The schedule constraints exported for a statement relate an iteration to a time vector iff every time coordinate equals the corresponding row of the transformation at this iteration.", "quantifier": "all statements, iterations, time vectors, parameters", "why_tests_cant": "All points.", "anchors": ["lib/pluto.c:pluto_stmt_get_schedule"]}
{"id": "C32", "title": "Tile dimensions moved from domain to schedule (libpluto)", "statement": "Normalising the domain and schedule for output keeps the relation between original iterations and time vectors and restores the un-tiled domain.", "quantifier": "all tiled statements, iterations, time vectors", "why_tests_cant": "All points.", "anchors": ["lib/plutolib.c:normalize_domain_schedule"]}
{"id": "C33", "title": "Remapping inverts the transformation", "statement": "For a full-rank statement transformation the remapping matrix and divisors satisfy div_r * i_r = remap_r . (t,p,1) for every iteration i and its time vector t.", "quantifier": "all full-column-rank transformations, all iterations", "why_tests_cant": "All matrices and all points.", "anchors": ["lib/program.cpp:pluto_stmt_get_remapping"]}
{"id": "C34", "title": "Access functions in transformed space", "statement": "The rewritten access function, evaluated at the transformed point, gives divs times the original access at the original point.", "quantifier": "all access functions, transformations, iterations", "why_tests_cant": "All matrices and all points.", "anchors": ["lib/program.cpp:pluto_get_new_access_func"]}
{"id": "C35", "title": "Adding a dimension to a statement", "statement": "Adding a domain dimension to a statement keeps its iterations (new coordinate free), its schedule rows on the old dimensions, its accesses, and for each dependence touching it exactly the same instances with the new coordinate free; programs stay well formed (all column counts agree).", "quantifier": "all programs, statements, positions, points", "why_tests_cant": "All programs/positions.", "anchors": ["lib/program.cpp:pluto_stmt_add_dim"]}
{"id": "C36", "title": "Removing a dimension from a statement", "statement": "Removing a dimension that was just added restores the statement and every dependence of the program.", "quantifier": "all programs, statements, positions", "why_tests_cant": "All programs/positions.", "anchors": ["lib/program.cpp:pluto_stmt_remove_dim"]}
{"id": "C37", "title": "Adding a parameter", "statement": "Adding a program parameter keeps every statement's iterations, schedules and accesses and every dependence polyhedron and its bounding polyhedron for all values of the old parameters, independent of the new one.", "quantifier": "all programs, positions, points", "why_tests_cant": "All programs/positions.", "anchors": ["lib/program.cpp:pluto_prog_add_param"]}
{"id": "C38", "title": "Removing a statement", "statement": "Removing a statement leaves exactly the other statements, in order, with consecutive ids, and each remaining dependence still connects the same two statements.", "quantifier": "all programs, statements, dependences", "why_tests_cant": "All programs.", "anchors": ["lib/program.cpp:pluto_remove_stmt", "lib/program.cpp:decrement_stmt_id"]}
{"id": "C39", "title": "Index-set splitting partitions the domain", "statement": "The split domains are pairwise disjoint and their union is the original domain.", "quantifier": "all domains, all lists of cut hyperplanes, all iterations", "why_tests_cant": "All points.", "anchors": ["lib/iss.c:pluto_iss", "lib/constraints.c:pluto_hyperplane_get_non_negative_half_space", "lib/constraints.c:pluto_hyperplane_get_negative_half_space"]}
{"id": "C40", "title": "Dependences after index-set splitting", "statement": "After index-set splitting every dependent pair is an instance of exactly one of the new dependences, between the pieces that contain its source and target.", "quantifier": "all programs, dependences, instances", "why_tests_cant": "All instances.", "anchors": ["lib/iss.c:pluto_update_deps_after_iss"]}
{"id": "C41", "title": "Editing constraint systems", "statement": "Adding rows, bounds or fixed values, adding/removing a dimension, selecting rows and concatenating systems have the evident effect on the set of points (e.g. add_lb(v,l) intersects with x_v >= l, adding a dimension then removing it restores the system).", "quantifier": "all systems, positions, values, points", "why_tests_cant": "The set of inputs is infinite and the claim is universal; a test exercises finitely many systems of small size.", "anchors": ["lib/constraints.c:pluto_constraints_add_dim", "lib/constraints.c:pluto_constraints_remove_dim", "lib/constraints.c:pluto_constraints_add_lb", "lib/constraints.c:pluto_constraints_add_ub", "lib/constraints.c:pluto_constraints_set_var", "lib/constraints.c:pluto_constraints_add"]}
{"id": "C42", "title": "Matrix editing", "statement": "Insertion/removal of rows and columns, interchanges, moves, reversal and negation of matrices have the evident effect entrywise and the inverse operations cancel (for entries that fit the types used).", "quantifier": "all matrices, positions", "why_tests_cant": "All matrices.", "anchors": ["lib/math_support.c:pluto_matrix_add_col", "lib/math_support.c:pluto_matrix_remove_col", "lib/math_support.c:pluto_matrix_interchange_cols", "lib/math_support.c:pluto_matrix_move_col", "lib/math_support.c:pluto_matrix_reverse_rows"]}
{"id": "C43", "title": "Matrix product", "statement": "pluto_matrix_product composes linear maps: (A*B)v = A(Bv) for all vectors v, is associative, and identity is neutral.", "quantifier": "all matrices of matching size, all vectors", "why_tests_cant": "All matrices.", "anchors": ["lib/math_support.c:pluto_matrix_product", "lib/math_support.c:pluto_matrix_identity"]}
{"id": "C44", "title": "Matrix rank", "statement": "pluto_matrix_get_rank returns the rank (size of a maximal independent set of rows).", "quantifier": "all matrices", "why_tests_cant": "All matrices.", "anchors": ["lib/math_support.c:pluto_matrix_to_row_echelon", "lib/math_support.c:pluto_matrix_get_rank"]}
{"id": "C45", "title": "Gaussian elimination on equality matrices", "statement": "Eliminating a variable from a matrix read as equalities gives exactly the projection of the solution space.", "quantifier": "all matrices, positions, rational vectors", "why_tests_cant": "All matrices.", "anchors": ["lib/math_support.c:gaussian_eliminate_var", "lib/math_support.c:gaussian_eliminate"]}
{"id": "C46", "title": "Constraint lists denote unions", "statement": "For a list of constraint systems (union of polyhedra) appending, emptiness, adding a constraint to each and copying denote union, emptiness of the union, intersection with the constraint and the same set; a statement domain assembled piece by piece is the union of all the pieces.", "quantifier": "all lists, all points", "why_tests_cant": "All points.", "anchors": ["lib/constraints.c:pluto_constraints_unionize_simple", "lib/constraints.c:pluto_constraints_add_to_each", "lib/constraints.c:pluto_constraints_copy", "lib/plutolib.c:extract_basic_set"]}
{"id": "C47", "title": "Half-spaces of a hyperplane", "statement": "The non-negative and the negative half space of an integer hyperplane are disjoint and cover all integer points.", "quantifier": "all hyperplanes, all integer points", "why_tests_cant": "The set of inputs is infinite and the claim is universal; a test exercises finitely many systems of small size.", "anchors": ["lib/constraints.c:pluto_hyperplane_get_non_negative_half_space", "lib/constraints.c:pluto_hyperplane_get_negative_half_space"]}
{"id": "C48", "title": "Negating a constraint", "statement": "pluto_constraints_negate_constraint turns an inequality into its integer complement.", "quantifier": "all constraints, all integer points", "why_tests_cant": "The set of inputs is infinite and the claim is universal; a test exercises finitely many systems of small size.", "anchors": ["lib/constraints.c:pluto_constraints_negate_constraint", "lib/constraints.c:check_redundancy"]}
{"id": "C49", "title": "Constant bounds of a variable", "statement": "When get_const_lb/get_const_ub report a constant bound, it is a bound on the variable valid for all points of the set.", "quantifier": "all sets, all points", "why_tests_cant": "The set of inputs is infinite and the claim is universal; a test exercises finitely many systems of small size.", "anchors": ["lib/constraints.c:pluto_constraints_get_const_lb", "lib/constraints.c:pluto_constraints_get_const_ub"]}
{"id": "C50", "title": "Polylib matrix round trip", "statement": "Converting a system to a polylib style matrix and back (and printing then reading it) restores the system.", "quantifier": "all systems", "why_tests_cant": "The set of inputs is infinite and the claim is universal; a test exercises finitely many systems of small size.", "anchors": ["lib/constraints.c:pluto_constraints_to_matrix", "lib/constraints.c:pluto_constraints_from_matrix", "lib/constraints.c:pluto_constraints_to_pip_matrix"]}
{"id": "C51", "title": "Strip-mining", "statement": "Strip-mining a schedule dimension by a factor puts each iteration in exactly one strip of that size and accesses no memory out of the constraint matrix.", "quantifier": "all statements, dimensions, factors", "why_tests_cant": "All points.", "anchors": ["lib/transforms.c:pluto_stripmine"]}
{"id": "C52", "title": "Sinking a statement", "statement": "Sinking a statement to a new depth with value v adds one domain coordinate fixed to v and changes no other coordinate or dependence.", "quantifier": "all programs, statements, depths, values", "why_tests_cant": "All programs.", "anchors": ["lib/transforms.c:pluto_sink_statement"]}
{"id": "C53", "title": "Padding and separating schedules", "statement": "Padding transformations with zero rows to equal length keeps the relative order of all pairs of iterations; inserting a distinguishing scalar row to separate statements orders them as requested.", "quantifier": "all programs, iterations", "why_tests_cant": "All programs.", "anchors": ["lib/program.cpp:pluto_pad_stmt_transformations", "lib/program.cpp:pluto_separate_stmts", "lib/program.cpp:pluto_prog_add_hyperplane"]}
{"id": "C54", "title": "Redundant columns before the ILP", "statement": "Dropping the all-zero columns and permuting columns before the ILP call and mapping the solution back yields a solution of the original constraints.", "quantifier": "all constraint systems, all solver answers", "why_tests_cant": "All systems and answers.", "anchors": ["lib/pluto.c:pluto_prog_constraints_lexmin"]}
{"id": "C55", "title": "Dominated parallel loops and bands", "statement": "The set of dominating loops/bands contains no two loops one of which encloses the other and each given loop is dominated by (or equal to) a returned one.", "quantifier": "all loop lists", "why_tests_cant": "All lists.", "anchors": ["lib/polyloop.c:pluto_get_dom_parallel_loops", "lib/polyloop.c:is_loop_dominated", "lib/polyloop.c:pluto_get_dominator_bands"]}
{"id": "C56", "title": "Tile sizes rounded to unroll factors", "statement": "Rounding a tile size to the nearest multiple of the unroll-jam factor yields a positive multiple at minimum distance.", "quantifier": "all tile sizes and factors", "why_tests_cant": "All values.", "anchors": ["lib/tile_size_selection_model.cpp:approximate_to_nearest_multiple"]}
{"id": "C57", "title": "Shifting a dimension", "statement": "Shifting dimension pos of a set by an affine function f of the other dimensions yields exactly the points whose coordinate pos is moved by f.", "quantifier": "all sets, functions, points", "why_tests_cant": "The set of inputs is infinite and the claim is universal; a test exercises finitely many systems of small size.", "anchors": ["lib/constraints.c:pluto_constraints_shift_dim"]}
{"id": "C58", "title": "Row normalisation", "statement": "Normalising a row by its gcd leaves a primitive row describing the same constraint.", "quantifier": "all rows", "why_tests_cant": "The set of inputs is infinite and the claim is universal; a test exercises finitely many systems of small size.", "anchors": ["lib/constraints.c:pluto_constraints_normalize_row", "lib/math_support.c:pluto_matrix_normalize_row"]}
{"id": "C59", "title": "Full rank means one-to-one schedules", "statement": "The test that all transformations have full rank answers yes iff, for every statement, any two different iterations run at different times; a statement is reported as needing more hyperplanes iff two of its iterations share a time.", "quantifier": "all programs, all schedules, all pairs of iterations, all parameter values", "why_tests_cant": "Quantifies over all pairs of iterations of unbounded domains.", "anchors": ["lib/pluto.c:pluto_transformations_full_ranked", "lib/framework.cpp:pluto_stmt_get_num_ind_hyps"]}
{"id": "C60", "title": "Loops of the transformed program", "statement": "The loops reported for a schedule partition the loop levels of the statements: every level at which a statement iterates belongs to exactly one reported loop, reported loops contain nothing else, and (when fused statements iterate at the same levels) a loop contains exactly the statements that no outer constant level separates.", "quantifier": "all programs, schedules, statements, levels", "why_tests_cant": "All schedules of all programs.", "anchors": ["lib/polyloop.c:pluto_get_all_loops", "lib/polyloop.c:pluto_get_loops_under", "lib/polyloop.c:pluto_get_loops_immediately_inner"]}
{"id": "C61", "title": "Index-set cuts near the mid-points of long dependences", "statement": "A hyperplane found for index-set splitting passes near the middle of every dependence it is made for: its values at the source and at the target of each dependent pair cancel up to five, for every size; its iterator coefficients are non-negative and not all zero. If no hyperplane is found, there is none with non-negative iterator coefficients and non-positive parameter and constant coefficients that does so on all rational points.", "quantifier": "all lists of dependences, all dependent pairs, all parameter values", "why_tests_cant": "All sizes and all dependent pairs of unbounded sets.", "anchors": ["lib/iss.c:pluto_find_iss"]}
{"id": "C62", "title": "Tile sizes that are used", "statement": "Tile sizes are at least one and there is one for every level of the band, whether they are read from the file tile.sizes (with numbers of at least one; the numbers go to the loop levels in order, then to the ratios of the second tile level) or chosen automatically (fixed sizes or positive multiples of the unroll factor); tiling with them keeps all dependences respected.", "quantifier": "all files, bands, programs, reuse values, unroll factors", "why_tests_cant": "All files, programs and reuse values.", "anchors": ["lib/tile.c:read_tile_sizes", "lib/tile.c:pluto_tile_scattering_dims", "lib/tile_size_selection_model.cpp:find_tile_sizes", "lib/tile_size_selection_model.cpp:TileSizeSelectionModel::infer_tile_sizes"]}
{"id": "C63", "title": "Reordering loops inside tiles", "statement": "Moving the best loop innermost (inside tiles, or inside the outermost bands without tiling), for whatever scoring of loops, keeps every dependence respected, only permutes the levels of statements of a band inside its tile loops, leaves tile loops, constant levels and all other statements as they are, and loops reported parallel afterwards are parallel.", "quantifier": "all programs with a legal banded schedule, all scoring functions, all tile sizes, one or two tile levels", "why_tests_cant": "All programs, schedules and scores.", "anchors": ["lib/post_transform.c:pluto_intra_tile_optimize_band", "lib/post_transform.c:fuse_per_stmt_bands", "lib/post_transform.c:make_parallel_loop_innermost", "lib/polyloop.c:pluto_make_innermost_loop", "lib/tile.c:pluto_tile"]}
{"id": "C64", "title": "Everything after the transformation", "statement": "Tiling (one or two levels), reordering of loops and wavefronts in any combination of options yield, without aborting, a program that carries out every iteration exactly once with the same memory accesses, in an order respecting all dependences and at distinct times, and every loop reported parallel in the result carries no dependence.", "quantifier": "all programs with a legal banded schedule, all option combinations without innerpar, all tile sizes, all scores", "why_tests_cant": "All programs, sizes and option combinations.", "anchors": ["tool/main.cpp:main", "lib/plutolib.c:pluto_schedule_prog", "lib/tile.c:pluto_tile", "lib/post_transform.c:pluto_intra_tile_optimize", "lib/tile.c:pluto_create_tile_schedule"]}
{"id": "C65", "title": "Loops reported vectorizable", "statement": "The test whether a loop is vectorizable does not abort on one-to-one schedules; a loop it accepts is parallel and, as it advances, each access of its statements stays at the same element or moves in the last index only by at most four elements per step; a parallel loop all of whose accesses do so is accepted.", "quantifier": "all programs, schedules, loops, accesses, iterations, parameter values", "why_tests_cant": "All iterations and all schedules.", "anchors": ["lib/post_transform.c:pluto_loop_is_vectorizable", "lib/post_transform.c:has_spatial_reuse", "lib/post_transform.c:get_num_spatial_accesses", "lib/polyloop.c:get_num_invariant_accesses", "lib/polyloop.c:get_num_accesses", "lib/post_transform.c:get_best_vectorizable_loop"]}
{"id": "C66", "title": "From the input program to the final one", "statement": "The program handed to code generation (after the search for a transformation, tiling, reordering of loops and wavefronts) carries out exactly the iterations of the input program, each once, with the same memory accesses; dependent iterations of the input program run in their order, different iterations of a statement at different times, and loops marked parallel are parallel.", "quantifier": "all input programs, parameter values, dependent pairs, option combinations, solver answers, tile sizes and scores", "why_tests_cant": "All programs, all sizes, all option combinations and whatever the external solvers answer.", "anchors": ["lib/pluto.c:pluto_auto_transform", "lib/plutolib.c:pluto_schedule_prog", "tool/main.cpp:main", "lib/tile.c:pluto_tile", "lib/tile.c:pluto_create_tile_schedule"]}
{"id": "C67", "title": "Loops marked parallel in the generated code", "statement": "Marking loops for OpenMP never aborts; every loop of the generated code that is marked is one whose iterations carry no dependence between each other, also when code generation has dropped loops with a single iteration; the variables of all inner loops, and no others, are private.", "quantifier": "all programs with a legal banded schedule, all generated loop structures", "why_tests_cant": "All programs, schedules and generated codes.", "anchors": ["tool/ast_transform.c:pluto_mark_parallel", "lib/polyloop.c:pluto_get_parallel_band", "lib/polyloop.c:pluto_get_dom_parallel_loops", "lib/polyloop.c:pluto_get_loops_immediately_inner"]}
{"id": "C68", "title": "Unroll and jam", "statement": "Unrolling any marked loop by any factor and jamming its copies into the inner loops keeps all dependent iterations in order, whatever the cost function decides and whatever the loop bounds are. Only loops with a loop inside of them are selected, and no loop recognised as a tile loop; such loops do step through the tiles of an affine function.", "quantifier": "all programs with a legal banded schedule, marked loops, unroll factors, loop bounds, dependent pairs", "why_tests_cant": "All programs, factors, bounds and dependent pairs.", "anchors": ["tool/ast_transform.c:pluto_mark_unroll_jam", "lib/polyloop.c:pluto_get_unroll_jam_loops", "lib/polyloop.c:is_unroll_jam_profitable", "lib/polyloop.c:pluto_get_innermost_permutable_bands", "lib/program.cpp:is_tile_space_loop"]}
{"id": "C69", "title": "Loops marked for vectorization in the generated code", "statement": "A loop of the generated code that is marked for vectorization contains no other loop and its iterations carry no dependence; all innermost loops reported parallel are marked when present in the code.", "quantifier": "all programs, schedules, generated loop structures", "why_tests_cant": "All programs, schedules and generated codes.", "anchors": ["tool/ast_transform.c:pluto_mark_vector", "lib/polyloop.c:pluto_get_parallel_loops", "lib/polyloop.c:pluto_loop_is_innermost"]}
{"id": "C70", "title": "Programs read from OpenScop", "statement": "A program read from an OpenScop description has the iteration domains, the execution order and the accessed array elements that its relations describe, whatever the order of the rows of a relation, schedules being padded with zeros to a common length.", "quantifier": "all OpenScop relations, iterations, parameter values", "why_tests_cant": "All relations and all points of unbounded sets.", "anchors": ["tool/osl_pluto.c:osl_relation_to_pluto_constraints", "tool/osl_pluto.c:osl_scattering_to_pluto_trans", "tool/osl_pluto.c:osl_access_relation_to_pluto_matrix", "tool/osl_pluto.c:osl_relation_get_row_id_for_nth_dimension", "tool/osl_pluto.c:osl_to_pluto_stmts"]}
{"id": "C71", "title": "Programs written to OpenScop", "statement": "The relations written back to OpenScop describe exactly the transformed iteration domains and the transformed schedule; accesses touch the same elements when iterators have been added; reading what was written gives back the same domains and schedules.", "quantifier": "all domains, schedules, accesses, numbers of new iterators, points", "why_tests_cant": "All schedules and all points of unbounded sets.", "anchors": ["tool/osl_pluto.c:pluto_trans_to_osl_scattering", "tool/osl_pluto.c:pluto_constraints_to_osl_domain", "tool/osl_pluto.c:pluto_populate_scop"]}
{"id": "C72", "title": "Dependences taken over from Candl", "statement": "A dependence computed by Candl is taken over with exactly its dependent pairs of iterations, with its type and with the accesses that cause it.", "quantifier": "all dependence systems, pairs of iterations, parameter values, access lists", "why_tests_cant": "All systems and all pairs of iterations of unbounded sets.", "anchors": ["tool/osl_pluto.c:osl_dep_domain_to_pluto_constraints", "tool/osl_pluto.c:deps_read", "tool/osl_pluto.c:get_osl_write_access_position", "tool/osl_pluto.c:get_osl_read_access_position", "tool/osl_pluto.c:osl_access_list_filter_write", "tool/osl_pluto.c:osl_access_list_filter_read"]}
{"id": "C73", "title": "Dependences computed with isl", "statement": "The dependences computed for a program order all conflicting accesses: whenever two iterations access a common element and one of them writes it, the one that comes first in the input program is connected to the other one by a chain of dependences (by a single one unless only last writers are asked for); each dependence relates only such iterations, in the order of the input program, with the right type and accesses.", "quantifier": "all programs, all pairs of iterations, all parameter values, all option combinations", "why_tests_cant": "All pairs of iterations of unbounded sets, all programs and whatever representation the integer set library chooses.", "anchors": ["lib/program.cpp:compute_deps_isl", "lib/program.cpp:basic_map_extract_dep", "lib/program.cpp:extract_deps_from_isl_union_map", "tool/osl_pluto.c:compute_deps_osl", "tool/osl_pluto.c:extract_equalities_osl_access", "tool/osl_pluto.c:osl_access_list_to_isl_union_map", "lib/constraints_isl.c:isl_map_count"]}
{"id": "C74", "title": "Same result", "statement": "Running the statements in the order of the transformed program, with loops marked parallel run in any order of their iterations, leaves the memory exactly as running the input program does, whatever the statements compute and whatever the initial contents.", "quantifier": "all programs, schedules, statement bodies, memories, parameter values, orders of parallel iterations", "why_tests_cant": "All programs, inputs, sizes and interleavings.", "anchors": ["lib/pluto.c:pluto_auto_transform", "lib/plutolib.c:pluto_schedule_prog", "lib/tile.c:pluto_tile", "lib/tile.c:pluto_create_tile_schedule", "lib/polyloop.c:pluto_get_parallel_loops", "tool/main.cpp:main"]}
{"id": "C75", "title": "Schedules for callers of the library", "statement": "A caller of the library who passes iteration domains and dependences (or a schedule with read and write accesses) gets back schedules that give every iteration exactly one date, different iterations of a statement different dates, and of two dependent iterations (or two accesses to one element, one of them writing) the first one the smaller date.", "quantifier": "all domains, dependences, accesses, option combinations, parameter values, iterations, representations chosen by isl", "why_tests_cant": "All domains, dependences and iterations, and whatever representation the integer set library chooses.", "anchors": ["lib/plutolib.c:pluto_transform", "lib/plutolib.c:pluto_schedule", "lib/plutolib.c:pluto_prog_from_isl_domains_dependences", "lib/plutolib.c:extract_stmt", "lib/plutolib.c:pluto_schedules_to_isl", "lib/constraints_isl.c:isl_basic_map_from_pluto_constraints", "lib/program.cpp:basic_map_extract_dep"]}
{"id": "C76", "title": "Diamond tiles found by the tool", "statement": "With diamond tiling (on by default), the transformation found runs every pair of dependent iterations in order, and so does the program after tiling with these rows; the row that replaces another one runs no dependence backwards, one row of every statement of a band changes or none, and the face along which the tiles start together lies strictly inside the cone of the new row and the others.", "quantifier": "all programs, dependences, solver answers, fusion modes, options, tile sizes, parameter values, dependent pairs of iterations", "why_tests_cant": "All programs and all pairs of iterations of unbounded sets.", "anchors": ["lib/pluto.c:pluto_diamond_tile", "lib/pluto.c:find_cone_complement_hyperplane", "lib/pluto.c:find_hyperplane_to_be_evicted", "lib/pluto.c:pluto_auto_transform", "lib/framework.cpp:get_feautrier_schedule_constraints", "lib/tile.c:pluto_tile", "lib/tile.c:pluto_diamond_tile_reschedule"]}
{"id": "C77", "title": "Least solutions with either solver", "statement": "Solving a system of constraints returns its lexicographically least integer solution (nonnegative unless negative unknowns are asked for) and nothing exactly if there is none, with isl and with PIP alike; the two solvers agree.", "quantifier": "all constraint systems, both solvers, with and without negative unknowns", "why_tests_cant": "All systems and all integer points of unbounded sets.", "anchors": ["lib/constraints.c:pluto_constraints_lexmin", "lib/constraints.c:pluto_constraints_lexmin_pip", "lib/constraints_isl.c:pluto_constraints_lexmin_isl", "lib/constraints_isl.c:isl_basic_set_from_pluto_constraints", "lib/isl_support.c:isl_val_get_num_ll", "lib/math_support.c:mpz_set_sll"]}
{"id": "C78", "title": "Set operations through isl and PolyLib", "statement": "Union, intersection, difference, projection and the test for equality of lists of constraints, done by isl or PolyLib, give the sets of points these words mean, also when the result replaces the first argument.", "quantifier": "all lists of constraints, all points", "why_tests_cant": "All sets and all points of unbounded sets.", "anchors": ["lib/constraints_isl.c:pluto_constraints_intersection_isl", "lib/constraints_isl.c:pluto_constraints_intersect_isl", "lib/constraints_isl.c:pluto_constraints_union_isl", "lib/constraints_isl.c:pluto_constraints_project_out_isl", "lib/constraints_isl.c:isl_set_to_pluto_constraints", "tool/constraints_polylib.c:pluto_constraints_union", "tool/constraints_polylib.c:pluto_constraints_difference", "tool/constraints_polylib.c:pluto_constraints_are_equal", "lib/constraints.c:pluto_constraints_project_out"]}
{"id": "C79", "title": "Functions read from isl maps", "statement": "The matrix made of the map of an access or of a schedule computes, for every iteration and all parameter values, the element or date that the map relates to the iteration.", "quantifier": "all maps, iterations, parameter values", "why_tests_cant": "All maps and iterations.", "anchors": ["lib/constraints_isl.c:isl_map_to_pluto_func", "lib/isl_support.c:isl_aff_to_pluto_func", "lib/program.cpp:isl_basic_map_extract_access_func", "lib/program.cpp:extract_accesses_for_pluto_stmt"]}
{"id": "C80", "title": "Parallel and normal vectors", "statement": "The tests for vectors being parallel and normal are exact, the lexicographic minimum of two vectors is found, and diamond tiling replaces the first hyperplane of a band that is parallel to the face along which tiles start together, or else the last one.", "quantifier": "all pairs of vectors, all bands and faces", "why_tests_cant": "All vectors of any length and any entries.", "anchors": ["lib/math_support.c:pluto_vector_is_parallel", "lib/math_support.c:pluto_vector_is_normal", "lib/math_support.c:min_lexical", "lib/pluto.c:find_hyperplane_to_be_evicted", "lib/pluto.c:is_concurrent_start_face"]}
{"id": "C81", "title": "What CLooG is told", "statement": "The input file written for the code generator, read the way it reads files, contains the conditions on the parameters, the parameter names, the domain of every statement, a scattering that relates every iteration to its date under the transformation and nothing else, and the loop names t1, t2, ...; the levels at which control is optimized are levels of the code and start at the first loop behind the tile loops of the statement.", "quantifier": "all programs, parameter names, statement texts, contexts, iterations and dates", "why_tests_cant": "All programs; the file is read back character by character.", "anchors": ["tool/pluto_codegen_if.c:pluto_gen_cloog_file", "tool/pluto_codegen_if.c:get_first_point_loop", "tool/pluto_codegen_if.c:pluto_gen_cloog_code", "lib/constraints.c:pluto_constraints_print_polylib", "lib/pluto.c:pluto_stmt_get_schedule"]}
{"id": "C82", "title": "Names in the generated code", "statement": "Every variable of the generated code is declared exactly once, a statement macro has the iterators of the statement as parameters, and the private clause of a parallel loop, in the code and in the exported OpenScop file, names exactly the variables of the loops inside it and the bounds of vectorized loops.", "quantifier": "all programs, loops, numbers of levels, unrolled levels", "why_tests_cant": "All numbers of levels and all loops.", "anchors": ["tool/pluto_codegen_if.c:generate_declarations", "tool/pluto_codegen_if.c:gen_stmt_macro", "tool/ast_transform.c:pluto_mark_parallel", "tool/pluto_codegen_if.c:pluto_get_parallel_loop_list", "tool/pluto_codegen_if.c:pluto_get_vector_loop_list"]}
{"id": "C83", "title": "Order of dependent instances with the framework for decoupled fusion (option dfp)", "statement": "A transformation found with option dfp runs the source of every dependence before its target.", "quantifier": "all programs, dependence instances, fusion conflict graphs, linear program solutions, solver answers, fusion modes", "why_tests_cant": "All programs and all pairs of instances of unbounded sets, and whatever graphs and solutions the solvers lead to.", "anchors": ["lib/framework-dfp.c:find_permutable_dimensions_scc_based", "lib/framework-dfp.c:colour_fcg_scc_based", "lib/framework-dfp.c:scale_shift_permutations", "lib/framework-dfp.c:introduce_skew", "lib/pluto.c:pluto_auto_transform"]}
{"id": "C84", "title": "Choice of dimensions with option dfp", "statement": "With option dfp every level takes, in each statement that has one left, a dimension of its own that can be used; dimensions in conflict are not fused; and different iterations of a statement get different dates.", "quantifier": "all programs, conflict graphs, components, levels, iterations", "why_tests_cant": "All graphs, all histories of the colouring and all iterations.", "anchors": ["lib/framework-dfp.c:colour_scc", "lib/framework-dfp.c:is_valid_colour", "lib/framework-dfp.c:get_next_min_vertex", "lib/framework-dfp.c:add_coeff_constraints_from_fcg_colouring"]}
{"id": "C85", "title": "Skewing with option dfp", "statement": "Skewing leaves every dependence in order, makes the new level run no dependence backwards, changes nothing else, and leaves the schedules alone if there is nothing to skew.", "quantifier": "all programs, dependence instances, solver answers", "why_tests_cant": "All programs and all pairs of instances of unbounded sets.", "anchors": ["lib/framework-dfp.c:introduce_skew", "lib/framework-dfp.c:get_skewing_constraints", "lib/framework-dfp.c:swap_trans_for_cc", "lib/framework-dfp.c:dims_to_be_skewed"]}
{"id": "C86", "title": "Meaning of the fusion conflict graph (option dfp)", "statement": "In the graph that decides which loops may be fused, a loop carries a self edge exactly if running its statement by it would reverse a dependence of the statement on itself, loops of two dependent statements are joined exactly if no scaling and shifting of them respects the dependences among the two, and loops that are pairwise not joined can be used together.", "quantifier": "all programs, statements, loops, colourings, dependence instances", "why_tests_cant": "All programs and all instances of unbounded sets; absence of an edge is a statement about all rational scalings and shifts.", "anchors": ["lib/framework-dfp.c:build_fusion_conflict_graph", "lib/framework-dfp.c:fcg_add_pairwise_edges", "lib/framework-dfp.c:add_permute_preventing_edges", "lib/framework-dfp.c:add_must_distribute_edges", "lib/framework-dfp.c:compute_intra_stmt_deps"]}
{"id": "C87", "title": "Update of the fusion conflict graph (option dfp)", "statement": "After statements were distributed, exactly the conflicts between the statements that are now apart are removed from the graph, and the update succeeds.", "quantifier": "all programs, graphs, fusion modes, levels", "why_tests_cant": "All graphs and all histories of the search.", "anchors": ["lib/framework-dfp.c:update_fcg_between_sccs", "lib/framework-dfp.c:scc_has_must_distribute_edges", "lib/framework-dfp.c:are_sccs_fused"]}
{"id": "C88", "title": "Answers of the MIP solver (option glpk)", "statement": "With option glpk the numbers read back from the solver and rounded satisfy every constraint, no admissible solution has a smaller cost, and the transformation found runs the source of every dependence before its target.", "quantifier": "all programs, constraint systems, solver answers precise enough to be rounded, fusion modes", "why_tests_cant": "All constraint systems and all floating-point answers within the precision assumed.", "anchors": ["lib/constraints.c:pluto_prog_constraints_lexmin_glpk", "lib/constraints.c:pluto_constraints_solve_glpk", "lib/constraints.c:set_glpk_constraints_from_pluto_constraints", "lib/pluto.c:construct_cplex_objective", "lib/pluto.c:pluto_prog_constraints_lexmin"]}
{"id": "C89", "title": "Scaled rational solutions (option lp)", "statement": "With option lp rational solutions are scaled to integers in such a way that the transformation found still runs the source of every dependence before its target and its coefficients stay within the bound.", "quantifier": "all programs, dependences, components of statements, solver answers precise enough to be rounded, fusion modes", "why_tests_cant": "All programs and all pairs of instances; the factors differ between components and come from floating-point answers.", "anchors": ["lib/constraints.c:pluto_prog_constraints_lexmin_glpk", "lib/constraints.c:get_scaling_lp_glpk", "lib/constraints.c:pluto_mip_scale_solutions_glpk", "lib/framework.cpp:populate_scaling_csr_matrices_for_pluto_program", "lib/pluto.c:ddg_compute_cc"]}
{"id": "C90", "title": "The same solution with either solver", "statement": "The solution found with option glpk is, as with the default solver, the one with the least bounds on dependence distances in lexicographic order, for every combination of options that is accepted.", "quantifier": "all programs, constraint systems, exact solver answers, option combinations", "why_tests_cant": "All systems and all admissible solutions.", "anchors": ["lib/pluto.c:construct_cplex_objective", "lib/pluto.c:pluto_prog_constraints_lexmin", "lib/constraints.c:pluto_prog_constraints_lexmin_glpk", "tool/main.cpp:main"]}
{"id": "C91", "title": "Ownership of isl objects passed to the library", "statement": "Every entry point and conversion that takes isl objects releases each of them exactly once and hands over nothing but its result, uses no object after giving it away, and leaves nothing behind in the contexts it creates, whether or not a transformation is found.", "quantifier": "all domains, dependences, accesses, options, outcomes, sets of objects the caller owns", "why_tests_cant": "All numbers and shapes of sets, maps and constraints, and every path, including failure; a leak or a second release need not be visible in a run.", "anchors": ["lib/plutolib.c:pluto_transform", "lib/plutolib.c:pluto_schedule", "lib/plutolib.c:pluto_parallel_schedule_with_remapping", "lib/plutolib.c:pluto_schedule_str", "lib/plutolib.c:pluto_get_remapping_str", "lib/program.cpp:compute_deps_isl", "lib/program.cpp:isl_basic_map_extract_access_func", "lib/constraints_isl.c:isl_set_to_pluto_constraints"]}
{"id": "C92", "title": "Fusion structures forced by the user", "statement": "A fusion structure given in a .fst file is obeyed: all iterations of an earlier group run before all iterations of a later group, whatever the search finds afterwards; the rows given in a .precut file are the first levels of the transformation found; and the result still runs the source of every dependence before its target.", "quantifier": "all programs, group structures, forced rows, dependence instances, solver answers, fusion modes", "why_tests_cant": "All programs, all files, and all pairs of instances of unbounded sets.", "anchors": ["lib/pluto.c:precut", "lib/pluto.c:pluto_auto_transform", "lib/pluto.c:get_loop_type"]}
{"id": "C93", "title": "An objective for each connected component (option per-cc-obj)", "statement": "With option per-cc-obj the transformation found runs the source of every dependence before its target and separates the iterations of a statement; every hyperplane keeps the distances of the dependences of a component within the bounding function of that component; the sum of the bounding functions of all components is the least possible; and no memory is overwritten on the way.", "quantifier": "all programs, dependences, components, constraint systems, solver answers, fusion modes", "why_tests_cant": "All programs, all admissible solutions and all pairs of instances; memory errors depend on the number of rows of every round.", "anchors": ["lib/pluto.c:get_per_cc_obj_sum_constraints", "lib/pluto.c:find_permutable_hyperplanes", "lib/framework.cpp:get_permutability_constraints", "lib/framework.cpp:add_hyperplane_from_ilp_solution", "lib/constraints.c:pluto_constraints_add"]}
{"id": "C94", "title": "Answers of the MIP solver (option gurobi)", "statement": "With option gurobi the numbers read back from the solver and rounded satisfy every constraint whatever state the solver ends in, no admissible solution has a smaller cost, no solution is reported only if there is none, and the transformation found runs the source of every dependence before its target.", "quantifier": "all programs, constraint systems, solver answers precise enough to be rounded, fusion modes", "why_tests_cant": "All constraint systems and all floating-point answers within the precision assumed; states of the solver that are rare.", "anchors": ["lib/gurobi-plugin.c:pluto_prog_constraints_lexmin_gurobi", "lib/gurobi-plugin.c:set_gurobi_constraints_from_pluto_constraints", "lib/gurobi-plugin.c:pluto_constraints_solve_gurobi", "lib/gurobi-plugin.c:find_optimal_solution_gurobi", "lib/pluto.c:pluto_prog_constraints_lexmin"]}
{"id": "C95", "title": "Scaled rational solutions (options gurobi and lp)", "statement": "With options gurobi and lp rational solutions are scaled to integers in such a way that the transformation found still runs the source of every dependence before its target and its coefficients stay within the bound.", "quantifier": "all programs, dependences, components of statements, solver answers precise enough to be rounded, fusion modes", "why_tests_cant": "All programs and all pairs of instances; the factors differ between components and come from floating-point answers.", "anchors": ["lib/gurobi-plugin.c:pluto_prog_constraints_lexmin_gurobi", "lib/gurobi-plugin.c:get_scaling_lp_gurobi", "lib/gurobi-plugin.c:pluto_mip_scale_solutions_gurobi", "lib/framework.cpp:populate_scaling_csr_matrices_for_pluto_program"]}
{"id": "C96", "title": "Clusters of statements (options dfp and clusterscc)", "statement": "With options dfp and clusterscc the search ends; the transformation found keeps the program, never runs the target of a dependence before its source, gives different instances of a statement different times, and fuses no loops that are in conflict.", "quantifier": "all programs, dependences, pairs of instances, conflict graphs, fusion modes, numbers of steps of the search", "why_tests_cant": "All programs and all pairs of instances; the clusters change whenever the graph is rebuilt, and the loop over them can restart without bound.", "anchors": ["lib/framework-dfp.c:colour_fcg_scc_based", "lib/framework-dfp.c:colour_scc_cluster", "lib/framework-dfp.c:rebuild_scc_cluster_fcg", "lib/framework-dfp.c:get_scc_colours_from_vertex_colours", "lib/framework-dfp.c:add_coeff_constraints_from_scc_clustered_fcg_colouring", "lib/framework-dfp.c:find_permutable_dimensions_scc_based", "lib/pluto.c:pluto_auto_transform"]}
{"id": "C97", "title": "Which components are called stencils (typed fusion)", "statement": "With typed fusion a strongly connected component of the statements is called a stencil exactly if there is a face with concurrent start, that is a loop of each statement along which dependent iterations run strictly one after the other, off which there are hyperplanes with dependence distances of at most 10 but none with distances of 0.", "quantifier": "all programs, components, dependences, pairs of instances, hyperplanes, exact solvers", "why_tests_cant": "All programs and all hyperplanes; that no hyperplane exists is a claim about infinitely many of them.", "anchors": ["lib/framework.cpp:is_scc_stencil", "lib/framework.cpp:get_dep_distance_bounding_constraints_for_scc", "lib/framework.cpp:get_dep_dist_lower_bound_constraints_for_scc", "lib/framework.cpp:compute_dep_dist_lb_constraints_for_stencil_check", "lib/framework.cpp:get_face_with_concurrent_start_for_stmts"]}
{"id": "C98", "title": "Options of the command line", "statement": "Whatever options are given, the tool refuses those that exclude each other and otherwise works with options that go together: one dependence analysis, a solver that was built in, no diamond tiling without tiling, typed fusion only in the framework that supports it, positive sizes; of several options for the same thing the last one given counts, and all other options are taken as given.", "quantifier": "all command lines, builds with and without the two LP solvers", "why_tests_cant": "The options are some sixty, in any number and order; combinations cannot be enumerated.", "anchors": ["tool/main.cpp:main", "lib/program.cpp:pluto_options_alloc", "lib/pluto.c:pluto_prog_constraints_lexmin"]}
{"id": "C99", "title": "Names of the output files", "statement": "The output of a source file *.c is written to *.pluto.c in the current directory unless option o gives a name, the names fit into their buffers, and neither the source nor the output of another source is overwritten.", "quantifier": "all source paths and output names", "why_tests_cant": "All strings; the lengths of the buffers depend on them.", "anchors": ["tool/main.cpp:main"]}
{"id": "C100", "title": "Typed fusion fuses without losing parallelism", "statement": "With typed fusion the loops put on one level are parallel loops that stay parallel together and do not conflict; a component that can run in parallel is refused only if it has no such loop, of its loops one is taken that fits the most later components, and nothing is fused around a component that must run in between.", "quantifier": "all programs, conflict graphs, numbers of components and levels", "why_tests_cant": "The graphs and the order of components are unbounded.", "anchors": ["lib/framework-dfp.c:colour_scc_cluster_greedy", "lib/framework-dfp.c:get_convex_parallel_successors", "lib/framework-dfp.c:get_common_parallel_dims", "lib/framework-dfp.c:colour_convex_successors", "lib/framework-dfp.c:get_next_min_vertex_scc_cluster", "lib/framework-dfp.c:build_fusion_conflict_graph"]}
{"id": "C101", "title": "Typed fusion keeps the order of dependent instances", "statement": "If the search with typed fusion ends without skewing, the result is the same program with one time component per level and the target of a dependence instance never runs before its source.", "quantifier": "all programs, graphs, stencil marks, solvers and numbers of steps", "why_tests_cant": "The executions of the search are unbounded.", "anchors": ["lib/framework-dfp.c:colour_fcg_scc_based", "lib/framework-dfp.c:colour_scc_cluster", "lib/framework-dfp.c:rebuild_scc_cluster_fcg", "lib/pluto.c:pluto_auto_transform"]}
{"id": "C102", "title": "Colouring guided by linear programs has a schedule of every component", "statement": "With the option lpcolor a schedule is kept for every component of the program that still has a loop without a level: it reverses no dependence inside of the component, uses such a loop of every statement, and if the component is marked parallel no dependence is carried by it. The loop tried next is one the schedule uses.", "quantifier": "all programs, levels given so far, exact linear programming solvers and orders of loops tried", "why_tests_cant": "Programs and the solutions of the linear programs are unbounded.", "anchors": ["lib/framework-dfp.c:mark_parallel_sccs", "lib/framework-dfp.c:dfp_get_scc_ortho_constraints", "lib/framework-dfp.c:is_lp_solution_parallel", "lib/framework-dfp.c:get_next_min_vertex", "lib/pluto.c:ddg_compute_scc"]}
