# Formal model of Pluto (bondhugula/pluto, /repo) in Rocq

## 1. Trusted base

* Coq 8.16.1 kernel (checked again with `coqchk` by the gate).
* The model (files `*Model.v`): a hand translation of the C/C++ code.  Each
  definition cites the file and lines it models and says where it simplifies.
* The specification files (`Spec*.v`): what points, sets, programs, schedules,
  executions, isl and OpenScop relations mean.
* `Print Assumptions` is run after every theorem in the `Prop*.v` files.  All
  theorems are closed under the global context, except the following ones, which
  use `Classical_Prop.classic` and `Description.constructive_definite_description`
  of Coq's standard library:
  `C12_oracle_exists` (there is an exact test for integer points),
  `C61_solver_exists` (there is an exact solver), and the counterexamples and
  examples that instantiate a program with such an exact test:
  `C26_innerpar_refuted`, `C26_scalar_in_band_refuted`, `C30_collective_refuted`,
  `C30_scalar_after_refuted`, `C30_abort_refuted`, `C40_all_freed_refuted`,
  `C55_mixed_levels_refuted`, `C62_no_parallel_loop_refuted`,
  `C62_loop_below_refuted`, `C66_mixed_depth_refuted`, `C66_wavefront_refuted`,
  `C67_marks_refuted`, `C68_unroll_jam_refuted`, `C75_large_shift_refuted`, `C76_auto_legal_refuted`,
  `C76_tiled_refuted`, `C83_refuted`, `C85_shift_refuted`, `C85_swap_refuted`, `C86_joint_refuted`,
  `C87_nofuse_refuted`, `C87_rebuild_refuted`, `C89_legal_refuted`, and the examples `C15_met`, `C16_met`,
  `C26_met`, `C29_met`, `C30_met`, `C39_met`, `C55_met`, `C61_no_cut_met`,
  `C62_automatic_met`, `C62_tiling_met`, `C63_met`, `C64_met`, `C65_met`, `C66_met`,
  `C67_met`, `C68_met`, `C69_met`, `C73_met`, `C75_met`, `C75_schedule_met`, `C75_failure_met`,
  `C76_met`, `C76_tiled_met`, `C77_met`, `C83_met`, `C84_one_to_one_met`, `C89_met`.  `C77_least_solution`, `C77_solvers_agree` and
  `C78_are_equal` use `classic` only.
* External programs are never trusted silently: PIP, isl, GLPK, PolyLib, CLooG,
  Candl and floating-point scores are arguments of the model, and what is assumed
  of them is a hypothesis in the theorem (e.g. "the emptiness test is exact",
  "a returned solution satisfies the system", "the flow analysis does what isl's
  manual says").

No axioms are added, no kernel check is switched off, nothing is admitted.

## 2. Modelling conventions

* A `PlutoMatrix` is a record of a column count and a list of rows (`list Z`),
  a `PlutoConstraints` element is a column count and a list of
  (is_eq, row) pairs; the `next` chain of a constraint list is a `list` of
  these.  The last column is the constant, as in the code.
* In-place C loops over rows/columns are modelled by total recursive functions
  over lists returning the new value.  Allocation sizes, names of dimensions
  (used for printing only) and freeing are not modelled unless the property is
  about them.
* `int64_t` is modelled by `Z` (no wrap-around) in the main model.  Where wrap
  or truncation matters for the property (gcd, `int` temporaries, ...) a second
  bounded-integer model of the function is given and the failing case is
  exhibited as a `_refuted` theorem.
* C division is `Z.quot`; it is only used where exact unless said otherwise.
* `assert`ed preconditions appear as hypotheses (well-formedness records) of
  theorems; out-of-range accesses are modelled as `None` where the property is
  about them.
* External solvers (PIP, isl, GLPK/Gurobi, PolyLib) are parameters of the model:
  arbitrary functions constrained by explicit hypotheses in the theorem
  statement (e.g. "if it returns a vector, the vector satisfies the system").
  `qsort` is modelled by an insertion sort with the same comparator; since
  comparator-equal rows are identical, every correct sort gives the same list,
  which is proved.

## 3. Layout (rocq/theories)

* `Spec*.v`  : small independent specifications (points, affine values,
  membership of a point in a set, lexicographic order, graph reachability, ...).
* `*Model.v` : models of the code, with citations, no proofs.
* `*Proofs.v`: lemmas.
* `Prop*.v`  : the theorems (one per claim, proof is `exact lemma`), each with an
  `Example` showing the hypotheses are met by a concrete non-trivial case, and
  `Print Assumptions`.

## 4. Plan per property

| id | model | proof |
|----|-------|-------|
| C01 | `gcd`/`lcm` on Z, and a 64-bit wrapping version | measure induction; refutation of the wrapping version by computation |
| C02 | `pluto_constraints_simplify` row by row, insertion sort | dividing by a positive gcd keeps sign; permutation lemma for the sort |
| C03 | `fourier_motzkin_eliminate` | lower/upper bound separation over Q, row combination lemmas |
| C04 | `fourier_motzkin_eliminate_smart`, `..._gaussian_eliminate` | as C03 plus substitution by an equality |
| C05 | `to_pure_inequalities_single` | sum of non-negative terms bounded by 0 |
| C06 | `farkas_lemma_affine` incl. elimination order | C04 iterated; non-negative combination of faces |
| C07 | same | affine Farkas lemma proved by abstract FM over Q |
| C08-C11 | `compute_permutability_constraints_dep`, `get_permutability_constraints`, Feautrier constraints | C06/C07 + column placement lemmas |
| C12, C13 | `dep_satisfaction_test`, `get_dep_direction` with an emptiness oracle | set reasoning on integer points |
| C14 | satisfaction bookkeeping functions on lists of deps | induction over the history |
| C15 | driver `pluto_auto_transform` as a transition relation over program states: solver answers and cut decisions arbitrary | invariant: unsatisfied deps weakly respected by every row, satisfied deps strictly at their level |
| C16 | cut functions | SCC order + invariant |
| C17, C18 | `dfs`, `dfs_for_scc`, `graph_transpose` | Kosaraju correctness proof |
| C19, C20 | `ddg_compute_cc`, `compute_transitive_closure` | faithful model violates the claim: refutation + what does hold |
| C21-C23 | constraint builders | linear algebra over Z/Q |
| C24, C25 | `pluto_tile_band`, `pluto_stmt_add_dim` | Euclidean division; lexicographic order lemmas |
| C26 | `create_tile_schedule_band` | lexicographic order of sums |
| C27, C28 | row swaps | permutation lemmas |
| C29, C30 | `pluto_loop_is_parallel`, `pluto_get_permutable_band` | from satisfaction vectors/directions to instance order |
| C31, C32 | schedule export | row evaluation |
| C33, C34 | remapping by Gauss-Jordan with divisors | each row stays a valid equation; pivot structure invariant |
| C35-C38 | program editing | structural well-formedness + pointwise equivalence |
| C39, C40 | index-set splitting | half-space partition |
| C41-C46 | matrix/constraint primitives | induction on lists; refutations where the code is wrong |
| C47-C49 | half-spaces, negation, constant bounds | arithmetic; refutations where the code is wrong |
| C50 | matrix conversion | list lemmas |
| C51 | strip-mining | out-of-range write modelled; refutation |
| C52, C53 | sinking, padding, separation | evaluation lemmas |
| C54 | column compaction around the solver | dot-product lemmas |
| C55 | dominated loops | induction on the loop list |
| C56, C62 | `approximate_to_nearest_multiple`, `find_tile_sizes`, `read_tile_sizes` | arithmetic; induction over the levels; refutations for out-of-bounds accesses |
| C59, C60 | rank test, loops of the transformed program | rank/kernel argument; induction over levels |
| C61 | Farkas system of `pluto_find_iss` | C06/C07 applied to the sum of the hyperplane's values at both ends |
| C57, C58 | shift, normalise | evaluation lemmas; refutation for the no-op normalisation |
| C63 | `pluto_intra_tile_optimize_band`, `fuse_per_stmt_bands` | permutation of levels inside a permutable band; C24-C28 |
| C64 | everything after the search: `pluto_tile`, intra-tile optimisation, wavefronts | composition of C24, C26, C63 |
| C65 | `pluto_loop_is_vectorizable` with access functions of the new iterators | kernel of the schedule; evaluation of the access along one iterator |
| C66 | `pluto_auto_transform` (search, cuts, dummy rows) followed by C64 | composition with the invariant of C15; counterexamples for mixed depths |
| C67 - C69 | `pluto_mark_parallel`, `pluto_mark_unroll_jam`, `pluto_mark_vector` over a loop forest | tree induction; order of unrolled and jammed copies |
| C70, C71 | reading and writing OpenScop relations | row permutation lemmas; evaluation |
| C72 | `deps_read` for Candl | column placement; run of the switch without breaks: refutation |
| C73 | `compute_deps_isl`, extraction, access maps and schedules from OpenScop | last-write induction over the original order, for any result allowed by isl's manual |
| C74 | execution of statement instances on a memory (SpecExec) | commutation of independent instances, reordering lemma; composition with C66 and C73 |
| C75 | `pluto_transform`, `pluto_schedule` from isl domains, dependences and accesses to isl schedules (SpecLib) | composition of C66 with C32; chains over intermediate writes for lastwriter; refutations by computation |
| C76 | `pluto_diamond_tile` with its face and cone systems, the search loop with diamond tiling, `pluto_tile` with rescheduling (SpecCone) | solutions of the cone system; invariant of C15 for the outermost band; composition with C27 and C30; counterexamples by computation |
| C77 | `pluto_constraints_lexmin` with isl and PIP, conversions of numbers (SolveModel, SpecSolve) | conversions are the identity on 64 bits; uniqueness and existence of least points (well-founded induction on coordinates) |
| C78 | operations on constraint lists through isl and PolyLib (SolveModel) | translation of points in both directions; unit matrices for the projection |
| C79 | `isl_map_to_pluto_func`, `isl_aff_to_pluto_func`, access extraction | evaluation of affine functions; counterexamples by computation |
| C80 | `pluto_vector_is_parallel`, `pluto_vector_is_normal`, `min_lexical`, choice of the replaced hyperplane | induction on vectors |
| C81 | `pluto_gen_cloog_file`, `pluto_constraints_print_polylib`, `get_first_point_loop`, choice of -f/-l/-fs/-ls | text as a Coq string; a reader of CLooG files as specification; induction on lines, words and digits |
| C82 | `generate_declarations`, `gen_stmt_macro`, private clauses of `pluto_mark_parallel` and `pluto_get_parallel_loop_list` | text as a Coq string, names split at separators; injectivity of decimal printing |
| C83 | `pluto_auto_transform` with option dfp: `colour_fcg_scc_based`, `scale_shift_permutations`, `find_permutable_dimensions_scc_based`, `introduce_skew` and the final cut | conflict graphs, their updates and linear program solutions as arbitrary functions of the whole state; the invariant of the search of C14 (no unsatisfied dependence runs backwards) carried through every step |
| C84 | `colour_scc`, `is_valid_colour`, `get_next_min_vertex`, `add_coeff_constraints_from_fcg_colouring` | induction on the backtracking; a statement gets one dimension per colour, so its rows are triangular up to order |
| C85 | `introduce_skew`, `get_skewing_constraints`, `swap_trans_for_cc` | exact meaning of the constraints (C08), solver sound (C12); two refutations |
| C86 | `build_fusion_conflict_graph`, `add_permute_preventing_edges`, `fcg_add_pairwise_edges`, `add_must_distribute_edges` | entries of the matrix by a calculus of writes; the linear programs by the exact meaning of the dependence constraints (C08, affine Farkas lemma); refutation for three statements |
| C87 | `update_fcg_between_sccs` | the same calculus of writes; two refutations |
| C88 | `pluto_prog_constraints_lexmin_glpk` without scaling, `construct_cplex_objective`; GLPK is a parameter, doubles are rationals | error bounds summed over a row stay below 1, so rounding keeps integer constraints; then C15 |
| C89 | scaling in `pluto_prog_constraints_lexmin_glpk`, `get_scaling_lp_glpk`, `populate_scaling_csr_matrices_for_pluto_program` | constraints that survive scaling (homogeneous, one component) suffice for the invariant of the search; refuted in general by an exact run with certificates of optimality |
| C90 | the same | refuted by a program with an exact answer and a certificate of its optimality |
| C91 | `pluto_transform`, `pluto_schedule`, `pluto_parallel_schedule_with_remapping`, `pluto_schedule_str`, `pluto_get_remapping_str`, conversions from and to isl | references as tokens; every call of isl takes, keeps and gives as its manual says; a calculus over the list of owned tokens with rules for the loops; refuted where a token is released twice, left, or used after it was given away |
| C92 | `precut` with the files .fst and .precut, `pluto_auto_transform` after it | the files as the lists of the numbers in them; the search only appends levels (no assumption on the solver), so that the forced rows stay the first ones; a forced level that follows the dependences keeps the invariant of C15; refuted for files that contradict a dependence and for parameter coefficients |
| C93 | `get_per_cc_obj_sum_constraints`, the wide systems of `get_permutability_constraints`, `find_permutable_hyperplanes` with option per-cc-obj, the memory of prog->globcst | the generators of constraints of C09-C12 applied to a program with more leading columns; a dependence sees the solution made of the bound of its own component and the coefficients, so that C08 gives legality and bounds, and the invariant of C15 carries over; least sums from the leastness of the solver; refuted for sums with parameters and for the memory |
| C94 | `pluto_prog_constraints_lexmin_gurobi` without scaling, `set_gurobi_constraints_from_pluto_constraints`, `find_optimal_solution_gurobi`; Gurobi is a parameter, doubles are rationals | each constraint passed on is a system of its own, for which C88 gives the rounding; the search needs only homogeneous constraints, which hold when they are dropped; C15 |
| C95 | scaling in `pluto_prog_constraints_lexmin_gurobi`, `get_scaling_lp_gurobi` | the scaling problem has the solutions of that of C89; refuted by the same program |
| C96 | the functions of lib/framework-dfp.c behind option clusterscc; conflict graphs are parameters of the theorems and those of the code in the refutations; the loop over the clusters takes fuel | the invariant of C83 and that each cluster has one dimension of its own per level; the edges of the graph by what each step can add and must add, and the meaning of the systems (C86); refuted by a three-deep nest and by a dependence satisfied in part |
| C97 | `is_scc_stencil` and its helpers in lib/framework.cpp, with the face of C67; the solvers are parameters assumed exact | the constraint systems have as integer points the hyperplanes of the specification; refuted by a dependence of distance (1,20) and by option nodepbound |
| C98 | the table of options, the loop over the arguments and the checks of `main` in tool/main.cpp; getopt_long and atoi are outside | invariants of the option values, case analysis per check; refuted by short command lines |
| C99 | the names built in `main` with basename | string lemmas; refuted by two sources |
| C100 | `colour_scc_cluster_greedy`, the convex successors, the choice of the dimension, the search for a dimension of a sequential component, and the edges that prevent parallelism (lib/framework-dfp.c); the linear programs are a parameter | invariant of the colours while they are given; counting; chains of edges; steps that only add edges, and the meaning of a solution of the systems (as for C86); refuted by programs of four statements |
| C101 | `colour_fcg_scc_based`, `colour_scc_cluster`, `rebuild_scc_cluster_fcg` with typed fusion, graphs and stencil marks arbitrary | the invariant of C96 through the steps of typed fusion |
| C102 | `mark_parallel_sccs`, `dfp_get_scc_ortho_constraints`, `is_lp_solution_parallel`, `get_next_min_vertex` and the loss of solutions in `ddg_compute_scc` (lib/framework-dfp.c, lib/pluto.c); the solver is a parameter | meaning of a solution of the systems (as for C86), invariant of the marks while they are set; a solver is constructed by enumeration; refuted by a program of two statements |

Not expressible in this model: performance, the code CLooG generates (its loop
structure is an argument where properties are about marks on it), parsing of C by
clan/pet, floating-point values of heuristics (scores are arbitrary functions),
printing, memory leaks, running time.

## 5. Code modelled

For each file, the functions of which a definition of the model cites lines; then
those that are not modelled (printing and freeing functions are left out).
Regenerate with `tools/coverage.py`.

<!-- coverage -->
* `lib/constraints.c`: `pluto_constraints_alloc`, `pluto_constraints_resize`, `pluto_constraints_resize_single`, `farkas_lemma_affine`, `pluto_constraints_add`, `pluto_constraints_add_to_each`, `row_compar`, `pluto_constraints_simplify`, `fourier_motzkin_eliminate`, `pluto_constraints_copy`, `pluto_constraints_print_polylib_without_num`, `pluto_constraints_print_polylib`, `pluto_constraints_to_matrix`, `pluto_constraints_from_mixed_matrix`, `pluto_constraints_from_matrix`, `pluto_constraints_from_inequalities`, `pluto_constraints_read`, `pluto_constraints_to_pip_matrix`, `pluto_constraints_lexmin_pip`, `pluto_constraints_lexmin`, `set_glpk_constraints_from_pluto_constraints`, `pluto_constraints_solve_glpk`, `pluto_mip_scale_solutions_glpk`, `get_scaling_lp_glpk`, `pluto_prog_constraints_lexmin_glpk`, `pluto_constraints_from_equalities`, `pluto_constraints_add_inequality`, `pluto_constraints_add_equality`, `pluto_constraints_add_constraint`, `pluto_constraints_remove_row`, `pluto_constraints_remove_dim`, `pluto_constraints_zero_row`, `pluto_constraints_normalize_row`, `pluto_constraints_add_dim`, `pluto_constraints_add_leading_dims`, `pluto_constraints_add_lb`, `pluto_constraints_add_ub`, `pluto_constraints_set_var`, `pluto_constraints_select_row`, `pluto_constraints_negate_row`, `pluto_constraints_negate_constraint`, `pluto_constraints_to_pure_inequalities_single`, `pluto_constraints_project_out_single`, `pluto_constraints_project_out`, `pluto_constraints_interchange_cols`, `pluto_constraints_num_in_list`, `pluto_constraints_unionize`, `pluto_constraints_unionize_isl`, `pluto_constraints_universe`, `pluto_constraints_empty`, `pluto_constraints_is_empty`, `pluto_constraints_unionize_simple`, `pluto_constraints_get_const_lb`, `pluto_constraints_get_const_ub`, `pluto_constraints_get_num_equalities`, `pluto_constraints_extract_equalities`, `pluto_constraints_best_elim_candidate`, `pluto_hyperplane_get_non_negative_half_space`, `pluto_hyperplane_get_negative_half_space`, `pluto_constraints_shift_dim`, `pluto_constraints_is_ub`, `pluto_constraints_remove_const_ub`, `pluto_constraints_get_num_non_zero_coeffs`, `fourier_motzkin_eliminate_smart`, `pluto_constraints_gaussian_eliminate`.
  Not modelled: `pluto_constraints_zero`, `pluto_constraints_copy_single`, `pluto_constraints_dup_single`, `pluto_constraints_dup`, `get_lp_solution_from_glpk_problem`, `get_ilp_solution_from_glpk_problem`, `set_glpk_problem_params`, `find_optimal_solution_glpk`, `set_glpk_objective_from_pluto_matrix`, `pluto_fcg_constraints_lexmin_glpk`, `pip_matrix_populate`, `check_redundancy`, `pluto_dep_list_alloc`, `pluto_deps_list_dup`, `pluto_deps_list_append`, `pluto_constraints_list_alloc`, `pluto_constraints_list_add`, `pluto_constraints_list_replace`, `pluto_constraints_remove_names_single`, `pluto_constraints_set_names`, `pluto_constraints_set_names_range`.
* `lib/constraints_isl.c`: `pluto_constraints_project_out_isl`, `pluto_constraints_project_out_isl_single`, `isl_basic_set_from_pluto_constraints`, `isl_set_from_pluto_constraints`, `extract_basic_set_constraints`, `isl_set_to_pluto_constraints`, `isl_basic_map_from_pluto_constraints`, `isl_basic_set_to_pluto_constraints`, `isl_basic_map_to_pluto_constraints_func_arg`, `pluto_constraints_lexmin_isl`, `pluto_constraints_union_isl`, `isl_map_to_pluto_func`, `basic_map_count`, `isl_map_count`, `pluto_constraints_intersection_isl`.
  Not modelled: `isl_basic_map_to_pluto_constraints`, `pluto_constraints_intersect_isl`.
* `lib/ddg.c`: `graph_alloc`, `graph_transpose`, `get_undirected_graph`, `compute_transitive_closure`, `dfs_vertex`, `dfs`, `compar`, `dfs_for_scc`, `is_adjacent`, `compute_scc_vertices`.
  Not modelled: `free_scc_vertices`.
* `lib/framework-dfp.c`: `dfp_get_scc_ortho_constraints`, `is_lp_solution_parallel`, `is_ilp_solution_parallel`, `mark_parallel_sccs`, `print_parallel_sccs`, `pluto_fusion_constraints_feasibility_solve`, `fcg_add_pairwise_edges`, `fcg_scc_cluster_add_inter_scc_edges`, `compute_intra_stmt_deps`, `compute_intra_scc_dep_cst`, `add_permute_preventing_edges`, `fcg_scc_cluster_add_permute_preventing_edges`, `update_scc_cluster_fcg_between_sccs`, `update_fcg_between_sccs`, `fcg_add_intra_scc_edges`, `are_sccs_fused`, `add_must_distribute_edges`, `build_fusion_conflict_graph`, `is_valid_colour`, `is_discarded`, `get_next_min_vertex`, `get_min_succ_scc`, `get_max_pred_scc`, `is_convex_scc`, `cut_around_scc`, `colour_scc`, `scc_has_must_distribute_edges`, `get_convex_successors`, `get_convex_parallel_successors`, `is_colour_par_preventing`, `get_common_parallel_dims`, `get_colouring_dim`, `colour_convex_successors`, `colour_scc_cluster_greedy`, `cut_from_predecessor`, `get_min_convex_successor`, `get_colourable_dims`, `get_common_dims`, `get_convex_preds_from_convex_successors`, `get_next_min_vertex_scc_cluster`, `colour_scc_cluster`, `get_vertex_colour_from_scc_colour`, `get_scc_colours_from_vertex_colours`, `rebuild_scc_cluster_fcg`, `pluto_add_scalar_hyperplanes_between_sccs`, `colour_fcg_scc_based`, `find_permutable_dimensions_scc_based`, `add_coeff_constraints_from_scc_clustered_fcg_colouring`, `add_coeff_constraints_from_fcg_colouring`, `scale_shift_permutations`, `get_negative_components`, `dims_to_be_skewed`, `get_dep_satisfaction_dims`, `get_skewing_constraints`, `get_outermost_sat_level`, `swap_trans_for_cc`, `introduce_skew`.
  Not modelled: `get_dep_dist_from_pluto_sol`, `get_inter_scc_dep_constraints`, `get_common_parallel_dims_for_sccs`, `get_min_vertex_from_lp_sol`, `get_vertex_properties_from_scc_properties`, `set_scc_properties_from_vertex_properties`, `reset_scc_colouring`, `constant_deps_in_scc`.
* `lib/framework.cpp`: `compute_permutability_constraints_dep`, `get_scc_permutability_constraints`, `get_cc_permutability_constraints`, `get_permutability_constraints`, `get_feautrier_schedule_constraints_dep`, `get_feautrier_schedule_constraints`, `get_stmt_lin_ind_constraints`, `get_non_trivial_sol_constraints`, `get_coeff_bounding_constraints`, `dep_satisfaction_test`, `pluto_dep_remove_satisfied_instances`, `pluto_compute_dep_satisfaction_precise`, `pluto_dep_satisfies_instance`, `get_dep_direction`, `pluto_add_hyperplane_from_ilp_solution`, `is_stmt_in_stmt_list`, `get_face_with_concurrent_start_for_stmts`, `get_dep_distance_bounding_constraints_for_scc`, `compute_dep_dist_lb_constraints_for_stencil_check`, `get_dep_dist_lower_bound_constraints_for_scc`, `is_scc_stencil`.
  Not modelled: `compute_pairwise_permutability`, `populate_scaling_csr_matrices_for_pluto_program`, `get_face_with_concurrent_start`.
* `lib/gurobi-plugin.c`: `get_gurobi_objective_from_pluto_matrix`, `set_gurobi_constraints_from_pluto_constraints`, `get_ilp_solution_from_gurobi_problem`, `get_lp_solution_from_gurobi_problem`, `find_optimal_solution_gurobi`, `pluto_constraints_solve_gurobi`, `get_gurobi_scaling_obj`, `get_lower_bounds_for_variables`, `pluto_mip_scale_solutions_gurobi`, `get_max_scale_factor`, `pluto_prog_constraints_lexmin_gurobi`, `pluto_fcg_constraints_lexmin_gurobi`.
  Not modelled: `check_error_gurobi`, `get_scaling_lp_gurobi`.
* `lib/isl_support.c`: `pluto_matrix_from_isl_mat`, `isl_aff_to_pluto_func`, `mpz_fits_ll`, `isl_val_get_num_ll`.
* `lib/iss.c`: `get_lin_ind_constraints`, `pluto_find_iss`, `is_long_bidirectional_dep`, `pluto_update_deps_after_iss`, `pluto_iss`, `pluto_iss_dep`.
* `lib/libpluto_dummy.c`: nothing.
  Not modelled: `pluto_constraints_union`, `pluto_constraints_image`, `pluto_constraints_intersect`, `pluto_constraints_subtract`.
* `lib/math_support.c`: `pluto_matrix_remove_col`, `pluto_matrix_remove_row`, `pluto_matrix_add_col`, `pluto_matrix_negate_row`, `pluto_matrix_negate`, `pluto_matrix_add`, `pluto_matrix_add_row`, `pluto_matrix_interchange_rows`, `pluto_matrix_interchange_cols`, `pluto_matrix_move_col`, `pluto_matrix_set`, `pluto_matrix_identity`, `pluto_matrix_zero_row`, `pluto_matrix_zero_col`, `pluto_matrix_normalize_row`, `gaussian_eliminate_var`, `gaussian_eliminate`, `lcm`, `gcd`, `min_lexical`, `pluto_matrix_product`, `pluto_matrix_to_row_echelon`, `pluto_matrix_get_rank`, `pluto_matrix_swap_rows`, `pluto_matrix_reverse_rows`, `pluto_vector_is_parallel`, `pluto_vector_is_normal`, `mpz_set_sll`, `mpz_set_ull`, `are_pluto_matrices_equal`.
  Not modelled: `pluto_matrix_alloc`, `pluto_matrix_resize`, `pluto_matrix_dup`, `pluto_matrix_read`, `pluto_matrix_input`, `concat`.
* `lib/pluto.c`: `dep_satisfaction_update`, `deps_satisfaction_check`, `pluto_dep_satisfaction_reset`, `pluto_compute_dep_satisfaction`, `get_coeff_bounding_constraints_for_cone_complement`, `construct_cplex_objective`, `pluto_prog_constraints_lexmin`, `ddg_sccs_direct_connected`, `cut_between_sccs`, `cut_all_sccs`, `cut_scc_dim_based`, `cut_smart`, `cut_conservative`, `get_linear_ind_constraints`, `get_per_cc_obj_sum_constraints`, `find_permutable_hyperplanes`, `get_loop_type`, `precut`, `pluto_compute_dep_directions`, `pluto_detect_hyperplane_types_stmtwise`, `pluto_detect_hyperplane_types`, `normalize_domains`, `denormalize_domains`, `find_cone_complement_hyperplane`, `is_concurrent_start_face`, `find_hyperplane_to_be_evicted`, `pluto_auto_transform`, `get_num_unsatisfied_inter_scc_deps`, `ddg_create`, `get_max_orig_dim_in_scc`, `get_scc_size`, `ddg_compute_cc`, `ddg_compute_scc`, `pluto_stmt_get_schedule`, `pluto_update_deps`, `pluto_are_stmts_fused`, `pluto_diamond_tile`.
  Not modelled: `dep_is_satisfied`, `num_inter_stmt_deps`, `num_inter_scc_deps`, `get_first_non_scalar_hyperplane`, `copy_hyperplane`, `get_num_unsatisfied_deps`, `get_num_unsatisfied_inter_stmt_deps`.
* `lib/plutolib.c`: `pluto_schedule_prog`, `extract_basic_set`, `extract_stmt`, `extract_stmts`, `normalize_domain_schedule`, `stmt_filter`, `pluto_schedules_to_isl`, `pluto_prog_from_isl_domains_dependences`, `pluto_transform`, `pluto_schedule`, `pluto_schedule_and_get_remapping`, `pluto_parallel_schedule_with_remapping`, `pluto_schedule_str`, `pluto_get_remapping_str`.
  Not modelled: `pluto_get_remapping`.
* `lib/polyloop.c`: `pluto_get_loops_immediately_inner`, `pluto_get_loops_under`, `pluto_get_all_loops`, `pluto_loop_has_satisfied_dep_with_component`, `pluto_loop_is_parallel`, `pluto_loop_is_parallel_for_stmt`, `pluto_satisfies_inter_stmt_dep`, `is_loop_dominated`, `get_num_accesses`, `is_invariant`, `get_num_invariant_accesses`, `get_max_dim`, `get_max_num_innermost_invariant_accesses`, `get_max_num_innermost_accesses`, `is_unroll_jam_profitable`, `pluto_get_unroll_jam_loops`, `pluto_get_parallel_loops`, `pluto_get_dom_parallel_loops`, `pluto_get_outermost_loops`, `is_band_dominated`, `pluto_is_depth_scalar`, `pluto_get_permutable_band`, `pluto_get_parallel_band`, `pluto_get_dominator_bands`, `pluto_get_outermost_permutable_bands`, `pluto_loop_is_innermost`, `pluto_is_band_innermost`, `pluto_get_innermost_loops`, `pluto_get_innermost_permutable_bands`.
  Not modelled: `pluto_loop_alloc`, `pluto_loop_dup`, `pluto_loops_cat`, `pluto_loop_compar`, `pluto_band_alloc`, `pluto_band_dup`, `pluto_get_dom_parallel_bands`.
* `lib/post_transform.c`: `has_spatial_reuse`, `get_num_spatial_accesses`, `pluto_loop_is_vectorizable`, `get_best_vectorizable_loop`, `get_per_stmt_band`, `are_stmts_fused_in_band`, `fuse_per_stmt_bands`, `make_parallel_loop_innermost`, `pluto_intra_tile_optimize_band`, `pluto_intra_tile_optimize`.
  Not modelled: `getDeepestNonScalarLoop`, `get_dimensional_reuse`, `pluto_detect_mark_register_tile_loops`, `gen_reg_tile_file`, `get_outermost_parallel_loop`.
* `lib/program.cpp`: `pluto_check_supernode`, `is_tile_space_loop`, `basic_map_extract_dep`, `isl_basic_map_extract_access_func`, `isl_map_extract_access_func`, `extract_accesses_for_pluto_stmt`, `extract_deps_from_isl_union_map`, `compute_deps_isl`, `pluto_prog_get_largest_const_in_domains`, `pluto_prog_free`, `pluto_options_alloc`, `pluto_prog_add_param`, `pluto_stmt_add_dim`, `pluto_stmt_remove_dim`, `pluto_stmt_add_hyperplane`, `pluto_prog_add_hyperplane`, `pluto_pad_stmt_transformations`, `pluto_add_given_stmt`, `pluto_dep_dup`, `pluto_stmt_alloc`, `pluto_is_hyperplane_scalar`, `pluto_is_hyperplane_loop`, `pluto_stmt_get_remapping`, `pluto_prog_params_print`, `pluto_get_new_access_func`, `pluto_separate_stmts`, `pluto_separate_stmt`, `pluto_stmt_is_member_of`, `pluto_get_max_ind_hyps`, `pluto_stmt_get_num_ind_hyps_non_scalar`, `pluto_stmt_get_num_ind_hyps`, `pluto_transformations_full_ranked`, `pluto_stmt_dup`, `decrement_stmt_id`, `pluto_remove_stmt`, `are_pluto_accesses_same`, `is_access_present`, `insert_access_if_unique`, `get_unique_accesses_in_stmts`, `get_num_unique_accesses_in_stmts`, `is_access_invariant`, `get_num_invariant_accesses_in_stmts`.
  Not modelled: `pluto_add_dep`, `is_skewed`, `map_extract_dep`, `read_codegen_context_from_file`, `pluto_prog_alloc`, `pluto_context_alloc`, `pluto_create_stmt`, `pluto_add_stmt`, `pluto_dep_alloc`, `pluto_access_dup`, `pluto_get_new_domain`, `get_const_bound_difference`, `get_expr`, `get_func_of_expr`, `get_parametric_bounding_box`, `get_parametric_extent_const`, `get_lb_ub_expr`, `get_parametric_extent`, `get_alpha`, `pluto_stmt_is_subset_of`, `add_if_new_var`, `pluto_get_all_waccs`, `pluto_get_max_ind_hyps_non_scalar`, `pluto_create_new_access`.
* `lib/tile.c`: `read_tile_sizes`, `pluto_diamond_tile_reschedule`, `pluto_tile_band`, `pluto_tile`, `pluto_tile_scattering_dims`, `pluto_create_tile_schedule_band`, `pluto_create_tile_schedule`.
  Not modelled: `getInnermostTilableBand`.
* `lib/tile_size_selection_model.cpp`: `approximate_to_nearest_multiple`, `round_tile_sizes_wrt_unroll_jam_factor`, `TileSizeSelectionModel::infer_tile_sizes`, `get_vectorizable_dimensions`, `get_dimensional_reuse`, `get_tile_sizes_for_band_with_zero_dim_reuse`, `pluto_band_has_wavefront_parallelism`, `find_tile_sizes`, `find_tile_sizes`.
  Not modelled: `solve_quadratic_equation`, `TileSizeSelectionModel::solve_reuse_expression`, `get_distinct_accesses_in_band`, `get_linearly_independent_rows_in_mat`, `TileSizeSelectionModel::construct_expression_for_tile_volume`, `has_zero_dim_reuse`.
* `lib/transforms.c`: `pluto_sink_statement`, `pluto_stripmine`, `pluto_stmt_loop_interchange`, `pluto_interchange`, `pluto_sink_transformation`, `pluto_make_innermost_loop`.
* `tool/ast_transform.c`: `pluto_mark_parallel`, `pluto_mark_unroll_jam`, `pluto_mark_vector`.
* `tool/constraints_polylib.c`: `pluto_matrix_to_polylib`, `polylib_to_pluto_constraints`, `pluto_constraints_image`, `pluto_constraints_union`, `pluto_constraints_difference`, `pluto_constraints_intersection`, `pluto_constraints_intersect`, `pluto_constraints_subtract`, `pluto_constraints_are_equal`.
  Not modelled: `polylib_matrix_to_pluto`, `pluto_constraints_to_polylib`, `polylib_matrix_to_pluto_constraints`, `pluto_matrix_inverse`.
* `tool/main.cpp`: `main`.
* `tool/osl_pluto.c`: `pluto_trans_to_osl_scattering`, `get_osl_write_access_position`, `get_osl_read_access_position`, `osl_access_list_filter_write`, `osl_access_list_filter_read`, `osl_dep_domain_to_pluto_constraints`, `pluto_constraints_to_osl_domain`, `osl_relation_get_row_id_for_nth_dimension`, `osl_scattering_to_pluto_trans`, `osl_access_relation_to_pluto_matrix`, `pluto_populate_scop`, `osl_relation_to_pluto_constraints`, `osl_to_pluto_stmts`, `extract_equalities_osl`, `osl_scattering_to_isl_map`, `extract_equalities_osl_access`, `osl_basic_access_to_isl_union_map`, `osl_access_list_to_isl_union_map`, `osl_relation_list_to_isl_set`, `compute_deps_osl`, `deps_read`.
  Not modelled: `set_names`, `osl_relation_to_isl_set`, `get_scop_names`, `osl_scop_to_pluto_prog`.
* `tool/pet_to_pluto.cpp`: `compute_deps_pet`.
  Not modelled: `set_tuple_name`, `mark_trivial_dead_code`, `pet_to_pluto_stmts`, `find_stmt`, `extract_pet_stmt`, `pullback_index`, `generate_names`, `free_isl_id_to_ast_expr`, `at_each_domain`, `collect_non_kill_domains`, `construct_stmt_body`, `pet_to_pluto_prog`.
* `tool/pluto_codegen_if.c`: `get_first_point_loop`, `pluto_gen_cloog_file`, `gen_stmt_macro`, `generate_declarations`, `pluto_gen_cloog_code`, `pluto_get_parallel_loop_list`, `pluto_get_vector_loop_list`.
  Not modelled: `pluto_multicore_codegen`, `pluto_omp_parallelize`.
<!-- end coverage -->
