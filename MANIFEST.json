{
 "claims": [
  {
   "property": "C01",
   "status": "proved",
   "theorems": [
    "C01_gcd_greatest_common_divisor",
    "C01_lcm_least_common_multiple",
    "C01_gcd_lcm_64bit",
    "C01_gcd_wraparound_refuted"
   ],
   "note": "Full claim for products that fit 64 bits; the parenthetical remark of the property (wrong with wrap-around) is the _refuted theorem."
  },
  {
   "property": "C02",
   "status": "proved",
   "theorems": [
    "C02_simplify_same_integer_points",
    "C02_simplify_same_rational_points",
    "C02_simplify_no_more_rows",
    "C02_simplify_idempotent"
   ],
   "note": ""
  },
  {
   "property": "C03",
   "status": "proved",
   "theorems": [
    "C03_fm_eliminate_projection",
    "C03_fm_eliminate_keeps_integer_points"
   ],
   "note": ""
  },
  {
   "property": "C04",
   "status": "proved",
   "theorems": [
    "C04_smart_eliminate_projection",
    "C04_gaussian_eliminate_projection"
   ],
   "note": ""
  },
  {
   "property": "C05",
   "status": "proved",
   "theorems": [
    "C05_pure_inequalities_same_points"
   ],
   "note": ""
  },
  {
   "property": "C06",
   "status": "proved",
   "theorems": [
    "C06_farkas_sound"
   ],
   "note": ""
  },
  {
   "property": "C07",
   "status": "proved",
   "theorems": [
    "C07_farkas_complete"
   ],
   "note": ""
  },
  {
   "property": "C08",
   "status": "proved",
   "theorems": [
    "C08_permutability_sound",
    "C08_permutability_sound_rational",
    "C08_scc_permutability_sound",
    "C08_cc_permutability_sound"
   ],
   "note": ""
  },
  {
   "property": "C09",
   "status": "proved",
   "theorems": [
    "C09_bounding_function"
   ],
   "note": ""
  },
  {
   "property": "C10",
   "status": "proved",
   "theorems": [
    "C10_permutability_complete"
   ],
   "note": ""
  },
  {
   "property": "C11",
   "status": "proved",
   "theorems": [
    "C11_feautrier_sound",
    "C11_feautrier_complete"
   ],
   "note": ""
  },
  {
   "property": "C12",
   "status": "proved",
   "theorems": [
    "C12_oracle_exists",
    "C12_satisfaction_test"
   ],
   "note": ""
  },
  {
   "property": "C13",
   "status": "proved",
   "theorems": [
    "C13_direction",
    "C13_all_directions"
   ],
   "note": ""
  },
  {
   "property": "C14",
   "status": "proved",
   "theorems": [
    "C14_update",
    "C14_update_count",
    "C14_recompute",
    "C14_precise"
   ],
   "note": ""
  },
  {
   "property": "C15",
   "status": "proved",
   "theorems": [
    "C15_auto_transform_legal",
    "C15_failure_restores"
   ],
   "note": ""
  },
  {
   "property": "C16",
   "status": "proved",
   "theorems": [
    "C16_components",
    "C16_cut_all",
    "C16_cut_between",
    "C16_cut_dim_based"
   ],
   "note": ""
  },
  {
   "property": "C17",
   "status": "proved",
   "theorems": [
    "C17_graph",
    "C17_scc",
    "C17_scc_vertices",
    "C17_max_dim"
   ],
   "note": ""
  },
  {
   "property": "C18",
   "status": "proved",
   "theorems": [
    "C18_topological",
    "C18_strict"
   ],
   "note": ""
  },
  {
   "property": "C19",
   "status": "partial",
   "theorems": [
    "C19_cc_refuted",
    "C19_count_partial",
    "C19_intervals_partial"
   ],
   "note": "Refuted: the search numbers a vertex with the running counter, so connected statements can get different ids. Proved: the number of components is right, and the ids are right when every component is an interval of statement numbers."
  },
  {
   "property": "C20",
   "status": "partial",
   "theorems": [
    "C20_closure_refuted",
    "C20_closure_partial"
   ],
   "note": "Refuted: the loop over the middle vertex is innermost and misses long paths. Proved: only real paths are added, edges and two-edge paths are all present."
  },
  {
   "property": "C21",
   "status": "proved",
   "theorems": [
    "C21_independent",
    "C21_eager_search",
    "C21_lazy_search"
   ],
   "note": ""
  },
  {
   "property": "C22",
   "status": "proved",
   "theorems": [
    "C22_nontrivial_eager",
    "C22_nontrivial_lazy"
   ],
   "note": ""
  },
  {
   "property": "C23",
   "status": "proved",
   "theorems": [
    "C23_coefficient_bounds",
    "C23_bound_value"
   ],
   "note": ""
  },
  {
   "property": "C24",
   "status": "proved",
   "theorems": [
    "C24_tile_band",
    "C24_exactly_one_tile",
    "C24_tiling",
    "C24_two_levels"
   ],
   "note": ""
  },
  {
   "property": "C25",
   "status": "partial",
   "theorems": [
    "C25_tiling_legal",
    "C25_two_levels_legal",
    "C25_permutable_safe",
    "C25_mixed_levels_refuted"
   ],
   "note": ""
  },
  {
   "property": "C26",
   "status": "partial",
   "theorems": [
    "C26_wavefront",
    "C26_tile_and_wavefront",
    "C26_wavefront_of_loops",
    "C26_innerpar_refuted",
    "C26_scalar_in_band_refuted"
   ],
   "note": "Proved for permutable bands all of whose levels are loops. Refuted for --innerpar style schedules of a band that is not entirely permutable and for a constant level inside of the band."
  },
  {
   "property": "C27",
   "status": "partial",
   "theorems": [
    "C27_involution",
    "C27_exchange",
    "C27_restore",
    "C27_diamond_tiling",
    "C27_diamond_two_levels",
    "C27_scalar_in_band_refuted"
   ],
   "note": "Proved: rescheduling exchanges exactly one row, is its own inverse, restores the schedule without tiling, and after one or two levels of tiling every tile runs in the original order and all dependences are respected. Refuted when a level of the band is a constant: the wrong row is exchanged."
  },
  {
   "property": "C28",
   "status": "proved",
   "theorems": [
    "C28_interchange_rows",
    "C28_interchange_legal",
    "C28_innermost_rows",
    "C28_innermost_legal",
    "C28_innermost_no_scalar",
    "C28_depth_zero_scalar_refuted"
   ],
   "note": "Full claim. Extra: not moving across scalar levels holds for loops at depth > 0; at depth 0 the unsigned limit wraps around (C28_depth_zero_scalar_refuted)."
  },
  {
   "property": "C29",
   "status": "proved",
   "theorems": [
    "C29_parallel",
    "C29_same_program",
    "C29_reported",
    "C29_parallel_for_stmt"
   ],
   "note": ""
  },
  {
   "property": "C30",
   "status": "partial",
   "theorems": [
    "C30_no_abort",
    "C30_band",
    "C30_reorder",
    "C30_tiling_legal",
    "C30_collective_refuted",
    "C30_scalar_after_refuted",
    "C30_abort_refuted"
   ],
   "note": "Proved for schedules in which some level orders each dependence and no earlier level reverses it (what the eager hyperplane search produces), including legality of tiling all reported bands. Refuted for other legal schedules: a dependence ordered only by several levels together is ignored, a dependence satisfied by a constant level after the band is ignored, and an assertion can fail."
  },
  {
   "property": "C31",
   "status": "proved",
   "theorems": [
    "C31_schedule_exact"
   ],
   "note": "Schedules and domains exported to isl form, one domain piece per statement."
  },
  {
   "property": "C32",
   "status": "proved",
   "theorems": [
    "C32_relation_kept",
    "C32_tiled",
    "C32_two_levels"
   ],
   "note": ""
  },
  {
   "property": "C33",
   "status": "partial",
   "theorems": [
    "C33_remapping",
    "C33_full_rank",
    "C33_int_divisor_refuted",
    "C33_large_coefficient_refuted"
   ],
   "note": "Proved over the integers. Refuted for the code's int divisors and temporaries: large coefficients overflow 32 bits."
  },
  {
   "property": "C34",
   "status": "proved",
   "theorems": [
    "C34_new_access"
   ],
   "note": ""
  },
  {
   "property": "C35",
   "status": "proved",
   "theorems": [
    "C35_add_dim_statement",
    "C35_add_dim_dependences"
   ],
   "note": ""
  },
  {
   "property": "C36",
   "status": "partial",
   "theorems": [
    "C36_remove_added_dim_partial",
    "C36_bounding_refuted"
   ],
   "note": "Statement and dependence polyhedra are restored exactly; the bounding polyhedra keep the additional columns because stmt_remove_dim does not touch them (refuted part)."
  },
  {
   "property": "C37",
   "status": "partial",
   "theorems": [
    "C37_add_param_partial",
    "C37_bounding_refuted"
   ],
   "note": "Domains, schedules, accesses and dependence polyhedra proved; bounding polyhedra are not extended (refuted part)."
  },
  {
   "property": "C38",
   "status": "partial",
   "theorems": [
    "C38_remove_stmt_partial",
    "C38_dependences_of_removed_refuted"
   ],
   "note": "Statements, ids and dependences between remaining statements proved; dependences of the removed statement stay in the program and end up at another statement or out of range (refuted part)."
  },
  {
   "property": "C39",
   "status": "proved",
   "theorems": [
    "C39_cuts_partition",
    "C39_split_statement",
    "C39_split_program"
   ],
   "note": "Single statement and whole pass, for any is_long decision and any sound solver. Domains and dependences with one polyhedron each; the names and the NULL indcst path are left out."
  },
  {
   "property": "C40",
   "status": "partial",
   "theorems": [
    "C40_dependences",
    "C40_legal",
    "C40_defined",
    "C40_all_freed_refuted"
   ],
   "note": "Every dependent pair belongs to exactly one new dependence, legality is unchanged, and the pass is defined when some dependence has an instance. Refuted: if all dependences turn out empty when split, the freed dependence array stays in use."
  },
  {
   "property": "C41",
   "status": "proved",
   "theorems": [
    "C41_bounds_and_values",
    "C41_conjunction",
    "C41_universe_and_empty",
    "C41_rows",
    "C41_dimensions",
    "C41_interchange_columns"
   ],
   "note": ""
  },
  {
   "property": "C42",
   "status": "proved",
   "theorems": [
    "C42_columns",
    "C42_rows",
    "C42_negate",
    "C42_interchange_rows",
    "C42_interchange_cols",
    "C42_interchange_cols_large_refuted",
    "C42_move_col",
    "C42_reverse_rows"
   ],
   "note": "Column interchange/move for entries that fit the int temporary, as the property says; the _refuted theorem shows the restriction is needed."
  },
  {
   "property": "C43",
   "status": "proved",
   "theorems": [
    "C43_product_composes",
    "C43_product_associative",
    "C43_identity_neutral"
   ],
   "note": ""
  },
  {
   "property": "C44",
   "status": "partial",
   "theorems": [
    "C44_rank_square_or_tall_partial",
    "C44_rank_upper_bound_partial",
    "C44_rank_wide_refuted"
   ],
   "note": "The code over-reports the rank of some matrices with more columns than rows (C44_rank_wide_refuted); exact when ncols <= nrows, never under-reported."
  },
  {
   "property": "C45",
   "status": "proved",
   "theorems": [
    "C45_gaussian_projection"
   ],
   "note": ""
  },
  {
   "property": "C46",
   "status": "partial",
   "theorems": [
    "C46_append_is_union",
    "C46_copy",
    "C46_is_empty",
    "C46_bounds_on_each",
    "C46_add_to_each_partial",
    "C46_add_to_each_refuted",
    "C46_domain_pieces_partial",
    "C46_domain_pieces_refuted"
   ],
   "note": "Appending, copying, emptiness and bounds are proved in full. add_to_each drops rows of later pieces when a reallocation is needed, and a domain of three or more pieces loses pieces (both refuted); the _partial theorems give the cases that hold."
  },
  {
   "property": "C47",
   "status": "proved",
   "theorems": [
    "C47_half_spaces",
    "C47_half_spaces_partition"
   ],
   "note": ""
  },
  {
   "property": "C48",
   "status": "partial",
   "theorems": [
    "C48_negate_constraint_partial",
    "C48_negate_constraint_refuted"
   ],
   "note": "Only right when the constant is 0; otherwise refuted."
  },
  {
   "property": "C49",
   "status": "partial",
   "theorems": [
    "C49_const_bounds_partial",
    "C49_const_bounds_refuted"
   ],
   "note": "Refuted in general (equalities, non-unit coefficients, bounds below INT_MIN); holds for projections that are inequalities with unit coefficients."
  },
  {
   "property": "C50",
   "status": "partial",
   "theorems": [
    "C50_matrix_round_trip",
    "C50_matrix_round_trip_back",
    "C50_print_read_partial",
    "C50_print_read_list_refuted"
   ],
   "note": "Matrix conversion and single systems proved; a printed list of two or more systems is not read back (refuted)."
  },
  {
   "property": "C51",
   "status": "partial",
   "theorems": [
    "C51_out_of_bounds_refuted",
    "C51_strips_refuted",
    "C51_strips_partial"
   ],
   "note": "Refuted: the last write is always outside of the constraint matrix and the strip constraints lack the constant, so iterations are lost. C51_strips_partial says exactly which iterations remain. The function has no caller in the library."
  },
  {
   "property": "C52",
   "status": "proved",
   "theorems": [
    "C52_sink_statement"
   ],
   "note": ""
  },
  {
   "property": "C53",
   "status": "proved",
   "theorems": [
    "C53_padding",
    "C53_add_row",
    "C53_separate",
    "C53_separate_orders"
   ],
   "note": ""
  },
  {
   "property": "C54",
   "status": "proved",
   "theorems": [
    "C54_lexmin_sound",
    "C54_lexmin_complete"
   ],
   "note": ""
  },
  {
   "property": "C55",
   "status": "partial",
   "theorems": [
    "C55_dominator_bands",
    "C55_dominating_loops",
    "C55_mixed_levels_refuted"
   ],
   "note": "Bands: proved for all lists. Loops: proved when fused statements have loops at the same levels, refuted otherwise."
  },
  {
   "property": "C56",
   "status": "partial",
   "theorems": [
    "C56_rounded",
    "C56_large_refuted",
    "C56_large_factor_refuted"
   ],
   "note": "Proved when size + factor fits into 32 bits (factor up to 2^31); refuted beyond: unsigned wrap-around gives 0 or a farther multiple."
  },
  {
   "property": "C57",
   "status": "proved",
   "theorems": [
    "C57_shift_dim"
   ],
   "note": ""
  },
  {
   "property": "C58",
   "status": "partial",
   "theorems": [
    "C58_normalize_row_same_partial",
    "C58_normalize_row_primitive_refuted"
   ],
   "note": "The set is unchanged because the function does nothing; primitivity is refuted."
  },
  {
   "property": "C59",
   "status": "proved",
   "theorems": [
    "C59_full_rank_one_to_one",
    "C59_needs_hyperplanes"
   ],
   "note": ""
  },
  {
   "property": "C60",
   "status": "proved",
   "theorems": [
    "C60_loops_partition",
    "C60_loop_statements",
    "C60_inner_loops"
   ],
   "note": ""
  },
  {
   "property": "C61",
   "status": "proved",
   "theorems": [
    "C61_cut_near_midpoints",
    "C61_no_cut",
    "C61_solver_exists"
   ],
   "note": "Farkas system of pluto_find_iss with a sound (complete) solver as parameter; a sound and complete solver is shown to exist."
  },
  {
   "property": "C62",
   "status": "partial",
   "theorems": [
    "C62_automatic",
    "C62_automatic_defined",
    "C62_no_parallel_loop_refuted",
    "C62_loop_below_refuted",
    "C62_file",
    "C62_tiling_legal"
   ],
   "note": "File: proved for the sizes, ratios and legality of tiling with one or two levels. Automatic: proved when sizes are returned, and that they are when all loops are in the band and one is parallel. Refuted: without a parallel loop and with loops below the band the code accesses arrays out of bounds. Reuse values are rationals, conversion to unsigned and polynomial root are parameters."
  },
  {
   "property": "C63",
   "status": "proved",
   "theorems": [
    "C63_inside_tiles",
    "C63_untiled"
   ],
   "note": "For any scoring of loops; the score (vectorizability, locality) is a parameter."
  },
  {
   "property": "C64",
   "status": "proved",
   "theorems": [
    "C64_post_transform"
   ],
   "note": "Model of the passes in tool/main.cpp:664-702; register tiling, unroll-jam marking and diamond tiling are left out, --innerpar is excluded, wavefronts need bands whose levels are all loops (C26_scalar_in_band_refuted shows why)."
  },
  {
   "property": "C65",
   "status": "proved",
   "theorems": [
    "C65_defined",
    "C65_vectorizable",
    "C65_found"
   ],
   "note": "The sum of accesses with spatial or temporal reuse is compared with the number of all accesses as in the code."
  },
  {
   "property": "C66",
   "status": "partial",
   "theorems": [
    "C66_search_result",
    "C66_end_to_end_partial",
    "C66_mixed_depth_refuted",
    "C66_wavefront_refuted"
   ],
   "note": "Partial: proved for programs whose statements are nested equally deep, searches ending in the eager mode, no --innerpar, and wavefronts over bands whose levels are all loops. Refuted from input to output: tiling of fused statements of different depths, and wavefronts over a band with a constant level, break dependences. The solvers (exact emptiness, sound ILP answers, correct kernels) are hypotheses. Diamond tiling, which is on by default, is left out here and treated in C76."
  },
  {
   "property": "C67",
   "status": "partial",
   "theorems": [
    "C67_marks_partial",
    "C67_marks_parallel",
    "C67_marks_refuted"
   ],
   "note": "Proved when the outermost parallel loops are in the generated code; refuted otherwise: when they vanish (single iteration), the loop at the level after the parallel ones can be marked (comparison inloops[0]->depth > depth + width is off by one). CLooG's AST is given as the list of its loops."
  },
  {
   "property": "C68",
   "status": "partial",
   "theorems": [
    "C68_unroll_jam_partial",
    "C68_tile_loops",
    "C68_selected",
    "C68_unroll_jam_refuted"
   ],
   "note": "Proved when no loop lies inside of the band; refuted otherwise: the innermost-band test is called for one tiling level on bands that already contain the tile loops, so loops with non-permutable inner loops are jammed. The unroll-and-jam of CLooG is specified as an execution order. C68_selected and C68_tile_loops: what is selected and that recognised tile loops are tile loops."
  },
  {
   "property": "C69",
   "status": "proved",
   "theorems": [
    "C69_vector",
    "C69_all_marked"
   ],
   "note": "CLooG's AST is given as the list of its loops."
  },
  {
   "property": "C70",
   "status": "partial",
   "theorems": [
    "C70_domain",
    "C70_domain_read_partial",
    "C70_schedule_partial",
    "C70_access_partial",
    "C70_one_row_per_dimension",
    "C70_padding",
    "C70_union_refuted",
    "C70_sign_refuted"
   ],
   "note": "Proved for one relation per domain and for schedules and accesses of the form [eq -I A c] with rows in any order. Refuted otherwise: only the first relation of a union of domains is read (C70_union_refuted), and the sign of the output coefficient of a schedule row is ignored (C70_sign_refuted)."
  },
  {
   "property": "C71",
   "status": "proved",
   "theorems": [
    "C71_domain",
    "C71_schedule",
    "C71_round_trip",
    "C71_new_iterators"
   ],
   "note": "The extensions (names, loop lists, unroll lists) are not modelled."
  },
  {
   "property": "C72",
   "status": "partial",
   "theorems": [
    "C72_polyhedron",
    "C72_system",
    "C72_positions",
    "C72_filter",
    "C72_accesses_partial",
    "C72_types_refuted"
   ],
   "note": "The polyhedron and the positions of the accesses are right (for the matrix layout documented in osl/extensions/dependence.h, stated in SpecOsl.v). The type is lost: the switch over the type has no break, so every dependence becomes undefined and the assertion that follows aborts (C72_types_refuted). The default is isl, not Candl."
  },
  {
   "property": "C73",
   "status": "partial",
   "theorems": [
    "C73_covers",
    "C73_direct",
    "C73_only_conflicts_partial",
    "C73_accesses_partial",
    "C73_count",
    "C73_osl_accesses",
    "C73_same_result"
   ],
   "note": "isl's flow analysis, coalescing and removal of existential variables are parameters, assumed to do what isl's manual says (SpecDeps.v); proved for the calls and the extraction in Pluto, and for the access maps, names and schedules built from OpenScop. Partial: that dependences relate only conflicting iterations, with the right accesses, needs that removing the existential variables is exact. The transitive dependences are not used by the tool and not treated; the intersection with the context is left out."
  },
  {
   "property": "C74",
   "status": "partial",
   "theorems": [
    "C74_same_result",
    "C74_parallel",
    "C74_tool_partial"
   ],
   "note": "C74_same_result and C74_parallel are complete for any correct transformation whose dependences cover all conflicts (C73). C74_tool_partial composes this with the whole tool under the conditions of C66_end_to_end_partial; where these fail, C66 has counterexamples."
  },
  {
   "property": "C75",
   "status": "partial",
   "theorems": [
    "C75_library_partial",
    "C75_failure",
    "C75_schedule_partial",
    "C75_null_refuted",
    "C75_default_names_refuted",
    "C75_large_shift_refuted"
   ],
   "note": "C75_library_partial and C75_schedule_partial hold under the conditions of C66_end_to_end_partial (one depth, normal mode of the search, wavefronts over loops, no --innerpar), for domains of one basic set each and when the entries of the schedules fit 32 bits. Refuted otherwise: coefficients are cut to int when schedules are handed out (C75_large_shift_refuted); with the default options plain statement names stop the library (C75_default_names_refuted); pluto_schedule with lastwriter and coalescing dereferences NULL (C75_null_refuted). Existentially quantified variables that isl removes are covered. --identity is not modelled here. C75_failure: when the search fails the result is NULL."
  },
  {
   "property": "C76",
   "status": "partial",
   "theorems": [
    "C76_pass",
    "C76_auto_legal_partial",
    "C76_first_round_partial",
    "C76_tiled_partial",
    "C76_auto_legal_refuted",
    "C76_tiled_refuted"
   ],
   "note": "C76_pass covers one pass of diamond tiling. C76_auto_legal_partial and C76_first_round_partial: the search is legal if rows are replaced only while nothing but constant levels was found before, in the first of the two search modes, and every statement has a loop. Refuted otherwise: when a later round finds two more rows, the pass takes the outer band again and ignores the dependences that the band orders (C76_auto_legal_refuted). C76_tiled_partial: tiling is legal if the program with the replaced rows put back is legal, for one level of tiles over bands of loops and without the later reordering passes; the search does not ensure that (C76_tiled_refuted)."
  },
  {
   "property": "C77",
   "status": "partial",
   "theorems": [
    "C77_numbers",
    "C77_numbers_refuted",
    "C77_least_solution",
    "C77_solvers_agree",
    "C77_large_solution_refuted"
   ],
   "note": "Proved for systems and least solutions of 64-bit numbers. Refuted beyond: numbers below -2^63 come back from isl as 2^63-1 (C77_numbers_refuted), and a least solution with a larger coordinate is changed into a point outside the set by both solvers (C77_large_solution_refuted). What isl_set_lexmin and pip_solve compute is a hypothesis."
  },
  {
   "property": "C78",
   "status": "partial",
   "theorems": [
    "C78_intersection_isl",
    "C78_no_context_refuted",
    "C78_project_isl_single_partial",
    "C78_project_isl_union_refuted",
    "C78_polylib",
    "C78_are_equal",
    "C78_project_out",
    "C78_project_integer_refuted"
   ],
   "note": "Intersection by isl, union, intersection, difference and equality by PolyLib, rational projection: proved (isl results with existentially quantified variables are enlarged, never cut). Refuted: union and projection by isl use no context and never have a result (C78_no_context_refuted); only the first element of a union is projected by the single version; the rational projection may contain integer points that are not projections (C78_project_integer_refuted)."
  },
  {
   "property": "C79",
   "status": "partial",
   "theorems": [
    "C79_functions_partial",
    "C79_accesses_partial",
    "C79_functions_refuted"
   ],
   "note": "Proved for maps whose dimensions have one piece with integer coefficients and no integer divisions. Otherwise refuted: denominators are dropped, of several pieces the last is used, divisions become zero, and a dimension that is not single valued moves the other subscripts (C79_functions_refuted)."
  },
  {
   "property": "C80",
   "status": "partial",
   "theorems": [
    "C80_parallel",
    "C80_parallel_refuted",
    "C80_normal",
    "C80_normal_refuted",
    "C80_min_lexical",
    "C80_replaced_hyperplane"
   ],
   "note": "Exact for 32-bit entries (normal: 32-bit partial sums); refuted beyond, the code keeps ratios and sums in int (C80_parallel_refuted, C80_normal_refuted)."
  },
  {
   "property": "C81",
   "status": "partial",
   "theorems": [
    "C81_file",
    "C81_text_refuted",
    "C81_given",
    "C81_levels"
   ],
   "note": "The file is exact, as characters, for parameter names that are words and statement texts of one line; a line break in a statement text makes the file unreadable (C81_text_refuted). The context is exact as far as the intersection computed by isl is (C78)."
  },
  {
   "property": "C82",
   "status": "partial",
   "theorems": [
    "C82_declared",
    "C82_macro",
    "C82_private",
    "C82_buffers",
    "C82_openscop_private_partial",
    "C82_openscop_private_refuted"
   ],
   "note": "Declarations, macros and the private clauses of the code are proved, as characters, and the buffers suffice for 100 levels (OpenScop: 30). In the OpenScop export the list is right only without vectorized loops: the separator after \"lbv, ubv\" is missing (C82_openscop_private_refuted)."
  },
  {
   "property": "C83",
   "status": "partial",
   "theorems": [
    "C83_order_partial",
    "C83_legal",
    "C83_refuted"
   ],
   "note": "Proved for all conflict graphs if no skewing is introduced: no target runs before its source, and it runs strictly later unless dependences lead back to the source statement (C83_order_partial); without cycles between different statements the result is legal (C83_legal). With such cycles two dependent instances can get the same date and no failure is reported, since the levels found are only required not to run dependences backwards and a final cut separates components only (C83_refuted). Skewing can run dependences backwards (C85). Modelled without clustering of components (scc_cluster), typed fusion, hybrid cut and diamond tiling."
  },
  {
   "property": "C84",
   "status": "partial",
   "theorems": [
    "C84_one_to_one_partial",
    "C84_no_conflicts"
   ],
   "note": "The choice of dimensions is proved for every conflict graph, one component at a time; different dates for different iterations are proved for runs without skewing."
  },
  {
   "property": "C85",
   "status": "partial",
   "theorems": [
    "C85_unskewed",
    "C85_skewed_level",
    "C85_parallel",
    "C85_exchange",
    "C85_shift_refuted",
    "C85_swap_refuted"
   ],
   "note": "A skewed level is exact as stated (C85_skewed_level), one that is taken for parallel has only zero distances (C85_parallel), an exchange of levels changes the times of the component only (C85_exchange), and nothing changes if no skew is introduced. Not so for the whole transformation: the constants of all statements are recomputed with the constraints of one connected component only, so that shifts other components need are lost (C85_shift_refuted), and a skewed parallel level is moved outwards past scalar levels that rely on the level it replaces (C85_swap_refuted)."
  },
  {
   "property": "C86",
   "status": "partial",
   "theorems": [
    "C86_self",
    "C86_pair",
    "C86_rest",
    "C86_joint_refuted"
   ],
   "note": "Self edges, edges between dependent statements and all other entries are characterised exactly, for an exact linear programming solver. Loops that are pairwise free of conflicts can still be impossible to schedule together: three statements on which the framework stops with an assertion, whatever the solver (C86_joint_refuted)."
  },
  {
   "property": "C87",
   "status": "partial",
   "theorems": [
    "C87_update_partial",
    "C87_nofuse_refuted",
    "C87_rebuild_refuted"
   ],
   "note": "Proved for all fusion modes but nofuse. With nofuse the offset of one statement is used for both, which erases conflicts within a statement and can write outside of the matrix (C87_nofuse_refuted). The update is also reached with a graph marked for rebuilding, where its assertion fails (C87_rebuild_refuted)."
  },
  {
   "property": "C88",
   "status": "proved",
   "theorems": [
    "C88_constraints",
    "C88_legal",
    "C88_cost"
   ],
   "note": "Proved for all answers precise enough to be rounded (an explicit bound on the errors), without option dfp; the cost is the weighted sum that the code gives to the solver."
  },
  {
   "property": "C89",
   "status": "partial",
   "theorems": [
    "C89_scaled_partial",
    "C89_legal_partial",
    "C89_legal_refuted"
   ],
   "note": "Proved for programs whose dependences join only statements that follow one another (C89_legal_partial); constraint by constraint for components of consecutive statements (C89_scaled_partial). In general refuted: component numbers can put statements that depend on each other in differently scaled groups, which reverses a dependence although all answers are exact; the coefficient bound is exceeded as well (C89_legal_refuted)."
  },
  {
   "property": "C90",
   "status": "partial",
   "theorems": [
    "C90_lexmin_refuted",
    "C90_dfp_ilp_refuted"
   ],
   "note": "Refuted. The objective is a weighted sum: even an exact optimum need not be the lexicographically least (u, w, ...) (C90_lexmin_refuted). With --dfp --ilp a NULL pointer is dereferenced (C90_dfp_ilp_refuted). What holds instead is C88_cost."
  },
  {
   "property": "C91",
   "status": "partial",
   "theorems": [
    "C91_transform",
    "C91_transform_accesses_partial",
    "C91_accesses_refuted",
    "C91_one_access_refuted",
    "C91_schedule_partial",
    "C91_schedule_and_get_remapping",
    "C91_parallel_schedule_refuted",
    "C91_schedule_str_refuted",
    "C91_get_remapping_str_partial",
    "C91_operations",
    "C91_conversions",
    "C91_union_refuted"
   ],
   "note": "pluto_transform without accesses, pluto_schedule_and_get_remapping, the conversions and the operations on constraints are clean. With accesses everything is released, but a basic map is used after it was given away (program.cpp:535; C91_accesses_refuted); passing only reads or only writes leaks them (C91_one_access_refuted). pluto_schedule leaks the RAR dependences with option rar and dereferences NULL with last writers and coalescing (C91_schedule_partial). pluto_parallel_schedule_with_remapping and pluto_schedule_str are never clean (double release, or a leak after a failure); pluto_get_remapping_str dereferences NULL after a failure; union and projection with a NULL context always fail an assertion (C91_union_refuted)."
  },
  {
   "property": "C92",
   "status": "partial",
   "theorems": [
    "C92_no_file",
    "C92_groups_kept",
    "C92_groups_legal_partial",
    "C92_flags_without_effect",
    "C92_rows_kept_partial",
    "C92_rows_legal_partial",
    "C92_groups_refuted",
    "C92_rows_refuted"
   ],
   "note": "Groups are obeyed without any assumption on the solver (C92_groups_kept). The result is legal if the file does not contradict the dependences (C92_groups_legal_partial, C92_rows_legal_partial); nothing checks the file, and a wrong one is obeyed with status 0 (C92_groups_refuted). Rows of .precut are kept only if they have no parameter coefficients, which are dropped silently (C92_rows_kept_partial, C92_rows_refuted). The flag that says whether to tile a group has no effect (C92_flags_without_effect)."
  },
  {
   "property": "C93",
   "status": "partial",
   "theorems": [
    "C93_legal_partial",
    "C93_failure_restores",
    "C93_own_bound",
    "C93_sum_partial",
    "C93_sum_refuted",
    "C93_memory_refuted",
    "C93_memory_partial",
    "C93_capacity"
   ],
   "note": "Legality and injectivity hold for every run that ends without an overrun of the constraint memory (C93_legal_partial, C93_failure_restores); bounds are those of the component of the source (C93_own_bound). The sum of bounds is least only without parameters (C93_sum_partial): with parameters the sums are taken over the wrong columns, and a hyperplane with a larger sum is chosen (C93_sum_refuted). The memory for the constraints is allocated once; when a later round has more components, longer rows are written into it (C93_memory_refuted); this cannot happen while the number of components does not grow (C93_memory_partial). A system that was built fits the memory recorded for it (C93_capacity)."
  },
  {
   "property": "C94",
   "status": "partial",
   "theorems": [
    "C94_constraints",
    "C94_constraints_refuted",
    "C94_status_refuted",
    "C94_legal",
    "C94_none",
    "C94_cost"
   ],
   "note": "Proved if every call ends with an optimum or without solution: answers precise enough to be rounded satisfy every constraint that has a coefficient (C94_constraints), the weighted cost is least (C94_cost), NULL means that there is no non-negative solution (C94_none), and the transformation is legal (C94_legal). Refuted parts: constraints without coefficients are dropped, so that an unsatisfiable system has a solution (C94_constraints_refuted); a state other than optimal is taken for a solution (C94_status_refuted)."
  },
  {
   "property": "C95",
   "status": "partial",
   "theorems": [
    "C95_scaled_partial",
    "C95_legal_partial",
    "C95_legal_refuted"
   ],
   "note": "As C89: proved for programs whose dependences join only statements that follow one another (C95_legal_partial) and, constraint by constraint, for components of consecutive statements (C95_scaled_partial); in general refuted with exact answers (C95_legal_refuted)."
  },
  {
   "property": "C96",
   "status": "partial",
   "theorems": [
    "C96_order_partial",
    "C96_one_to_one_partial",
    "C96_legal",
    "C96_no_conflicts",
    "C96_one_to_one_refuted",
    "C96_terminates_refuted",
    "C96_self",
    "C96_pair",
    "C96_shift_refuted"
   ],
   "note": "Proved for every number of steps within which the search ends, if no skewing is introduced: the program is kept and no target runs before its source (C96_order_partial), legality if cycles do not connect different statements (C96_legal), different times for different instances if the statements on a cycle have the same number of loops (C96_one_to_one_partial), no fusion of loops in conflict (C96_no_conflicts). Meaning of the edges of the conflict graph: a dimension has a self edge exactly if no scaling of its loops orders the dependences within the SCC (C96_self), two dimensions of dependent SCCs are in conflict exactly if no scaling and shifting orders the dependences among the two (C96_pair); shifts within an SCC are not considered, so that a usable dimension can get a self edge (C96_shift_refuted). Refuted parts: a loop of a statement can be lost if the loop counts differ (C96_one_to_one_refuted), and the search need not end (C96_terminates_refuted)."
  },
  {
   "property": "C97",
   "status": "partial",
   "theorems": [
    "C97_iff",
    "C97_stencil",
    "C97_close",
    "C97_answers_partial",
    "C97_oracle_exists",
    "C97_complete_refuted",
    "C97_nodepbound_refuted"
   ],
   "note": "Proved: for the face that is found the answer is yes exactly if the component is a stencil seen from it, otherwise no (C97_iff); a yes comes with a face that is valid (C97_stencil), with hyperplanes off it of distance at most 10 (C97_close), and the check answers whenever the bounding constraints are kept (C97_answers_partial). Refuted parts: another face with concurrent start may show a stencil that the first one found does not (C97_complete_refuted), and with option nodepbound the check reads a null pointer (C97_nodepbound_refuted)."
  },
  {
   "property": "C98",
   "status": "partial",
   "theorems": [
    "C98_consistent",
    "C98_refused",
    "C98_last_wins",
    "C98_kept",
    "C98_solver_partial",
    "C98_solver_refuted",
    "C98_lastwriter_refuted",
    "C98_taken_refuted",
    "C98_given",
    "C98_taken",
    "C98_adjusted",
    "C98_default_partial",
    "C98_default_refuted",
    "C98_files"
   ],
   "note": "Proved: accepted options are consistent (C98_consistent), refusals are exactly the conflicts listed (C98_refused), the last option counts (C98_last_wins), other options are kept (C98_kept), and a solver that is built in is called unless only Gurobi is (C98_solver_partial). Refuted parts: with Gurobi only, lp and dfp choose GLPK and nothing is solved (C98_solver_refuted); dfp turns last-writer analysis on with candldep and against nolastwriter (C98_lastwriter_refuted); clusterscc does not turn dfp on as announced, negative sizes are accepted, hybridfuse overrides a later option, a second source is dropped (C98_taken_refuted). Not modelled: abbreviated option names and the conversion of text to numbers. What each option means is stated by a table after the help text, and the last argument counts (C98_given), up to the options the tool works with (C98_taken); the options made consistent change in the cases listed only (C98_adjusted, solver options apart); the files used are the first source and the last output named (C98_files). Defaults are those of the help text (C98_default_partial) but for tiling and parallelization, which it calls disabled and which are enabled (C98_default_refuted)."
  },
  {
   "property": "C99",
   "status": "partial",
   "theorems": [
    "C99_names",
    "C99_fit",
    "C99_distinct",
    "C99_overwrite_refuted"
   ],
   "note": "Proved: the names (C99_names), that they fit (C99_fit), and that without option o the source is not overwritten (C99_distinct). Refuted parts: sources with the same base name share their output, and with option o the CLooG file can be the source (C99_overwrite_refuted)."
  },
  {
   "property": "C100",
   "status": "partial",
   "theorems": [
    "C100_greedy",
    "C100_once",
    "C100_refused",
    "C100_choice",
    "C100_sequential",
    "C100_convex",
    "C100_pair_parallel",
    "C100_self_parallel",
    "C100_flag",
    "C100_group_refuted",
    "C100_most_refuted",
    "C100_check_refuted"
   ],
   "note": "Proved for the choice of dimensions: what gets a level (C100_greedy, C100_once), when a component is refused (C100_refused, C100_sequential), which dimension is taken (C100_choice), and that no chain of dependences leads from the component through another one to one fused with it (C100_convex). The matrices are given their meaning: where they have no edge, a component or a connected pair that is tested can run with equal times at both ends of every dependence (C100_self_parallel, C100_pair_parallel), and a component is called parallel only if it has such a dimension or no dependences (C100_flag); for components whose statements all have the dimension. Refuted parts: the group fused together need not be convex (C100_group_refuted), the dimension taken need not be the one fused with the most components (C100_most_refuted), and pairs of sequential components are checked after the first parallel pair (C100_check_refuted)."
  },
  {
   "property": "C101",
   "status": "partial",
   "theorems": [
    "C101_order_partial"
   ],
   "note": "Proved for results without skewing. Missing: skewed results."
  },
  {
   "property": "C102",
   "status": "partial",
   "theorems": [
    "C102_order_partial",
    "C102_independent",
    "C102_parallel_partial",
    "C102_every",
    "C102_marks",
    "C102_next",
    "C102_lost_refuted"
   ],
   "note": "Proved: a recorded solution orders the dependences inside of the component (C102_order_partial), uses an open loop of every statement (C102_independent), a component marked parallel has a solution that carries nothing (C102_parallel_partial), every component gets a solution if each has a schedule (C102_every) and then the marks are exact (C102_marks), and the loop tried next is one of the solution (C102_next). The partial theorems assume that coefficients of loops a statement does not have are 0. Refuted in general: when a later component has no schedule the components are computed again and the solutions of earlier ones are lost (C102_lost_refuted), so that the next choice of a loop reads a missing solution."
  }
 ]
}