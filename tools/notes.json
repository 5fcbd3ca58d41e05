{
 "C01": {
  "status": "proved",
  "note": "Full claim for products that fit 64 bits; the parenthetical remark of the property (wrong with wrap-around) is the _refuted theorem."
 },
 "C42": {
  "status": "proved",
  "note": "Column interchange/move for entries that fit the int temporary, as the property says; the _refuted theorem shows the restriction is needed."
 },
 "C44": {
  "note": "The code over-reports the rank of some matrices with more columns than rows (C44_rank_wide_refuted); exact when ncols <= nrows, never under-reported."
 },
 "C46": {
  "note": "Appending, copying, emptiness and bounds are proved in full. add_to_each drops rows of later pieces when a reallocation is needed, and a domain of three or more pieces loses pieces (both refuted); the _partial theorems give the cases that hold."
 },
 "C48": {
  "note": "Only right when the constant is 0; otherwise refuted."
 },
 "C49": {
  "note": "Refuted in general (equalities, non-unit coefficients, bounds below INT_MIN); holds for projections that are inequalities with unit coefficients."
 },
 "C50": {
  "note": "Matrix conversion and single systems proved; a printed list of two or more systems is not read back (refuted)."
 },
 "C58": {
  "note": "The set is unchanged because the function does nothing; primitivity is refuted."
 },
 "C19": {
  "note": "Refuted: the search numbers a vertex with the running counter, so connected statements can get different ids. Proved: the number of components is right, and the ids are right when every component is an interval of statement numbers."
 },
 "C20": {
  "note": "Refuted: the loop over the middle vertex is innermost and misses long paths. Proved: only real paths are added, edges and two-edge paths are all present."
 },
 "C28": {
  "status": "proved",
  "note": "Full claim. Extra: not moving across scalar levels holds for loops at depth > 0; at depth 0 the unsigned limit wraps around (C28_depth_zero_scalar_refuted)."
 },
 "C36": {
  "note": "Statement and dependence polyhedra are restored exactly; the bounding polyhedra keep the additional columns because stmt_remove_dim does not touch them (refuted part)."
 },
 "C37": {
  "note": "Domains, schedules, accesses and dependence polyhedra proved; bounding polyhedra are not extended (refuted part)."
 },
 "C38": {
  "note": "Statements, ids and dependences between remaining statements proved; dependences of the removed statement stay in the program and end up at another statement or out of range (refuted part)."
 },
 "C51": {
  "note": "Refuted: the last write is always outside of the constraint matrix and the strip constraints lack the constant, so iterations are lost. C51_strips_partial says exactly which iterations remain. The function has no caller in the library."
 },
 "C30": {
  "note": "Proved for schedules in which some level orders each dependence and no earlier level reverses it (what the eager hyperplane search produces), including legality of tiling all reported bands. Refuted for other legal schedules: a dependence ordered only by several levels together is ignored, a dependence satisfied by a constant level after the band is ignored, and an assertion can fail."
 },
 "C55": {
  "note": "Bands: proved for all lists. Loops: proved when fused statements have loops at the same levels, refuted otherwise."
 },
 "C26": {
  "note": "Proved for permutable bands all of whose levels are loops. Refuted for --innerpar style schedules of a band that is not entirely permutable and for a constant level inside of the band."
 },
 "C27": {
  "note": "Proved: rescheduling exchanges exactly one row, is its own inverse, restores the schedule without tiling, and after one or two levels of tiling every tile runs in the original order and all dependences are respected. Refuted when a level of the band is a constant: the wrong row is exchanged."
 },
 "C39": {
  "note": "Single statement and whole pass, for any is_long decision and any sound solver. Domains and dependences with one polyhedron each; the names and the NULL indcst path are left out."
 },
 "C40": {
  "note": "Every dependent pair belongs to exactly one new dependence, legality is unchanged, and the pass is defined when some dependence has an instance. Refuted: if all dependences turn out empty when split, the freed dependence array stays in use."
 },
 "C61": {
  "note": "Farkas system of pluto_find_iss with a sound (complete) solver as parameter; a sound and complete solver is shown to exist."
 },
 "C31": {
  "note": "Schedules and domains exported to isl form, one domain piece per statement."
 },
 "C33": {
  "note": "Proved over the integers. Refuted for the code's int divisors and temporaries: large coefficients overflow 32 bits."
 },
 "C56": {
  "note": "Proved when size + factor fits into 32 bits (factor up to 2^31); refuted beyond: unsigned wrap-around gives 0 or a farther multiple."
 },
 "C62": {
  "note": "File: proved for the sizes, ratios and legality of tiling with one or two levels. Automatic: proved when sizes are returned, and that they are when all loops are in the band and one is parallel. Refuted: without a parallel loop and with loops below the band the code accesses arrays out of bounds. Reuse values are rationals, conversion to unsigned and polynomial root are parameters."
 },
 "C63": {
  "note": "For any scoring of loops; the score (vectorizability, locality) is a parameter."
 },
 "C64": {
  "note": "Model of the passes in tool/main.cpp:664-702; register tiling, unroll-jam marking and diamond tiling are left out, --innerpar is excluded, wavefronts need bands whose levels are all loops (C26_scalar_in_band_refuted shows why)."
 },
 "C65": {
  "note": "The sum of accesses with spatial or temporal reuse is compared with the number of all accesses as in the code."
 },
 "C66": {
  "note": "Partial: proved for programs whose statements are nested equally deep, searches ending in the eager mode, no --innerpar, and wavefronts over bands whose levels are all loops. Refuted from input to output: tiling of fused statements of different depths, and wavefronts over a band with a constant level, break dependences. The solvers (exact emptiness, sound ILP answers, correct kernels) are hypotheses. Diamond tiling, which is on by default, is left out here and treated in C76."
 },
 "C67": {
  "note": "Proved when the outermost parallel loops are in the generated code; refuted otherwise: when they vanish (single iteration), the loop at the level after the parallel ones can be marked (comparison inloops[0]->depth > depth + width is off by one). CLooG's AST is given as the list of its loops."
 },
 "C68": {
  "note": "Proved when no loop lies inside of the band; refuted otherwise: the innermost-band test is called for one tiling level on bands that already contain the tile loops, so loops with non-permutable inner loops are jammed. The unroll-and-jam of CLooG is specified as an execution order. C68_selected and C68_tile_loops: what is selected and that recognised tile loops are tile loops."
 },
 "C69": {
  "note": "CLooG's AST is given as the list of its loops."
 },
 "C70": {
  "note": "Proved for one relation per domain and for schedules and accesses of the form [eq -I A c] with rows in any order. Refuted otherwise: only the first relation of a union of domains is read (C70_union_refuted), and the sign of the output coefficient of a schedule row is ignored (C70_sign_refuted)."
 },
 "C71": {
  "note": "The extensions (names, loop lists, unroll lists) are not modelled."
 },
 "C72": {
  "note": "The polyhedron and the positions of the accesses are right (for the matrix layout documented in osl/extensions/dependence.h, stated in SpecOsl.v). The type is lost: the switch over the type has no break, so every dependence becomes undefined and the assertion that follows aborts (C72_types_refuted). The default is isl, not Candl."
 },
 "C73": {
  "note": "isl's flow analysis, coalescing and removal of existential variables are parameters, assumed to do what isl's manual says (SpecDeps.v); proved for the calls and the extraction in Pluto, and for the access maps, names and schedules built from OpenScop. Partial: that dependences relate only conflicting iterations, with the right accesses, needs that removing the existential variables is exact. The transitive dependences are not used by the tool and not treated; the intersection with the context is left out."
 },
 "C74": {
  "note": "C74_same_result and C74_parallel are complete for any correct transformation whose dependences cover all conflicts (C73). C74_tool_partial composes this with the whole tool under the conditions of C66_end_to_end_partial; where these fail, C66 has counterexamples."
 },
 "C75": {
  "note": "C75_library_partial and C75_schedule_partial hold under the conditions of C66_end_to_end_partial (one depth, normal mode of the search, wavefronts over loops, no --innerpar), for domains of one basic set each and when the entries of the schedules fit 32 bits. Refuted otherwise: coefficients are cut to int when schedules are handed out (C75_large_shift_refuted); with the default options plain statement names stop the library (C75_default_names_refuted); pluto_schedule with lastwriter and coalescing dereferences NULL (C75_null_refuted). Existentially quantified variables that isl removes are covered. --identity is not modelled here. C75_failure: when the search fails the result is NULL."
 },
 "C76": {
  "note": "C76_pass covers one pass of diamond tiling. C76_auto_legal_partial and C76_first_round_partial: the search is legal if rows are replaced only while nothing but constant levels was found before, in the first of the two search modes, and every statement has a loop. Refuted otherwise: when a later round finds two more rows, the pass takes the outer band again and ignores the dependences that the band orders (C76_auto_legal_refuted). C76_tiled_partial: tiling is legal if the program with the replaced rows put back is legal, for one level of tiles over bands of loops and without the later reordering passes; the search does not ensure that (C76_tiled_refuted)."
 },
 "C77": {
  "note": "Proved for systems and least solutions of 64-bit numbers. Refuted beyond: numbers below -2^63 come back from isl as 2^63-1 (C77_numbers_refuted), and a least solution with a larger coordinate is changed into a point outside the set by both solvers (C77_large_solution_refuted). What isl_set_lexmin and pip_solve compute is a hypothesis."
 },
 "C78": {
  "note": "Intersection by isl, union, intersection, difference and equality by PolyLib, rational projection: proved (isl results with existentially quantified variables are enlarged, never cut). Refuted: union and projection by isl use no context and never have a result (C78_no_context_refuted); only the first element of a union is projected by the single version; the rational projection may contain integer points that are not projections (C78_project_integer_refuted)."
 },
 "C79": {
  "note": "Proved for maps whose dimensions have one piece with integer coefficients and no integer divisions. Otherwise refuted: denominators are dropped, of several pieces the last is used, divisions become zero, and a dimension that is not single valued moves the other subscripts (C79_functions_refuted)."
 },
 "C80": {
  "note": "Exact for 32-bit entries (normal: 32-bit partial sums); refuted beyond, the code keeps ratios and sums in int (C80_parallel_refuted, C80_normal_refuted)."
 },
 "C81": {
  "note": "The file is exact, as characters, for parameter names that are words and statement texts of one line; a line break in a statement text makes the file unreadable (C81_text_refuted). The context is exact as far as the intersection computed by isl is (C78)."
 },
 "C82": {
  "note": "Declarations, macros and the private clauses of the code are proved, as characters, and the buffers suffice for 100 levels (OpenScop: 30). In the OpenScop export the list is right only without vectorized loops: the separator after \"lbv, ubv\" is missing (C82_openscop_private_refuted)."
 },
 "C83": {
  "note": "Proved for all conflict graphs if no skewing is introduced: no target runs before its source, and it runs strictly later unless dependences lead back to the source statement (C83_order_partial); without cycles between different statements the result is legal (C83_legal). With such cycles two dependent instances can get the same date and no failure is reported, since the levels found are only required not to run dependences backwards and a final cut separates components only (C83_refuted). Skewing can run dependences backwards (C85). Modelled without clustering of components (scc_cluster), typed fusion, hybrid cut and diamond tiling."
 },
 "C84": {
  "note": "The choice of dimensions is proved for every conflict graph, one component at a time; different dates for different iterations are proved for runs without skewing."
 },
 "C85": {
  "note": "A skewed level is exact as stated (C85_skewed_level), one that is taken for parallel has only zero distances (C85_parallel), an exchange of levels changes the times of the component only (C85_exchange), and nothing changes if no skew is introduced. Not so for the whole transformation: the constants of all statements are recomputed with the constraints of one connected component only, so that shifts other components need are lost (C85_shift_refuted), and a skewed parallel level is moved outwards past scalar levels that rely on the level it replaces (C85_swap_refuted)."
 },
 "C86": {
  "note": "Self edges, edges between dependent statements and all other entries are characterised exactly, for an exact linear programming solver. Loops that are pairwise free of conflicts can still be impossible to schedule together: three statements on which the framework stops with an assertion, whatever the solver (C86_joint_refuted)."
 },
 "C87": {
  "note": "Proved for all fusion modes but nofuse. With nofuse the offset of one statement is used for both, which erases conflicts within a statement and can write outside of the matrix (C87_nofuse_refuted). The update is also reached with a graph marked for rebuilding, where its assertion fails (C87_rebuild_refuted)."
 },
 "C88": {
  "note": "Proved for all answers precise enough to be rounded (an explicit bound on the errors), without option dfp; the cost is the weighted sum that the code gives to the solver."
 },
 "C89": {
  "note": "Proved for programs whose dependences join only statements that follow one another (C89_legal_partial); constraint by constraint for components of consecutive statements (C89_scaled_partial). In general refuted: component numbers can put statements that depend on each other in differently scaled groups, which reverses a dependence although all answers are exact; the coefficient bound is exceeded as well (C89_legal_refuted)."
 },
 "C90": {
  "note": "Refuted. The objective is a weighted sum: even an exact optimum need not be the lexicographically least (u, w, ...) (C90_lexmin_refuted). With --dfp --ilp a NULL pointer is dereferenced (C90_dfp_ilp_refuted). What holds instead is C88_cost."
 },
 "C91": {
  "note": "pluto_transform without accesses, pluto_schedule_and_get_remapping, the conversions and the operations on constraints are clean. With accesses everything is released, but a basic map is used after it was given away (program.cpp:535; C91_accesses_refuted); passing only reads or only writes leaks them (C91_one_access_refuted). pluto_schedule leaks the RAR dependences with option rar and dereferences NULL with last writers and coalescing (C91_schedule_partial). pluto_parallel_schedule_with_remapping and pluto_schedule_str are never clean (double release, or a leak after a failure); pluto_get_remapping_str dereferences NULL after a failure; union and projection with a NULL context always fail an assertion (C91_union_refuted)."
 },
 "C92": {
  "note": "Groups are obeyed without any assumption on the solver (C92_groups_kept). The result is legal if the file does not contradict the dependences (C92_groups_legal_partial, C92_rows_legal_partial); nothing checks the file, and a wrong one is obeyed with status 0 (C92_groups_refuted). Rows of .precut are kept only if they have no parameter coefficients, which are dropped silently (C92_rows_kept_partial, C92_rows_refuted). The flag that says whether to tile a group has no effect (C92_flags_without_effect)."
 },
 "C93": {
  "note": "Legality and injectivity hold for every run that ends without an overrun of the constraint memory (C93_legal_partial, C93_failure_restores); bounds are those of the component of the source (C93_own_bound). The sum of bounds is least only without parameters (C93_sum_partial): with parameters the sums are taken over the wrong columns, and a hyperplane with a larger sum is chosen (C93_sum_refuted). The memory for the constraints is allocated once; when a later round has more components, longer rows are written into it (C93_memory_refuted); this cannot happen while the number of components does not grow (C93_memory_partial). A system that was built fits the memory recorded for it (C93_capacity)."
 },
 "C94": {
  "note": "Proved if every call ends with an optimum or without solution: answers precise enough to be rounded satisfy every constraint that has a coefficient (C94_constraints), the weighted cost is least (C94_cost), NULL means that there is no non-negative solution (C94_none), and the transformation is legal (C94_legal). Refuted parts: constraints without coefficients are dropped, so that an unsatisfiable system has a solution (C94_constraints_refuted); a state other than optimal is taken for a solution (C94_status_refuted)."
 },
 "C95": {
  "note": "As C89: proved for programs whose dependences join only statements that follow one another (C95_legal_partial) and, constraint by constraint, for components of consecutive statements (C95_scaled_partial); in general refuted with exact answers (C95_legal_refuted)."
 },
 "C96": {
  "note": "Proved for every number of steps within which the search ends, if no skewing is introduced: the program is kept and no target runs before its source (C96_order_partial), legality if cycles do not connect different statements (C96_legal), different times for different instances if the statements on a cycle have the same number of loops (C96_one_to_one_partial), no fusion of loops in conflict (C96_no_conflicts). Meaning of the edges of the conflict graph: a dimension has a self edge exactly if no scaling of its loops orders the dependences within the SCC (C96_self), two dimensions of dependent SCCs are in conflict exactly if no scaling and shifting orders the dependences among the two (C96_pair); shifts within an SCC are not considered, so that a usable dimension can get a self edge (C96_shift_refuted). Refuted parts: a loop of a statement can be lost if the loop counts differ (C96_one_to_one_refuted), and the search need not end (C96_terminates_refuted)."
 },
 "C97": {
  "note": "Proved: for the face that is found the answer is yes exactly if the component is a stencil seen from it, otherwise no (C97_iff); a yes comes with a face that is valid (C97_stencil), with hyperplanes off it of distance at most 10 (C97_close), and the check answers whenever the bounding constraints are kept (C97_answers_partial). Refuted parts: another face with concurrent start may show a stencil that the first one found does not (C97_complete_refuted), and with option nodepbound the check reads a null pointer (C97_nodepbound_refuted)."
 },
 "C98": {
  "note": "Proved: accepted options are consistent (C98_consistent), refusals are exactly the conflicts listed (C98_refused), the last option counts (C98_last_wins), other options are kept (C98_kept), and a solver that is built in is called unless only Gurobi is (C98_solver_partial). Refuted parts: with Gurobi only, lp and dfp choose GLPK and nothing is solved (C98_solver_refuted); dfp turns last-writer analysis on with candldep and against nolastwriter (C98_lastwriter_refuted); clusterscc does not turn dfp on as announced, negative sizes are accepted, hybridfuse overrides a later option, a second source is dropped (C98_taken_refuted). Not modelled: abbreviated option names and the conversion of text to numbers. What each option means is stated by a table after the help text, and the last argument counts (C98_given), up to the options the tool works with (C98_taken); the options made consistent change in the cases listed only (C98_adjusted, solver options apart); the files used are the first source and the last output named (C98_files). Defaults are those of the help text (C98_default_partial) but for tiling and parallelization, which it calls disabled and which are enabled (C98_default_refuted)."
 },
 "C99": {
  "note": "Proved: the names (C99_names), that they fit (C99_fit), and that without option o the source is not overwritten (C99_distinct). Refuted parts: sources with the same base name share their output, and with option o the CLooG file can be the source (C99_overwrite_refuted)."
 },
 "C100": {
  "note": "Proved for the choice of dimensions: what gets a level (C100_greedy, C100_once), when a component is refused (C100_refused, C100_sequential), which dimension is taken (C100_choice), and that no chain of dependences leads from the component through another one to one fused with it (C100_convex). The matrices are given their meaning: where they have no edge, a component or a connected pair that is tested can run with equal times at both ends of every dependence (C100_self_parallel, C100_pair_parallel), and a component is called parallel only if it has such a dimension or no dependences (C100_flag); for components whose statements all have the dimension. Refuted parts: the group fused together need not be convex (C100_group_refuted), the dimension taken need not be the one fused with the most components (C100_most_refuted), and pairs of sequential components are checked after the first parallel pair (C100_check_refuted)."
 },
 "C101": {
  "note": "Proved for results without skewing. Missing: skewed results."
 },
 "C102": {
  "note": "Proved: a recorded solution orders the dependences inside of the component (C102_order_partial), uses an open loop of every statement (C102_independent), a component marked parallel has a solution that carries nothing (C102_parallel_partial), every component gets a solution if each has a schedule (C102_every) and then the marks are exact (C102_marks), and the loop tried next is one of the solution (C102_next). The partial theorems assume that coefficients of loops a statement does not have are 0. Refuted in general: when a later component has no schedule the components are computed again and the solutions of earlier ones are lost (C102_lost_refuted), so that the next choice of a loop reads a missing solution."
 }
}