c("C01","proved","rational_programs_exact rational_equality_decides","All client programs over RationalNTL variables, aliasing of operands included; in-place self-division is C51.")
c("C02","proved","rational_power_exact rational_power_of_zero_rejected")
c("C04","partial","rational_zero_denominator_refuted rational_zero_denominator_always_a_number","REFUTED: the code turns a zero denominator into one without any error.")
c("C51","partial","rational_self_division_refuted rational_self_division_actual","REFUTED: r.div(r) gives 1/denominator because the operand is read after being overwritten.")
c("C52","proved","rational_inner_product_exact rational_inner_product_length_checked")
c("C53","proved","my_gcd_is_gcd")
c("C08","proved","heap_is_priority_queue heap_aborts_only_on_illegal_calls heap_pops_sorted heap_int_orders","Int and custom heaps; double weights have the same code text (NaN excluded).")
c("C09","proved","heap_is_priority_queue heap_aborts_only_on_illegal_calls","Freeze/thaw are operations of the histories quantified over.")
c("C05","proved","ratvec_histories_run ratvec_scale_exact ratvec_scale_minimal")
c("C54","proved","ratvec_set_entry_effect ratvec_canonicalize_effect ratvec_scalar_multiplication_effect")
c("C07","proved","ratvec_normalize_effect","For positive denominators; a negative denominator is never larger than one, so the code leaves it.")
c("C06","proved","construct_ray_primitive construct_ray_equal_points_abort")
c("C35","partial","vector_membership_correct point_list_comparison_refuted point_list_membership_actual point_list_comparison_actual","REFUTED for isEqual and the two-argument membership test; the three-argument membership test is proved.")
c("C46","partial","redundant_constraint_removal_refuted redundant_constraint_removal_partial","REFUTED: removeListVector unlinks the node after its argument, so another row is dropped (or NULL is dereferenced).")
c("C47","proved","list_length_counts list_copy_faithful list_append_concatenates list_append_to_itself_never_ends list_free_exact collector_keeps_every_cone collector_rejects_chains","Pointer-level model with explicit heap.")
c("C55","proved","dilated_rows_describe_dilation")
c("C56","proved","interior_rows_describe_interior")
c("C25","proved","enumerator_visits_every_combination_once enumerator_without_columns enumerator_negative_bound_never_ends")
c("C33","partial","aggregation_keeps_nonnegative_solutions aggregation_rejects_negative_rows aggregation_all_accepted_inputs_refuted","Proved for every accepted matrix with positive data; REFUTED in the degenerate case where every selected right-hand side (or coefficient) is 0.")
c("C34","partial","binary_search_finds_maximum binary_search_finds_minimum_partial binary_search_minimum_sign_refuted binary_search_infeasible_prints_value search_files_select_cost_levels","Maximisation proved in full; REFUTED for minimisation when the optimum equals the LP bound: the printed value has the wrong sign.")
c("C38","proved","timer_reports_running_time")
c("C36","proved","big_integer_conversions_lossless","NTL/GMP byte routines are modelled by their documented effect.")
c("C57","proved","machine_integer_conversion_exact_or_aborts")
c("C58","proved","inner_product_modulo_exact")
c("C50","partial","random_int_in_range random_int_attains_every_value random_int_wide_range_refuted random_big_integer_in_range random_big_integer_attains_every_value","Proved for int ranges of at most INT_MAX values (attainability up to 2^31-1024) and all big-integer ranges; REFUTED for wider int ranges (overflow).")
c("C10","proved","trie_is_a_finite_map trie_is_a_finite_map_any_coefficients trie_of_zeros_dereferences_null","Monomials and linear forms; with only zero coefficients inserted there is no trie and iterating dereferences NULL (proved separately).")
c("C11","proved","block_storage_exact")
c("C13","partial","truncated_product_partial truncated_product_empty_refuted","Exact whenever some product term lies in the box; REFUTED otherwise: the empty result trie cannot be iterated.")
c("C14","partial","block_product_refuted block_product_actual block_product_partial","REFUTED: the second iterator's first term is not fetched again, so only the first term of the first factor is used.")
c("C59","proved","polynomial_programs_exact")
c("C15","proved","linear_form_decomposition zero_polynomial_refuted","The zero polynomial (all terms cancel) dereferences NULL; _decompose (block lists) is not modelled.")
c("C16","partial","linear_forms_integral distinct_vertices_formula constant_integral_refuted","Exact for all terms except a constant over a simplex of positive dimension, which is REFUTED (reported as 0).")
c("C17","proved","powers_exact binomials_exact powers_overrun_refuted","Supported range b < 2^20; beyond it the digit array is overrun.")
c("C18","proved","residues_exact")
c("C60","partial","polynomial_integral constant_integral_refuted","Polynomials without constant term; constants are REFUTED under C16.")
c("C19","partial","interpolation_exact repeated_abscissa_refuted surplus_point_exits evaluation_exact","Distinct abscissae: proved in full.  The second half of the property (failure is reported for a repeated abscissa) is REFUTED: GE reads matrix[rowSize].")
c("C21","partial","periodic_arithmetic_exact periodic_equality_sound periodic_fallback_exact_partial periodic_fallback_refuted","Shared-pointer build: proved in full.  The fallback build is exact for programs that assign before use and REFUTED otherwise (0 - p gives p; p * 0 dereferences NULL).")
c("C22","proved","moebius_inclusion_exclusion")
c("C23","proved","gcds_from_entire_list gcds_from_subsets common_factor_unreported_refuted","Positive coefficients.  The subset method needs gcd 1 (documented); a common factor goes unreported there.")
c("C24","proved","bernoulli_table")
c("C31","proved","hermite_reduction_correct")
c("C61","proved","lattice_basis_correct","The code's comparisons and divisions are modelled; the lattice is written by its columns.")
c("C62","proved","vertex_is_bezout")
c("C45","partial","elimination_partial unique_point_counted elimination_refuted","Linearly independent equations: the reduced problem is in bijection with the original one, up to the refuted cases.  REFUTED: a unique point with inequalities is counted 0; dilation is applied after the integrality check; dependent equations skip that check.  The cost function, ProjU and LLL are not modelled.")
c("C32","partial","smith_form_partial smith_form_diagonal_refuted xgcd_contract_can_be_met","For every XGCD meeting NTL's contract.  REFUTED: the returned S need not be diagonal (a sign slip leaves 2g below the last but one diagonal entry); proved is that nothing else goes wrong and that R and the diagonal are right.  The LiDIA variant is not modelled.")
c("C26","proved","parallelepiped_points_exact parallelepiped_scalar_products","Holds although the Smith form may be wrong (only R and the diagonal are used).  Cones of index beyond INT_MAX may abort, as the code says.")
c("C27","proved","facets_dual_to_rays facets_dependent_rays")
c("C28","proved","irrationalize_keeps_points irrationalize_small_facets","For every simplicial cone, every rational vertex and every number of refinement steps (the code picks the number from a floating-point estimate, not modelled).  The LP-based general variant is not modelled.")
c("C29","proved","decomposition_step","For every non-zero splitting vector and every relation NTL may return; children, coefficients and all points off the bounding hyperplanes.")
c("C30","proved","signed_decomposition single_cone_decomposition single_cone_rejects barvinok_contracts_can_be_met","All three modes, any caller function.  The short vector of ComputeOmega is a parameter (non-zero integer vector); if its second choice does not lower the index the code asserts.")
c("C20","proved","todd_coefficients","The n+1 numbers are the coefficients of the unique power series inverse to prod (1-exp(x_i t))/(x_i t); evaluate_todd never fails.")
c("C41","proved","ehrhart_polynomial ehrhart_low_dimension_refuted cone_residue","Exact for full-dimensional cones and any sequence of guesses; with fewer rays than variables the weights are read out of bounds (refuted part).")
c("C63","proved","residue_counts ehrhart_counts cone_residue","Relative to the generating-function identity `generates` (an identity of rational functions), which is proved for polytopes in C72 and C73 (Brion's theorem over Q, polarity, signed decompositions); the floating point and residue (rational function) substitution modes are not covered.")
c("C40","proved","expansion_exact expansion_zero_denominator cache_growing_degree_refuted exponent_zero_refuted","Shared trees, any sequence of requests of non-increasing degree.  Counterexamples for growing degree (stale cache) and exponent 0 (endless loop) are proved as well.")
c("C64","proved","pool_hands_out_fresh_nodes","PolyTree_Node pool; the T_Node pool has the same code without cached results.")
c("C44","proved","merging_keeps_product merging_needs_zero","For every list with a factor without constant term; otherwise the assertion fires (proved), and the caller does not ask.")
c("C65","partial","cone_integral cone_integral_simplex cone_integral_polytope integral_unique perturbation_search_refuted","Value: proved for all inputs; cone_integral_polytope: for every bounded polytope with integer vertices whose tangent cones are cut into simplicial cones the value is the integral, defined as the limit of Riemann sums (Brion's theorem and the limit are proved).  REFUTED: the search for a perturbation tries only 100 points of the moment curve, and for a prism over a 101-gon never ends, whatever rand() returns.  latticeInverse is never set in the repository and not modelled; the random source is a parameter.")

c("C42","proved","integral_of_forms integral_of_polynomial zero_polynomial_refuted","Triangulation method, both kinds of objects, every dilation factor, dimension < 1000 and degree below 2^20: the value returned is the integral over the simplices of the triangulation. triangulateCone is a parameter with the contract 'simplicial cones spanned by rays of the argument'. The integral of a polynomial is any linear functional with the right values on powers of linear forms. zero_polynomial_refuted: the zero polynomial dereferences NULL.")
c("C43","proved","volume_of_triangulation","Both kinds of objects; triangulateCone is a parameter (contract as in C42); the volume of the polytope is that of the simplices it returns.")
c("C48","proved","repeated_monomials_refuted integral_of_polynomial","The property is false of the code: every polynomial with a repeated monomial (coefficients not zero) ends in a failed assertion; integral_of_polynomial is the case without repetition.")
c("C66","partial","one_cone_history_partial history_refuted","Proved for objects given by one cone when the first question is an integral or all are volumes. history_refuted: false in general (cached triangulation of the undilated cone; vertices dilated permanently).")
c("C03","proved","rational_text_round_trip","Every object any client program (including zero denominators and self division) can produce. NTL's decimal conversions are a contract (Text.v).")
c("C12","proved","polynomial_text_round_trip zero_polynomial_text_refuted","All non-zero polynomials with int exponents, loading into any object; the terms delivered afterwards are identical. zero_polynomial_text_refuted: the zero polynomial cannot be printed, and a text of zeros leaves an old polynomial in the object.")
c("C49","partial","products_keep_factors_partial products_keep_factors_refuted","Proved for non-zero coefficients and pairwise different factors. products_keep_factors_refuted: false otherwise (x*x is stored as 2x; a zero coefficient drops the first factor instead of the product).")
c("C67","partial","linear_forms_text_loads linear_forms_text_round_trip_refuted linear_forms_text_round_trip_actual","Loading is proved right. The round trip is false of the code: it multiplies each coefficient by the factorial of its degree (refuted and actual).")
c("C68","partial","rational_stream_round_trip rational_stream_refuted","The round trip is proved for every rational and every following text that does not glue to it. rational_stream_refuted: a plus sign, or a blank after the sign, ends the program; a following slash is swallowed.")
c("C37","proved","matrix_write_read keywords_add_stated_constraints keywords_exact nonnegative_option_refuted aggregation_column_refuted unreduced_entry_refuted",
 "Round trip and keyword meaning hold for every matrix in lowest terms and all lists of legal keywords, with the reader's default arguments. Beyond the statement: the nonnegativity argument makes the reader write outside the matrix on every file (refuted), aggregation passes a string where the homogenize flag is expected and gets an extra column (refuted), fractions are not reduced (refuted).")
c("C39","partial","random_spanning_tree spanning_tree_not_cleared_refuted spanning_tree_connects random_connected_graph random_connected_terminates large_request_refuted linear_graph circle_graph circle_with_center_graph checkerboard_graph petersen_graphs own_graph every_history_stored",
 "Proved for every random stream, all sizes and all call histories; termination of the drawing loop for fair streams. Two defects keep it from holding as stated: makeRandomSpanningTree does not clear an existing graph (spanning_tree_not_cleared_refuted), and the request test of the connected generator overflows int from 46342 vertices on (large_request_refuted).")
c("C69","partial","random_disconnected_graph random_disconnected_terminates random_disconnected_hangs_refuted",
 "Proved for every random stream; termination exactly when each half can hold its share of the edges (both directions proved). The request is not checked, so impossible requests hang.")
c("C70","partial","hypersimplex_points kneser_graph hypersimplex_refuted kneser_refuted",
 "Proved for 1 <= k <= n (Kneser: k at most half, binomial fits int). Refuted for k = 0, k > n and large k, with witnesses.")
c("C71","proved","edge_polytope_points symmetric_edge_polytope_points loop_point_refuted",
 "For every simple graph. Loops, possible in typed-in graphs, give other points (loop_point_refuted).")
c("C72","proved","count_exact count_total count_all_primal_exact count_contracts_can_be_met",
 "End to end from inequalities and vertices to the number, with Brion's theorem, polarity and the Euler relation proved in the development. Contracts, stated in the theorems: the vertex list is right, triangulations triangulate, short vectors are non-zero (primitive in dual decomposition), NTL relations and XGCD. count_total: in dual decomposition with a bounded index the answer is always found once a generic vector is tried. Failures are the checks of the code.")
c("C73","proved","ehrhart_exact ehrhart_rational_throws",
 "Dual and irrational primal decomposition; the vertices must be in lowest terms with positive denominators. Same contracts as C72.")
c("C74","proved","generating_function_exact generating_function_polytope generating_function_total regular_values_exist written_list written_list_refuted",
 "Dual and irrational primal decomposition, the text read back by an independent reader of arithmetic expressions (GenFunSpec.v). The list writer fails on an empty list and on a coefficient 0 (refuted part; neither arises in the path above).")
c("C75","partial","generating_function_equations_partial generating_function_equations_refuted",
 "Proved without dilation and with cones of index 1; refuted for dilations (the particular solution is not dilated) and for a bound on the index greater than 1 (assertion).")
c("C76","partial","count_residue_partial cone_residue value_at_one_unique residue_rounding_refuted",
 "Proved, under the contracts of C72, when the number of cones times the bound on their index is at most 5 10^9. Without that bound the fixed-point sum can be off: residue_rounding_refuted gives cones that stand for no points and are counted as 1. Not covered: unbounded index and the subspace avoiding choice of short vectors.")
c("C77","proved","cone_volume cone_forms cone_polynomial integral_over_unique",
 "Proved for every full-dimensional bounded polytope; triangulateCone and the tangent cones are contracts. For the volume the theorem also says why drawing goes on (each vector drawn was orthogonal to a ray); termination with given random numbers is not claimed (see C65).")
c("C78","proved","triangulation_exact subdivision_exact triangulation_outcomes generic_heights_suffice normal_cones_triangulated triangulation_endless_refuted",
 "cddlib's facets of the lifted cone are a contract (describes). generic_heights_suffice: the recursion ends when the heights are generic; triangulation_endless_refuted: with a maximal height of 1 it need not end.")
c("C79","proved","short_vector_primitive first_choice_best second_choice_best large_determinant_lowered lowered_to_dimension_5 choice_from_rays short_vector_contracts reduction_exists",
 "ComputeOmega as used by barvinokStep. NTL's LLL and LatticeSolve are parameters with contracts; that these can be met is proved (every non-singular integer matrix has a reduced basis). From dimension 6 on lowering is proved for large determinants only.")
c("C80","proved","latte_count_exact latte_count_total",
 "Composition of C72, C78 and C79; the vertices of the polytope are given, triangulations are assumed to be found (C78: the search need not end for heights that are too small).")

c("C81","partial","count_command_line file_name_taken unknown_options_rejected input_missing_or_repeated count_command_line_all count_defaults bad_values_rejected special_cone_single command_line_refuted","Documented options in any order around one input: accepted, last one counts.  A file name is taken exactly if it begins with no reserved word; arguments with two dashes and no accepted prefix are rejected.  REFUTED: --interior always throws; unit.latte is taken for the option uni; --irrelevant selects irrational-primal; --maxdet=many is --maxdet=0; of two inputs the second may silently win.")
c("C82","partial","integrate_command_line integrate_command_line_refuted integrand_from_file integrand_asked","Settings, methods and input as documented unless both --cone-decompose and --triangulate are given.  REFUTED: both together run the cone method only; --valuation=surface is ignored; of two values one is dropped; without an integrand the program branches on an uninitialised bool.")
c("C83","partial","check_program_partial check_empty_partial check_empty_refuted","Integer entries, at most one line of each kind, linearity first: the linear program has exactly the described points as solutions; nonempty sets pass, and empty ones are rejected unless a direction satisfies the homogeneous constraints.  REFUTED otherwise: nonnegative before linearity ends the program; of two linearity lines only the last counts (an empty set passes); 1/2 <= x <= 3 is called empty; a linearity index of an added nonnegativity row reads outside the matrix.")
c("C84","partial","inequalities_sent vertex_cones_read at_most_one_vertex unbounded_refuted","Files in any layout cdd uses (blanks, preamble, integer or rational, neighbours listed or their complement).  REFUTED: for an unbounded polyhedron 0 is written as the number of lattice points and the program ends with success.")
c("C85","partial","count_file_partial count_file_total empty_file_rejected","Files of integers with at most one line of each kind, linearity first, at most 9 variables: whatever is printed is the number of integer points; up to 5 variables, exponential substitution and a reducing LLL, a number is printed.  Missing: rational files and other line orders (refuted in C83), the polynomial substitution with more than 5 10^9 / max_det cones (C76), --dilation, 4ti2.")
c("C86","partial","subcones_round_trip subcone_file_read bad_subcones_rejected subcone_file_history subcones_refuted","Master cones with different rays, files that end with white space.  REFUTED otherwise: a master cone that lists a ray twice (assertion or write outside the vector), a file that ends with its last digit (rejected), and a writer that stops before the count is updated: the header still says -1 and the file is read as no cones, without an error.")
c("C87","partial","vertex_cones_4ti2 homogenization count_file_4ti2_partial count_file_4ti2_total","Vertices and facets: proved for every system and every answer of 4ti2 that consists of the extreme rays.  The count: as C85 (files of integers, at most 9 variables, conditions on triangulation, short vectors and random vectors).")
c("C88","partial","cone_bounds_enclose approximation_encloses approximation_ends approximation_all_primal first_cones_irrational approximation_encloses_small failed_step_loses_cone nonprimitive_normals_abort","Proved for LLL short vectors, primitive normals and runs in which no cone met has an integer point on a wall (the code does not check this here, unlike count); this freedom is proved for the first cones and, without that hypothesis, for every run on cones whose facet entries stay within 8*n^(depth(n-1)).  REFUTED otherwise: with the subspace-avoiding choice a step that finds no vector silently loses its cone and the final pair is wrong; a normal that is not primitive fails an assertion; the heap holds 100000 cones and asserts beyond.")
c("C89","partial","heaps_give_the_largest digging_finds_a_maximum maximize_total minimize_total perturbed_maximum maximum_of_given_cost_refuted latte_maximize_exact latte_minimize_exact","Proved: the two heaps; whatever SolveIP returns is a maximum, with the right number of optimal points, for the cost it used, and it ends for every cost that is orthogonal to no ray.  For a perturbed cost the optimum of the given cost is proved when the factor of the perturbation exceeds 9 times the distance of the points; REFUTED without that: Maximum_Coordinate takes a negative entry with its sign, so the factor can be negative and the minimum is returned.  That the perturbations end is left to the random numbers.  Composed with the unimodular decomposition and the enumeration of lattice points: from the inequalities and vertices of a polytope to the optimum, for every cost orthogonal to none of finitely many vectors.  The hash table with its 1247677 places is a membership test; ints are unbounded; Residue, the test that there is an integer point before SolveIP, is left out.")
c("C90","proved","residue_is_number_of_points first_substitution residue_returns residue_errors count_in_memory_exact maximize_checked_exact minimize_checked_exact","The power of ten grows with the number of cones, so that, unlike the cone-by-cone sum (C76), the rounded sum is always exact; no bound on the number of cones or the dimension.  That the random vectors are eventually orthogonal to no ray is a hypothesis (with at most six variables the small vectors can replace it); end to end with the contracts of C72 on the libraries, for unimodular dual decomposition.")
c("C91","partial","conversion_same_points equations_lost_refuted decimals_cut_off_refuted own_files_not_converted no_begin_no_conversion","Proved for every file whose numbers are integers or fractions (reduced or not, of any size) and whose rows are all inequalities: the written file is read back as the rows times their least common denominators, and describes the same points.  The full statement is false of the code, shown by witnesses: a line 'linearity' is skipped, so that equations become inequalities; decimals are cut off at the point; the files LattE itself writes have a blank after 'begin', so that the line is never found and uninitialised sizes are used.")
c("C92","partial","integer_hull_complete_partial hull_of_integer_points hull_returns more_facets_than_points digging_exact stops_too_early_refuted equation_one_sided_refuted","Proved for all inputs: only integer points of the polytope are printed; the rounds end, at most one per integer point; if all points of the last round were already known and the known points do not lie on one hyperplane, the list is complete.  Missing: the full statement is false of the code, shown by witnesses: known points are counted with repetitions, so that the loop stops although a new vertex was just found; equations of lrs are used in one direction only; with more facets than points in the list Push_Vector reads outside of its array.  lrs is trusted to describe hulls of points that do not lie on one hyperplane; SolveIP is exact under the condition of perturbed_maximum (C89), theorem digging_exact.")
c("C93","partial","hilbert_candidates_generate subdivisions_cover hilbert_returns endless_subdivision_refuted dependent_rays_abort_refuted rays_not_written_refuted not_a_hilbert_basis_refuted","Proved for every run that comes to its end: the written vectors are different integer points of the cone, and with the rays they generate all integer points of the cone (zsolve and the triangulation by contract; a subdivision as in C78 meets the latter; the parallelepipeds are enumerated by the code of C26); it ends when no part needs a further subdivision.  The full statement is false of the code, shown by witnesses: a simplicial cone above both limits is triangulated into itself for ever; as many rays as variables that are dependent abort; the written vectors alone do not generate, and contain zero and decomposable vectors.  zsolve is trusted for pointed cones only (its free vectors are not written).")
c("C94","partial","dualized_is_polar dualized_twice_describes_cone dualized_simplicial dependent_rays_abort dualized_irredundant zsolve_gets_the_cone zsolve_contract_met cdd_lower_dimensional_refuted zero_cone_refuted","Proved for all lists of rays, with 4ti2 for cones of any dimension and with cdd for full-dimensional cones (the libraries by contract: the generators they return generate the cone asked for): polar cone, description by facets and equations after the second dualization (with the Farkas lemma proved here), exactly the extreme rays once each, the determinants of simplicial cones, the system for zsolve.  The full statement is false of the code, shown by witnesses: with cdd the lines of the polar cone of a lower-dimensional cone become rays, so that zsolve gets a larger cone; n dependent rays abort; the zero cone aborts in the second dualization.")
c("C95","partial","subdivision_4ti2 triangulation_4ti2_ends triangulation_4ti2_generic heights_drawn equal_heights_refuted delone_refuted negative_heights_refuted","Proved for all lists of rays that span the space (4ti2 by contract: extreme rays of the dual of the lifted cone, and ranks): the cones delivered subdivide the cone, the recursion ends after at most one level more than there are rays, and with generic heights that are not all the same the result is a triangulation.  The full statement is false of the code, shown by witnesses: when all heights are the same, or linear, the cone is passed on although it is not simplicial (so with --triangulation-max-height=1 always, and the Delone heights of the cone over a square), and negative prescribed heights can lose the whole cone.")
c("C96","partial","avoiding_vector_exists avoiding_choice_best avoiding_vector_contracts decomposition_avoids avoiding_lowers_refuted","Proved for all cones with independent rays and every LLL that returns a basis: the assertion cannot fail, the vector is primitive, off the hyperplane and best among the rows of the transformation matrix that are, and the rays of all cones delivered by the whole decomposition (all modes, any consumer) are given rays or off the hyperplane.  The last part of the statement is false of the code, shown by a witness: for the cones with rays (1,0,0), (1,D,0), (0,0,1) no vector off the hyperplane lowers the index; for D = 5 the cone is delivered undecomposed although unimodular cones were asked for, for D = 200001 the program exits.")
c("C97","partial","configuration_denotes_rays topcom_output_read topcom_triangulates reading_topcom_ends topcom_output_checked_refuted all_triangulations_refuted all_triangulations_good_output_refuted","Proved for all lists of rays and all triangulations (the TOPCOM program by contract: a function from the text of its input to the text it prints): the points written denote the rays, any printed triangulation is read exactly, so that the cones triangulate, and reading ends on every text.  The rest of the statement is false of the code, shown by theorems: too large or negative indices access memory outside the array, text truncated after a comma uses an uninitialised index, text that is no number is read as index 0; all_triangulations_of_cone_with_TOPCOM never succeeds, whatever the program prints, because after the last triangulation the stream is still good and the search for the next brace ends in exit(1).")
c("C98","partial","substitution_exact substitution_points substitution_series level_counts substitution_always_refuted","Proved for all lists of cones that have rays and points, in all dimensions: the text is read by an independent reader of arithmetic expressions as an expression with the value of the sum of rational functions at (1, ..., 1, t), wherever no denominator is zero; its power series has at t^k the sum over height k of the multivariate series; the program stops exactly if some ray has last coordinate 0.  The variable t is renamed x[0] for the reader.  Shown by witnesses where the statement fails: the program stops for cones with a horizontal ray, though the sum of all cones may have no pole, and without cones or rays the file is no expression.  Not proved here: that the cones of a decomposition have the multivariate generating function (C74) and no horizontal rays (C96).")
c("C99","partial","interior_vector_avoids interior_vector_nonzero interior_vector_outcomes search_ends_iff alpha_basis_total complete_boundary_cones completion_inside_refuted all_facets_avoid_refuted search_ends_refuted","Proved for all dimensions, lists of cones and reductions that multiply the matrix by a matrix U: the vector that is found has for each cone either determinant 0 or only facets (besides the one given by the rays) all of whose normals have a last coordinate that is not 0; the determinants used to discard cones are the true ones; the delivered cones are exactly those with determinant not 0, last one first; the vector is not 0 if U is not singular; the completion to a basis fails exactly for rays that are not n - 1 independent ones.  Shown by witnesses where the statement fails: the vector need not lie in the cone, so the completed cones need not be a triangulation of it; the facets given by the rays themselves are not tested; and for the boundary of the octant the search never ends.  For a unimodular reduction of full rank the search ends exactly if some vector that is not 0 has the property.  The LLL reduction is a parameter; the triangulation of the facets by 4ti2 and the double dualization are not modelled here (C95, C94).")
