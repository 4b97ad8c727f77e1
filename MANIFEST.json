{
 "claims": [
  {
   "property": "C01",
   "status": "proved",
   "theorems": [
    "rational_programs_exact",
    "rational_equality_decides"
   ],
   "note": "All client programs over RationalNTL variables, aliasing of operands included; in-place self-division is C51."
  },
  {
   "property": "C02",
   "status": "proved",
   "theorems": [
    "rational_power_exact",
    "rational_power_of_zero_rejected"
   ],
   "note": ""
  },
  {
   "property": "C04",
   "status": "partial",
   "theorems": [
    "rational_zero_denominator_refuted",
    "rational_zero_denominator_always_a_number"
   ],
   "note": "REFUTED: the code turns a zero denominator into one without any error."
  },
  {
   "property": "C51",
   "status": "partial",
   "theorems": [
    "rational_self_division_refuted",
    "rational_self_division_actual"
   ],
   "note": "REFUTED: r.div(r) gives 1/denominator because the operand is read after being overwritten."
  },
  {
   "property": "C52",
   "status": "proved",
   "theorems": [
    "rational_inner_product_exact",
    "rational_inner_product_length_checked"
   ],
   "note": ""
  },
  {
   "property": "C53",
   "status": "proved",
   "theorems": [
    "my_gcd_is_gcd"
   ],
   "note": ""
  },
  {
   "property": "C08",
   "status": "proved",
   "theorems": [
    "heap_is_priority_queue",
    "heap_aborts_only_on_illegal_calls",
    "heap_pops_sorted",
    "heap_int_orders"
   ],
   "note": "Int and custom heaps; double weights have the same code text (NaN excluded)."
  },
  {
   "property": "C09",
   "status": "proved",
   "theorems": [
    "heap_is_priority_queue",
    "heap_aborts_only_on_illegal_calls"
   ],
   "note": "Freeze/thaw are operations of the histories quantified over."
  },
  {
   "property": "C05",
   "status": "proved",
   "theorems": [
    "ratvec_histories_run",
    "ratvec_scale_exact",
    "ratvec_scale_minimal"
   ],
   "note": ""
  },
  {
   "property": "C54",
   "status": "proved",
   "theorems": [
    "ratvec_set_entry_effect",
    "ratvec_canonicalize_effect",
    "ratvec_scalar_multiplication_effect"
   ],
   "note": ""
  },
  {
   "property": "C07",
   "status": "proved",
   "theorems": [
    "ratvec_normalize_effect"
   ],
   "note": "For positive denominators; a negative denominator is never larger than one, so the code leaves it."
  },
  {
   "property": "C06",
   "status": "proved",
   "theorems": [
    "construct_ray_primitive",
    "construct_ray_equal_points_abort"
   ],
   "note": ""
  },
  {
   "property": "C35",
   "status": "partial",
   "theorems": [
    "vector_membership_correct",
    "point_list_comparison_refuted",
    "point_list_membership_actual",
    "point_list_comparison_actual"
   ],
   "note": "REFUTED for isEqual and the two-argument membership test; the three-argument membership test is proved."
  },
  {
   "property": "C46",
   "status": "partial",
   "theorems": [
    "redundant_constraint_removal_refuted",
    "redundant_constraint_removal_partial"
   ],
   "note": "REFUTED: removeListVector unlinks the node after its argument, so another row is dropped (or NULL is dereferenced)."
  },
  {
   "property": "C47",
   "status": "proved",
   "theorems": [
    "list_length_counts",
    "list_copy_faithful",
    "list_append_concatenates",
    "list_append_to_itself_never_ends",
    "list_free_exact",
    "collector_keeps_every_cone",
    "collector_rejects_chains"
   ],
   "note": "Pointer-level model with explicit heap."
  },
  {
   "property": "C55",
   "status": "proved",
   "theorems": [
    "dilated_rows_describe_dilation"
   ],
   "note": ""
  },
  {
   "property": "C56",
   "status": "proved",
   "theorems": [
    "interior_rows_describe_interior"
   ],
   "note": ""
  },
  {
   "property": "C25",
   "status": "proved",
   "theorems": [
    "enumerator_visits_every_combination_once",
    "enumerator_without_columns",
    "enumerator_negative_bound_never_ends"
   ],
   "note": ""
  },
  {
   "property": "C33",
   "status": "partial",
   "theorems": [
    "aggregation_keeps_nonnegative_solutions",
    "aggregation_rejects_negative_rows",
    "aggregation_all_accepted_inputs_refuted"
   ],
   "note": "Proved for every accepted matrix with positive data; REFUTED in the degenerate case where every selected right-hand side (or coefficient) is 0."
  },
  {
   "property": "C34",
   "status": "partial",
   "theorems": [
    "binary_search_finds_maximum",
    "binary_search_finds_minimum_partial",
    "binary_search_minimum_sign_refuted",
    "binary_search_infeasible_prints_value",
    "search_files_select_cost_levels"
   ],
   "note": "Maximisation proved in full; REFUTED for minimisation when the optimum equals the LP bound: the printed value has the wrong sign."
  },
  {
   "property": "C38",
   "status": "proved",
   "theorems": [
    "timer_reports_running_time"
   ],
   "note": ""
  },
  {
   "property": "C36",
   "status": "proved",
   "theorems": [
    "big_integer_conversions_lossless"
   ],
   "note": "NTL/GMP byte routines are modelled by their documented effect."
  },
  {
   "property": "C57",
   "status": "proved",
   "theorems": [
    "machine_integer_conversion_exact_or_aborts"
   ],
   "note": ""
  },
  {
   "property": "C58",
   "status": "proved",
   "theorems": [
    "inner_product_modulo_exact"
   ],
   "note": ""
  },
  {
   "property": "C50",
   "status": "partial",
   "theorems": [
    "random_int_in_range",
    "random_int_attains_every_value",
    "random_int_wide_range_refuted",
    "random_big_integer_in_range",
    "random_big_integer_attains_every_value"
   ],
   "note": "Proved for int ranges of at most INT_MAX values (attainability up to 2^31-1024) and all big-integer ranges; REFUTED for wider int ranges (overflow)."
  },
  {
   "property": "C10",
   "status": "proved",
   "theorems": [
    "trie_is_a_finite_map",
    "trie_is_a_finite_map_any_coefficients",
    "trie_of_zeros_dereferences_null"
   ],
   "note": "Monomials and linear forms; with only zero coefficients inserted there is no trie and iterating dereferences NULL (proved separately)."
  },
  {
   "property": "C11",
   "status": "proved",
   "theorems": [
    "block_storage_exact"
   ],
   "note": ""
  },
  {
   "property": "C13",
   "status": "partial",
   "theorems": [
    "truncated_product_partial",
    "truncated_product_empty_refuted"
   ],
   "note": "Exact whenever some product term lies in the box; REFUTED otherwise: the empty result trie cannot be iterated."
  },
  {
   "property": "C14",
   "status": "partial",
   "theorems": [
    "block_product_refuted",
    "block_product_actual",
    "block_product_partial"
   ],
   "note": "REFUTED: the second iterator's first term is not fetched again, so only the first term of the first factor is used."
  },
  {
   "property": "C59",
   "status": "proved",
   "theorems": [
    "polynomial_programs_exact"
   ],
   "note": ""
  },
  {
   "property": "C15",
   "status": "proved",
   "theorems": [
    "linear_form_decomposition",
    "zero_polynomial_refuted"
   ],
   "note": "The zero polynomial (all terms cancel) dereferences NULL; _decompose (block lists) is not modelled."
  },
  {
   "property": "C16",
   "status": "partial",
   "theorems": [
    "linear_forms_integral",
    "distinct_vertices_formula",
    "constant_integral_refuted"
   ],
   "note": "Exact for all terms except a constant over a simplex of positive dimension, which is REFUTED (reported as 0)."
  },
  {
   "property": "C17",
   "status": "proved",
   "theorems": [
    "powers_exact",
    "binomials_exact",
    "powers_overrun_refuted"
   ],
   "note": "Supported range b < 2^20; beyond it the digit array is overrun."
  },
  {
   "property": "C18",
   "status": "proved",
   "theorems": [
    "residues_exact"
   ],
   "note": ""
  },
  {
   "property": "C60",
   "status": "partial",
   "theorems": [
    "polynomial_integral",
    "constant_integral_refuted"
   ],
   "note": "Polynomials without constant term; constants are REFUTED under C16."
  },
  {
   "property": "C19",
   "status": "partial",
   "theorems": [
    "interpolation_exact",
    "repeated_abscissa_refuted",
    "surplus_point_exits",
    "evaluation_exact"
   ],
   "note": "Distinct abscissae: proved in full.  The second half of the property (failure is reported for a repeated abscissa) is REFUTED: GE reads matrix[rowSize]."
  },
  {
   "property": "C21",
   "status": "partial",
   "theorems": [
    "periodic_arithmetic_exact",
    "periodic_equality_sound",
    "periodic_fallback_exact_partial",
    "periodic_fallback_refuted"
   ],
   "note": "Shared-pointer build: proved in full.  The fallback build is exact for programs that assign before use and REFUTED otherwise (0 - p gives p; p * 0 dereferences NULL)."
  },
  {
   "property": "C22",
   "status": "proved",
   "theorems": [
    "moebius_inclusion_exclusion"
   ],
   "note": ""
  },
  {
   "property": "C23",
   "status": "proved",
   "theorems": [
    "gcds_from_entire_list",
    "gcds_from_subsets",
    "common_factor_unreported_refuted"
   ],
   "note": "Positive coefficients.  The subset method needs gcd 1 (documented); a common factor goes unreported there."
  },
  {
   "property": "C24",
   "status": "proved",
   "theorems": [
    "bernoulli_table"
   ],
   "note": ""
  },
  {
   "property": "C31",
   "status": "proved",
   "theorems": [
    "hermite_reduction_correct"
   ],
   "note": ""
  },
  {
   "property": "C61",
   "status": "proved",
   "theorems": [
    "lattice_basis_correct"
   ],
   "note": "The code's comparisons and divisions are modelled; the lattice is written by its columns."
  },
  {
   "property": "C62",
   "status": "proved",
   "theorems": [
    "vertex_is_bezout"
   ],
   "note": ""
  },
  {
   "property": "C45",
   "status": "partial",
   "theorems": [
    "elimination_partial",
    "unique_point_counted",
    "elimination_refuted"
   ],
   "note": "Linearly independent equations: the reduced problem is in bijection with the original one, up to the refuted cases.  REFUTED: a unique point with inequalities is counted 0; dilation is applied after the integrality check; dependent equations skip that check.  The cost function, ProjU and LLL are not modelled."
  },
  {
   "property": "C32",
   "status": "partial",
   "theorems": [
    "smith_form_partial",
    "smith_form_diagonal_refuted",
    "xgcd_contract_can_be_met"
   ],
   "note": "For every XGCD meeting NTL's contract.  REFUTED: the returned S need not be diagonal (a sign slip leaves 2g below the last but one diagonal entry); proved is that nothing else goes wrong and that R and the diagonal are right.  The LiDIA variant is not modelled."
  },
  {
   "property": "C26",
   "status": "proved",
   "theorems": [
    "parallelepiped_points_exact",
    "parallelepiped_scalar_products"
   ],
   "note": "Holds although the Smith form may be wrong (only R and the diagonal are used).  Cones of index beyond INT_MAX may abort, as the code says."
  },
  {
   "property": "C27",
   "status": "proved",
   "theorems": [
    "facets_dual_to_rays",
    "facets_dependent_rays"
   ],
   "note": ""
  },
  {
   "property": "C28",
   "status": "proved",
   "theorems": [
    "irrationalize_keeps_points",
    "irrationalize_small_facets"
   ],
   "note": "For every simplicial cone, every rational vertex and every number of refinement steps (the code picks the number from a floating-point estimate, not modelled).  The LP-based general variant is not modelled."
  },
  {
   "property": "C29",
   "status": "proved",
   "theorems": [
    "decomposition_step"
   ],
   "note": "For every non-zero splitting vector and every relation NTL may return; children, coefficients and all points off the bounding hyperplanes."
  },
  {
   "property": "C30",
   "status": "proved",
   "theorems": [
    "signed_decomposition",
    "single_cone_decomposition",
    "single_cone_rejects",
    "barvinok_contracts_can_be_met"
   ],
   "note": "All three modes, any caller function.  The short vector of ComputeOmega is a parameter (non-zero integer vector); if its second choice does not lower the index the code asserts."
  },
  {
   "property": "C20",
   "status": "proved",
   "theorems": [
    "todd_coefficients"
   ],
   "note": "The n+1 numbers are the coefficients of the unique power series inverse to prod (1-exp(x_i t))/(x_i t); evaluate_todd never fails."
  },
  {
   "property": "C41",
   "status": "proved",
   "theorems": [
    "ehrhart_polynomial",
    "ehrhart_low_dimension_refuted",
    "cone_residue"
   ],
   "note": "Exact for full-dimensional cones and any sequence of guesses; with fewer rays than variables the weights are read out of bounds (refuted part)."
  },
  {
   "property": "C63",
   "status": "proved",
   "theorems": [
    "residue_counts",
    "ehrhart_counts",
    "cone_residue"
   ],
   "note": "Relative to the generating-function identity `generates` (an identity of rational functions), which is proved for polytopes in C72 and C73 (Brion's theorem over Q, polarity, signed decompositions); the floating point and residue (rational function) substitution modes are not covered."
  },
  {
   "property": "C40",
   "status": "proved",
   "theorems": [
    "expansion_exact",
    "expansion_zero_denominator",
    "cache_growing_degree_refuted",
    "exponent_zero_refuted"
   ],
   "note": "Shared trees, any sequence of requests of non-increasing degree.  Counterexamples for growing degree (stale cache) and exponent 0 (endless loop) are proved as well."
  },
  {
   "property": "C64",
   "status": "proved",
   "theorems": [
    "pool_hands_out_fresh_nodes"
   ],
   "note": "PolyTree_Node pool; the T_Node pool has the same code without cached results."
  },
  {
   "property": "C44",
   "status": "proved",
   "theorems": [
    "merging_keeps_product",
    "merging_needs_zero"
   ],
   "note": "For every list with a factor without constant term; otherwise the assertion fires (proved), and the caller does not ask."
  },
  {
   "property": "C65",
   "status": "partial",
   "theorems": [
    "cone_integral",
    "cone_integral_simplex",
    "cone_integral_polytope",
    "integral_unique",
    "perturbation_search_refuted"
   ],
   "note": "Value: proved for all inputs; cone_integral_polytope: for every bounded polytope with integer vertices whose tangent cones are cut into simplicial cones the value is the integral, defined as the limit of Riemann sums (Brion's theorem and the limit are proved).  REFUTED: the search for a perturbation tries only 100 points of the moment curve, and for a prism over a 101-gon never ends, whatever rand() returns.  latticeInverse is never set in the repository and not modelled; the random source is a parameter."
  },
  {
   "property": "C42",
   "status": "proved",
   "theorems": [
    "integral_of_forms",
    "integral_of_polynomial",
    "zero_polynomial_refuted"
   ],
   "note": "Triangulation method, both kinds of objects, every dilation factor, dimension < 1000 and degree below 2^20: the value returned is the integral over the simplices of the triangulation. triangulateCone is a parameter with the contract 'simplicial cones spanned by rays of the argument'. The integral of a polynomial is any linear functional with the right values on powers of linear forms. zero_polynomial_refuted: the zero polynomial dereferences NULL."
  },
  {
   "property": "C43",
   "status": "proved",
   "theorems": [
    "volume_of_triangulation"
   ],
   "note": "Both kinds of objects; triangulateCone is a parameter (contract as in C42); the volume of the polytope is that of the simplices it returns."
  },
  {
   "property": "C48",
   "status": "proved",
   "theorems": [
    "repeated_monomials_refuted",
    "integral_of_polynomial"
   ],
   "note": "The property is false of the code: every polynomial with a repeated monomial (coefficients not zero) ends in a failed assertion; integral_of_polynomial is the case without repetition."
  },
  {
   "property": "C66",
   "status": "partial",
   "theorems": [
    "one_cone_history_partial",
    "history_refuted"
   ],
   "note": "Proved for objects given by one cone when the first question is an integral or all are volumes. history_refuted: false in general (cached triangulation of the undilated cone; vertices dilated permanently)."
  },
  {
   "property": "C03",
   "status": "proved",
   "theorems": [
    "rational_text_round_trip"
   ],
   "note": "Every object any client program (including zero denominators and self division) can produce. NTL's decimal conversions are a contract (Text.v)."
  },
  {
   "property": "C12",
   "status": "proved",
   "theorems": [
    "polynomial_text_round_trip",
    "zero_polynomial_text_refuted"
   ],
   "note": "All non-zero polynomials with int exponents, loading into any object; the terms delivered afterwards are identical. zero_polynomial_text_refuted: the zero polynomial cannot be printed, and a text of zeros leaves an old polynomial in the object."
  },
  {
   "property": "C49",
   "status": "partial",
   "theorems": [
    "products_keep_factors_partial",
    "products_keep_factors_refuted"
   ],
   "note": "Proved for non-zero coefficients and pairwise different factors. products_keep_factors_refuted: false otherwise (x*x is stored as 2x; a zero coefficient drops the first factor instead of the product)."
  },
  {
   "property": "C67",
   "status": "partial",
   "theorems": [
    "linear_forms_text_loads",
    "linear_forms_text_round_trip_refuted",
    "linear_forms_text_round_trip_actual"
   ],
   "note": "Loading is proved right. The round trip is false of the code: it multiplies each coefficient by the factorial of its degree (refuted and actual)."
  },
  {
   "property": "C68",
   "status": "partial",
   "theorems": [
    "rational_stream_round_trip",
    "rational_stream_refuted"
   ],
   "note": "The round trip is proved for every rational and every following text that does not glue to it. rational_stream_refuted: a plus sign, or a blank after the sign, ends the program; a following slash is swallowed."
  },
  {
   "property": "C37",
   "status": "proved",
   "theorems": [
    "matrix_write_read",
    "keywords_add_stated_constraints",
    "keywords_exact",
    "nonnegative_option_refuted",
    "aggregation_column_refuted",
    "unreduced_entry_refuted"
   ],
   "note": "Round trip and keyword meaning hold for every matrix in lowest terms and all lists of legal keywords, with the reader's default arguments. Beyond the statement: the nonnegativity argument makes the reader write outside the matrix on every file (refuted), aggregation passes a string where the homogenize flag is expected and gets an extra column (refuted), fractions are not reduced (refuted)."
  },
  {
   "property": "C39",
   "status": "partial",
   "theorems": [
    "random_spanning_tree",
    "spanning_tree_not_cleared_refuted",
    "spanning_tree_connects",
    "random_connected_graph",
    "random_connected_terminates",
    "large_request_refuted",
    "linear_graph",
    "circle_graph",
    "circle_with_center_graph",
    "checkerboard_graph",
    "petersen_graphs",
    "own_graph",
    "every_history_stored"
   ],
   "note": "Proved for every random stream, all sizes and all call histories; termination of the drawing loop for fair streams. Two defects keep it from holding as stated: makeRandomSpanningTree does not clear an existing graph (spanning_tree_not_cleared_refuted), and the request test of the connected generator overflows int from 46342 vertices on (large_request_refuted)."
  },
  {
   "property": "C69",
   "status": "partial",
   "theorems": [
    "random_disconnected_graph",
    "random_disconnected_terminates",
    "random_disconnected_hangs_refuted"
   ],
   "note": "Proved for every random stream; termination exactly when each half can hold its share of the edges (both directions proved). The request is not checked, so impossible requests hang."
  },
  {
   "property": "C70",
   "status": "partial",
   "theorems": [
    "hypersimplex_points",
    "kneser_graph",
    "hypersimplex_refuted",
    "kneser_refuted"
   ],
   "note": "Proved for 1 <= k <= n (Kneser: k at most half, binomial fits int). Refuted for k = 0, k > n and large k, with witnesses."
  },
  {
   "property": "C71",
   "status": "proved",
   "theorems": [
    "edge_polytope_points",
    "symmetric_edge_polytope_points",
    "loop_point_refuted"
   ],
   "note": "For every simple graph. Loops, possible in typed-in graphs, give other points (loop_point_refuted)."
  },
  {
   "property": "C72",
   "status": "proved",
   "theorems": [
    "count_exact",
    "count_total",
    "count_all_primal_exact",
    "count_contracts_can_be_met"
   ],
   "note": "End to end from inequalities and vertices to the number, with Brion's theorem, polarity and the Euler relation proved in the development. Contracts, stated in the theorems: the vertex list is right, triangulations triangulate, short vectors are non-zero (primitive in dual decomposition), NTL relations and XGCD. count_total: in dual decomposition with a bounded index the answer is always found once a generic vector is tried. Failures are the checks of the code."
  },
  {
   "property": "C73",
   "status": "proved",
   "theorems": [
    "ehrhart_exact",
    "ehrhart_rational_throws"
   ],
   "note": "Dual and irrational primal decomposition; the vertices must be in lowest terms with positive denominators. Same contracts as C72."
  },
  {
   "property": "C74",
   "status": "proved",
   "theorems": [
    "generating_function_exact",
    "generating_function_polytope",
    "generating_function_total",
    "regular_values_exist",
    "written_list",
    "written_list_refuted"
   ],
   "note": "Dual and irrational primal decomposition, the text read back by an independent reader of arithmetic expressions (GenFunSpec.v). The list writer fails on an empty list and on a coefficient 0 (refuted part; neither arises in the path above)."
  },
  {
   "property": "C75",
   "status": "partial",
   "theorems": [
    "generating_function_equations_partial",
    "generating_function_equations_refuted"
   ],
   "note": "Proved without dilation and with cones of index 1; refuted for dilations (the particular solution is not dilated) and for a bound on the index greater than 1 (assertion)."
  },
  {
   "property": "C76",
   "status": "partial",
   "theorems": [
    "count_residue_partial",
    "cone_residue",
    "value_at_one_unique",
    "residue_rounding_refuted"
   ],
   "note": "Proved, under the contracts of C72, when the number of cones times the bound on their index is at most 5 10^9. Without that bound the fixed-point sum can be off: residue_rounding_refuted gives cones that stand for no points and are counted as 1. Not covered: unbounded index and the subspace avoiding choice of short vectors."
  },
  {
   "property": "C77",
   "status": "proved",
   "theorems": [
    "cone_volume",
    "cone_forms",
    "cone_polynomial",
    "integral_over_unique"
   ],
   "note": "Proved for every full-dimensional bounded polytope; triangulateCone and the tangent cones are contracts. For the volume the theorem also says why drawing goes on (each vector drawn was orthogonal to a ray); termination with given random numbers is not claimed (see C65)."
  },
  {
   "property": "C78",
   "status": "proved",
   "theorems": [
    "triangulation_exact",
    "subdivision_exact",
    "triangulation_outcomes",
    "generic_heights_suffice",
    "normal_cones_triangulated",
    "triangulation_endless_refuted"
   ],
   "note": "cddlib's facets of the lifted cone are a contract (describes). generic_heights_suffice: the recursion ends when the heights are generic; triangulation_endless_refuted: with a maximal height of 1 it need not end."
  },
  {
   "property": "C79",
   "status": "proved",
   "theorems": [
    "short_vector_primitive",
    "first_choice_best",
    "second_choice_best",
    "large_determinant_lowered",
    "lowered_to_dimension_5",
    "choice_from_rays",
    "short_vector_contracts",
    "reduction_exists"
   ],
   "note": "ComputeOmega as used by barvinokStep. NTL's LLL and LatticeSolve are parameters with contracts; that these can be met is proved (every non-singular integer matrix has a reduced basis). From dimension 6 on lowering is proved for large determinants only."
  },
  {
   "property": "C80",
   "status": "proved",
   "theorems": [
    "latte_count_exact",
    "latte_count_total"
   ],
   "note": "Composition of C72, C78 and C79; the vertices of the polytope are given, triangulations are assumed to be found (C78: the search need not end for heights that are too small)."
  },
  {
   "property": "C81",
   "status": "partial",
   "theorems": [
    "count_command_line",
    "file_name_taken",
    "unknown_options_rejected",
    "input_missing_or_repeated",
    "count_command_line_all",
    "count_defaults",
    "bad_values_rejected",
    "special_cone_single",
    "command_line_refuted"
   ],
   "note": "Documented options in any order around one input: accepted, last one counts.  A file name is taken exactly if it begins with no reserved word; arguments with two dashes and no accepted prefix are rejected.  REFUTED: --interior always throws; unit.latte is taken for the option uni; --irrelevant selects irrational-primal; --maxdet=many is --maxdet=0; of two inputs the second may silently win."
  },
  {
   "property": "C82",
   "status": "partial",
   "theorems": [
    "integrate_command_line",
    "integrate_command_line_refuted",
    "integrand_from_file",
    "integrand_asked"
   ],
   "note": "Settings, methods and input as documented unless both --cone-decompose and --triangulate are given.  REFUTED: both together run the cone method only; --valuation=surface is ignored; of two values one is dropped; without an integrand the program branches on an uninitialised bool."
  },
  {
   "property": "C83",
   "status": "partial",
   "theorems": [
    "check_program_partial",
    "check_empty_partial",
    "check_empty_refuted"
   ],
   "note": "Integer entries, at most one line of each kind, linearity first: the linear program has exactly the described points as solutions; nonempty sets pass, and empty ones are rejected unless a direction satisfies the homogeneous constraints.  REFUTED otherwise: nonnegative before linearity ends the program; of two linearity lines only the last counts (an empty set passes); 1/2 <= x <= 3 is called empty; a linearity index of an added nonnegativity row reads outside the matrix."
  },
  {
   "property": "C84",
   "status": "partial",
   "theorems": [
    "inequalities_sent",
    "vertex_cones_read",
    "at_most_one_vertex",
    "unbounded_refuted"
   ],
   "note": "Files in any layout cdd uses (blanks, preamble, integer or rational, neighbours listed or their complement).  REFUTED: for an unbounded polyhedron 0 is written as the number of lattice points and the program ends with success."
  },
  {
   "property": "C85",
   "status": "partial",
   "theorems": [
    "count_file_partial",
    "count_file_total",
    "empty_file_rejected"
   ],
   "note": "Files of integers with at most one line of each kind, linearity first, at most 9 variables: whatever is printed is the number of integer points; up to 5 variables, exponential substitution and a reducing LLL, a number is printed.  Missing: rational files and other line orders (refuted in C83), the polynomial substitution with more than 5 10^9 / max_det cones (C76), --dilation, 4ti2."
  },
  {
   "property": "C86",
   "status": "partial",
   "theorems": [
    "subcones_round_trip",
    "subcone_file_read",
    "bad_subcones_rejected",
    "subcone_file_history",
    "subcones_refuted"
   ],
   "note": "Master cones with different rays, files that end with white space.  REFUTED otherwise: a master cone that lists a ray twice (assertion or write outside the vector), a file that ends with its last digit (rejected), and a writer that stops before the count is updated: the header still says -1 and the file is read as no cones, without an error."
  },
  {
   "property": "C87",
   "status": "partial",
   "theorems": [
    "vertex_cones_4ti2",
    "homogenization",
    "count_file_4ti2_partial",
    "count_file_4ti2_total"
   ],
   "note": "Vertices and facets: proved for every system and every answer of 4ti2 that consists of the extreme rays.  The count: as C85 (files of integers, at most 9 variables, conditions on triangulation, short vectors and random vectors)."
  },
  {
   "property": "C88",
   "status": "partial",
   "theorems": [
    "cone_bounds_enclose",
    "approximation_encloses",
    "approximation_ends",
    "approximation_all_primal",
    "first_cones_irrational",
    "approximation_encloses_small",
    "failed_step_loses_cone",
    "nonprimitive_normals_abort"
   ],
   "note": "Proved for LLL short vectors, primitive normals and runs in which no cone met has an integer point on a wall (the code does not check this here, unlike count); this freedom is proved for the first cones and, without that hypothesis, for every run on cones whose facet entries stay within 8*n^(depth(n-1)).  REFUTED otherwise: with the subspace-avoiding choice a step that finds no vector silently loses its cone and the final pair is wrong; a normal that is not primitive fails an assertion; the heap holds 100000 cones and asserts beyond."
  },
  {
   "property": "C89",
   "status": "partial",
   "theorems": [
    "heaps_give_the_largest",
    "digging_finds_a_maximum",
    "maximize_total",
    "minimize_total",
    "perturbed_maximum",
    "maximum_of_given_cost_refuted",
    "latte_maximize_exact",
    "latte_minimize_exact"
   ],
   "note": "Proved: the two heaps; whatever SolveIP returns is a maximum, with the right number of optimal points, for the cost it used, and it ends for every cost that is orthogonal to no ray.  For a perturbed cost the optimum of the given cost is proved when the factor of the perturbation exceeds 9 times the distance of the points; REFUTED without that: Maximum_Coordinate takes a negative entry with its sign, so the factor can be negative and the minimum is returned.  That the perturbations end is left to the random numbers.  Composed with the unimodular decomposition and the enumeration of lattice points: from the inequalities and vertices of a polytope to the optimum, for every cost orthogonal to none of finitely many vectors.  The hash table with its 1247677 places is a membership test; ints are unbounded; Residue, the test that there is an integer point before SolveIP, is left out."
  },
  {
   "property": "C90",
   "status": "proved",
   "theorems": [
    "residue_is_number_of_points",
    "first_substitution",
    "residue_returns",
    "residue_errors",
    "count_in_memory_exact",
    "maximize_checked_exact",
    "minimize_checked_exact"
   ],
   "note": "The power of ten grows with the number of cones, so that, unlike the cone-by-cone sum (C76), the rounded sum is always exact; no bound on the number of cones or the dimension.  That the random vectors are eventually orthogonal to no ray is a hypothesis (with at most six variables the small vectors can replace it); end to end with the contracts of C72 on the libraries, for unimodular dual decomposition."
  },
  {
   "property": "C91",
   "status": "partial",
   "theorems": [
    "conversion_same_points",
    "equations_lost_refuted",
    "decimals_cut_off_refuted",
    "own_files_not_converted",
    "no_begin_no_conversion"
   ],
   "note": "Proved for every file whose numbers are integers or fractions (reduced or not, of any size) and whose rows are all inequalities: the written file is read back as the rows times their least common denominators, and describes the same points.  The full statement is false of the code, shown by witnesses: a line 'linearity' is skipped, so that equations become inequalities; decimals are cut off at the point; the files LattE itself writes have a blank after 'begin', so that the line is never found and uninitialised sizes are used."
  },
  {
   "property": "C92",
   "status": "partial",
   "theorems": [
    "integer_hull_complete_partial",
    "hull_of_integer_points",
    "hull_returns",
    "more_facets_than_points",
    "digging_exact",
    "stops_too_early_refuted",
    "equation_one_sided_refuted"
   ],
   "note": "Proved for all inputs: only integer points of the polytope are printed; the rounds end, at most one per integer point; if all points of the last round were already known and the known points do not lie on one hyperplane, the list is complete.  Missing: the full statement is false of the code, shown by witnesses: known points are counted with repetitions, so that the loop stops although a new vertex was just found; equations of lrs are used in one direction only; with more facets than points in the list Push_Vector reads outside of its array.  lrs is trusted to describe hulls of points that do not lie on one hyperplane; SolveIP is exact under the condition of perturbed_maximum (C89), theorem digging_exact."
  },
  {
   "property": "C93",
   "status": "partial",
   "theorems": [
    "hilbert_candidates_generate",
    "subdivisions_cover",
    "hilbert_returns",
    "endless_subdivision_refuted",
    "dependent_rays_abort_refuted",
    "rays_not_written_refuted",
    "not_a_hilbert_basis_refuted"
   ],
   "note": "Proved for every run that comes to its end: the written vectors are different integer points of the cone, and with the rays they generate all integer points of the cone (zsolve and the triangulation by contract; a subdivision as in C78 meets the latter; the parallelepipeds are enumerated by the code of C26); it ends when no part needs a further subdivision.  The full statement is false of the code, shown by witnesses: a simplicial cone above both limits is triangulated into itself for ever; as many rays as variables that are dependent abort; the written vectors alone do not generate, and contain zero and decomposable vectors.  zsolve is trusted for pointed cones only (its free vectors are not written)."
  },
  {
   "property": "C94",
   "status": "partial",
   "theorems": [
    "dualized_is_polar",
    "dualized_twice_describes_cone",
    "dualized_simplicial",
    "dependent_rays_abort",
    "dualized_irredundant",
    "zsolve_gets_the_cone",
    "zsolve_contract_met",
    "cdd_lower_dimensional_refuted",
    "zero_cone_refuted"
   ],
   "note": "Proved for all lists of rays, with 4ti2 for cones of any dimension and with cdd for full-dimensional cones (the libraries by contract: the generators they return generate the cone asked for): polar cone, description by facets and equations after the second dualization (with the Farkas lemma proved here), exactly the extreme rays once each, the determinants of simplicial cones, the system for zsolve.  The full statement is false of the code, shown by witnesses: with cdd the lines of the polar cone of a lower-dimensional cone become rays, so that zsolve gets a larger cone; n dependent rays abort; the zero cone aborts in the second dualization."
  },
  {
   "property": "C95",
   "status": "partial",
   "theorems": [
    "subdivision_4ti2",
    "triangulation_4ti2_ends",
    "triangulation_4ti2_generic",
    "heights_drawn",
    "equal_heights_refuted",
    "delone_refuted",
    "negative_heights_refuted"
   ],
   "note": "Proved for all lists of rays that span the space (4ti2 by contract: extreme rays of the dual of the lifted cone, and ranks): the cones delivered subdivide the cone, the recursion ends after at most one level more than there are rays, and with generic heights that are not all the same the result is a triangulation.  The full statement is false of the code, shown by witnesses: when all heights are the same, or linear, the cone is passed on although it is not simplicial (so with --triangulation-max-height=1 always, and the Delone heights of the cone over a square), and negative prescribed heights can lose the whole cone."
  },
  {
   "property": "C96",
   "status": "partial",
   "theorems": [
    "avoiding_vector_exists",
    "avoiding_choice_best",
    "avoiding_vector_contracts",
    "decomposition_avoids",
    "avoiding_lowers_refuted"
   ],
   "note": "Proved for all cones with independent rays and every LLL that returns a basis: the assertion cannot fail, the vector is primitive, off the hyperplane and best among the rows of the transformation matrix that are, and the rays of all cones delivered by the whole decomposition (all modes, any consumer) are given rays or off the hyperplane.  The last part of the statement is false of the code, shown by a witness: for the cones with rays (1,0,0), (1,D,0), (0,0,1) no vector off the hyperplane lowers the index; for D = 5 the cone is delivered undecomposed although unimodular cones were asked for, for D = 200001 the program exits."
  },
  {
   "property": "C97",
   "status": "partial",
   "theorems": [
    "configuration_denotes_rays",
    "topcom_output_read",
    "topcom_triangulates",
    "reading_topcom_ends",
    "topcom_output_checked_refuted",
    "all_triangulations_refuted",
    "all_triangulations_good_output_refuted"
   ],
   "note": "Proved for all lists of rays and all triangulations (the TOPCOM program by contract: a function from the text of its input to the text it prints): the points written denote the rays, any printed triangulation is read exactly, so that the cones triangulate, and reading ends on every text.  The rest of the statement is false of the code, shown by theorems: too large or negative indices access memory outside the array, text truncated after a comma uses an uninitialised index, text that is no number is read as index 0; all_triangulations_of_cone_with_TOPCOM never succeeds, whatever the program prints, because after the last triangulation the stream is still good and the search for the next brace ends in exit(1)."
  },
  {
   "property": "C98",
   "status": "partial",
   "theorems": [
    "substitution_exact",
    "substitution_points",
    "substitution_series",
    "level_counts",
    "substitution_always_refuted"
   ],
   "note": "Proved for all lists of cones that have rays and points, in all dimensions: the text is read by an independent reader of arithmetic expressions as an expression with the value of the sum of rational functions at (1, ..., 1, t), wherever no denominator is zero; its power series has at t^k the sum over height k of the multivariate series; the program stops exactly if some ray has last coordinate 0.  The variable t is renamed x[0] for the reader.  Shown by witnesses where the statement fails: the program stops for cones with a horizontal ray, though the sum of all cones may have no pole, and without cones or rays the file is no expression.  Not proved here: that the cones of a decomposition have the multivariate generating function (C74) and no horizontal rays (C96)."
  },
  {
   "property": "C99",
   "status": "partial",
   "theorems": [
    "interior_vector_avoids",
    "interior_vector_nonzero",
    "interior_vector_outcomes",
    "search_ends_iff",
    "alpha_basis_total",
    "complete_boundary_cones",
    "completion_inside_refuted",
    "all_facets_avoid_refuted",
    "search_ends_refuted"
   ],
   "note": "Proved for all dimensions, lists of cones and reductions that multiply the matrix by a matrix U: the vector that is found has for each cone either determinant 0 or only facets (besides the one given by the rays) all of whose normals have a last coordinate that is not 0; the determinants used to discard cones are the true ones; the delivered cones are exactly those with determinant not 0, last one first; the vector is not 0 if U is not singular; the completion to a basis fails exactly for rays that are not n - 1 independent ones.  Shown by witnesses where the statement fails: the vector need not lie in the cone, so the completed cones need not be a triangulation of it; the facets given by the rays themselves are not tested; and for the boundary of the octant the search never ends.  For a unimodular reduction of full rank the search ends exactly if some vector that is not 0 has the property.  The LLL reduction is a parameter; the triangulation of the facets by 4ti2 and the double dualization are not modelled here (C95, C94)."
  }
 ]
}