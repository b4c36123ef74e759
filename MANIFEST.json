{
 "claims": [
  {
   "property": "C22",
   "status": "proved",
   "theorems": [
    "C22_minimize_exact"
   ],
   "note": "all three code paths"
  },
  {
   "property": "C23",
   "status": "proved",
   "theorems": [
    "C23_colon_exact",
    "C23_colonVar_exact"
   ],
   "note": "also characterises the 'changed' flag exactly"
  },
  {
   "property": "C05",
   "status": "proved",
   "theorems": [
    "C05_slice_algorithm_terminates",
    "C29_machine_refines_recursion"
   ],
   "note": "explicit depth bound shown sufficient for every legal rule; the single-variable side condition is finding F2 and is always met after exponent compression"
  },
  {
   "property": "C06",
   "status": "proved",
   "theorems": [
    "C06_strategy_independent",
    "C05_slice_algorithm_terminates"
   ],
   "note": "for every legal pivot or label rule, any random numbers, with/without simplification and independence splits"
  },
  {
   "property": "C25",
   "status": "proved",
   "theorems": [
    "C25_initial",
    "C25_inner",
    "C25_outer",
    "C25_normalize",
    "C25_removeDoubleLcm",
    "C25_simplify",
    "C25_base_case"
   ],
   "note": ""
  },
  {
   "property": "C26",
   "status": "proved",
   "theorems": [
    "C26_strategies_legal",
    "C26_hilbert_rules_legal",
    "C26_degree_strategy",
    "C26_degree_initial"
   ],
   "note": "the degree strategy exists only in optimization, where slices stay within the ids of the table"
  },
  {
   "property": "C27",
   "status": "proved",
   "theorems": [
    "C27_independence_product"
   ],
   "note": ""
  },
  {
   "property": "C28",
   "status": "proved",
   "theorems": [
    "C28_partition_components",
    "C28_projection_inverse"
   ],
   "note": ""
  },
  {
   "property": "C29",
   "status": "proved",
   "theorems": [
    "C29_engine_runs_each_task_once",
    "C29_machine_refines_recursion"
   ],
   "note": ""
  },
  {
   "property": "C01",
   "status": "proved",
   "theorems": [
    "C01_irreducible_decomposition"
   ],
   "note": "for every legal configuration; default_is_legal covers the one frobby.cpp uses"
  },
  {
   "property": "C02",
   "status": "proved",
   "theorems": [
    "C02_irredundant"
   ],
   "note": ""
  },
  {
   "property": "C03",
   "status": "proved",
   "theorems": [
    "C03_irreducible_ideals"
   ],
   "note": ""
  },
  {
   "property": "C04",
   "status": "proved",
   "theorems": [
    "C04_maximal_standard_monomials"
   ],
   "note": ""
  },
  {
   "property": "C07",
   "status": "proved",
   "theorems": [
    "C07_alexander_dual"
   ],
   "note": ""
  },
  {
   "property": "C08",
   "status": "proved",
   "theorems": [
    "C08_default_point"
   ],
   "note": ""
  },
  {
   "property": "C09",
   "status": "proved",
   "theorems": [
    "C09_bad_points",
    "C09_reflection_ideal"
   ],
   "note": ""
  },
  {
   "property": "C10",
   "status": "proved",
   "theorems": [
    "C10_involution"
   ],
   "note": ""
  },
  {
   "property": "C11",
   "status": "proved",
   "theorems": [
    "C11_associated_primes"
   ],
   "note": ""
  },
  {
   "property": "C12",
   "status": "partial",
   "theorems": [
    "C12_primary_decomposition_partial",
    "C12_refuted"
   ],
   "note": "the claim that one ideal is written per associated prime is false of the code (finding F3, C12_refuted); everything else is proved, and the one-to-one claim under the condition that equal supports are adjacent"
  },
  {
   "property": "C19",
   "status": "proved",
   "theorems": [
    "C19_entering_ideals"
   ],
   "note": ""
  },
  {
   "property": "C20",
   "status": "proved",
   "theorems": [
    "C20_consumer_protocol",
    "C20_polynomial_protocol"
   ],
   "note": "all API functions that take a consumer"
  },
  {
   "property": "C21",
   "status": "proved",
   "theorems": [
    "C21_depends_on_ideal_only",
    "C21_series_dimension_optimum"
   ],
   "note": "all API functions"
  },
  {
   "property": "C24",
   "status": "proved",
   "theorems": [
    "C24_compression_faithful"
   ],
   "note": ""
  },
  {
   "property": "C13",
   "status": "proved",
   "theorems": [
    "C13_multigraded_series",
    "C13_numerator_unique"
   ],
   "note": ""
  },
  {
   "property": "C14",
   "status": "proved",
   "theorems": [
    "C14_univariate_series"
   ],
   "note": "also the counting property of the series"
  },
  {
   "property": "C15",
   "status": "proved",
   "theorems": [
    "C15_dimension",
    "C15_dimension_unique"
   ],
   "note": ""
  },
  {
   "property": "C16",
   "status": "proved",
   "theorems": [
    "C16_codimension",
    "C16_codimension_one",
    "C16_least_component"
   ],
   "note": ""
  },
  {
   "property": "C17",
   "status": "proved",
   "theorems": [
    "C17_standard_program"
   ],
   "note": "for every legal strategy, including the degree strategy, and every use of bounds"
  },
  {
   "property": "C18",
   "status": "partial",
   "theorems": [
    "C18_infeasible_partial",
    "C18_refuted"
   ],
   "note": "false as documented: the delimiters of an empty ideal are written (finding F4)"
  },
  {
   "property": "C46",
   "status": "proved",
   "theorems": [
    "C46_dimension_by_optimization",
    "C46_condition_needed"
   ],
   "note": "with one variable only with simplification on, as the program always has it (finding F6)"
  },
  {
   "property": "C48",
   "status": "partial",
   "theorems": [
    "C48_standard_program",
    "C48_decomposition_program",
    "C48_components_unique",
    "C48_all_solutions_refuted"
   ],
   "note": "everything except that all optimal solutions are reported when the optimal value is 0, which is false of the code (finding F5)"
  },
  {
   "property": "C49",
   "status": "partial",
   "theorems": [
    "C49_optimize_partial",
    "C49_chop_first"
   ],
   "note": "as C48: all optimal solutions only if the optimal value is not 0"
  },
  {
   "property": "C31",
   "status": "proved",
   "theorems": [
    "C31_action",
    "C31_action_total",
    "C31_algorithm",
    "C31_algorithm_total",
    "C31_subsets",
    "C31_unique",
    "C31_pairs_refuted",
    "C31_popgcd_refuted",
    "C31_composite_refuted"
   ],
   "note": "for every strategy, every outcome of rand(), every word size; findings F8 to F10 show that the conditions on the settings are needed: impliedDiv alone gives a wrong answer, popgcd and widen without uniqueDiv do not end, a list of filters may compute rand() % 0"
  },
  {
   "property": "C32",
   "status": "proved",
   "theorems": [
    "C32_relations",
    "C32_operations",
    "C32_single_variable",
    "C32_valid",
    "C32_word_count",
    "C32_new_terms",
    "C32_support",
    "C32_encode",
    "C32_encode_strings",
    "C32_compact",
    "C32_ideal",
    "C32_divides_counts",
    "C32_memory",
    "C32_no_variables_refuted"
   ],
   "note": "for every word size; counting needs a word size divisible by 4; with no variables four functions leave the one word as it is (finding F7), so there the operations are stated for a result word that is 0; compaction needs a variable that is kept"
  },
  {
   "property": "C37",
   "status": "proved",
   "theorems": [
    "C37_ideal",
    "C37_unique",
    "C37_ideals",
    "C37_list",
    "C37_list_unique",
    "C37_polynomial",
    "C37_bigPolynomial",
    "C37_bigPolynomial_unique",
    "C37_reuse_refuted"
   ],
   "note": "for terms as they are and for terms that are translated on output, single ideals, sequences and lists of ideals, and polynomials; a consumer that is used again after a list withholds the ideal (finding F12)"
  },
  {
   "property": "C38",
   "status": "proved",
   "theorems": [
    "C38_multivariate",
    "C38_univariate"
   ],
   "note": "for every history and every arrangement of the hash map"
  },
  {
   "property": "C39",
   "status": "partial",
   "theorems": [
    "C39_partial",
    "C39_refuted",
    "C39_sort",
    "C39_canonical"
   ],
   "note": "a zero coefficient is left at the end exactly if the smallest monomial cancels (finding F11); everything else is proved"
  },
  {
   "property": "C40",
   "status": "proved",
   "theorems": [
    "C40_history",
    "C40_compare",
    "C40_toString",
    "C40_default",
    "C40_namesAreDefault"
   ],
   "note": "for every history of addVar, swapVariables, projectVar, clear and copies, and every value of the invalid index; the object's pointers into its map are modelled as keys that must be present"
  },
  {
   "property": "C41",
   "status": "proved",
   "theorems": [
    "C41_lookup",
    "C41_createWithPrefix",
    "C41_create"
   ],
   "note": "for every table of distinct names"
  },
  {
   "property": "C50",
   "status": "proved",
   "theorems": [
    "C50_big",
    "C50_canonical",
    "C50_translator"
   ],
   "note": "for big ideals and polynomials, and for ideals with a translator"
  },
  {
   "property": "C33",
   "status": "proved",
   "theorems": [
    "C33_m2_round_trip"
   ],
   "note": "for all distinct legal names and all monomials; characters in the C locale"
  },
  {
   "property": "C34",
   "status": "proved",
   "theorems": [
    "C34_monos_round_trip"
   ],
   "note": "both formats"
  },
  {
   "property": "C35",
   "status": "proved",
   "theorems": [
    "C35_fourti2_round_trip"
   ],
   "note": "if the numbers of variables and generators fit into a size_t"
  },
  {
   "property": "C36",
   "status": "partial",
   "theorems": [
    "C36_decimal_exponents_partial",
    "C36_refuted"
   ],
   "note": "false for numerals with a leading zero, which gmpxx reads in base 8 or rejects with an exception (finding F15); proved for all others in every format"
  },
  {
   "property": "C51",
   "status": "proved",
   "theorems": [
    "C51_singular_cocoa_round_trip"
   ],
   "note": "CoCoA 4: if the number of variables fits into a size_t"
  },
  {
   "property": "C52",
   "status": "proved",
   "theorems": [
    "C52_lists_round_trip"
   ],
   "note": "all six formats"
  },
  {
   "property": "C53",
   "status": "proved",
   "theorems": [
    "C53_reading_is_total"
   ],
   "note": "all six formats, every text; Undefined covers failing assertions and indices out of range"
  },
  {
   "property": "C54",
   "status": "proved",
   "theorems": [
    "C54_square_free_reading"
   ],
   "note": "all six formats, every text"
  },
  {
   "property": "C55",
   "status": "proved",
   "theorems": [
    "C55_streams_round_trip"
   ],
   "note": "all six formats"
  },
  {
   "property": "C56",
   "status": "proved",
   "theorems": [
    "C56_format_detection"
   ],
   "note": "single ideals and lists"
  },
  {
   "property": "C57",
   "status": "proved",
   "theorems": [
    "C57_buffer_is_transparent"
   ],
   "note": "for files whose reads are full until their end"
  },
  {
   "property": "C45",
   "status": "partial",
   "theorems": [
    "C45_dynamic_frobenius_partial",
    "C45_two_numbers",
    "C45_refuted"
   ],
   "note": "proved for numbers above 1 one of which fits an int, and for any two positive numbers; false with 1 among three or more numbers (F16), which the reader excludes"
  },
  {
   "property": "C58",
   "status": "proved",
   "theorems": [
    "C58_frobdyn"
   ],
   "note": "reading, gcd test, algorithm and printing; when three or more numbers all exceed the largest int the counter may overflow, which is the one exception in the statement"
  },
  {
   "property": "C42",
   "status": "proved",
   "theorems": [
    "C42_arena",
    "C42_arrays"
   ],
   "note": "64 bit machine; operator new is any function returning unused aligned memory"
  },
  {
   "property": "C59",
   "status": "partial",
   "theorems": [
    "C59_empty_partial",
    "C59_refuted"
   ],
   "note": "one direction is proved, the other is false (F17)"
  },
  {
   "property": "C60",
   "status": "partial",
   "theorems": [
    "C60_bad_alloc_partial",
    "C60_refuted"
   ],
   "note": "false: a failing operator new leaves the current block linked to itself (F18); proved: what does stay intact"
  },
  {
   "property": "C43",
   "status": "proved",
   "theorems": [
    "C43_intersect"
   ],
   "note": "ideals over different rings; names as lists (C40)"
  },
  {
   "property": "C44",
   "status": "proved",
   "theorems": [
    "C44_radical",
    "C44_products",
    "C44_pure_powers",
    "C44_projection",
    "C44_no_projection",
    "C44_swap01"
   ],
   "note": "through the action transform with one option"
  },
  {
   "property": "C61",
   "status": "proved",
   "theorems": [
    "C61_minimize",
    "C61_trim_variables",
    "C61_transpose",
    "C61_deform",
    "C61_sort",
    "C61_unique"
   ],
   "note": ""
  },
  {
   "property": "C62",
   "status": "proved",
   "theorems": [
    "C62_canonical",
    "C62_canonical_is_reordering",
    "C62_canonical_unique",
    "C62_canonical_unique_is_reordering"
   ],
   "note": ""
  },
  {
   "property": "C63",
   "status": "proved",
   "theorems": [
    "C63_options_in_order"
   ],
   "note": ""
  },
  {
   "property": "C64",
   "status": "partial",
   "theorems": [
    "C64_transform_is_total_partial",
    "C64_refuted"
   ],
   "note": "false for ideals in different rings (F19); proved for one ring"
  },
  {
   "property": "C65",
   "status": "proved",
   "theorems": [
    "C65_intersection_action"
   ],
   "note": "the formats are given; detection is C56"
  },
  {
   "property": "C66",
   "status": "proved",
   "theorems": [
    "C66_transform_action",
    "C66_errors"
   ],
   "note": ""
  },
  {
   "property": "C30",
   "status": "proved",
   "theorems": [
    "C30_multigraded",
    "C30_univariate",
    "C30_strategies"
   ],
   "note": "for the translated ideal of CommonParamsHelper, any order of the hash map; the fuel bound is part of the statement"
  },
  {
   "property": "C67",
   "status": "proved",
   "theorems": [
    "C67_weakly_generic",
    "C67_strongly_generic"
   ],
   "note": ""
  },
  {
   "property": "C47",
   "status": "partial",
   "theorems": [
    "C47_deformation",
    "C47_strong",
    "C47_weak_partial",
    "C47_weak_refuted"
   ],
   "note": "the table and the lcm part for all inputs, strong deformation for all inputs; weak deformation only makes ideals without gaps in their exponents weakly generic, and this is refuted in general (finding F20)"
  },
  {
   "property": "C68",
   "status": "partial",
   "theorems": [
    "C68_multigraded_partial",
    "C68_univariate_partial",
    "C68_minimal",
    "C68_refuted"
   ],
   "note": "all inputs with strong deformation, all minimal inputs with weak deformation; refuted for the default on redundant generators with exponents of their own (finding F20)"
  },
  {
   "property": "C69",
   "status": "proved",
   "theorems": [
    "C69_tree"
   ],
   "note": "the leaf size is the one of the program, 60"
  },
  {
   "property": "C70",
   "status": "proved",
   "theorems": [
    "C70_same_generators",
    "C70_sorts",
    "C70_determined",
    "C70_defined",
    "C70_names"
   ],
   "note": ""
  },
  {
   "property": "C71",
   "status": "proved",
   "theorems": [
    "C71_polynomial_round_trip"
   ],
   "note": "the exception for the polynomial without terms is finding F14"
  },
  {
   "property": "C72",
   "status": "partial",
   "theorems": [
    "C72_streamed_polynomials_partial",
    "C72_refuted"
   ],
   "note": "all formats but CoCoA 4; for CoCoA 4 only terms whose exponents are all zero or all nonzero, and refuted otherwise (finding F13)"
  },
  {
   "property": "C73",
   "status": "partial",
   "theorems": [
    "C73_polynomial_reading_partial",
    "C73_refuted"
   ],
   "note": "refuted for 4ti2 files that repeat a name (finding F21); proved for everything else"
  },
  {
   "property": "C74",
   "status": "proved",
   "theorems": [
    "C74_ptransform",
    "C74_errors",
    "C74_canonical",
    "C74_idempotent"
   ],
   "note": ""
  },
  {
   "property": "C75",
   "status": "proved",
   "theorems": [
    "C75_irrdecom",
    "C75_no_lists",
    "C75_input_format_refuted"
   ],
   "note": "fails for inputs in three of the formats unless an output format is given (F38); -minimal is trusted to be true; the output formats null and count are not modelled"
  },
  {
   "property": "C76",
   "status": "proved",
   "theorems": [
    "C76_maxstandard",
    "C76_assoprimes",
    "C76_no_lists"
   ],
   "note": "fails for three of the formats although it prints one ideal (F38)"
  },
  {
   "property": "C77",
   "status": "proved",
   "theorems": [
    "C77_primdecom",
    "C77_no_lists"
   ],
   "note": ""
  },
  {
   "property": "C78",
   "status": "partial",
   "theorems": [
    "C78_alexdual_partial",
    "C78_point",
    "C78_no_point",
    "C78_canonical_point_error_refuted",
    "C78_canonical_point_refuted"
   ],
   "note": "refuted for -canon with a point and variables that are not in ascending order (finding F22); proved for everything else"
  },
  {
   "property": "C79",
   "status": "proved",
   "theorems": [
    "C79_canonical"
   ],
   "note": "alexdual without a point"
  },
  {
   "property": "C80",
   "status": "proved",
   "theorems": [
    "C80_errors"
   ],
   "note": ""
  },
  {
   "property": "C81",
   "status": "proved",
   "theorems": [
    "C81_analyze",
    "C81_lcm_line",
    "C81_errors"
   ],
   "note": ""
  },
  {
   "property": "C82",
   "status": "partial",
   "theorems": [
    "C82_summary_partial",
    "C82_minimized",
    "C82_summary_refuted"
   ],
   "note": "refuted for -minimal with generators that are not minimal (finding F23); proved for everything else"
  },
  {
   "property": "C83",
   "status": "partial",
   "theorems": [
    "C83_optimize_partial",
    "C83_input",
    "C83_plain_input",
    "C83_independent",
    "C83_errors",
    "C83_canonical_vector_refuted",
    "C83_chop_minimal_refuted"
   ],
   "note": "refuted for -canon with a vector that is not constant and variables that are not in ascending order (finding F24) and for -minimal with -chopFirstAndSubtract (finding F25); with the optimal value 0 not all solutions need be shown (see C48)"
  },
  {
   "property": "C84",
   "status": "proved",
   "theorems": [
    "C84_dimension",
    "C84_errors"
   ],
   "note": ""
  },
  {
   "property": "C85",
   "status": "proved",
   "theorems": [
    "C85_euler",
    "C85_euler_ends",
    "C85_euler_steady",
    "C85_errors"
   ],
   "note": "as in C31, -impliedDiv needs another simplification"
  },
  {
   "property": "C86",
   "status": "proved",
   "theorems": [
    "C86_detection",
    "C86_output_format"
   ],
   "note": ""
  },
  {
   "property": "C87",
   "status": "partial",
   "theorems": [
    "C87_multigraded_partial",
    "C87_univariate_partial"
   ],
   "note": "missing: the weak deformation unless the exponents are those of minimal generators (C68), and the multigraded polynomial in the CoCoA 4 format when it cannot be read back (C72)"
  },
  {
   "property": "C88",
   "status": "partial",
   "theorems": [
    "C88_canonical_text_partial"
   ],
   "note": "for the weak deformation as in C68"
  },
  {
   "property": "C89",
   "status": "proved",
   "theorems": [
    "C89_refused",
    "C89_format",
    "C89_outcome"
   ],
   "note": "the one exception, abbreviations of degree and frob, is refuted in C90; for the weak deformation see C68"
  },
  {
   "property": "C90",
   "status": "partial",
   "theorems": [
    "C90_split_names",
    "C90_graded_split_names",
    "C90_pivot_names",
    "C90_order_names",
    "C90_degree_abbreviation_refuted"
   ],
   "note": "refuted for proper prefixes of degree and frob, which are accepted without a grading (finding F26)"
  },
  {
   "property": "C91",
   "status": "proved",
   "theorems": [
    "C91_command_line",
    "C91_unique",
    "C91_tables"
   ],
   "note": ""
  },
  {
   "property": "C92",
   "status": "proved",
   "theorems": [
    "C92_same_command",
    "C92_unknown_action",
    "C92_bad_options",
    "C92_unknown_input_format",
    "C92_unknown_output_format",
    "C92_unknown_split"
   ],
   "note": ""
  },
  {
   "property": "C93",
   "status": "proved",
   "theorems": [
    "C93_slice_actions",
    "C93_dimension",
    "C93_optimize",
    "C93_hilbert",
    "C93_euler",
    "C93_analyze",
    "C93_intersection",
    "C93_transform",
    "C93_ptransform",
    "C93_frobdyn",
    "C93_output_format"
   ],
   "note": "the formats null and count are not modelled"
  },
  {
   "property": "C94",
   "status": "proved",
   "theorems": [
    "C94_irrdecom",
    "C94_maxstandard",
    "C94_assoprimes",
    "C94_primdecom",
    "C94_no_lists"
   ],
   "note": "see F38"
  },
  {
   "property": "C95",
   "status": "partial",
   "theorems": [
    "C95_dimension",
    "C95_hilbert_multigraded_partial",
    "C95_hilbert_univariate_partial",
    "C95_euler"
   ],
   "note": "for the series what is missing in C87; euler for settings that end (C31)"
  },
  {
   "property": "C96",
   "status": "partial",
   "theorems": [
    "C96_canonical",
    "C96_reports_partial",
    "C96_reports_more_partial"
   ],
   "note": "missing: the formats null and count, and abbreviations of degree and frob, for which it is false (F26)"
  },
  {
   "property": "C97",
   "status": "proved",
   "theorems": [
    "C97_list",
    "C97_tree"
   ],
   "note": ""
  },
  {
   "property": "C98",
   "status": "proved",
   "theorems": [
    "C98_king",
    "C98_knight"
   ],
   "note": ""
  },
  {
   "property": "C99",
   "status": "proved",
   "theorems": [
    "C99_rook",
    "C99_errors"
   ],
   "note": ""
  },
  {
   "property": "C100",
   "status": "proved",
   "theorems": [
    "C100_matching",
    "C100_errors"
   ],
   "note": ""
  },
  {
   "property": "C101",
   "status": "proved",
   "theorems": [
    "C101_random",
    "C101_exponents"
   ],
   "note": ""
  },
  {
   "property": "C102",
   "status": "partial",
   "theorems": [
    "C102_edge_partial",
    "C102_ends_partial",
    "C102_ends_refuted",
    "C102_no_variables_refuted"
   ],
   "note": "that it ends is false for some random numbers (F29), and with no variables the remainder of a division by 0 is taken (F30); what is missing for the other random numbers is a condition that is not stronger than that each pair has two different variables"
  },
  {
   "property": "C103",
   "status": "partial",
   "theorems": [
    "C103_genfrob",
    "C103_errors",
    "C103_solved_partial",
    "C103_coprime_refuted",
    "C103_digits_refuted"
   ],
   "note": "false if the numbers drawn have a common divisor or one of them is 1 or 10^digits (F27, F28)"
  },
  {
   "property": "C104",
   "status": "proved",
   "theorems": [
    "C104_genideal",
    "C104_ends",
    "C104_errors"
   ],
   "note": "the formats null and count are not modelled"
  },
  {
   "property": "C105",
   "status": "proved",
   "theorems": [
    "C105_echelon",
    "C105_reduced",
    "C105_unique",
    "C105_zero_one_refuted",
    "C105_two_entries_refuted"
   ],
   "note": "the stronger claim of the documentation, that all entries are 0 or 1 and no column has two entries that are not 0, is false (F31)"
  },
  {
   "property": "C106",
   "status": "proved",
   "theorems": [
    "C106_solve"
   ],
   "note": ""
  },
  {
   "property": "C107",
   "status": "partial",
   "theorems": [
    "C107_inverse_partial",
    "C107_empty_refuted"
   ],
   "note": "false for the matrix with no rows and no columns (F32)"
  },
  {
   "property": "C108",
   "status": "proved",
   "theorems": [
    "C108_rank",
    "C108_null_space"
   ],
   "note": ""
  },
  {
   "property": "C109",
   "status": "proved",
   "theorems": [
    "C109_rows",
    "C109_columns"
   ],
   "note": ""
  },
  {
   "property": "C110",
   "status": "proved",
   "theorems": [
    "C110_determinant",
    "C110_invertible"
   ],
   "note": ""
  },
  {
   "property": "C111",
   "status": "proved",
   "theorems": [
    "C111_parallelogram",
    "C111_area"
   ],
   "note": ""
  },
  {
   "property": "C112",
   "status": "proved",
   "theorems": [
    "C112_product",
    "C112_transpose",
    "C112_part",
    "C112_resize",
    "C112_copy_row",
    "C112_equal"
   ],
   "note": ""
  },
  {
   "property": "C113",
   "status": "proved",
   "theorems": [
    "C113_latformat",
    "C113_written",
    "C113_any_file",
    "C113_unknown_format"
   ],
   "note": ""
  },
  {
   "property": "C114",
   "status": "proved",
   "theorems": [
    "C114_zero",
    "C114_more_zeroes_refuted",
    "C114_empty_undefined"
   ],
   "note": "the description of the option promises more zeroes, which is false (F33); a matrix without rows or columns is outside the property (F34)"
  },
  {
   "property": "C115",
   "status": "partial",
   "theorems": [
    "C115_frobgrob_partial",
    "C115_canon_refuted",
    "C115_any_file",
    "C115_no_solution_refuted"
   ],
   "note": "false with -canon and more than ten numbers (F35); with -minimal the leading terms have to be minimal; an input without maximal standard monomials is undefined (F36)"
  },
  {
   "property": "C116",
   "status": "proved",
   "theorems": [
    "C116_optimize_frobenius"
   ],
   "note": ""
  },
  {
   "property": "C117",
   "status": "partial",
   "theorems": [
    "C117_frobgrob_partial",
    "C117_frobgrob_any",
    "C117_unknown_split",
    "C117_latformat",
    "C117_zero",
    "C117_unknown_format",
    "C117_latformat_reports"
   ],
   "note": "what is missing in C114 and C115 is missing here"
  },
  {
   "property": "C118",
   "status": "proved",
   "theorems": [
    "C118_display",
    "C118_words",
    "C118_width",
    "C118_unchanged",
    "C118_errors",
    "C118_one_line_refuted"
   ],
   "note": "a word too wide for the console after an indentation gets a line without a word before it (F37)"
  },
  {
   "property": "C119",
   "status": "proved",
   "theorems": [
    "C119_columns",
    "C119_aligned"
   ],
   "note": ""
  },
  {
   "property": "C120",
   "status": "proved",
   "theorems": [
    "C120_action",
    "C120_unknown_topic",
    "C120_screen"
   ],
   "note": "the texts of descriptions are arbitrary; help help lists no options although -time is accepted"
  },
  {
   "property": "C121",
   "status": "partial",
   "theorems": [
    "C121_io",
    "C121_input_formats",
    "C121_output_formats_partial",
    "C121_output_formats_refuted"
   ],
   "note": "false for the output formats of irrdecom, assoprimes and maxstandard (F38); latanal is left out"
  },
  {
   "property": "C122",
   "status": "proved",
   "theorems": [
    "C122_irrdecom",
    "C122_maxstandard",
    "C122_assoprimes",
    "C122_primdecom",
    "C122_alexdual",
    "C122_transform",
    "C122_intersection",
    "C122_hilbert_multigraded",
    "C122_hilbert_univariate",
    "C122_ptransform",
    "C122_errors"
   ],
   "note": ""
  },
  {
   "property": "C123",
   "status": "proved",
   "theorems": [
    "C123_point_free",
    "C123_edges",
    "C123_triangles",
    "C123_comment_refuted"
   ],
   "note": "the comments in the header on interior and terminating edges say something else (F39)"
  },
  {
   "property": "C124",
   "status": "proved",
   "theorems": [
    "C124_validate",
    "C124_search"
   ],
   "note": ""
  },
  {
   "property": "C125",
   "status": "proved",
   "theorems": [
    "C125_weakly_generic",
    "C125_generic",
    "C125_zero_entry_refuted"
   ],
   "note": "the test for weak genericity can be wrong if there is a zero entry (F39)"
  },
  {
   "property": "C126",
   "status": "proved",
   "theorems": [
    "C126_initial",
    "C126_removal",
    "C126_projection",
    "C126_generator"
   ],
   "note": ""
  },
  {
   "property": "C127",
   "status": "proved",
   "theorems": [
    "C127_read",
    "C127_any"
   ],
   "note": ""
  },
  {
   "property": "C128",
   "status": "proved",
   "theorems": [
    "C128_sums",
    "C128_unchecked_refuted"
   ],
   "note": "the neighbors have to be in the span of the basis; it is not checked that they are (F40)"
  },
  {
   "property": "C129",
   "status": "proved",
   "theorems": [
    "C129_push_out"
   ],
   "note": ""
  },
  {
   "property": "C130",
   "status": "proved",
   "theorems": [
    "C130_bodies"
   ],
   "note": "for neighbors that bound their bodies; for others the program can end with an error, as an example beside the theorem shows"
  },
  {
   "property": "C131",
   "status": "proved",
   "theorems": [
    "C131_points"
   ],
   "note": ""
  },
  {
   "property": "C132",
   "status": "proved",
   "theorems": [
    "C132_edges"
   ],
   "note": ""
  },
  {
   "property": "C133",
   "status": "proved",
   "theorems": [
    "C133_same_side"
   ],
   "note": ""
  },
  {
   "property": "C134",
   "status": "proved",
   "theorems": [
    "C134_min_initial"
   ],
   "note": ""
  },
  {
   "property": "C135",
   "status": "proved",
   "theorems": [
    "C135_planes"
   ],
   "note": ""
  },
  {
   "property": "C136",
   "status": "proved",
   "theorems": [
    "C136_triangles"
   ],
   "note": ""
  },
  {
   "property": "C137",
   "status": "proved",
   "theorems": [
    "C137_places",
    "C137_dimension_refuted"
   ],
   "note": "For lattices of dimension 3; in dimension 2 an entry that does not exist is read (finding F41)"
  },
  {
   "property": "C138",
   "status": "proved",
   "theorems": [
    "C138_index"
   ],
   "note": ""
  },
  {
   "property": "C139",
   "status": "proved",
   "theorems": [
    "C139_parallelogram"
   ],
   "note": ""
  },
  {
   "property": "C140",
   "status": "proved",
   "theorems": [
    "C140_degree"
   ],
   "note": ""
  },
  {
   "property": "C141",
   "status": "proved",
   "theorems": [
    "C141_types"
   ],
   "note": ""
  },
  {
   "property": "C142",
   "status": "proved",
   "theorems": [
    "C142_next_and_previous"
   ],
   "note": "The edges are a table that is assumed to go both ways."
  },
  {
   "property": "C143",
   "status": "proved",
   "theorems": [
    "C143_pivot_sequence"
   ],
   "note": "The edges are a table that is assumed to go both ways; which bodies are pivots is a parameter."
  }
 ]
}