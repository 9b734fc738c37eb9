{
 "claims": [
  {
   "property": "C01",
   "status": "proved",
   "theorems": [
    "C01_group",
    "C01_time_reversal",
    "C01_conjugation"
   ],
   "note": ""
  },
  {
   "property": "C02",
   "status": "proved",
   "theorems": [
    "C02_coordinates",
    "C02_action_x",
    "C02_action_vec",
    "C02_action_cube",
    "C02_action_cube_start",
    "C02_action_t",
    "C02_action_cnum",
    "C02_isometry",
    "C02_cube_image",
    "C02_cube_start_image"
   ],
   "note": ""
  },
  {
   "property": "C03",
   "status": "proved",
   "theorems": [
    "C03_powers",
    "C03_zeroth_power_diverges_refuted"
   ],
   "note": "b**0 is proved to diverge"
  },
  {
   "property": "C04",
   "status": "proved",
   "theorems": [
    "C04_gen_base_maps"
   ],
   "note": ""
  },
  {
   "property": "C05",
   "status": "proved",
   "theorems": [
    "C05_base_map_round_trip",
    "C05_text_meaning",
    "C05_spec_round_trip",
    "C05_spec_round_trip_refuted",
    "C05_parse_validity",
    "C05_parse_accepts_invalid_refuted"
   ],
   "note": "ASCII texts only; round trip for two-digit pattern numbers refuted as stated in the property"
  },
  {
   "property": "C06",
   "status": "proved",
   "theorems": [
    "C06_gen_constraint_fast"
   ],
   "note": ""
  },
  {
   "property": "C07",
   "status": "proved",
   "theorems": [
    "C07_caches_invisible",
    "C07_one_object_per_key"
   ],
   "note": ""
  },
  {
   "property": "C08",
   "status": "proved",
   "theorems": [
    "C08_semigroup",
    "C08_action"
   ],
   "note": ""
  },
  {
   "property": "C09",
   "status": "proved",
   "theorems": [
    "C09_point_std",
    "C09_point_orbit",
    "C09_link_std",
    "C09_link_orbit",
    "C09_facet_std",
    "C09_facet_link_std",
    "C09_facet_link_orbit"
   ],
   "note": ""
  },
  {
   "property": "C10",
   "status": "proved",
   "theorems": [
    "C10_divide",
    "C10_relative_position",
    "C10_neighbours",
    "C10_map_to_cube"
   ],
   "note": ""
  },
  {
   "property": "C11",
   "status": "proved",
   "theorems": [
    "C11_intersects",
    "C11_nested_or_disjoint",
    "C11_nonempty",
    "C11_image",
    "C11_group_action",
    "C11_map_to_cube",
    "C11_divide",
    "C11_neighbours"
   ],
   "note": "the union of the fractions of a whole facet misses the walls of the grid, because the sets are open"
  },
  {
   "property": "C12",
   "status": "proved",
   "theorems": [
    "C12_point_links",
    "C12_facet_links"
   ],
   "note": ""
  },
  {
   "property": "C13",
   "status": "proved",
   "theorems": [
    "C13_round_trip",
    "C13_injective",
    "C13_long_step_refuted",
    "C13_div1_refuted",
    "C13_zero_step_refuted"
   ],
   "note": "Round trip and injectivity of chain codes for all dim 1..6, div >= 2 and prototypes covering the grid by non-zero steps in {-1,0,1}^dim; longer steps, zero steps and div = 1 refuted by witnesses."
  },
  {
   "property": "C14",
   "status": "proved",
   "theorems": [
    "C14_proto",
    "C14_link",
    "C14_path",
    "C14_continuous",
    "C14_continuity_preserved"
   ],
   "note": ""
  },
  {
   "property": "C15",
   "status": "proved",
   "theorems": [
    "C15_action",
    "C15_valid"
   ],
   "note": ""
  },
  {
   "property": "C16",
   "status": "proved",
   "theorems": [
    "C16_deep_spec",
    "C16_step"
   ],
   "note": ""
  },
  {
   "property": "C17",
   "status": "proved",
   "theorems": [
    "C17_valid",
    "C17_nested",
    "C17_same_map",
    "C17_gates",
    "C17_check"
   ],
   "note": "valid curve of division div^(k+1), nested cubes and specs, same map, same gates, check iff"
  },
  {
   "property": "C18",
   "status": "proved",
   "theorems": [
    "C18_periodic_sum",
    "C18_enclosure"
   ],
   "note": ""
  },
  {
   "property": "C19",
   "status": "proved",
   "theorems": [
    "C19_entrance",
    "C19_exit",
    "C19_selfsimilar",
    "C19_equivariant"
   ],
   "note": ""
  },
  {
   "property": "C20",
   "status": "proved",
   "theorems": [
    "C20_check_exact",
    "C20_all_depths",
    "C20_defined",
    "C20_single_valued",
    "C20_check_iff_single_valued",
    "C20_into_cube",
    "C20_onto_cube",
    "C20_continuous",
    "C20_modulus"
   ],
   "note": "check() is total and true exactly for joined curves; all depths; single valued, onto, eps-delta continuous, explicit modulus"
  },
  {
   "property": "C21",
   "status": "proved",
   "theorems": [
    "C21_face_moment",
    "C21_vertex_moments"
   ],
   "note": "first/last moment of every face and the unique moments of vertices"
  },
  {
   "property": "C22",
   "status": "proved",
   "theorems": [
    "C22_complete",
    "C22_pairs_exist",
    "C22_genuine",
    "C22_normal_form",
    "C22_no_duplicates",
    "C22_never_raises",
    "C22_auto",
    "C22_up_to_isometry_refuted"
   ],
   "note": "see T_Junctions.v; that the junctions are pairwise not isometric is refuted with the zoo curve l1_best_3d (T_ZooInfo.v)"
  },
  {
   "property": "C23",
   "status": "proved",
   "theorems": [
    "C23_terminates",
    "C23_delta",
    "C23_meets",
    "C23_ends_exist",
    "C23_may_run_forever"
   ],
   "note": "see T_Junctions.v"
  },
  {
   "property": "C24",
   "status": "proved",
   "theorems": [
    "C24_depth_enough",
    "C24_least_depth_refuted",
    "C24_get_depth_refuted"
   ],
   "note": "the depth of a junction is genuine and get_depth is enough; the least-depth reading is refuted with the zoo curve facet_gated_4d"
  },
  {
   "property": "C25",
   "status": "proved",
   "theorems": [
    "C25_allowed_exact",
    "C25_specified",
    "C25_keyerror"
   ],
   "note": ""
  },
  {
   "property": "C26",
   "status": "proved",
   "theorems": [
    "C26_keeps_paths",
    "C26_possible",
    "C26_check",
    "C26_forget"
   ],
   "note": ""
  },
  {
   "property": "C27",
   "status": "proved",
   "theorems": [
    "C27_allowed_specs",
    "C27_possible"
   ],
   "note": ""
  },
  {
   "property": "C28",
   "status": "proved",
   "theorems": [
    "C28_raises",
    "C28_narrows",
    "C28_frame",
    "C28_curve_example"
   ],
   "note": ""
  },
  {
   "property": "C29",
   "status": "proved",
   "theorems": [
    "C29_exact",
    "C29_terminates"
   ],
   "note": ""
  },
  {
   "property": "C30",
   "status": "proved",
   "theorems": [
    "C30_satisfiable",
    "C30_decodes",
    "C30_solve",
    "C30_copies_independent",
    "C30_copy_raises"
   ],
   "note": "For fuzzy curves built from valid paths: the clauses are satisfiable iff a chosen curve avoids all forbidden combinations; any model decodes to such a curve (with pattern 0 selected); any correct solver decides. Mutable adapters are modelled in a store: copies share nothing, copying after solve() raises. The SAT solver is a parameter with a contract."
  },
  {
   "property": "C31",
   "status": "proved",
   "theorems": [
    "C31_active_items",
    "C31_bad_items",
    "C31_pop",
    "C31_threshold",
    "C31_max_lo",
    "C31_copy",
    "C31_copy_raises",
    "C31_heapq"
   ],
   "note": ""
  },
  {
   "property": "C32",
   "status": "proved",
   "theorems": [
    "C32_hamiltonian",
    "C32_limits",
    "C32_one_cube_refuted"
   ],
   "note": "Total correctness of grow (it ends, raises nothing, yields exactly the Hamiltonian paths, each once) for every grid with at least two cubes, every step function that raises nothing and yields distinct steps, all limits and every hash function respecting equality (C32_hamiltonian); independence of limits and hash as a permutation (C32_limits). A grid of one cube yields nothing (C32_one_cube_refuted)."
  },
  {
   "property": "C33",
   "status": "proved",
   "theorems": [
    "C33_point_paths",
    "C33_point_paths_std",
    "C33_continuous",
    "C33_facet_paths",
    "C33_facet_paths_std",
    "C33_tuples"
   ],
   "note": "generate_paths_generic(link=...) for links between points (and between facet sets), with and without std, and generate_paths: soundness, completeness, no repetition, for all limits and hash functions; grids with at least two cubes (for one cube see C32_one_cube_refuted). parent=... is modelled."
  },
  {
   "property": "C34",
   "status": "proved",
   "theorems": [
    "C34_combinations_product",
    "C34_positions",
    "C34_missing_id"
   ],
   "note": "ids are naturals; distinct-item iterables, and arbitrary iterables through positions"
  },
  {
   "property": "C35",
   "status": "proved",
   "theorems": [
    "C35_bounds_enclose",
    "C35_norms"
   ],
   "note": "For every ratio function satisfying ratio_ok (the shipped norms do, C35_norms)."
  },
  {
   "property": "C36",
   "status": "proved",
   "theorems": [
    "C36_equal_always",
    "C36_equality_refuted"
   ],
   "note": "refuted: Curve.__eq__ is always truthy (theorem C36_equality_refuted)"
  },
  {
   "property": "C37",
   "status": "proved",
   "theorems": [
    "C37_regular_encloses"
   ],
   "note": "Any correct heapq; whenever a result is returned."
  },
  {
   "property": "C38",
   "status": "proved",
   "theorems": [
    "C38_bisect_decides",
    "C38_bisect_returns"
   ],
   "note": "bisect_dilation_fuzzy: BFound/BNone decided for any thresholds, correct SAT solver and schedule, with or without cached tree/adapter; no other exception for continuous paths."
  },
  {
   "property": "C39",
   "status": "proved",
   "theorems": [
    "C39_fuzzy_encloses"
   ],
   "note": "Bounds and curve for any correct start bounds, solver, schedule, limits; tolerance unless stopped."
  },
  {
   "property": "C40",
   "status": "proved",
   "theorems": [
    "C40_sequence",
    "C40_listed_within_refuted"
   ],
   "note": "lo, up, indices, examples and the None case; the documented claim that listed curves lie in [lo, up] is refuted."
  },
  {
   "property": "C41",
   "status": "proved",
   "theorems": [
    "C41_general",
    "C41_general_complete",
    "C41_facet",
    "C41_facet_complete",
    "C41_modes_agree"
   ],
   "note": "gates.py modelled with its searches; general mode and facet mode (dim >= 2) both exact; the limits of the searches are arbitrary; fuel large enough"
  },
  {
   "property": "C42",
   "status": "proved",
   "theorems": [
    "C42_estimable",
    "C42_divide_piece",
    "C42_divide_pair",
    "C42_nested",
    "C42_times_bijective",
    "C42_cubes_bijective",
    "C42_ranges"
   ],
   "note": ""
  },
  {
   "property": "C43",
   "status": "proved",
   "theorems": [
    "C43_values",
    "C43_laws",
    "C43_rational_laws",
    "C43_l2_square",
    "C43_errors"
   ],
   "note": "Fraction arguments; ratio_l2 with odd dimension is an assertion failure"
  },
  {
   "property": "C44",
   "status": "proved",
   "theorems": [
    "C44_gen_faces",
    "C44_get_lcm"
   ],
   "note": ""
  },
  {
   "property": "C45",
   "status": "proved",
   "theorems": [
    "C45_facet_parent",
    "C45_facet_parent_std",
    "C45_parents",
    "C45_point_parent",
    "C45_example_links",
    "C45_example_parents"
   ],
   "note": "Parent mode for facet sets and points; get_paths_example for links of points and for facet parents; the generators are modelled as complete lists, next() takes the first element."
  },
  {
   "property": "C46",
   "status": "proved",
   "theorems": [
    "C46_gates",
    "C46_search",
    "C46_returns",
    "C46_not_found_refuted"
   ],
   "note": "run_search: gates, reports, early stop and termination; the NOT FOUND branch is unreachable (refuted)"
  },
  {
   "property": "C47",
   "status": "proved",
   "theorems": [
    "C47_norms",
    "C47_regular_returns",
    "C47_shipped_norms",
    "C47_regular_face_moments_returns",
    "C47_bisect_returns",
    "C47_fuzzy_returns",
    "C47_sequence_returns",
    "C47_sequence_mult_one_refuted",
    "C47_sequence_max_iter_refuted"
   ],
   "note": "Termination and absence of exceptions for all large fuels, with a result independent of the fuel; estimate_dilation_regular with and without face moments. Two parameter ranges in which estimate_dilation_sequence does not terminate are proved as refutations."
  },
  {
   "property": "C48",
   "status": "proved",
   "theorems": [
    "C48_fraction",
    "C48_point",
    "C48_gates",
    "C48_file",
    "C48_empty_point_refuted"
   ],
   "note": "text form of fractions, points, gates and files of gates; decimal points, exponents and underscores of the Fraction syntax are not modelled"
  },
  {
   "property": "C49",
   "status": "proved",
   "theorems": [
    "C49_main",
    "C49_two_runs"
   ],
   "note": "main program: termination, correctness of the reports for each metric, with CPython's heapq; two runs equal one"
  },
  {
   "property": "C50",
   "status": "proved",
   "theorems": [
    "C50_main_all",
    "C50_cases",
    "C50_checks_return",
    "C50_ye_dilation",
    "C50_main",
    "C50_main_returns"
   ],
   "note": "the case analysis for any curve, dimension, division and gates; termination and computed bounds for the YE curve of the zoo; C50_main_all covers all plain curves of genus 2-4 and all those without diagonal steps of genus 5 and 6"
  },
  {
   "property": "C51",
   "status": "proved",
   "theorems": [
    "C51_dilation",
    "C51_paths"
   ],
   "note": ""
  },
  {
   "property": "C52",
   "status": "proved",
   "theorems": [
    "C52_max_depth_covers",
    "C52_max_depth_exact",
    "C52_max_depth_returns",
    "C52_with_tolerance_refuted"
   ],
   "note": "S_MaxDepth; the key points of fractions (vertices for face_dim=0) are described on the graph over the reals; C52_max_depth_exact is conditional on the dilation being attained at such a pair, which is the docstring's hypothesis. C52_max_depth_returns: under this hypothesis (and the key points not being both the end of the first fraction and the beginning of the second) the call returns. C52_with_tolerance_refuted: with rel_tol_inv=1 the AR2W2 curve gives lo=6 although a depth 2 pair has 260/43."
  },
  {
   "property": "C53",
   "status": "proved",
   "theorems": [
    "C53_caches_invisible",
    "C53_cpython_heapq",
    "C53_exact_without_face_moments",
    "C53_cache_sizes",
    "C53_argmax_depth_refuted"
   ],
   "note": "M_Lru, M_Session: functools.lru_cache and the methods of Estimator with the caches threaded through; a session is any list of creations and calls. Assumption: heapq looks only at the priorities and numbers of nodes (proved for CPython's, C53_cpython_heapq); the ratio function is pure. C53_argmax_depth_refuted: after Peano's curve another curve gets argmax.junc with depth 1 instead of 2 (junctions compare without depth, so the cached dict of the earlier curve is returned)."
  },
  {
   "property": "C54",
   "status": "proved",
   "theorems": [
    "C54_hash_contract",
    "C54_equality",
    "C54_equal_data",
    "C54_order",
    "C54_lexicographic",
    "C54_model_comparisons",
    "C54_unknown_cubes_refuted",
    "C54_proto_div_refuted"
   ],
   "note": "M_Order: Python's ==, <, hash() for numbers, None, tuples and objects (which attributes count, per class), embeddings of the model's values; C54_model_comparisons ties the comparison functions used elsewhere in the model to it. Comparison of objects of different classes is not modelled."
  },
  {
   "property": "C55",
   "status": "proved",
   "theorems": [
    "C55_drawn",
    "C55_when_plotted",
    "C55_zoo_refuted"
   ],
   "note": "M_Plots: the calls of ax.plot and ax.text made by plot_curve, with floats as exact rationals; figure set-up (ticks, titles, aspect, savefig) is not modelled except that titles need at most four patterns. C55_zoo_refuted: the zoo's Iupiter has five patterns and cannot be plotted."
  },
  {
   "property": "C56",
   "status": "proved",
   "theorems": [
    "C56_printed",
    "C56_injective",
    "C56_many_patterns_refuted",
    "C56_gap_refuted",
    "C56_parse_unchecked_refuted"
   ],
   "note": "Round trip of str and Curve.parse, with the exceptions as refutations."
  },
  {
   "property": "C57",
   "status": "proved",
   "theorems": [
    "C57_curves",
    "C57_gates",
    "C57_moments",
    "C57_moments_unique",
    "C57_depth",
    "C57_junctions",
    "C57_dilation"
   ],
   "note": "exact recorded dilations are attained and the dilation exceeds them by at most a millionth; interval values contain the dilation"
  },
  {
   "property": "C58",
   "status": "proved",
   "theorems": [
    "C58_three_categories",
    "C58_boundary",
    "C58_exclusive",
    "C58_generated",
    "C58_no_facet",
    "C58_no_even_diagonal",
    "C58_exact",
    "C58_generated_exact"
   ],
   "note": "for every division; curves with one pattern only"
  },
  {
   "property": "C59",
   "status": "proved",
   "theorems": [
    "C59_no_effect",
    "C59_counters",
    "C59_balance",
    "C59_copy",
    "C59_copy_raises",
    "C59_push_calls_refuted",
    "C59_good_items_refuted"
   ],
   "note": "two stronger readings of push and good are refuted"
  },
  {
   "property": "C60",
   "status": "proved",
   "theorems": [
    "C60_main_rejects",
    "C60_paths_reject"
   ],
   "note": "the converse, that good options give output, is C49"
  },
  {
   "property": "C61",
   "status": "proved",
   "theorems": [
    "C61_no_effect",
    "C61_bisect",
    "C61_fuzzy",
    "C61_bisect_iter",
    "C61_sequence",
    "C61_solve_calls_refuted"
   ],
   "note": "solver calls are not counted exactly (C61_solve_calls_refuted): the last call of a successful bisection is missing from sat.solve_calls; the pair-tree and depth statistics are not in these counters"
  },
  {
   "property": "C62",
   "status": "proved",
   "theorems": [
    "C62_no_effect",
    "C62_counters"
   ],
   "note": "for runs of gen_gates to the end; the candidates are those of the model (their completeness is C41)"
  },
  {
   "property": "C63",
   "status": "proved",
   "theorems": [
    "C63_determines",
    "C63_distinct"
   ],
   "note": "dimension at most 6 (the letters of the base maps)"
  }
 ]
}