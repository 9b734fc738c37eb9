{
 "C01": {"status": "proved", "note": ""},
 "C02": {"status": "proved", "note": ""},
 "C03": {"status": "proved", "note": "b**0 is proved to diverge"},
 "C04": {"status": "proved", "note": ""},
 "C05": {"status": "proved", "note": "ASCII texts only; round trip for two-digit pattern numbers refuted as stated in the property"},
 "C06": {"status": "proved", "note": ""},
 "C07": {"status": "proved", "note": ""},
 "C08": {"status": "proved", "note": ""},
 "C09": {"status": "proved", "note": ""},
 "C10": {"status": "proved", "note": ""},
 "C11": {"status": "proved", "note": "the union of the fractions of a whole facet misses the walls of the grid, because the sets are open"},
 "C12": {"status": "proved", "note": ""},
 "C13": {"status": "proved", "note": "Round trip and injectivity of chain codes for all dim 1..6, div >= 2 and prototypes covering the grid by non-zero steps in {-1,0,1}^dim; longer steps, zero steps and div = 1 refuted by witnesses."},
 "C14": {"status": "proved", "note": ""},
 "C15": {"status": "proved", "note": ""},
 "C16": {"status": "proved", "note": ""},
 "C17": {"status": "proved", "note": "valid curve of division div^(k+1), nested cubes and specs, same map, same gates, check iff"},
 "C18": {"status": "proved", "note": ""},
 "C19": {"status": "proved", "note": ""},
 "C20": {"status": "proved", "note": "check() is total and true exactly for joined curves; all depths; single valued, onto, eps-delta continuous, explicit modulus"},
 "C21": {"status": "proved", "note": "first/last moment of every face and the unique moments of vertices"},
 "C22": {"status": "proved", "note": "see T_Junctions.v; that the junctions are pairwise not isometric is refuted with the zoo curve l1_best_3d (T_ZooInfo.v)"},
 "C23": {"status": "proved", "note": "see T_Junctions.v"},
 "C24": {"status": "proved", "note": "the depth of a junction is genuine and get_depth is enough; the least-depth reading is refuted with the zoo curve facet_gated_4d"},
 "C25": {"status": "proved", "note": ""},
 "C26": {"status": "proved", "note": ""},
 "C27": {"status": "proved", "note": ""},
 "C28": {"status": "proved", "note": ""},
 "C29": {"status": "proved", "note": ""},
 "C30": {"status": "proved", "note": "For fuzzy curves built from valid paths: the clauses are satisfiable iff a chosen curve avoids all forbidden combinations; any model decodes to such a curve (with pattern 0 selected); any correct solver decides. Mutable adapters are modelled in a store: copies share nothing, copying after solve() raises. The SAT solver is a parameter with a contract."},
 "C31": {"status": "proved", "note": ""},
 "C32": {"status": "proved", "note": "Total correctness of grow (it ends, raises nothing, yields exactly the Hamiltonian paths, each once) for every grid with at least two cubes, every step function that raises nothing and yields distinct steps, all limits and every hash function respecting equality (C32_hamiltonian); independence of limits and hash as a permutation (C32_limits). A grid of one cube yields nothing (C32_one_cube_refuted)."},
 "C33": {"status": "proved", "note": "generate_paths_generic(link=...) for links between points (and between facet sets), with and without std, and generate_paths: soundness, completeness, no repetition, for all limits and hash functions; grids with at least two cubes (for one cube see C32_one_cube_refuted). parent=... is modelled."},
 "C34": {"status": "proved", "note": "ids are naturals; distinct-item iterables, and arbitrary iterables through positions"},
 "C35": {"status": "proved", "note": "For every ratio function satisfying ratio_ok (the shipped norms do, C35_norms)."},
 "C36": {"status": "proved", "note": "refuted: Curve.__eq__ is always truthy (theorem C36_equality_refuted)"},
 "C37": {"status": "proved", "note": "Any correct heapq; whenever a result is returned."},
 "C38": {"status": "proved", "note": "bisect_dilation_fuzzy: BFound/BNone decided for any thresholds, correct SAT solver and schedule, with or without cached tree/adapter; no other exception for continuous paths."},
 "C39": {"status": "proved", "note": "Bounds and curve for any correct start bounds, solver, schedule, limits; tolerance unless stopped."},
 "C40": {"status": "proved", "note": "lo, up, indices, examples and the None case; the documented claim that listed curves lie in [lo, up] is refuted."},
 "C41": {"status": "proved", "note": "gates.py modelled with its searches; general mode and facet mode (dim >= 2) both exact; the limits of the searches are arbitrary; fuel large enough"},
 "C42": {"status": "proved", "note": ""},
 "C43": {"status": "proved", "note": "Fraction arguments; ratio_l2 with odd dimension is an assertion failure"},
 "C44": {"status": "proved", "note": ""},
 "C45": {"status": "proved", "note": "Parent mode for facet sets and points; get_paths_example for links of points and for facet parents; the generators are modelled as complete lists, next() takes the first element."},
 "C46": {"status": "proved", "note": "run_search: gates, reports, early stop and termination; the NOT FOUND branch is unreachable (refuted)"},
 "C47": {"status": "proved", "note": "Termination and absence of exceptions for all large fuels, with a result independent of the fuel; estimate_dilation_regular with and without face moments. Two parameter ranges in which estimate_dilation_sequence does not terminate are proved as refutations."},
 "C48": {"status": "proved", "note": "text form of fractions, points, gates and files of gates; decimal points, exponents and underscores of the Fraction syntax are not modelled"},
 "C49": {"status": "proved", "note": "main program: termination, correctness of the reports for each metric, with CPython's heapq; two runs equal one"},
 "C50": {"status": "proved", "note": "the case analysis for any curve, dimension, division and gates; termination and computed bounds for the YE curve of the zoo; C50_main_all covers all plain curves of genus 2-4 and all those without diagonal steps of genus 5 and 6"},
 "C51": {"status": "proved", "note": ""},
 "C52": {"status": "proved", "note": "S_MaxDepth; the key points of fractions (vertices for face_dim=0) are described on the graph over the reals; C52_max_depth_exact is conditional on the dilation being attained at such a pair, which is the docstring's hypothesis. C52_max_depth_returns: under this hypothesis (and the key points not being both the end of the first fraction and the beginning of the second) the call returns. C52_with_tolerance_refuted: with rel_tol_inv=1 the AR2W2 curve gives lo=6 although a depth 2 pair has 260/43."},
 "C53": {"status": "proved", "note": "M_Lru, M_Session: functools.lru_cache and the methods of Estimator with the caches threaded through; a session is any list of creations and calls. Assumption: heapq looks only at the priorities and numbers of nodes (proved for CPython's, C53_cpython_heapq); the ratio function is pure. C53_argmax_depth_refuted: after Peano's curve another curve gets argmax.junc with depth 1 instead of 2 (junctions compare without depth, so the cached dict of the earlier curve is returned)."},
 "C54": {"status": "proved", "note": "M_Order: Python's ==, <, hash() for numbers, None, tuples and objects (which attributes count, per class), embeddings of the model's values; C54_model_comparisons ties the comparison functions used elsewhere in the model to it. Comparison of objects of different classes is not modelled."},
 "C55": {"status": "proved", "note": "M_Plots: the calls of ax.plot and ax.text made by plot_curve, with floats as exact rationals; figure set-up (ticks, titles, aspect, savefig) is not modelled except that titles need at most four patterns. C55_zoo_refuted: the zoo's Iupiter has five patterns and cannot be plotted."},
 "C56": {"status": "proved", "note": "Round trip of str and Curve.parse, with the exceptions as refutations."},
 "C57": {"status": "proved", "note": "exact recorded dilations are attained and the dilation exceeds them by at most a millionth; interval values contain the dilation"},
 "C58": {"status": "proved", "note": "for every division; curves with one pattern only"},
 "C59": {"status": "proved", "note": "two stronger readings of push and good are refuted"},
 "C60": {"status": "proved", "note": "the converse, that good options give output, is C49"},
 "C61": {"status": "proved", "note": "solver calls are not counted exactly (C61_solve_calls_refuted): the last call of a successful bisection is missing from sat.solve_calls; the pair-tree and depth statistics are not in these counters"},
 "C62": {"status": "proved", "note": "for runs of gen_gates to the end; the candidates are those of the model (their completeness is C41)"},
 "C63": {"status": "proved", "note": "dimension at most 6 (the letters of the base maps)"}
}
