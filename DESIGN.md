# Formal model of `peano` in Coq 8.16 — design

`/repo` is a Python library (and a search program) about Peano multifractal curves. Nearly all of it is combinatorial
code on immutable objects, so it is modelled by total Gallina functions that follow the Python functions branch by branch:

* an exception is a value: the model returns `option`, `None` is "raises" (which exception is not distinguished, except
  where a caller catches it: `BOutOfIter`, `ValueError` in C28, `KeyError` in C25);
* a `while` loop or recursion without an obvious bound runs on explicit `fuel : nat`; exhausted fuel is an error value,
  never a normal result. Theorems either hold for every fuel "whenever a result is returned", or prove that a result is
  returned for all large fuels (C19, C21, C23, C29, C32, C33, C41, C45, C47);
* a generator is the list of the values it yields (order included); the laziness is not modelled;
* mutable state that the code relies on is explicit: the caches of base maps (C07), SAT adapters in a store (C30), the
  bounded heap with its histories of operations (C31), the SAT solver as a function of the call number (C30, C38-C40).

## Layout (`rocq/theories`)

| files | content |
|---|---|
| `Py.v` | Python library helpers: `itertools.product/permutations/combinations*`, list indexing, `sorted`, `min`, `dict` |
| `M_*.v` | the model, one file per Python module or part; each definition cites the lines of `/repo` it models |
| `S_*.v` | specifications: small definitions that do not use the model's algorithms |
| `L_*.v`, `P_*.v` | lemmas and proofs |
| `T_*.v` | the property theorems `Cnn_...`, each with an `Example` showing that a concrete case meets the hypotheses, and `Print Assumptions` |

`tools/gen_manifest.py` collects the theorem names into `MANIFEST.json`; `tools/assumptions.py` prints the table of axioms
below; `seeded/LOG.jsonl` lists the wrong programs against which the theorems were tested.

## Number types

`Fraction` is `Qc` (canonical rationals; Python also keeps lowest terms, so equality, hashing and order are by value).
Python `int` is `Z`, or `nat` for lengths, indices and dimensions. Curves as maps `[0,1] -> [0,1]^d`, dilations and norms
are specified over Coq's `R`. Python floats do not occur in the modelled code (the default SAT schedule multiplies by a
float; schedules are arbitrary functions `Z -> Z` in the model).

## Trusted base

1. Coq's kernel and `vm_compute` (used for examples, witnesses and finite side conditions).
2. The faithfulness of `M_*.v` to `/repo` (each definition carries the lines it models, simplifications are stated there).
3. Contracts of code outside `/repo`, which appear as hypotheses of the theorems, never as axioms:
   * `heapq_ok` (S_Heap.v): `heappush` / `heappop` keep the multiset of items and pop a least one. It is a hypothesis of the theorems that use a heap, and
     proved of the algorithm of CPython's `heapq.py`, written out in `M_Heapq.v` (`C31_heapq`);
   * `sat_ok` (S_Sat.v): the SAT solver returns a model iff there is one, and what it returns is a model. Satisfied by
     `simple_solver` (P_SatSolver.v), used in the examples;
   * `hash_ok` (S_PathTree.v): equal states have equal hashes. No other property of hashes is used, so collisions are covered;
   * `step_ok`, `converse` (S_PathTree.v): what the step functions given to `CubePathTree` must satisfy; proved for the ones
     in `/repo` (so they are not assumed in C33, C45, C46).
4. The axioms listed by `Print Assumptions`, all from the standard library: `ClassicalDedekindReals.sig_forall_dec`,
   `ClassicalDedekindReals.sig_not_dec`, `FunctionalExtensionality.functional_extensionality_dep` (the three come with
   `Reals`) and `Classical_Prop.classic`. None of our own.

## Properties: what is modelled and how it is proved

Each entry names the model file, the specification and the method. "Refuted" parts are proved as theorems `..._refuted`
about concrete witnesses. All properties quantify over every size, depth and number of steps.

**Base maps (base_maps.py)**
* C01, C02 `M_BaseMaps`: base map = signed permutation `list (nat*bool)` and a time flag; group and action laws by
  pointwise reasoning on coordinates; isometry over `Qc`.
* C03 powers: fuelled recursion equals the iterated product; `b**0` diverges for every fuel (refuted part).
* C04 `gen_base_maps`: equals the set of valid maps, `NoDup`; from permutation/product lemmas in `L_Py`.
* C05 `M_Text`: strings are Coq `string`s (ASCII); round trips by induction over letters; two-digit pattern numbers and
  invalid accepted texts refuted.
* C06 `gen_constraint_fast`: soundness, completeness, no repetition.
* C07 `M_Caches`: the caches are explicit state; invariant over arbitrary histories of operations.
* C08 specs: semigroup and action laws.

**Subsets (subsets.py)**
* C09 standard forms: least element of the orbit, for points, facet sets and links. C10: points and grid cubes over `Qc`.
* C11 facet sets are read as open nested sub-cubes (`S_Subsets`); `intersects` etc. are exact for that reading.
* C12 `argmul_intersect` against the same reading.

**Paths (paths.py, _cube_path_trees.py)**
* C13 `M_ProtoText`: chain codes, decoder proved to invert the encoder; long/zero steps and div 1 refuted.
* C14 base maps act on prototypes, links, paths.
* C32 `M_PathTree`: `CubePathTree.grow` with meet-in-the-middle, buckets by an arbitrary hash and the cached links of
  nodes; total correctness w.r.t. Hamiltonian paths of a transition relation (`S_PathTree`).
* C33, C45 `M_PathGen`: generator of paths by links and by parents, with and without standardisation; `S_PathGen` defines
  admissible paths by geometry (sets of points touching), not by the code's tests.
* C34 `combinations_product`.

**Curves (curves.py, zoo.py)**
* C15-C17 action, deep fractions, subdivisions. C18 periodic sums are limits of series over `R`.
* C19-C21 `S_Curves.graph`: the graph of the curve is the intersection over depths of the nested cubes; entrances, exits and face
  moments are characterised on it; C20: `check` iff joined, then the map is total, single valued, onto, with an explicit
  modulus of continuity.
* C22-C24 junctions: closure computed by the code = pairs of consecutive fractions at all depths up to isometry
  (`S_Junctions`); termination iff continuity is not claimed, only from continuity; a diverging discontinuous curve given.
* C25-C28 fuzzy curves: `S_Fuzzy.fits` is the independent description of allowed specs; `built` = obtained by the API.
* C29 junction templates against the junctions of the chosen curves. C36 `Curve.__eq__` is always truthy (refuted).

**SAT adapter, heap (_sat_adapters.py, _bounded_items_heap.py)**
* C30 `M_Sat`, `M_SatStore`: the clause set against `avoids` (S_Sat), the solver an arbitrary correct oracle; copies in a store.
* C31 `M_Heap`: all histories of operations, any correct heapq; `M_Heapq` (the standard library's binary heap) is correct.

**Estimators (dilation.py, utils.py)**
* C35, C42 piece pairs: integer coordinates, exact division, bounds enclose the dilation of the pair.
* C37-C40 invariants of the pair tree (coverage of all pairs of times; lower bounds attained). C40: the claim that all
  listed curves lie in [lo, up] is refuted.
* C43, C44 ratio functions over `R`, faces, lcm.
* C47 termination: a pair deep enough has bounds within any factor > 1 of each other (`P_Conv`), because a continuous
  curve has a modulus of continuity and pairs of a junction keep a positive distance in time; every pop removes mass from
  a well-founded weight (`P_TermOps`), hence the loops end. With face moments the lower bound of a pair is the ratio of two
  points of the curve, which may be 0; a value reached by the curve stays strictly below the upper bounds of all pairs along
  the digit expansions of its moments (`P_TermStream`, `P_TermFace`), so the top of the heap stays above a positive number, and
  above it the bounds of deep pairs are close. Non-termination for `rel_tol_inv_mult = 1` and for iteration limits
  refuted by an invariant state.

* C52 `max_depth`: a pair of fractions is followed from the initial pairs on (`P_MaxDepth`): at any time an ancestor of it is active, or
  `lo` is at least its ratio, or it was itself evaluated; when all active pairs are deeper than max_depth, the first case is over.
  The face moments of a fraction's curve are the images of the stashed ones (`face_act`). Refuted with a tolerance.
  Return of the call (`P_MaxDepthTotal`): the upper bounds of the pairs up to a depth are finitely many, so those above the dilation are well
  above it; while a shallow pair is active, one of them is on the heap, so the popped pair is not deep (its bounds would be close) and the mass of
  not deep pairs decreases. The example is the one-dimensional curve t -> t, whose dilation is known exactly.
* C59 statistics of the heap: `M_HeapStats` is the heap of `M_Heap` with the counters of `_HeapStat`, method by method; the counters are related to the
  recorded history by an invariant (`P_HeapStats`) that uses the invariant of C31: the items re-inserted by a clean-up are active, so only `push` counts them.
* C53 caches: `M_Lru` models functools.lru_cache (entries in order of use, hits, misses, eviction), `M_Session` the estimator's methods with the three
  caches threaded through in the order of the code, and sessions of any operations. The keys are looked up by hash and `==` with arbitrary hash
  functions of the data that `__hash__` uses. A simulation relates the method with caches to the method of `M_Dilation`: each cached entry is the value of
  some equal key; results and trees agree up to the depth of `argmax.junc`, since `Junction.__eq__` ignores depth. Hence the exception, with a witness.
* C54 values: `M_Order` models ==, < and hash() of Python values (numbers, None, tuples, objects: per class, which attributes `__eq__`, `__lt__`,
  `__hash__` use), and embeds the model's values; `S_Order` states equivalence, hash contract, strict total order and the lexicographic orders.
  Proved by induction over values. Comparing objects of different classes is not modelled.
* C55 plots: `M_Plots` models plot_curve as the list of its ax.plot and ax.text calls (floats as exact rationals). `S_Plots.shows` says what the picture
  should contain in terms of the next subdivision; proved by showing that the centre line of a transformed sub-prototype, moved into its cube, is the
  matching stretch of the next subdivision (digits of `kpow`), then by induction over the loop, then by sorting the calls by axes. [`P_Plots`, `T_Plots`]
* C56 text of curves: `M_CurveText` models `__str__` of patterns and curves; `S_CurveText.printed` is the format. Continuity gives steps of length 1
  between cubes, so the chain code is faithful (C13); each field has no separators of the enclosing level, so the text can be cut in one way only.
* C57 recorded information of the zoo: `M_ZooInfo` models the CurveInfo of the 21 curves; `S_ZooInfo` says what it means that an entry is true (in terms of
  the graph of the curve). Each kind of entry has a boolean checker, proved sound by C19, C21, C22, C24 (`P_ZooInfo`), evaluated by the kernel. The
  dilations are bounded by subdivision of pairs of fractions with the model's `get_bounds` and `divide_balanced` (`P_DilCheck`), depth first and without
  the queue and the face moments of the estimator, which makes the evaluation fast enough for all 21 curves.

**Gates and the program (gates.py, search.py)**
* C41 `M_Gates`: both modes; the linear systems of the boundary points, the generation by subsets and the filters; exactness
  w.r.t. `S_Gates` (gates of continuous curves over the reals).
* C46 `M_Search`: `run_search` composed of the above; the reports against the class of curves in `S_Search`. The NOT FOUND branch is
  never reached (refuted). `C46_returns`: the search ends.
* C48 `M_GatesText`: fractions, points, gates and files of gates as lists of characters; `S_GatesText` is the grammar.
* C49 `M_Main`: the options of search.py (a record; argparse itself is not modelled) and the call of `run_search`; all hypotheses of
  C46 about ratio functions, heaps and limits are discharged, what remains are the hash functions and the SAT solver.
* C60 wrong arguments: the wrong options of search.py are listed as the user sees them (`T_Errors.wrong_args`); by cases over them, for any fuel.
* C61 counters of the estimator: `M_Counters` is the estimator of `M_Dilation` with the counters divide_iter, sat.solve_calls, bisect_iter, seen_pcurve and possible_curves of `sum_stats`, loop by loop; by induction
  over each loop, relations between the counters and the calls of the solver; erasing the counters gives the methods of `M_Dilation`. possible_curves is combined with C26 (`count_possible_curves` is exact).
* C62 counters of the gates generator: `M_GatesStats` is the part of `M_Gates` that counts, with the counters; by induction over the candidates, with the sets of gates already seen generalised; erasing the counters gives `M_Gates`.
* C63 text of junctions: `M_JuncText.junc_str`; the text is cut at the first space, parenthesis and space, the parts determine specs (C56), integers and tuples.
* C50 `M_YE`: YE-proof.py, the checks for an arbitrary curve Y and the main program. A curve of the class is moved by a base map to
  one whose paths were generated (`P_Search`, `P_CurvePaths`); if the paths have the prototype of Y, they are the paths of Y, and a
  curve with these paths other than Y differs from Y in a spec, so it is in one of the changed curves. That one tuple of paths has
  the YE prototype is computed once and carried over to every hash function by the uniqueness of C33 (`P_YECount`). The classes are
  shown inhabited by explicit curves (`S_YECurves`), so that the searches print results; the bounds for the YE curve are computed.
* C58 gates of plane curves with one pattern: the first and last cube of the curve contain its gates, and the pieces of the curve carry images
  of the same gates, so the gates of all pieces form a walk in the N x N grid that visits every cell once. `P_Plane` argues about such walks
  over the reals (parity of the grid points visited, colouring for the diagonal case, no walk with both gates inside sides); `P_PlaneCurve`
  obtains the walk from a continuous curve. No gate is enumerated. That the kinds do occur is shown by walks built for every N (`P_PlaneEx`
  makes a curve from a walk, `P_PlaneWalks` has the walks: columns for side and diagonal curves, pairs of cells for median curves); that there
  is no median curve for N = 2 and N = 4k+3 follows from the colours of the cells (`P_PlaneNo`). The walks
  pass from cell to cell through common sides, so existence holds with diagonal steps excluded as well. `C50_main_all` uses it to drop the conditions on gates from C50; curves
  with diagonal steps and division 5 or 6 are not covered by YE-proof.py and not claimed.
* C51 a base map is a gauge transformation of the curve (`P_Gauge`): the graph of the image is the image of the graph.

## Print Assumptions

Output of `tools/assumptions.py`.

### Closed under the global context (no axioms)

`C01_conjugation`, `C01_group`, `C01_time_reversal`, `C02_action_cnum`, `C02_action_cube`, `C02_action_cube_start`, `C02_action_t`, `C02_action_vec`, `C02_action_x`, `C02_coordinates`, `C02_cube_image`, `C02_cube_start_image`, `C02_isometry`, `C03_powers`, `C03_zeroth_power_diverges_refuted`, `C04_gen_base_maps`, `C05_base_map_round_trip`, `C05_parse_accepts_invalid_refuted`, `C05_parse_validity`, `C05_spec_round_trip`, `C05_spec_round_trip_refuted`, `C05_text_meaning`, `C06_gen_constraint_fast`, `C07_caches_invisible`, `C07_one_object_per_key`, `C08_action`, `C08_semigroup`, `C09_facet_link_orbit`, `C09_facet_link_std`, `C09_facet_std`, `C09_link_orbit`, `C09_link_std`, `C09_point_orbit`, `C09_point_std`, `C10_divide`, `C10_map_to_cube`, `C10_neighbours`, `C10_relative_position`, `C11_divide`, `C11_group_action`, `C11_image`, `C11_intersects`, `C11_map_to_cube`, `C11_neighbours`, `C11_nested_or_disjoint`, `C11_nonempty`, `C12_facet_links`, `C12_point_links`, `C13_div1_refuted`, `C13_injective`, `C13_long_step_refuted`, `C13_round_trip`, `C13_zero_step_refuted`, `C14_continuity_preserved`, `C14_continuous`, `C14_link`, `C14_path`, `C14_proto`, `C15_action`, `C15_valid`, `C16_deep_spec`, `C16_step`, `C17_nested`, `C17_valid`, `C22_auto`, `C22_complete`, `C22_genuine`, `C22_never_raises`, `C22_no_duplicates`, `C22_normal_form`, `C22_pairs_exist`, `C22_up_to_isometry_refuted`, `C23_may_run_forever`, `C24_depth_enough`, `C24_get_depth_refuted`, `C24_least_depth_refuted`, `C25_allowed_exact`, `C25_keyerror`, `C25_specified`, `C26_possible`, `C27_allowed_specs`, `C27_possible`, `C28_curve_example`, `C28_frame`, `C28_narrows`, `C28_raises`, `C29_exact`, `C30_copies_independent`, `C30_copy_raises`, `C30_decodes`, `C30_satisfiable`, `C30_solve`, `C31_active_items`, `C31_bad_items`, `C31_copy`, `C31_copy_raises`, `C31_heapq`, `C31_max_lo`, `C31_pop`, `C31_threshold`, `C32_hamiltonian`, `C32_limits`, `C32_one_cube_refuted`, `C33_continuous`, `C33_facet_paths`, `C33_facet_paths_std`, `C33_point_paths`, `C33_point_paths_std`, `C33_tuples`, `C34_combinations_product`, `C34_missing_id`, `C34_positions`, `C36_equal_always`, `C36_equality_refuted`, `C42_cubes_bijective`, `C42_divide_pair`, `C42_divide_piece`, `C42_estimable`, `C42_nested`, `C42_ranges`, `C42_times_bijective`, `C43_errors`, `C44_gen_faces`, `C44_get_lcm`, `C45_example_links`, `C45_example_parents`, `C45_facet_parent`, `C45_facet_parent_std`, `C45_parents`, `C45_point_parent`, `C46_not_found_refuted`, `C47_sequence_max_iter_refuted`, `C47_sequence_mult_one_refuted`, `C48_empty_point_refuted`, `C48_file`, `C48_fraction`, `C48_gates`, `C48_point`, `C53_argmax_depth_refuted`, `C53_cache_sizes`, `C53_caches_invisible`, `C53_cpython_heapq`, `C53_exact_without_face_moments`, `C54_equal_data`, `C54_equality`, `C54_hash_contract`, `C54_lexicographic`, `C54_model_comparisons`, `C54_order`, `C54_proto_div_refuted`, `C54_unknown_cubes_refuted`, `C55_drawn`, `C55_when_plotted`, `C55_zoo_refuted`, `C56_many_patterns_refuted`, `C56_parse_unchecked_refuted`, `C57_curves`, `C57_depth`, `C57_junctions`, `C59_balance`, `C59_copy`, `C59_copy_raises`, `C59_counters`, `C59_good_items_refuted`, `C59_no_effect`, `C59_push_calls_refuted`, `C60_main_rejects`, `C60_paths_reject`, `C61_bisect`, `C61_fuzzy`, `C61_no_effect`, `C61_sequence`, `C62_counters`, `C62_no_effect`, `C63_determines`, `C63_distinct`

### Axioms: `ClassicalDedekindReals.sig_forall_dec`, `FunctionalExtensionality.functional_extensionality_dep`

`C17_gates`, `C17_same_map`, `C18_enclosure`, `C18_periodic_sum`, `C19_entrance`, `C19_equivariant`, `C19_exit`, `C19_selfsimilar`, `C20_into_cube`, `C21_face_moment`, `C21_vertex_moments`, `C26_forget`, `C26_keeps_paths`, `C43_rational_laws`, `C51_dilation`, `C51_paths`, `C57_gates`, `C57_moments`, `C57_moments_unique`, `C61_bisect_iter`, `C61_solve_calls_refuted`

### Axioms: `ClassicalDedekindReals.sig_forall_dec`, `ClassicalDedekindReals.sig_not_dec`, `FunctionalExtensionality.functional_extensionality_dep`

`C17_check`, `C20_all_depths`, `C20_check_exact`, `C20_check_iff_single_valued`, `C20_continuous`, `C20_defined`, `C20_modulus`, `C20_onto_cube`, `C20_single_valued`, `C23_delta`, `C23_ends_exist`, `C23_meets`, `C23_terminates`, `C26_check`, `C29_terminates`, `C35_bounds_enclose`, `C35_norms`, `C37_regular_encloses`, `C40_listed_within_refuted`, `C41_facet`, `C41_facet_complete`, `C41_general`, `C41_general_complete`, `C41_modes_agree`, `C43_l2_square`, `C43_laws`, `C43_values`, `C46_gates`, `C47_bisect_returns`, `C47_norms`, `C47_regular_face_moments_returns`, `C47_regular_returns`, `C47_shipped_norms`, `C49_two_runs`, `C50_ye_dilation`, `C52_max_depth_covers`, `C52_max_depth_exact`, `C52_max_depth_returns`, `C52_with_tolerance_refuted`, `C56_gap_refuted`, `C56_injective`, `C56_printed`, `C57_dilation`, `C58_boundary`, `C58_exact`, `C58_exclusive`, `C58_generated`, `C58_generated_exact`, `C58_no_even_diagonal`, `C58_no_facet`, `C58_three_categories`

### Axioms: `ClassicalDedekindReals.sig_forall_dec`, `ClassicalDedekindReals.sig_not_dec`, `Classical_Prop.classic`, `FunctionalExtensionality.functional_extensionality_dep`

`C38_bisect_decides`, `C38_bisect_returns`, `C39_fuzzy_encloses`, `C40_sequence`, `C46_returns`, `C46_search`, `C47_fuzzy_returns`, `C47_sequence_returns`, `C49_main`, `C50_cases`, `C50_checks_return`, `C50_main`, `C50_main_all`, `C50_main_returns`

Total: 262 theorems.

## Modelled and not modelled

Modelled function by function: all of base_maps.py, subsets.py (except `__hash__` and `__str__` of facet subsets), paths.py, _cube_path_trees.py,
curves.py, _sat_adapters.py, _bounded_items_heap.py, dilation.py, gates.py, utils.py, zoo.py (with the recorded information),
search.py (`run_search` and the main program after argparse), YE-proof.py.

Not modelled: logging, the statistics of the pair tree and of depths in the estimator (`_add_tree_stats`, `_update_max_stats`, pair_depth; the other counters are in `M_Counters`), `__str__` of objects other than base maps, specs, prototypes, patterns, curves, junctions, points and gates, the figure set-up of `plots.py` (ticks, titles, sizes, files), argparse, time and memory.

## Findings about the code

Each is a theorem (named in brackets) or follows directly from the model.

* `BaseMap.__pow__(0)` recurses without end [`C03_zeroth_power_diverges_refuted`].
* `Spec.parse` reads one digit of the pattern number [`C05_spec_round_trip_refuted`]; `BaseMap.parse('ii')` returns a malformed map
  [`C05_parse_accepts_invalid_refuted`].
* Chain codes lose long steps, zero steps and grids of one cube [`C13_*_refuted`].
* The depth of a junction is not minimal, contrary to the comment about fifo order [`C24_least_depth_refuted`].
* `gen_regular_junctions` may run for ever on discontinuous curves [`C23_may_run_forever`].
* Copying a SAT adapter after `solve` raises [`C30_copy_raises`].
* `CubePathTree.grow` yields nothing on a grid of one cube [`C32_one_cube_refuted`].
* `Curve.__eq__` is truthy for any two curves [`C36_equality_refuted`].
* `estimate_dilation_sequence` may list curves whose dilation exceeds `up` [`C40_listed_within_refuted`], and loops for ever with
  `rel_tol_inv_mult = 1` or with `max_iter` [`C47_sequence_mult_one_refuted`, `C47_sequence_max_iter_refuted`].
* The docstring of `estimate_dilation_regular` promises that `max_depth` makes `lo` exact; this needs `rel_tol_inv=None`, the default is
  100 [`C52_with_tolerance_refuted`].
* The depth of `argmax['junc']` depends on what the estimator was used for before [`C53_argmax_depth_refuted`].
* gen_regular_junctions may list two isometric junctions: l1_best_3d has 13 junctions, 11 up to isometries [`C22_up_to_isometry_refuted`].
* plot_curve raises for curves with five or more patterns, such as the zoo's Iupiter [`C55_zoo_refuted`].
* `<` on prototypes with unknown cubes raises TypeError [`C54_unknown_cubes_refuted`]; equal prototypes may have different div [`C54_proto_div_refuted`].
* A curve with a spec of pattern 10 or more is printed as a text that Curve.parse rejects [`C56_many_patterns_refuted`]; Curve.parse does not check
  that the number of specs and the dimensions of the patterns agree [`C56_parse_unchecked_refuted`].
* search.py raises instead of printing NOT FOUND [`C46_not_found_refuted`].
* The counter `push` of a heap counts re-insertions too [`C59_push_calls_refuted`], and `good` misses the items removed by a raised threshold
  [`C59_good_items_refuted`].
* The counter `sat.solve_calls` misses the last call of the solver of a successful bisection [`C61_solve_calls_refuted`].
* `Path.is_continuous` on facet paths raises `NotImplementedError`; `get_model_curve` always selects pattern 0; `ratio_l2` asserts an even
  dimension [`C43_errors`].
* YE-proof.py imports a module that does not exist (`tests.examples`); the curve is taken from zoo.py. Its remark that the gates of plain
  curves are side, diagonal or median is not checked by the code; it is true [`C58_three_categories`].
