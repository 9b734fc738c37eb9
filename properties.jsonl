{"id": "C01", "title": "Base maps form a group", "statement": "For valid base maps A, B, C of one dimension: A*B is a valid base map, (A*B)*C == A*(B*C), id_map*A == A*id_map == A, and A.get_inverse() (== A**(-1)) is a two-sided inverse; ~A (time reversal) is an involution commuting with everything, and conjugate_by is an automorphism.", "quantifier": "all dimensions d and all valid base maps (signed permutation plus time flag) of dimension d", "why_tests_cant": "The tests enumerate dimensions 2..5 only and check the inverse law, never associativity or closure.", "anchors": ["peano/base_maps.py:BaseMap.__mul__", "peano/base_maps.py:BaseMap.get_inverse", "peano/base_maps.py:BaseMap.id_map", "peano/base_maps.py:BaseMap.conjugate_by", "peano/base_maps.py:BaseMap.__invert__"]}
{"id": "C02", "title": "Base maps act on points, vectors, times, cubes and cube numbers", "statement": "apply_x, apply_vec, apply_cube, apply_cube_start, apply_t and apply_cnum are group actions: applying A*B equals applying B and then A, the identity does nothing, the inverse undoes. apply_x preserves the cube [0,mx]^d and pairwise distances; apply_cube/apply_cube_start give exactly the image, under apply_x, of the sub-cube as a set of points; apply_vec is the linear part of apply_x.", "quantifier": "all dimensions, valid base maps, rational points, divisions and cubes", "why_tests_cant": "Infinitely many points and dimensions; the relation between the cube-index action and the set action is never tested.", "anchors": ["peano/base_maps.py:BaseMap.apply_x", "peano/base_maps.py:BaseMap.apply_cube", "peano/base_maps.py:BaseMap.apply_cube_start", "peano/base_maps.py:BaseMap.apply_vec", "peano/base_maps.py:BaseMap.apply_t", "peano/base_maps.py:BaseMap.apply_cnum"]}
{"id": "C03", "title": "Powers of base maps", "statement": "b**n is the n-fold product of b for every n >= 1 and the (-n)-fold product of the inverse for n <= -1 and the computation terminates. (For n = 0 the documented group power would be the identity; the code recurses without end.)", "quantifier": "all valid base maps and all integers n", "why_tests_cant": "Tests use only n = -1; n ranges over all integers and the recursion depth is unbounded.", "anchors": ["peano/base_maps.py:BaseMap.__pow__"]}
{"id": "C04", "title": "gen_base_maps enumerates the whole group once", "statement": "gen_base_maps(dim, time_rev) yields every valid base map of the given dimension (with the given time_rev if it is not None) exactly once, and nothing else.", "quantifier": "all dimensions and all three values of time_rev", "why_tests_cant": "The number of maps grows as 2*2^d*d!; tests cannot enumerate all d.", "anchors": ["peano/base_maps.py:BaseMap.gen_base_maps"]}
{"id": "C05", "title": "Text round trip of base maps and specs", "statement": "BaseMap.parse(str(b)) == b for every valid base map with 1 <= dim <= 6, and Spec.parse(str(s)) == s for every spec over such a map with a one-digit pattern number. Outside these ranges the round trip fails: pattern numbers >= 10 are not parsed back, and parse accepts some texts with a repeated letter and returns a value that is not a valid base map.", "quantifier": "all valid base maps of dimensions 1..6, all pattern numbers", "why_tests_cant": "Tests parse one literal.", "anchors": ["peano/base_maps.py:BaseMap.parse", "peano/base_maps.py:BaseMap.__str__", "peano/base_maps.py:Spec.parse", "peano/base_maps.py:Spec.__str__"]}
{"id": "C06", "title": "gen_constraint_fast is exact", "statement": "gen_constraint_fast(src, dst) yields exactly the valid base maps without time reversal that map the point src to dst, each exactly once.", "quantifier": "all pairs of rational points of equal dimension (coordinates arbitrary, including repeats and 1/2)", "why_tests_cant": "Four literal pairs are compared with brute force in the tests.", "anchors": ["peano/base_maps.py:BaseMap.gen_constraint_fast"]}
{"id": "C07", "title": "Object and product caches are invisible", "statement": "Whatever sequence of constructions, products and inverses ran before, constructing, multiplying and inverting base maps and specs through the caches returns the value that the definitions without caches give, and two live objects with equal keys are the same object.", "quantifier": "all histories of operations", "why_tests_cant": "Cache state depends on the whole history of the process.", "anchors": ["peano/base_maps.py:BaseMap.__new__", "peano/base_maps.py:BaseMap._mul_cache", "peano/base_maps.py:BaseMap._inv_cache", "peano/base_maps.py:Spec.__new__"]}
{"id": "C08", "title": "Spec semigroup and its action", "statement": "Products of specs and base maps are associative in all mixed forms, and act on curves as composition: (S1*S2)*C == S1*(S2*C), (b*S)*C == b*(S*C), (S*b)*C == S*(b*C).", "quantifier": "all specs, base maps and curves of one dimension", "why_tests_cant": "Curve.__eq__ is always truthy, so the tests comparing curves by == cannot fail.", "anchors": ["peano/base_maps.py:Spec.__mul__", "peano/base_maps.py:Spec.__rmul__", "peano/curves.py:FuzzyCurve.__rmul__"]}
{"id": "C09", "title": "Standard form of points and point links", "statement": "Point.std() is the smallest image of the point under cube isometries and Link.std() of a point link is the smallest image of the link under all base maps; hence both are idempotent and two links have equal std() iff some base map takes one to the other.", "quantifier": "all rational points and point links, all dimensions", "why_tests_cant": "The optimised std of links is used to deduplicate the whole gate search; tests only print one value.", "anchors": ["peano/subsets.py:Point.std", "peano/subsets.py:Point.argstd", "peano/subsets.py:Link.std"]}
{"id": "C10", "title": "Point subdivision and neighbours are exact", "statement": "Point.divide(div) yields exactly the grid cubes c of the div-grid that contain the point, each once, with the relative position q in [0,1]^d such that (q + c)/div is the point; gen_neighbours yields exactly the unit cubes other than [0,1]^d that contain it; map_to_cube(div, c) is inverse to divide.", "quantifier": "all rational points of the unit cube, all div >= 1", "why_tests_cant": "Rational points are infinite in number; boundary cases combine across coordinates.", "anchors": ["peano/subsets.py:Point.divide", "peano/subsets.py:Point.gen_neighbours", "peano/subsets.py:Point.map_to_cube", "peano/subsets.py:Point._gen_integer_cubes"]}
{"id": "C11", "title": "Facet subsets: intersects, action, divide, neighbours", "statement": "Reading a FacetDivSubset as the open nested sub-cube of a facet that its documentation describes: intersects is true iff the two point sets intersect, any two sets of the same dim/div are nested or disjoint, b*S is the image of S, map_to_cube puts S in a sub-cube, divide splits S into its fractions and gen_neighbours gives its portion in the neighbour cube.", "quantifier": "all dims, divs, facets, nesting depths and base maps", "why_tests_cant": "Unbounded nesting depth and dimension.", "anchors": ["peano/subsets.py:FacetDivSubset"]}
{"id": "C12", "title": "argmul_intersect is exact", "statement": "self.argmul_intersect(other) on links yields exactly the base maps b (with and without time reversal), each once, such that (b*self).intersects(other).", "quantifier": "all point links and facet links", "why_tests_cant": "The facet version has an early-exit optimisation that must not lose maps.", "anchors": ["peano/subsets.py:Link.argmul_intersect", "peano/subsets.py:Subset.argmul_intersect", "peano/subsets.py:FacetDivSubset.argmul_intersect"]}
{"id": "C13", "title": "Prototype chain-code round trip", "statement": "Proto.parse(str(proto)) == proto (same cubes, dim, div) for every prototype that visits all cubes of the div-grid (2 <= div, 1 <= dim <= 6) by non-zero steps in {-1,0,1}^dim; different such prototypes have different codes. Longer steps, zero steps and div = 1 do break the round trip.", "quantifier": "all such prototypes", "why_tests_cant": "There are astronomically many prototypes.", "anchors": ["peano/paths.py:Proto.parse", "peano/paths.py:Proto.__str__"]}
{"id": "C14", "title": "Base maps act on prototypes, links and paths", "statement": "(a*b)*X == a*(b*X), id*X == X, ~~X == X for prototypes, links and paths; the image of a prototype that visits every cube once visits every cube once; b*path has global link b*(path.link); continuity of point paths is preserved.", "quantifier": "all base maps, prototypes, point links, point paths", "why_tests_cant": "Infinite families.", "anchors": ["peano/paths.py:Proto.__rmul__", "peano/paths.py:Path.__rmul__", "peano/subsets.py:Link.__rmul__", "peano/paths.py:Path.is_continuous"]}
{"id": "C15", "title": "Base maps act on curves", "statement": "(a*b)*C == a*(b*C), id*C == C, b**(-1)*(b*C) == C and ~~C == C, comparing dim, div, all prototypes, all specs and the selected pattern; ~C == (~id)*C.", "quantifier": "all fuzzy and regular curves and base maps", "why_tests_cant": "Curve equality in the tests is vacuous (see C36), fields are compared for a handful of maps only.", "anchors": ["peano/curves.py:FuzzyCurve.__rmul__", "peano/curves.py:FuzzyCurve._apply_cube_map", "peano/curves.py:FuzzyCurve.__invert__"]}
{"id": "C16", "title": "Deep fraction orientation", "statement": "get_deep_spec(pnum, cnums) is the spec X such that the nested fraction reached by cnums equals X*C: one step satisfies X*C == (S*C).specs[cnum]*(S*C), and iterating the elementary step along cnums gives get_deep_spec.", "quantifier": "all curves, specs, nested sequences of cube numbers of any length", "why_tests_cant": "Depth is unbounded and equality of curves in tests is vacuous.", "anchors": ["peano/curves.py:FuzzyCurve._compose_specs", "peano/curves.py:FuzzyCurve.get_deep_spec"]}
{"id": "C17", "title": "Subdivision is the same curve", "statement": "get_subdivision(k) has div^(k+1) divisions, visits every cube of that grid once, its cubes and specs are those of the nested fractions of the original curve, and it has the same entrances and exits; if the curve passes check() so does every subdivision.", "quantifier": "all valid curves and all k", "why_tests_cant": "k unbounded; the equality test is vacuous.", "anchors": ["peano/curves.py:Curve.get_subdivision"]}
{"id": "C18", "title": "Periodic sums are exact", "statement": "get_periodic_sum(start, period, d) is the exact value of the infinite series of digits start followed by period repeated for ever in base d.", "quantifier": "all d >= 2, all finite digit sequences (period non-empty)", "why_tests_cant": "A limit statement.", "anchors": ["peano/utils.py:get_periodic_sum"]}
{"id": "C19", "title": "Entrance and exit are the endpoints of the curve", "statement": "get_entrance(p) and get_exit(p) terminate for every valid curve and return f(0) and f(1): the unique point lying in the first (last) cube of every subdivision depth; they satisfy the self-similarity equation through the first (last) spec and are equivariant: the entrance/exit pair of b*C is b*(pair of C).", "quantifier": "all valid curves (fuzzy ones with first and last specs defined), patterns, base maps", "why_tests_cant": "Limit of an infinite nested sequence; termination relies on finiteness of the group.", "anchors": ["peano/curves.py:FuzzyCurve.get_entrance", "peano/curves.py:FuzzyCurve.get_exit", "peano/curves.py:FuzzyCurve._get_cube_limit"]}
{"id": "C20", "title": "check() decides continuity at every depth", "statement": "Curve.check() passes iff in every pattern each fraction ends where the next one begins; then consecutive fractions at every depth of subdivision share the exit/entrance point and the curve defines a total single-valued continuous surjective map [0,1]->[0,1]^d.", "quantifier": "all valid curves, all depths, all times and points", "why_tests_cant": "Statement about all depths and all real times.", "anchors": ["peano/curves.py:Curve.check", "peano/curves.py:Curve.get_paths", "peano/paths.py:Path.is_continuous"]}
{"id": "C21", "title": "Face and vertex moments", "statement": "get_face_moment(face, pnum, last) terminates and returns the first (last) moment when the curve touches the face: the curve is on the face at that time and at no earlier (later) time; with find_point the returned point is on the graph of the curve and on the face. get_vertex_moments gives the unique time of visit of each vertex.", "quantifier": "all valid curves, faces, patterns", "why_tests_cant": "Universally quantified over all other real times.", "anchors": ["peano/curves.py:FuzzyCurve.get_face_moment", "peano/curves.py:FuzzyCurve._get_face_cnum", "peano/curves.py:FuzzyCurve.get_vertex_moments"]}
{"id": "C22", "title": "Regular junctions are complete and genuine", "statement": "For a valid curve every pair of consecutive fractions at every depth is, up to an isometry and time reversal, one of the junctions generated by gen_regular_junctions, and every generated junction is such a pair. Generated junctions are standardised: spec1.pnum <= spec2.pnum, spec1 has identity cube map, delta_t = 1, no duplicates. The auto-junctions are, for each pattern in order, its fraction with itself: identity map, no shift in space or time, depth 0.", "quantifier": "all valid curves, all depths", "why_tests_cant": "Unbounded depth.", "anchors": ["peano/curves.py:FuzzyCurve._gen_junctions_from_base", "peano/curves.py:FuzzyCurve._get_derived_junction", "peano/curves.py:RegularJunction", "peano/curves.py:Curve.gen_regular_junctions", "peano/curves.py:AutoJunction", "peano/curves.py:FuzzyCurve.gen_auto_junctions"]}
{"id": "C23", "title": "Junctions of continuous curves", "statement": "If the curve passes check() then gen_regular_junctions terminates, each delta_x is a non-zero vector of {-1,0,1}^d and the first fraction ends where the shifted second one begins. Without continuity the enumeration may run for ever.", "quantifier": "all valid continuous curves", "why_tests_cant": "Termination over all curves.", "anchors": ["peano/curves.py:Curve.gen_regular_junctions", "peano/curves.py:FuzzyCurve._gen_junctions_from_base"]}
{"id": "C24", "title": "Junction depth", "statement": "The depth attached to a generated junction is the depth of a subdivision in which the junction really occurs. The stronger documented reading, that it is the least such depth (the code claims a fifo order for this), fails because the work list is a stack.", "quantifier": "all valid curves", "why_tests_cant": "Order of traversal matters only on unusual curves; no zoo curve is affected in the tests.", "anchors": ["peano/curves.py:FuzzyCurve._gen_junctions_from_base", "peano/curves.py:Curve.get_depth"]}
{"id": "C25", "title": "Allowed specs of a path fuzzy curve are exact", "statement": "For PathFuzzyCurve.init_from_paths(paths, group) and an unspecified position, gen_allowed_specs(pnum, cnum) yields exactly the specs (b, pn), b in the group, such that b*(paths[pn].link) == paths[pnum].links[cnum], each exactly once; a position with a defined spec yields only this spec; init_from_paths raises KeyError iff some fraction link is not an image of a global link.", "quantifier": "all path tuples, all subgroups of base maps, all positions", "why_tests_cant": "Independence and absence of duplicates are needed by the SAT encoding for all inputs.", "anchors": ["peano/curves.py:PathFuzzyCurve.gen_allowed_specs", "peano/curves.py:PathFuzzyCurve.init_from_paths"]}
{"id": "C26", "title": "Every possible curve keeps the prescribed paths", "statement": "Every curve of gen_possible_curves() of a path fuzzy curve over consistent paths has exactly these paths as get_paths() (same prototypes, same entrance and exit in every fraction); it passes check() if the paths are continuous; conversely a valid curve is among the possible curves of its own forget(); count_possible_curves() is the number of curves generated and they are pairwise different.", "quantifier": "all path tuples and all choices of specs", "why_tests_cant": "The number of curves is the product of all alternatives.", "anchors": ["peano/curves.py:FuzzyCurve.gen_possible_curves", "peano/curves.py:FuzzyCurve.count_possible_curves", "peano/curves.py:Curve.forget", "peano/curves.py:Curve.get_paths"]}
{"id": "C27", "title": "Fuzzy curves transform consistently", "statement": "For a path fuzzy curve F and base map b, the allowed specs of b*F at each position are the conjugates of the allowed specs of F at the corresponding position (reversed order of fractions under time reversal).", "quantifier": "all path fuzzy curves and base maps", "why_tests_cant": "Four auxiliary tables must be updated in step.", "anchors": ["peano/curves.py:PathFuzzyCurve.__invert__", "peano/curves.py:PathFuzzyCurve._apply_cube_map"]}
{"id": "C28", "title": "Specify narrows and never widens", "statement": "specify(pnum, cnum, spec) raises ValueError iff the spec is not allowed there; otherwise the set of possible curves of the result is exactly the set of possible curves of the original having that spec at that position, and no other position changes.", "quantifier": "all fuzzy curves, positions and specs", "why_tests_cant": "All inputs.", "anchors": ["peano/curves.py:FuzzyCurve.specify", "peano/curves.py:FuzzyCurve._specify_allowed", "peano/curves.py:FuzzyCurve.get_curve_example"]}
{"id": "C29", "title": "Junction templates are exact", "statement": "A curve chosen from a fuzzy curve has the regular junction J iff it is consistent with one of the template curves get_junction_templates()[J].", "quantifier": "all fuzzy curves, all curves chosen from them, all junctions", "why_tests_cant": "Tests enumerate three small families.", "anchors": ["peano/curves.py:FuzzyCurve.get_junction_templates", "peano/curves.py:FuzzyCurve.gen_defined_specs"]}
{"id": "C30", "title": "SAT encoding is exact", "statement": "After any sequence of add_forbid_clause calls, the clause set is satisfiable iff some curve of the fuzzy curve has no forbidden combination (junction present and sub-curve consistent); every satisfying assignment is decoded by get_model_curve to such a curve; copying an adapter copies the clauses and later additions to the copy do not affect the original.", "quantifier": "all fuzzy curves, all sequences of forbidden pairs, all satisfying assignments the solver may return", "why_tests_cant": "The solver's choice and the clause history are unbounded.", "anchors": ["peano/_sat_adapters.py:CurveSATAdapter"]}
{"id": "C31", "title": "Bounded-items heap", "statement": "After any sequence of operations the heap holds exactly the pushed items that are neither good (up <= good threshold) nor bad (lo >= bad threshold) nor popped; bad ones are handed out exactly once by pop_bad_items; pop/top give an active item of maximal up; the good threshold never decreases (lower values raise ValueError); a heap with a threshold or with max_lo_item cannot be copied; max_lo_item has the greatest lo ever pushed.", "quantifier": "all sequences of operations and items", "why_tests_cant": "All histories.", "anchors": ["peano/_bounded_items_heap.py:BoundedItemsHeap"]}
{"id": "C32", "title": "CubePathTree.grow enumerates all Hamiltonian paths", "statement": "grow(start, finish) yields exactly the sequences of (cube, state) nodes that start in start, end in finish, follow next_func (prev_func being its converse) and visit every cube of the grid exactly once; each once; the result does not depend on start_max_count/finish_max_count nor on hash collisions.", "quantifier": "all grids with at least two cubes, step functions, start/finish sets, limits and hash functions", "why_tests_cant": "Meet-in-the-middle with limits and hashing; tests count three small boards.", "anchors": ["peano/_cube_path_trees.py:CubePathTree.grow", "peano/_cube_path_trees.py:CubePathTree._width_search", "peano/_cube_path_trees.py:CubePathTree._depth_search", "peano/_cube_path_trees.py:CubePathTree._check_glue"]}
{"id": "C33", "title": "Path generation is sound and complete", "statement": "generate_paths_generic(link) over point links yields exactly the continuous paths whose fraction links are images of the given links and whose global link is the given one (and adjacent cubes within max_cdist), each once; with std=True it yields exactly one path of each orbit under the base maps that keep the link.", "quantifier": "all dims, divs, sets of point links", "why_tests_cant": "Infinite family of configurations; the tests compare counts for 14.", "anchors": ["peano/paths.py:PathsGenerator.generate_paths_generic", "peano/paths.py:PathsGenerator._init_exit2next", "peano/paths.py:PathsGenerator._init_entr2links", "peano/paths.py:PathsGenerator.generate_paths"]}
{"id": "C34", "title": "combinations_product", "statement": "combinations_product(ids, dict) yields exactly one tuple for each choice, per id, of a multiset of positions of the id's iterable of the size of the id's multiplicity.", "quantifier": "all id sequences and iterables", "why_tests_cant": "All inputs.", "anchors": ["peano/utils.py:combinations_product"]}
{"id": "C35", "title": "Piece-pair bounds enclose the dilation of the pair", "statement": "For a pair of non-adjacent fractions of a curve with a junction, the interval (lo, up) computed for the pair satisfies: every two times in the two fractions have ratio <= up, and some two times have ratio >= lo; no division by zero occurs; the argmax reported with face moments is a pair of points of the curve whose ratio is lo.", "quantifier": "all curves, junctions, positions at all depths; the shipped norms linf, l1, l2, l2_squared and any ratio function that is uniform and monotone", "why_tests_cant": "All real times inside two fractions at unbounded depth.", "anchors": ["peano/dilation.py:Estimator._get_pos_bounds", "peano/dilation.py:Estimator._get_bounds", "peano/utils.py:ratio_linf", "peano/utils.py:ratio_l1", "peano/utils.py:ratio_l2", "peano/utils.py:ratio_l2_squared"]}
{"id": "C36", "title": "Equality of curves", "statement": "Two Curve objects should compare equal iff they have the same patterns and selected pattern, consistently with hash. The code violates this: the truth value of == is True for every pair of curves (witness: two different valid curves).", "quantifier": "all pairs of curves", "why_tests_cant": "Needs all pairs; the shipped __eq__ returns a non-empty tuple, hence is always truthy.", "anchors": ["peano/curves.py:Curve.__eq__", "peano/curves.py:Curve.__hash__"]}
{"id": "C37", "title": "estimate_dilation_regular encloses the dilation", "statement": "Whatever the tolerance, iteration and depth limits and the use of face moments, if estimate_dilation_regular returns {'lo','up'} then every pair of distinct times of every pattern has ratio <= up and some pair has ratio >= lo.", "quantifier": "all valid continuous curves, all parameter values, all real times", "why_tests_cant": "All real times, unbounded iterations.", "anchors": ["peano/dilation.py:Estimator.estimate_dilation_regular", "peano/dilation.py:Estimator._create_tree", "peano/dilation.py:Estimator._divide_tree"]}
{"id": "C38", "title": "bisect_dilation_fuzzy decides good/bad", "statement": "If bisect_dilation_fuzzy returns a curve then this curve is one of the fuzzy curve's possible curves and its dilation is <= good_threshold; if it returns None then every possible curve has dilation >= bad_threshold.", "quantifier": "all path fuzzy curves over continuous paths, all thresholds, any correct SAT solver, any solver call schedule", "why_tests_cant": "Depends on every SAT answer and all curves of the family.", "anchors": ["peano/dilation.py:Estimator.bisect_dilation_fuzzy"]}
{"id": "C39", "title": "estimate_dilation_fuzzy brackets the minimum", "statement": "If the start bounds are correct, estimate_dilation_fuzzy returns lo, up, curve such that every possible curve has dilation >= lo and the returned possible curve has dilation <= up; unless stopped by stop_upper_bound or the iteration limit, up <= lo*(1+1/rel_tol_inv).", "quantifier": "all fuzzy curves, tolerances and start bounds", "why_tests_cant": "Composition of all bisection outcomes.", "anchors": ["peano/dilation.py:Estimator.estimate_dilation_fuzzy"]}
{"id": "C40", "title": "estimate_dilation_sequence brackets the minimum over a sequence", "statement": "If a given upper_bound is correct (or absent), estimate_dilation_sequence returns lo, up with every possible curve of every fuzzy curve having dilation >= lo and some curve having dilation <= up; None is returned only if the sequence is empty or all curves exceed the given upper bound.", "quantifier": "all sequences of fuzzy curves and parameters", "why_tests_cant": "Heap pruning over all histories of bounds.", "anchors": ["peano/dilation.py:Estimator.estimate_dilation_sequence"]}
{"id": "C41", "title": "Gates generator", "statement": "gen_gates terminates and yields, each once, exactly the nondecreasing tuples of standard gates (smallest among the images under isometries and time reversal) that are the gates of a continuous curve with these parameters all of whose entrances and exits lie on the cube boundary; with only_facet=True, strictly inside facets. Hence the gates of every such curve are generated up to base maps and order, and the facet mode yields the part of the general result with gates strictly inside facets.", "quantifier": "all dim >= 1 (dim >= 2 for only_facet), div >= 2, mult >= 1, all limits of the path searches and all hash functions that respect equality", "why_tests_cant": "Search space is exponential.", "anchors": ["peano/gates.py:GatesGenerator.gen_gates", "peano/gates.py:GatesGenerator._check_and_std", "peano/gates.py:GatesGenerator._gen_all_gates"]}
{"id": "C42", "title": "Division of pieces is a partition", "statement": "Dividing a piece (or a piece pair) yields, for every curve consistent with the piece, exactly the fractions of the next depth, each once, with the integer coordinates of sub-cube and sub-interval nested inside the parent's; the integer time/cube coordinates of depth-n positions enumerate [0,G^n) and the N^n grid bijectively.", "quantifier": "all curves, positions, depths", "why_tests_cant": "Unbounded depth.", "anchors": ["peano/dilation.py:_CurvePiece.divide", "peano/dilation.py:_CurvePiecePair.divide_balanced", "peano/utils.py:get_int_cube_with_cache", "peano/utils.py:get_int_time_with_cache"]}
{"id": "C43", "title": "Ratio functions are uniform, monotone and isometry invariant", "statement": "Each shipped ratio function is invariant under (dx,dt) -> (k*dx, k^d*dt), under permutations and sign changes of dx, does not decrease when coordinates grow in absolute value or dt decreases; ratio_l2_squared is the square of ratio_l2 for even d.", "quantifier": "all dimensions, vectors and positive times", "why_tests_cant": "All rational inputs.", "anchors": ["peano/utils.py:ratio_linf", "peano/utils.py:ratio_l1", "peano/utils.py:ratio_l2", "peano/utils.py:ratio_l2_squared"]}
{"id": "C44", "title": "gen_faces and get_lcm", "statement": "gen_faces(dim, face_dim) yields exactly the faces with face_dim free coordinates, each once; get_lcm is the least common multiple of positive integers.", "quantifier": "all dimensions and integer sequences", "why_tests_cant": "All inputs.", "anchors": ["peano/utils.py:gen_faces", "peano/utils.py:get_lcm"]}
{"id": "C45", "title": "Paths along a parent path, and path examples", "statement": "generate_paths_generic(parent=P) yields exactly the paths that visit the cubes in the order of P, whose fraction links are images of the given links and meet P's links at entrance and exit in every fraction, with adjacent fractions joined, each once (with std=True one of each orbit under the base maps that keep P); it never raises for a valid parent. get_paths_example returns a tuple of such paths, one for each link or parent, if each has one, and None otherwise.", "quantifier": "all dims, divs, sets of links between points or facet sets, parents, limits and hash functions", "why_tests_cant": "Infinite family of configurations; no unit test uses parents.", "anchors": ["peano/paths.py:PathsGenerator.generate_paths_generic", "peano/paths.py:PathsGenerator.get_paths_example"]}
{"id": "C46", "title": "The whole search is correct", "statement": "run_search(dim, div, mult, ...) reports, for every tuple of gates (group_by_gates) or once for all gates, bounds lo and up such that every continuous curve of the given dim, div, mult and max_cdist with these gates (up to base maps of the patterns and their order) - or, without given gates, with all gates on the boundary of the cube, strictly inside facets for facet_gated - has dilation at least lo, some such curve has dilation at most up (or up is the given upper bound), up is within the tolerance of lo and the printed curves belong to the class. With output_gates it prints the gates of C41. The reports stop early only at a tuple of gates without curves (or with all curves above the given bound); then the program raises instead of printing NOT FOUND. The search always ends when rel_tol_inv > 0 and rel_tol_inv_mult >= 2.", "quantifier": "all dim, div >= 2, mult >= 1, gate lists or none, tolerances, bounds, limits, hash functions, correct SAT solvers and heap implementations", "why_tests_cant": "The class of curves is infinite in its parameters and its members are covered only through symmetry arguments; no test runs search.py.", "anchors": ["search.py:run_search"]}
{"id": "C47", "title": "The estimators always return", "statement": "estimate_dilation_regular returns for every continuous curve, every positive tolerance (or every iteration limit), with or without face moments of any dimension; bisect_dilation_fuzzy returns a curve or None for any thresholds bad < good without an iteration limit; estimate_dilation_fuzzy returns for every positive tolerance, and without an iteration limit it has then reached the tolerance or passed stop_lower_bound; estimate_dilation_sequence returns for every list of fuzzy curves when rel_tol_inv_mult >= 2 and no iteration limit is set. None of them raises. (With rel_tol_inv_mult = 1, or with an iteration limit, estimate_dilation_sequence may loop for ever.)", "quantifier": "all curves and fuzzy curves over continuous paths of every dimension, all thresholds and tolerances, all ratios inversely proportional to a power of the time difference (with face moments: powers of ||dx||^d / dt for a monotone norm), all correct SAT solvers, all schedules of solver calls and all correct heap implementations", "why_tests_cant": "Termination for every input depends on a uniform gap between the bounds of deep pairs and the estimated dilation; a test only sees runs that happened to end.", "anchors": ["peano/dilation.py:Estimator.estimate_dilation_regular", "peano/dilation.py:Estimator.bisect_dilation_fuzzy", "peano/dilation.py:Estimator.estimate_dilation_fuzzy", "peano/dilation.py:Estimator.estimate_dilation_sequence"]}
{"id": "C48", "title": "Text of points and gates", "statement": "Fraction tokens are read exactly according to their syntax (spaces, sign, digits, optional slash and digits); Point.parse and Link.parse_gates return the point or gates that the text denotes, whatever spaces and unreduced fractions it uses; str() of a point or of gates is such a text, so parsing it back gives the same object; the lines printed by --output-gates, read as a --gates-file, give the same list of tuples of gates.", "quantifier": "all texts, fractions, points of positive dimension, links, lists of tuples of gates", "why_tests_cant": "Unbounded numbers, dimensions and texts; the tests parse a few literals.", "anchors": ["peano/subsets.py:Point.parse", "peano/subsets.py:Point.__str__", "peano/subsets.py:Link.parse_gates", "peano/subsets.py:Link.__str__", "search.py:run_search", "search.py:__main__"]}
{"id": "C49", "title": "The program search.py", "statement": "Started with good options (dimension in range, even for the metric l2, well-formed gates and bound, positive tolerance), the program ends; each report it prints is correct for the chosen metric, the class of curves, the tolerance and the bound (as in C46), and it stops early only where nothing is to be found. Running it twice - first with --output-gates, then with the printed gates as --gates-file - gives the same result as running it once.", "quantifier": "all combinations of options, gates and bounds as texts, hash functions, correct SAT solvers", "why_tests_cant": "No test runs the program; its result depends on infinitely many option values and on hash and solver behaviour.", "anchors": ["search.py:__main__", "search.py:run_search"]}
{"id": "C50", "title": "The case analysis of YE-proof.py", "statement": "If the script prints all its results, then with m the smallest of the nine lower bounds it prints, every plain monofractal curve of its case analysis (2x2, 3x3, 4x4 with gates on the boundary; 6x6 with side or median gates, 5x5 with side, median or diagonal gates, both without diagonal steps) either is the YE curve up to an isometry and time reversal, or has an l2 dilation of at least m; the YE curve itself has a dilation between the two bounds printed last. The two checks around the YE curve miss no curve: every side curve on 5x5 with another prototype is covered by the first, every one with the same prototype, except the YE curve, by the second; the assertion that exactly one path has the YE prototype holds. The script ends. The bounds printed for the YE curve are 408/73 and 13281250/2376291.", "quantifier": "all curves of the classes; all hash functions (set iteration orders), correct heaps and SAT solvers, solver schedules, limits of the path search; the checks for any curve, dimension, division, gates and tolerance", "why_tests_cant": "The script is a computer-assisted proof about an infinite family of real curves; no test can tell that its cases are complete, and its runs depend on hash order and the solver.", "anchors": ["YE-proof.py:check_genus5_non_ye", "YE-proof.py:check_genus5_ye_proto", "YE-proof.py:check_ye", "YE-proof.py:main"]}
{"id": "C51", "title": "Dilation and paths do not depend on the position of a curve", "statement": "The image bm * c of a curve under a base map has the same dilation as c (for every norm), and the paths of the image are the images of the paths: (bm * c).get_paths() equals [bm * p for p in c.get_paths()].", "quantifier": "all curves (any dimension, division and number of patterns), all base maps, with and without time reversal, all ratio functions of the estimator", "why_tests_cant": "The dilation is a supremum over pairs of real moments; tests can only compare estimates of a few curves.", "anchors": ["peano/curves.py:FuzzyCurve.__rmul__", "peano/curves.py:Curve.get_paths", "peano/paths.py:Path.__rmul__"]}
{"id": "C52", "title": "max_depth makes the lower bound exact", "statement": "If estimate_dilation_regular with use_face_moments=True, rel_tol_inv=None and max_depth=m returns, it has considered every pair of fractions of depth at most m: 'lo' is at least the ratio of any two key points (first or last moments on faces of dimension face_dim) of two non-adjacent fractions of a junction whose smaller depth is at most m. Hence, if the dilation is attained at such a pair, 'lo' is the dilation exactly, as the docstring promises. The call does return if, moreover, the two key points are not the end of the first fraction together with the beginning of the second. With a tolerance (rel_tol_inv is 100 by default) the promise fails.", "quantifier": "all continuous curves, norms, face dimensions, depths m, correct heaps; all pairs of fractions of all junctions and all key points of them", "why_tests_cant": "The search prunes pairs by thresholds and stops by a condition on the whole heap; that no pruned pair hides a larger ratio is a statement about all curves and all pairs of fractions.", "anchors": ["peano/dilation.py:Estimator.estimate_dilation_regular", "peano/dilation.py:_CurvePieceBalancedPair.depth", "peano/_bounded_items_heap.py:BoundedItemsHeap.update_good_threshold"]}
{"id": "C53", "title": "The estimator's caches are invisible", "statement": "Whatever estimators were created and whatever calls were made before, with whatever cache_max_size, each call of estimate_dilation_regular, bisect_dilation_fuzzy, estimate_dilation_fuzzy and estimate_dilation_sequence returns what a fresh computation without caches returns for the same arguments (bounds, curves, indices, argmax points); no cache grows beyond its maxsize. The only exception is the attribute depth of argmax['junc'], which may be the depth of an equal junction of a curve estimated earlier.", "quantifier": "all sessions: any number of estimators, cache sizes (unlimited, zero, negative), sequences of calls with any arguments, all hash functions", "why_tests_cant": "A wrong cache key or a hash collision shows only for particular histories of calls; the statement is about all of them.", "anchors": ["peano/dilation.py:Estimator.__init__", "peano/dilation.py:Estimator._get_bounds", "peano/dilation.py:Estimator._get_pos_bounds", "peano/dilation.py:_PiecePosition.__hash__", "peano/dilation.py:Estimator.get_info", "peano/utils.py:get_int_cube_with_cache", "peano/utils.py:get_int_time_with_cache", "peano/curves.py:Junction.__hash__", "peano/curves.py:Junction.__eq__"]}
{"id": "C54", "title": "Equality, hash and order of values agree", "statement": "For points, base maps, specs, facet subsets, links, prototypes, paths, junctions and piece positions, a == b never raises for values of the same class, is an equivalence, holds exactly if the documented data coincide (depth of a junction and dim, div of a prototype do not count), and implies hash(a) == hash(b). On points, facet subsets, links, and prototypes and paths without unknown cubes, < never raises and is a strict total order compatible with ==: the lexicographic order of the data. With an unknown cube (None) in a prototype < may raise TypeError.", "quantifier": "all pairs and triples of such values, of any dimension and size; all hash functions of numbers and tuples", "why_tests_cant": "Sets, dicts, sorted() and min() silently go wrong if some two equal values have different hashes or if < is not transitive; only a statement about all values excludes this.", "anchors": ["peano/base_maps.py:BaseMap.__eq__", "peano/base_maps.py:BaseMap.__hash__", "peano/base_maps.py:Spec.__eq__", "peano/base_maps.py:Spec.__hash__", "peano/subsets.py:FacetDivSubset.__eq__", "peano/subsets.py:FacetDivSubset.__lt__", "peano/subsets.py:FacetDivSubset.__hash__", "peano/subsets.py:Link.__eq__", "peano/subsets.py:Link.__lt__", "peano/subsets.py:Link.__hash__", "peano/paths.py:Path.__eq__", "peano/paths.py:Path.__lt__", "peano/paths.py:Path.__hash__", "peano/paths.py:Proto", "peano/curves.py:Junction.__eq__", "peano/curves.py:Junction.__hash__", "peano/dilation.py:_PiecePosition.__eq__", "peano/dilation.py:_PiecePosition.__hash__"]}
{"id": "C55", "title": "plot_curve draws the curve's subdivision", "statement": "plot_curve(curve, separate, subdivision=k) returns without exception for every curve of dimension 2 or 3 with at most four patterns, and raises for every other curve. On the detail axes of each pattern it draws, in this order, one line per fraction in the colour of the fraction's pattern; together these lines run through the centres of all cubes of the pattern of get_subdivision(k+1) in the order of time, each line with the same number of points; consecutive lines are joined by two half-segments in the two colours; the last line ends with an arrow head (two different symmetric legs at the last point, spread across the last segment, one fifth of it long). On the prototype axes it draws one line through the centres of the cubes of the prototype, with an arrow head, and, if there are several patterns, one label per fraction with its pattern and orientation.", "quantifier": "all curves, all subdivision depths, both layouts", "why_tests_cant": "Plots are checked by eye on a few curves; that the picture shows exactly the subdivision for every curve, base maps with time reversal and several patterns included, is a statement about all curves and depths.", "anchors": ["plots.py:plot_curve", "plots.py:draw_lines", "plots.py:get_arr", "plots.py:_get_abs_point", "plots.py:_get_proto_center_line"]}
{"id": "C56", "title": "A printed curve can be read back", "statement": "str(curve) is defined for every curve of dimension at most 6 and consists of one line '@p: chain | specs' per pattern, which can be cut into these fields in only one way; for a continuous curve with at most ten patterns Curve.parse of these fields gives the curve back (with pattern 0 selected). Continuous curves with the same text are equal up to the selected pattern, whatever the number of patterns. The round trip fails for specs that refer to pattern 10 or more (parse raises), and for curves that are not continuous (parse may give another curve); Curve.parse accepts texts that are not of a curve.", "quantifier": "all curves of dimension at most 6, any number of patterns and any division", "why_tests_cant": "The tests parse a few texts of the zoo; that nothing is lost when search.py prints a curve it has found must hold for every curve that a search can find.", "anchors": ["curves.py:FuzzyCurve.__str__", "curves.py:Pattern.__str__", "curves.py:Curve.parse", "curves.py:Pattern.parse", "search.py:run_search"]}
{"id": "C57", "title": "What the zoo records about its curves is true", "statement": "All 21 curves of get_all_curves can be constructed, are valid and continuous. The recorded gates are the ends of the patterns; the recorded moments are the first (key >= 0) or last (key < 0) moments of the faces of dimension |key|; the recorded depth is that of get_depth and is enough for pairs of consecutive fractions of all depths; the recorded number of junctions is their number up to isometries; the recorded dilation is the dilation of the curve: an interval contains it, an exact value is attained and exceeded by no more than a millionth of it.", "quantifier": "all curves of the zoo and all entries of their CurveInfo; for each, all moments of time, all faces, all depths and all pairs of points of the curve", "why_tests_cant": "The tests compare the recorded values with values computed by the same code; that the curve never leaves the recorded bounds is a statement about infinitely many pairs of moments.", "anchors": ["peano/zoo.py:CurveInfo", "peano/zoo.py:get_all_curves", "tests/test_dilation.py"]}
{"id": "C58", "title": "Plane monofractal curves are side, diagonal or median curves", "statement": "Every plane curve with one pattern that is continuous by check() has its entrance and exit on the boundary of the square, and up to a base map its gates are (0,0)->(1,0), (0,0)->(1,1) or (0,0)->(1,1/2); the second occurs only for odd division, and no curve belongs to two categories. Side curves exist for every division, diagonal curves exactly for odd ones, median curves exactly for div >= 4 unless div leaves the remainder 3 modulo 4, with and without diagonal steps excluded. Hence GatesGenerator(2, div, 1) yields one tuple of gates for each of these kinds and no others, with facet_gated it yields none, a search for diagonal curves of even division finds no curve, and the result of YE-proof.py covers all plain curves with division 2, 3, 4 and all those without diagonal steps with division 5, 6, whatever their gates.", "quantifier": "all divisions div >= 2 and all continuous plane curves with one pattern, with or without a limit on the steps", "why_tests_cant": "The script prints the three categories as a fact and the search relies on it; the gates of curves can be enumerated for a few divisions only, and the statement is about all of them.", "anchors": ["YE-proof.py:__main__", "peano/gates.py:GatesGenerator.gen_gates", "search.py:run_search"]}
{"id": "C59", "title": "Statistics of the bounded-items heap", "statement": "Keeping the statistics of a bounded-items heap never changes its behaviour. After any operations update_good_threshold is the number of updates that did not raise, rebuild_count the number of those that removed items, good the number of items that were good when pushed, bad the number of items handed out by pop_bad_items or waiting for it, push the number of calls of push plus the items left by each update that removed items. Every pushed item is good, bad, present, popped or removed by an update, and these numbers add up. A copy has the statistics of a new heap into which the items were pushed, with copy_push increased by their number, also after further operations.", "quantifier": "all item types, bounds, thresholds, heapq implementations meeting the contract, and histories of operations (also those that raise)", "why_tests_cant": "The counters depend on the whole history of operations; push counts re-insertions, which depend on how the thresholds and the items interleave.", "anchors": ["peano/_bounded_items_heap.py:BoundedItemsHeap", "peano/_bounded_items_heap.py:_HeapStat"]}
{"id": "C60", "title": "Wrong arguments are rejected", "statement": "search.py prints nothing and raises an exception if the metric is l2 and the dimension odd, if no metric is given and not only the gates are asked for, if the text of the gates, of the gates file or of the upper bound has the wrong form, or if some given gates are not as many as the patterns. A search for paths that is given both links and parents (or, for one path, neither) is rejected.", "quantifier": "all options, texts, hash functions, SAT solvers, and any length of the run; all generators, links and parents", "why_tests_cant": "The rejection must not depend on the other options or on the solver, and nothing may be printed before it.", "anchors": ["search.py:main", "search.py:run_search", "peano/paths.py:PathsGenerator._get_restrictions", "peano/paths.py:PathsGenerator.generate_paths_generic"]}
{"id": "C61", "title": "Counters of the estimator", "statement": "Counting does not change the estimates. One bisection step performs at most max_iter divisions (divide_iter), exactly that many if it gives up, and never counts more solver calls (sat.solve_calls) than divisions; the calls of the SAT solver are the counted ones plus, when a curve is found, exactly one. Over an estimate of one fuzzy curve the uncounted solver calls are at most bisect_iter and the divisions at most max_iter times bisect_iter. bisect_iter steps shrink the distance between the bounds at least by (3/2)^bisect_iter and at most by 2^bisect_iter (the last step may be void if the iterations are limited). After an estimate of a sequence, seen_pcurve has grown by the number of fuzzy curves and possible_curves by the number of different regular curves chosen from them, once for each fuzzy curve, in however many epochs it was estimated.", "quantifier": "all fuzzy curves and sequences of them, thresholds, tolerances, limits of iterations, ratio functions, heaps, solvers and schedules, and any earlier values of the counters", "why_tests_cant": "The relations must hold for every run of nested loops whose number of steps depends on the solver and the schedule.", "anchors": ["peano/dilation.py:Estimator.bisect_dilation_fuzzy", "peano/dilation.py:Estimator.estimate_dilation_fuzzy", "peano/dilation.py:Estimator.estimate_dilation_sequence", "peano/dilation.py:Estimator.get_info"]}
{"id": "C62", "title": "Counters of the gates generator", "statement": "Counting does not change the gates that are generated. When gen_gates has been run to its end, new_path_gate has grown by the number of different gates found at candidate curves, new_std_gate by the number of their different standard forms and new_good_gate by the number of gates yielded, which are those standard forms for which there is a path; so new_good_gate grows at most as much as new_std_gate and that at most as much as new_path_gate.", "quantifier": "all dimensions, divisions, numbers of patterns, both modes, all limits of the searches, any earlier values of the counters", "why_tests_cant": "The sets of gates already seen must be exact for every order and multiplicity of candidates.", "anchors": ["peano/gates.py:GatesGenerator._check_and_std", "peano/gates.py:GatesGenerator.gen_gates", "peano/gates.py:GatesGenerator.stats"]}
{"id": "C63", "title": "The text of junctions", "statement": "Every auto-junction or regular junction of a valid curve of dimension at most 6 can be printed, with str(junction) of the form 'spec1 | dx=(...), dt=... | spec2'. Two such junctions, of one curve or of two curves of the same dimension, have the same text iff they are equal; the texts of the junctions of one curve are pairwise different.", "quantifier": "all valid curves of dimension up to 6, all their junctions of every depth", "why_tests_cant": "Ambiguity of a text format needs all pairs of junctions of all curves.", "anchors": ["peano/curves.py:Junction.__str__", "peano/curves.py:Junction.__eq__", "peano/curves.py:Curve.gen_regular_junctions"]}
