{"id": "C01", "title": "Fewer than three vertices", "statement": "Both 2d entry points return Ok with an empty triangle list when given fewer than three vertices, whatever the coordinates (NaN included), constraints and configuration.", "quantifier": "all inputs with 0, 1 or 2 vertices, all constraint lists (even with out of range indices), all configurations, all float types", "why_tests_cant": "the coordinates, constraint lists and configurations are unbounded", "anchors": ["src/triangulation.rs:triangulation_from_2d_vertices", "src/constrained_triangulation.rs:constrained_triangulation_from_2d_vertices"]}
{"id": "C02", "title": "Returned indices are valid", "statement": "Every index in a returned triangle list is a valid index into the input vertex slice; the internal vertices at infinity never leak out.", "quantifier": "all vertex lists (any floats, NaN and infinities included) below the index type's capacity, all configurations, DT and CDT, all constraint lists", "why_tests_cant": "one index out of range on one rare input is a memory-safety style bug for the user; tests sample inputs", "anchors": ["src/triangulation.rs:filter_triangles", "src/constrained_triangulation.rs:cdt_filter_triangles"]}
{"id": "C03", "title": "Bin sort is a permutation", "statement": "The insertion order computed by the bin sort contains every input vertex exactly once, for every bin count, whenever it does not panic.", "quantifier": "all vertex lists, all bin counts, all float types", "why_tests_cant": "depends on counters of all bins for all inputs", "anchors": ["src/triangulation.rs:VertexBinSort::sort"]}
{"id": "C04", "title": "Bin sort stays in range", "statement": "For vertices normalised into the unit square and at least one bin per row, the bin sort never indexes out of range or underflows, so it never panics. With zero bins per row (a configuration the API accepts) it panics.", "quantifier": "all vertex lists with coordinates in [0,1] (exact rationals, f64, f32), all bins_per_row from 1 to 2^40 (2^13 for f32); refutation for 0 bins", "why_tests_cant": "rounding/flooring boundaries over all coordinates", "anchors": ["src/triangulation.rs:VertexBinSort::bin_index_from_vertex", "src/triangulation.rs:TriangulationConfiguration"]}
{"id": "C05", "title": "Normalisation", "statement": "Normalising maps every vertex into the unit square, rounding included. In exact arithmetic, and on integer grids in f64 and f32, it is a similarity: it preserves orientation and in-circle relations of all vertex triples/quadruples.", "quantifier": "all finite vertex lists with coordinates below 2^58 that are not all at one position (unit square: f64, f32, exact); exact rationals and grids (similarity)", "why_tests_cant": "ranges over all coordinates", "anchors": ["src/triangulation.rs:normalize_vertices_coordinates"]}
{"id": "C06", "title": "Output size", "statement": "A triangulation of n vertices contains at most 2n+2 triangles, whatever the arithmetic does, and at most 2n-2 when the float predicates are exact.", "quantifier": "all vertex lists, configurations, float types; DT and CDT", "why_tests_cant": "tests only sample sizes", "anchors": ["src/triangulation.rs:split_triangle_into_three_triangles", "src/triangulation.rs:split_quad_into_four_triangles"]}
{"id": "C07", "title": "Merged vertices never appear", "statement": "A vertex that was merged into another one never appears in the returned triangles, and its merge target is a vertex of the triangulation which is within EPSILON of it on both axes.", "quantifier": "all vertex lists (any floats), all configurations", "why_tests_cant": "histories of insertions", "anchors": ["src/triangulation.rs:wrap_and_triangulate_2d_normalized_vertices", "src/triangulation.rs:is_vertex_pair_too_close"]}
{"id": "C08", "title": "Duplicates are merged exactly", "statement": "If exact arithmetic is used, two vertices at the same position never both appear in the mesh, every input vertex is represented by a mesh vertex at its position, and no distinct positions are merged.", "quantifier": "all vertex lists on which the float predicates are exact", "why_tests_cant": "histories of insertions over all inputs", "anchors": ["src/triangulation.rs:wrap_and_triangulate_2d_normalized_vertices"]}
{"id": "C09", "title": "Triangles are strictly clockwise", "statement": "Every returned triangle has three distinct vertices and is strictly clockwise (never flat, never counter-clockwise).", "quantifier": "all vertex lists on which the float predicates are exact, all configurations; refuted for arbitrary f64 input", "why_tests_cant": "invariant over all insertion and swap histories", "anchors": ["src/triangulation.rs:split_triangle_into_three_triangles", "src/triangulation.rs:check_and_swap_quad_diagonal"]}
{"id": "C10", "title": "Triangles do not overlap", "statement": "The interiors of two different returned triangles are disjoint.", "quantifier": "all vertex lists on which the float predicates are exact, all configurations", "why_tests_cant": "pairwise global geometric property of every output", "anchors": ["src/triangulation.rs:triangulation_from_2d_vertices"]}
{"id": "C11", "title": "Edges are shared consistently", "statement": "Each directed edge belongs to at most one returned triangle, so every undirected edge belongs to at most two triangles, on opposite sides.", "quantifier": "all vertex lists on which the float predicates are exact; refuted for arbitrary f64 input", "why_tests_cant": "mesh adjacency invariant over all histories", "anchors": ["src/types.rs:TriangleData", "src/triangulation.rs:update_triangle_neighbor"]}
{"id": "C12", "title": "No vertex inside a triangle", "statement": "No input vertex lies in a returned triangle or on its border other than (a duplicate of) its three corners.", "quantifier": "all vertex lists on which the float predicates are exact", "why_tests_cant": "all vertices against all triangles of all outputs", "anchors": ["src/triangulation.rs:find_vertex_placement"]}
{"id": "C13", "title": "Point location is correct", "statement": "When the walk reports a triangle (or a triangle edge) for a vertex, the vertex is inside that triangle (or on that edge), including for the unbounded triangles with one or two infinite vertices.", "quantifier": "all reachable meshes, all start triangles, all vertices, exact predicates", "why_tests_cant": "all meshes, start triangles and points", "anchors": ["src/triangulation.rs:find_vertex_placement", "src/infinite.rs:vertex_placement_1_infinite_vertex", "src/infinite.rs:vertex_placement_2_infinite_vertex"]}
{"id": "C14", "title": "Delaunay triangulation terminates and never panics", "statement": "For valid input the DT entry point always terminates and never panics (index out of bounds, overflow).", "quantifier": "all vertex lists on which the float predicates are exact, all configurations with at least one bin", "why_tests_cant": "termination and absence of panics over unbounded inputs", "anchors": ["src/triangulation.rs:restore_delaunay_triangulation", "src/triangulation.rs:wrap_and_triangulate_2d_normalized_vertices"]}
{"id": "C15", "title": "Delaunay property", "statement": "No vertex lies strictly inside the circumcircle of a returned triangle. Refuted by concrete f64 inputs (the early exit for an infinite opposite vertex leaves illegal edges); what holds is that after every insertion no edge opposite to the inserted vertex is illegal. C41 and C43 give conditions under which it holds.", "quantifier": "all vertex lists; all insertion steps", "why_tests_cant": "all triangles against all vertices", "anchors": ["src/triangulation.rs:should_swap_diagonals", "src/triangulation.rs:restore_delaunay_triangulation"]}
{"id": "C16", "title": "Convex hull is covered", "statement": "For vertices that are not all collinear, the returned triangles cover the convex hull. Refuted: three non-collinear vertices can give an empty triangulation. What remains: the covered area has no holes, every uncovered point can leave to infinity along one of the four axis directions without meeting a triangle.", "quantifier": "all non-collinear vertex lists", "why_tests_cant": "all outputs", "anchors": ["src/triangulation.rs:should_swap_diagonals", "src/triangulation.rs:filter_triangles"]}
{"id": "C17", "title": "Diagonal swaps are only made in convex quads", "statement": "Whenever the Delaunay restoration swaps a diagonal, the quad is strictly convex, so the two new triangles are strictly clockwise and cover the same region.", "quantifier": "all quads of reachable meshes, with any number of infinite vertices, exact predicates", "why_tests_cant": "all quads", "anchors": ["src/triangulation.rs:should_swap_diagonals", "src/constrained_triangulation.rs:constrained_should_swap_diagonals", "src/infinite.rs:is_vertex_in_half_plane_1"]}
{"id": "C18", "title": "Finite f64 input always triangulates", "statement": "Any finite f64 input yields Ok and a valid mesh. Refuted: clusters at very different scales yield an Err, counter-clockwise or flat triangles, or an edge used twice.", "quantifier": "all finite f64 vertex lists", "why_tests_cant": "exhibits specific adversarial inputs", "anchors": ["src/triangulation.rs:find_vertex_placement", "src/utils.rs:EdgeSideTestResult::is_near_edge"]}
{"id": "C19", "title": "Constraints are edges of the result", "statement": "When the CDT returns Ok, every constrained edge (after merging duplicates) is an edge of the triangulation and no triangle edge properly crosses it.", "quantifier": "all vertex lists with exact predicates, all valid constraint lists (pairwise non crossing, no vertex in the interior of a constraint), any order", "why_tests_cant": "all constraint sets and swap histories", "anchors": ["src/constrained_triangulation.rs:apply_constraints", "src/constrained_triangulation.rs:remove_crossed_edges", "src/constrained_triangulation.rs:register_intersected_edges"]}
{"id": "C20", "title": "Constraints survive later constraints", "statement": "Inserting a constraint never removes an edge that an earlier constraint forced.", "quantifier": "all sequences of constraints as in C19", "why_tests_cant": "histories of constraint insertions", "anchors": ["src/constrained_triangulation.rs:restore_delaunay_triangulation_constrained", "src/constrained_triangulation.rs:apply_constraints"]}
{"id": "C21", "title": "CDT triangles are a valid mesh", "statement": "Every triangle returned by the CDT is strictly clockwise with distinct vertices, no two overlap, each directed edge is used at most once and no vertex lies inside one.", "quantifier": "all vertex lists with exact predicates, all constraint lists", "why_tests_cant": "all swap histories", "anchors": ["src/constrained_triangulation.rs:swap_quad_diagonal", "src/constrained_triangulation.rs:constrained_triangulation_from_2d_vertices"]}
{"id": "C22", "title": "CDT keeps exactly the constrained domains", "statement": "The CDT returns exactly the finite triangles that can be reached from a triangle having a constrained edge as one of its directed (clockwise) edges, crossing only edges that are not constrained in the direction of the triangle being left; each once.", "quantifier": "all meshes and constraint sets, any arithmetic", "why_tests_cant": "graph reachability over all meshes", "anchors": ["src/constrained_triangulation.rs:cdt_filter_triangles"]}
{"id": "C23", "title": "CDT filtering terminates", "statement": "The domain exploration of the CDT terminates on every mesh and visits every triangle at most once.", "quantifier": "all meshes (even with corrupt adjacency) and constraint sets", "why_tests_cant": "termination", "anchors": ["src/constrained_triangulation.rs:cdt_filter_triangles"]}
{"id": "C24", "title": "Constrained restoration terminates", "statement": "The constrained Delaunay restoration loop terminates on every mesh and arithmetic (its swap history bounds the number of swaps).", "quantifier": "all meshes, vertex lists, pending edges, any arithmetic", "why_tests_cant": "termination over unbounded states", "anchors": ["src/constrained_triangulation.rs:restore_delaunay_triangulation_constrained"]}
{"id": "C25", "title": "CDT never panics on valid input", "statement": "For finite vertices and valid, non crossing constraints the CDT never panics. Refuted: when the fourth vertex of a quad is infinite the code looks up the wrong vertex and panics. What holds: constraints which stay inside the area covered by the unconstrained triangulation, with no vertex between their ends, never panic and never fail, even if they cross each other.", "quantifier": "all valid CDT inputs", "why_tests_cant": "exhibits adversarial input", "anchors": ["src/infinite.rs:collect_infinite_quad_vertices", "src/constrained_triangulation.rs:quad_diagonals_intersection"]}
{"id": "C26", "title": "Degenerate and duplicate constraints are ignored", "statement": "Repeating a constraint, or adding a constraint between a vertex and itself (or two merged vertices), does not change the result.", "quantifier": "all vertex lists, constraint lists, positions of the repetition, any arithmetic", "why_tests_cant": "all lists", "anchors": ["src/constrained_triangulation.rs:apply_constraints"]}
{"id": "C27", "title": "CDT without constraints is empty", "statement": "With an empty constraint list (or only ignored constraints) the CDT returns no triangle when it returns Ok.", "quantifier": "all vertex lists, any arithmetic", "why_tests_cant": "all inputs", "anchors": ["src/constrained_triangulation.rs:cdt_filter_triangles"]}
{"id": "C28", "title": "Segment intersection test", "statement": "egdes_intersect returns Crossing exactly when the two open segments meet in a single point that is interior to both, OnEdgeTip/SharedEdges exactly when they touch at an endpoint, None otherwise; it is symmetric in its two arguments for Crossing.", "quantifier": "all pairs of segments (exact arithmetic)", "why_tests_cant": "all configurations incl. collinear ones", "anchors": ["src/utils.rs:egdes_intersect", "src/utils.rs:triplet_orientation", "src/utils.rs:on_segment"]}
{"id": "C29", "title": "In-circle test", "statement": "For a quad of two clockwise triangles sharing the edge q1q2, the in-circle test is true exactly when q4 lies strictly inside the circumcircle of q1 q2 q3; it is symmetric under exchanging q3 and q4.", "quantifier": "all quads (exact arithmetic)", "why_tests_cant": "sign case analysis over all coordinates", "anchors": ["src/utils.rs:is_vertex_in_triangle_circumcircle"]}
{"id": "C30", "title": "Side tests", "statement": "The edge side test is positive exactly for points strictly left of the directed edge, antisymmetric under reversing the edge, and agrees with triplet_orientation. The variants with a margin compare its value with EPSILON: strictly left above EPSILON, strictly right below -EPSILON, near the edge strictly between. The slope of a line between two points of different x is the quotient of the coordinate differences, rounded in the float type.", "quantifier": "all triples of points (exact arithmetic); all finite values of the test; all pairs of integer points within 2^23 of each other", "why_tests_cant": "all coordinates", "anchors": ["src/utils.rs:test_point_edge_side", "src/utils.rs:EdgeSideTestResult", "src/utils.rs:triplet_orientation", "src/utils.rs:line_slope"]}
{"id": "C31", "title": "Vertex validation", "statement": "validate_vertices returns Ok exactly when no coordinate of any vertex is NaN or infinite.", "quantifier": "all f64/f32 vertex lists", "why_tests_cant": "all bit patterns", "anchors": ["src/utils.rs:validate_vertices"]}
{"id": "C32", "title": "Degenerate triangle counters", "statement": "check_degenerate_triangles returns exactly the number of flat and of counter-clockwise triangles, and (0,0) on every triangulation this library returns (exact predicates).", "quantifier": "all triangle lists and vertices", "why_tests_cant": "all lists", "anchors": ["src/utils.rs:check_degenerate_triangles"]}
{"id": "C33", "title": "Parallel filtering equals sequential filtering", "statement": "With the parallel_filtering feature the result (including its order) does not depend on the batch sizes, the thread schedule or the threshold, and equals the sequential result.", "quantifier": "all meshes, all recursive splits, all thresholds", "why_tests_cant": "schedules", "anchors": ["src/triangulation.rs:_multithreaded_filter_triangles", "src/triangulation.rs:_singlethreaded_filter_triangles"]}
{"id": "C34", "title": "3d input", "statement": "For coplanar 3d vertices with a unit normal, the triangulation is computed on plane coordinates that preserve all distances and, seen from the side to which the normal points, all orientations: the returned triangles are a valid mesh of the plane points and are clockwise seen from that side, and constraints are respected as in 2d. If the first two vertices coincide the plane coordinates are undefined (NaN) and the guarantee is lost without an error. In planes not normal to an axis the plane coordinates are rounded, and the mesh may then have flat triangles; but the computed coordinates differ from the exact ones by at most 512 rounding errors of the largest coordinate M, and when they are an input on which the tests are decided correctly, each returned triangle is clockwise seen from the normal or has less than 16384 rounding errors of M^2 of signed area.", "quantifier": "all coplanar vertex lists with unit normal whose first two vertices differ (real arithmetic); all integer points of a plane normal to an axis, within the exact range, whose first two vertices differ by a power of two along an axis (f64, f32); all planes and all vertices of moderate size whose first two vertices are not too close (f64, f32, up to the stated error)", "why_tests_cant": "all 3d configurations", "anchors": ["src/triangulation.rs:transform_to_2d_planar_coordinate_system", "src/triangulation.rs:triangulation_from_3d_planar_vertices"]}
{"id": "C35", "title": "Identical vertices", "statement": "When all n >= 3 vertices are identical (and finite), the documented merging of identical vertices does not happen: every normalised coordinate is NaN. The call still returns normally, with exactly 2n-5 triangles of identical corners, and each of the n copies is a corner of one of them.", "quantifier": "every finite vertex, every number of copies, every number of bins, f64 and f32", "why_tests_cant": "the number of copies is unbounded and the value of the vertex arbitrary", "anchors": ["src/triangulation.rs:normalize_vertices_coordinates"]}
{"id": "C36", "title": "Invariance under translation and scaling", "statement": "Translating all vertices or scaling them by a positive factor does not change the returned triangles (exact arithmetic).", "quantifier": "all vertex lists, translations and positive scales", "why_tests_cant": "all inputs", "anchors": ["src/triangulation.rs:normalize_vertices_coordinates", "src/triangulation.rs:triangulation_from_2d_vertices"]}
{"id": "C37", "title": "Debug recording", "statement": "With the feature debug_context and no forced end, both entry points return what they return without the feature. A configuration records exactly those snapshots of the complete recording whose phase and whose step it asks for, in the same order. Steps never decrease along the snapshots; a split shown at step i is that of vertex number i of the bin order; the last change shown up to step i holds the triangles after i insertions (and the constraints processed by then); the last snapshot of a complete recording holds the returned triangles. With force_end_at_step = k, snapshots before step k are those of the complete run, no later snapshot shows a change, k - 1 vertices are inserted after the first one and, with n vertices, the first k - n constraints are applied. The returned context, also that of an error, holds the given configuration and the offset and scale of the coordinates used (below 3 vertices: the default context), and its step counts the processed vertices and constraints.", "quantifier": "all configurations, vertex lists, constraint lists, bin counts and arithmetics", "why_tests_cant": "it relates every run to its recordings under every configuration", "anchors": ["src/debug.rs:DebugContext::push_snapshot_event", "src/debug.rs:DebugContext::advance_step", "src/triangulation.rs:wrap_and_triangulate_2d_normalized_vertices", "src/constrained_triangulation.rs:apply_constraints"]}
{"id": "C38", "title": "Neighbour update is local", "statement": "Updating a neighbour link changes only the first link that equals the old id and leaves vertices and other links alone.", "quantifier": "all triangles and ids", "why_tests_cant": "all states", "anchors": ["src/triangulation.rs:update_triangle_neighbor", "src/triangulation.rs:update_neighbor_neighbor"]}
{"id": "C39", "title": "Exactness of the predicates", "statement": "For integer vertices on a small enough grid whose extent is a power of two, and for any vertices in general enough position (coordinates equal or 40 machine epsilons apart, triples aligned along an axis or with an area of 24 epsilons, quads forming an axis-parallel rectangle or 192 epsilons away from being cocircular, all relative to the extent of the input), every predicate the f64 and f32 code evaluates on the normalised vertices gives the answer of exact arithmetic on the input positions. So the exact-predicate properties hold for the shipped f64 and f32 code on these inputs.", "quantifier": "all such vertex lists (any length), all triples and quads of their vertices, f64, f32 and exact rationals", "why_tests_cant": "The set of such inputs is infinite and a single wrong sign in one quad breaks the mesh; rounding errors must be bounded for all of them.", "anchors": ["src/utils.rs:test_point_edge_side", "src/utils.rs:is_vertex_in_triangle_circumcircle"]}
{"id": "C40", "title": "How a constrained call ends", "statement": "Every call of the CDT terminates. It returns a list, or the error that a vertex could not be located, or an error while searching the edges crossed by a constraint, or it panics; the search errors only happen when some constraint has a vertex strictly between its ends. The error for a non convex quad is never returned.", "quantifier": "all vertex lists on which the float predicates are exact, all constraint lists (crossing, repeated, with vertices inside, with invalid indices)", "why_tests_cant": "no bound on the number of swaps can be tested; all constraint lists", "anchors": ["src/constrained_triangulation.rs:apply_constraints", "src/constrained_triangulation.rs:register_intersected_edges", "src/constrained_triangulation.rs:remove_crossed_edges"]}
{"id": "C41", "title": "Inserting inside keeps the Delaunay property", "statement": "If at some point of the insertion order the triangles between input vertices are locally Delaunay (no triangle has in its circumcircle the opposite corner of a triangle sharing an edge with it) and all vertices inserted later lie in the interior of the area of these triangles, then the returned triangulation is locally Delaunay.", "quantifier": "all vertex lists on which the float predicates are exact, all splits of the insertion order, any number of later vertices", "why_tests_cant": "all inputs and all prefixes of the insertion order; the stack-driven restoration checks only some of the edges", "anchors": ["src/triangulation.rs:restore_delaunay_triangulation", "src/triangulation.rs:check_and_swap_quad_diagonal", "src/triangulation.rs:split_triangle_into_three_triangles", "src/triangulation.rs:split_quad_into_four_triangles"]}
{"id": "C42", "title": "The covered area never shrinks", "statement": "Every point covered by the triangles between input vertices after some of the insertions is covered by the returned triangulation; if all later vertices lie in the interior of that area, the returned triangulation covers exactly the same area.", "quantifier": "all vertex lists on which the float predicates are exact, all splits of the insertion order, all points of the plane", "why_tests_cant": "all points of the plane, all inputs, all prefixes", "anchors": ["src/triangulation.rs:wrap_and_triangulate_2d_normalized_vertices", "src/triangulation.rs:check_and_swap_quad_diagonal", "src/triangulation.rs:filter_triangles"]}
{"id": "C43", "title": "Locally Delaunay and convex means Delaunay", "statement": "If the returned triangulation is locally Delaunay and covers a convex area then no covered input vertex is strictly inside the circumcircle of any returned triangle. In particular when a locally Delaunay convex part is built first and all other vertices are inserted in its interior.", "quantifier": "all vertex lists on which the float predicates are exact, all triangles of the result against all vertices", "why_tests_cant": "all pairs of a triangle and a vertex of all results", "anchors": ["src/triangulation.rs:triangulation_from_2d_vertices", "src/utils.rs:is_vertex_in_triangle_circumcircle"]}
{"id": "C44", "title": "The quality checker counts the non-Delaunay triangles", "statement": "For triangles whose indices are in range, check_delaunay_optimal never panics and its circumcircle count is the number of triangles whose circumcircle strictly contains a corner of another triangle; a Delaunay result of the triangulation is counted 0. True without rounding, and in f64/f32 on integer coordinates when no corner is nearer to a circle of another triangle than a stated multiple of the rounding error; without that margin refuted in f64 in both directions (a cocircular quadrilateral is reported, a violated circle is missed).", "quantifier": "all triangle lists and vertex lists", "why_tests_cant": "all pairs of triangles and vertices, all coordinates", "anchors": ["src/utils.rs:check_delaunay_optimal", "src/utils.rs:check_circumcircles", "src/utils.rs:get_circumcircle_info", "src/utils.rs:check_degenerate_triangles"]}
{"id": "C45", "title": "Vertices in a convex covered area are always inserted", "statement": "Once the triangles built so far are locally Delaunay, cover a convex area and all vertices inserted so far, every further vertex of that area, its border included, is located and inserted: the triangulation cannot fail any more, whatever the number and order of these vertices, the area does not change, and no circumcircle of the result contains a vertex.", "quantifier": "all exact inputs (grids in f64 and f32, rationals, well separated inputs), all prefixes of the insertion order, all numbers of remaining vertices", "why_tests_cant": "the walk is bounded by the number of triangles; that it never cycles must hold for every mesh and every starting triangle", "anchors": ["src/triangulation.rs: find_vertex_placement", "src/triangulation.rs: wrap_and_triangulate_2d_normalized_vertices", "src/infinite.rs: vertex_placement_1_infinite_vertex", "src/infinite.rs: vertex_placement_2_infinite_vertex"]}
{"id": "C46", "title": "Triangulating a set of vertices does not fail", "statement": "A call on vertices whose coordinates cause no rounding returns Ok. Refuted for arbitrary vertices, with the default configuration too: the search for the triangle of a vertex can run in a circle and end with an error. True when the corners of a box are inserted first (with one bin: when they are the last four vertices) and the other vertices are in the box, on its sides and corners too: then the call returns Ok, the triangles cover exactly the box and no circumcircle contains a vertex.", "quantifier": "all exact inputs (grids in f64 and f32, rationals, well separated inputs), all orders of the corners, all numbers of vertices in the box", "why_tests_cant": "which vertex sets make the search run in a circle cannot be sampled; the positive part must hold for every set of vertices in a box", "anchors": ["src/triangulation.rs: triangulation_from_2d_vertices", "src/triangulation.rs: find_vertex_placement", "src/triangulation.rs: VertexBinSort"]}
{"id": "C47", "title": "Constraints between vertices in a box succeed", "statement": "When the last four vertices are the corners of a box, the others are in it, on its sides and corners too, and there is one bin, a constrained triangulation returns Ok and respects every constraint, for any list of constraints with indices in range that do not cross each other and have no vertex between their ends.", "quantifier": "all exact inputs, all such vertex lists and constraint lists", "why_tests_cant": "all vertex sets and all constraint lists", "anchors": ["src/constrained_triangulation.rs: constrained_triangulation_from_2d_vertices", "src/constrained_triangulation.rs: apply_constraints"]}
{"id": "C48", "title": "Constraints change the triangulation only where they cross it", "statement": "Every triangle of a constrained triangulation that overlaps a triangle of the unconstrained triangulation of the same vertices is that same triangle, unless a constraint goes through the interior of the unconstrained one.", "quantifier": "all exact inputs, all lists of constraints, crossing ones too, for which both calls return Ok", "why_tests_cant": "all vertex sets, all constraint lists, all pairs of triangles", "anchors": ["src/constrained_triangulation.rs: apply_constraints", "src/constrained_triangulation.rs: remove_crossed_edges", "src/constrained_triangulation.rs: restore_delaunay_triangulation_constrained"]}
{"id": "C49", "title": "The constrained triangulation is constrained Delaunay", "statement": "Only across a constraint may the circumcircle of a result triangle contain the opposite corner of a triangle it shares an edge with. Refuted, even without rounding: the single pass over the new edges does not come back to the edges around them. True in a box for the triangles that overlap a triangle of the unconstrained triangulation crossed by no constraint: no vertex is in their circumcircle. True across every edge which is also an edge of the unconstrained triangulation, when the latter is Delaunay. True across all edges when the constraints do not cross each other and each of them crosses at most two edges of the unconstrained triangulation (locally Delaunay, covering the constraints; in a box both always hold). With three crossed edges it fails.", "quantifier": "all exact inputs, all lists of constraints (that cross at most two edges each, for the last part)", "why_tests_cant": "all vertex sets, all constraint lists; the violations are rare (30 in 76222 random runs of the model)", "anchors": ["src/constrained_triangulation.rs: restore_delaunay_triangulation_constrained", "src/constrained_triangulation.rs: constrained_triangulation_from_2d_vertices"]}
{"id": "C50", "title": "The returned triangles are the domains on the right of the constraints", "statement": "With constraints that do not cross each other, a point on no constraint is in a returned triangle exactly when a path of segments, meeting no constraint, leads from it to the right hand side of a constraint (looking from its first vertex to its second one): domains are kept whole, holes are left out whole, and nothing outside is kept. The area considered is that of the unconstrained triangulation, when it covers the constraints; in a box whose corners are the last vertices, with one bin, it is the box.", "quantifier": "all exact inputs, all non crossing lists of constraints, all points of the plane on no constraint", "why_tests_cant": "all vertex sets, all constraint graphs (nested, touching, open polylines), all points", "anchors": ["src/constrained_triangulation.rs: constrained_triangulation_from_2d_vertices", "src/constrained_triangulation.rs: cdt_filter_triangles"]}
{"id": "C51", "title": "The result does not depend on the order of the vertices", "statement": "Take the same points in two orders, with different bins, duplicates, float types or index types. Where the two results overlap, the overlapping triangles have the same circumcircle, if both results are Delaunay. If moreover no four points are on an empty circle and the same area is covered, the results are the same triangles; so it is for points in a box whose corners are the last four vertices, with one bin. In general the order matters: three vertices give a triangle or none.", "quantifier": "all pairs of exact inputs with the same points, all bins, all float and index types", "why_tests_cant": "all permutations of all vertex sets; a Delaunay triangulation is unique only in general position and the bin sort reorders the vertices anyway", "anchors": ["src/triangulation.rs: triangulation_from_2d_vertices", "src/triangulation.rs: VertexBinSort"]}
{"id": "C52", "title": "Input vertex types other than the float type of the build", "statement": "Vertices can be f32 or f64 vectors whatever the float type of the build. Without conversion, or from f32 to f64, no number is changed (infinities and NaN included) and the results are those for the same numbers: the mesh guarantees hold for f32 vertices in an f64 build. From f64 to f32 every coordinate becomes the nearest f32 number, so the guarantees hold when the coordinates are f32 numbers; otherwise different vertices can become one and be lost. For planar 3d vectors the plane coordinates are computed in the vectors' format before being converted.", "quantifier": "all lists of f32 or f64 vertices (any bit pattern for the conversion), all bins, all constraints, both float types, both index types", "why_tests_cant": "all floating point coordinates, subnormal and huge ones included, in every combination of vertex type and float type", "anchors": ["src/types/vertex.rs: Vertex2d", "src/types/vertex.rs: Vertex3d", "src/types.rs: Float", "src/triangulation.rs: normalize_vertices_coordinates"]}
{"id": "C53", "title": "Number of triangles and of border edges (Euler's formula)", "statement": "For vertices at k different places, the number of triangles of a returned Delaunay triangulation plus the number of its border edges (edges with a triangle on one side only) is at most 2k - 2. It is exactly 2k - 2 when the triangles cover a convex area that contains every vertex, in particular when the last four vertices are the corners of a box around the others and one bin is used.", "quantifier": "all exact inputs of at least three vertices (duplicates included), all bins, all index types", "why_tests_cant": "an identity over the whole mesh, for every number and position of vertices, duplicates and points on the border included", "anchors": ["src/triangulation.rs: triangulation_from_2d_vertices", "src/triangulation.rs: wrap_and_triangulate_2d_normalized_vertices"]}
{"id": "C54", "title": "The number of triangles depends on the points only", "statement": "When the returned Delaunay triangles cover a convex area that contains every vertex, the border of the mesh has exactly h edges and there are exactly 2k - 2 - h triangles, where k is the number of different places of the vertices and h the number of those on the border of their convex hull (vertices inside a side included). So the number of triangles does not depend on the order of the vertices, on duplicates, on the number of bins or on the number and index types. This holds in particular when the last four vertices are the corners of a box around the others and one bin is used.", "quantifier": "all exact inputs of at least three vertices (duplicates included), all bins, all number and index types, pairs of runs", "why_tests_cant": "an identity between the mesh and the convex hull of the input for every input, collinear border points and duplicates included", "anchors": ["src/triangulation.rs: triangulation_from_2d_vertices", "src/triangulation.rs: wrap_and_triangulate_2d_normalized_vertices"]}
{"id": "C55", "title": "The order of the constraints does not matter", "statement": "Listing the same constrained edges in another order, or some of them more than once, gives the same triangles. Proved when the constraints do not cross each other, each of them crosses at most two edges of the unconstrained triangulation, that triangulation is locally Delaunay and covers the constraints (always so in a box with one bin), and any four vertices on a circle have another vertex between them. Refuted when a constraint crosses three edges, and, with two crossed edges, when four vertices are on an empty circle.", "quantifier": "all exact inputs, all pairs of constraint lists with the same elements, all bins", "why_tests_cant": "a relation between the runs for every permutation of every list of constraints", "anchors": ["src/constrained_triangulation.rs: constrained_triangulation_from_2d_vertices", "src/constrained_triangulation.rs: apply_constraints"]}
{"id": "C56", "title": "The result consists of exactly the triangles with an empty circumcircle", "statement": "When the unconstrained result is Delaunay, its area is convex and contains every vertex (always so in a box with one bin), and no four vertices are on an empty circle, then three vertices in clockwise order are the corners of a returned triangle if and only if no vertex is inside the circle through them. The result is thus described without reference to the algorithm.", "quantifier": "all exact inputs, all triples of vertices", "why_tests_cant": "an equivalence over all triples of vertices of all inputs; missing triangles leave no trace in an output", "anchors": ["src/triangulation.rs: triangulation_from_2d_vertices", "src/triangulation.rs: wrap_and_triangulate_2d_normalized_vertices"]}
{"id": "C57", "title": "Rotating, scaling, translating or reflecting the input", "statement": "Moving all vertices by a rotation, a scaling, a translation or a reflection gives the same triangles, with the corners in opposite order for a reflection, whatever the arithmetic, the order of the vertices and the identifiers in the two runs. Proved for vertices in a box, before and after, no four of them on an empty circle. Refuted in general: three vertices give no triangle, the same turned by an eighth give one.", "quantifier": "all pairs of exact inputs in boxes, all similarities with rational coefficients", "why_tests_cant": "a relation between the runs on two inputs, for every input and every similarity", "anchors": ["src/triangulation.rs: triangulation_from_2d_vertices", "src/triangulation.rs: normalize_vertices_coordinates"]}
{"id": "C58", "title": "No vertex in the circumcircle of a triangle is seen from the triangle", "statement": "In the result of a constrained triangulation no vertex inside the circumcircle of a triangle can be joined to a point inside the triangle without meeting a constraint. Proved for constraints that do not cross each other when the result is constrained Delaunay in the local sense (C49) and the unconstrained triangulation has a convex area that contains the vertices and the constraints; in a box with one bin and at most two crossed edges per constraint nothing is assumed of the results. Refuted when a constraint crosses three edges.", "quantifier": "all exact inputs, all noncrossing lists of constraints, all triangles, all points of their insides, all vertices", "why_tests_cant": "ranges over all points of all triangles and all vertices of every result", "anchors": ["src/constrained_triangulation.rs: constrained_triangulation_from_2d_vertices", "src/constrained_triangulation.rs: apply_constraints", "src/constrained_triangulation.rs: remove_crossed_edges"]}
{"id": "C59", "title": "Exactly the constrained Delaunay triangles", "statement": "The result of a constrained triangulation consists of exactly the triangles of three vertices whose inside is in a domain, meets no constraint, and whose circumcircle contains no vertex seen from inside. Proved for constraints that do not cross each other, when no circle through three vertices passes through a fourth one seen from inside the triangle (unless it has a vertex seen from there in its inside), for results that are constrained Delaunay in the local sense (C49) when the unconstrained triangulation has a convex area that contains the vertices and the constraints; in a box with one bin and at most two crossed edges per constraint nothing is assumed of the results. Refuted with three crossed edges (C49, C58).", "quantifier": "all exact inputs, all noncrossing lists of constraints, all triples of vertices", "why_tests_cant": "a description of the complete result for every input, whose condition ranges over all points and all vertices", "anchors": ["src/constrained_triangulation.rs: constrained_triangulation_from_2d_vertices", "src/constrained_triangulation.rs: apply_constraints", "src/constrained_triangulation.rs: remove_wrapping_and_unconstrained_domains"]}
{"id": "C60", "title": "The result has the widest angles", "statement": "No triangulation of the same area by the same vertices has a greater smallest angle than the result: any lower bound for the angles of another triangulation, which may be any real number, is one for the angles of the result. For constrained calls the comparison is with the triangulations that respect the constraints. Proved for Delaunay results (in a box with one bin they are), and for results that are constrained Delaunay in the sense of C58. Refuted in general, as results need not be Delaunay.", "quantifier": "all exact inputs, all lists of triangles over their vertices that cover the same area, all real bounds", "why_tests_cant": "a comparison with all possible triangulations, whose number is exponential in the number of vertices", "anchors": ["src/triangulation.rs: triangulation_from_2d_vertices", "src/constrained_triangulation.rs: constrained_triangulation_from_2d_vertices"]}
{"id": "C61", "title": "Closest vertices are joined by an edge", "statement": "Two vertices on a circle that has all other vertices outside are joined by an edge of the result. In particular for every split of the vertices in two classes a closest pair across is joined: every vertex is joined to its nearest neighbour, the edges connect all vertices and contain every shortest spanning tree. Proved for Delaunay results with a convex area that contains the vertices, and in a box with one bin. Refuted in general: three vertices give no triangle.", "quantifier": "all exact inputs, all pairs of vertices, all circles, all splits of the vertices", "why_tests_cant": "quantifies over all splits of the vertices of all inputs", "anchors": ["src/triangulation.rs: triangulation_from_2d_vertices"]}
{"id": "C62", "title": "The effect of one more vertex", "statement": "With one more vertex, exactly the triangles whose circumcircle contains it disappear; the others stay, and every new triangle has it as a corner. Proved for points no four of which are on an empty circle, for two Delaunay results with convex areas that contain the vertices, in any order and arithmetic; in boxes with one bin nothing is assumed of the results. Refuted in general: three vertices give no triangle until a fourth is added.", "quantifier": "all pairs of exact inputs that differ by one point, all triples of vertices", "why_tests_cant": "a relation between the runs on two inputs, for every input and every additional point", "anchors": ["src/triangulation.rs: triangulation_from_2d_vertices"]}
{"id": "C63", "title": "Edges of the triangulation given back as constraints select its triangles", "statement": "If every constraint is already an edge of the unconstrained triangulation of the same vertices, the constrained call succeeds, returns only triangles of that triangulation, each at most once, and at least those which lie on the right of a constraint or can be reached from one such triangle through edges that are not constraints; exactly those when the border edges are among the constraints, each with its triangle on the right. The border edges alone, in that direction, give back the whole triangulation; in the other direction they give an empty list.", "quantifier": "all exact inputs for which the unconstrained call succeeds, all lists of constraints that are edges of its result", "why_tests_cant": "all vertex sets, all subsets and directions of the edges, all paths of the selection", "anchors": ["src/constrained_triangulation.rs: constrained_triangulation_from_2d_vertices", "src/constrained_triangulation.rs: cdt_filter_triangles", "src/triangulation.rs: triangulation_from_2d_vertices"]}
{"id": "C64", "title": "The number of triangles depends only on the area and the vertices in it", "statement": "Two results, with or without constraints, for any orders of vertices and constraints, any numbers of bins and any arithmetics, that cover the same area with the same places of vertices in it have the same number of triangles, which is also that of any other valid triangulation of that area with these vertices. Each further vertex at a new place strictly inside the area adds exactly two triangles, each one inside a straight piece of its border exactly one, and vertices outside the area add none. For inputs ending with the corners of a box, with the same constraints, both calls succeed and each new vertex in a domain adds two triangles.", "quantifier": "all pairs of exact inputs, all orders, numbers of bins, constraint lists and arithmetics; all other valid triangulations of the area", "why_tests_cant": "all inputs and all other triangulations of the same area, which cannot be enumerated", "anchors": ["src/triangulation.rs: triangulation_from_2d_vertices", "src/constrained_triangulation.rs: constrained_triangulation_from_2d_vertices", "src/constrained_triangulation.rs: cdt_filter_triangles"]}
{"id": "C65", "title": "Closed loops of constraints keep exactly what they turn around", "statement": "For constraints that form closed loops (as many start as end at each place) with the inside on their right, no returned triangle covers a point with a winding number that is not positive. Where the unconstrained triangulation covers the constraints, in particular for vertices in a box whose corners are the last vertices, the returned triangles cover exactly the points, off the constraints, with a positive winding number.", "quantifier": "all exact inputs, all lists of constraints that do not cross and form closed loops, any number of loops and of vertices on them, all points of the plane", "why_tests_cant": "all polygons, holes, islands and all points of the plane", "anchors": ["src/constrained_triangulation.rs: constrained_triangulation_from_2d_vertices", "src/constrained_triangulation.rs: cdt_filter_triangles"]}
{"id": "C66", "title": "A clockwise simple polygon is filled exactly", "statement": "When the constraints are the sides of a simple polygon (each side meets only the next and the previous one, and only at the common corner), taken clockwise, in a box whose corners are the last vertices, the call succeeds, the polygon turns around each point, off its sides, once or not at all, and the returned triangles cover exactly the points it turns around. The same holds for several simple loops that do not touch, such as a polygon with holes and islands, when for each of them one point on its right, from which it is seen, has winding number 1. The polygon need not be convex and other vertices may lie inside or outside.", "quantifier": "all exact inputs, all simple polygons with any number of sides, all families of simple loops, all points of the plane", "why_tests_cant": "all simple polygons with any number of sides and all points of the plane", "anchors": ["src/constrained_triangulation.rs: constrained_triangulation_from_2d_vertices", "src/constrained_triangulation.rs: cdt_filter_triangles"]}
{"id": "C67", "title": "The number of triangles is fixed by the sides, the holes and the vertices inside", "statement": "When the constraints are the sides of a simple polygon, taken clockwise, in a box whose corners are the last vertices, the constrained call succeeds and returns exactly k - 2 + 2m triangles, where k is the number of sides and m the number of different places of vertices strictly inside the polygon. With several simple loops that do not touch and turn around each point once or not at all, outer loops clockwise and holes counter-clockwise, the number is k - 2p + 2h + 2m, where p is the number of outer loops and h the number of holes. Vertices outside and vertices repeated at one place change nothing, whatever their number and order.", "quantifier": "all exact inputs, all simple polygons (convex or not) of any number of sides, any number of loops and holes, any vertices inside and outside in any order", "why_tests_cant": "A count on examples cannot show that no ear is dropped, no triangle doubled and no outside triangle kept for every polygon and every set of vertices.", "anchors": ["src/constrained_triangulation.rs: constrained_triangulation_from_2d_vertices", "src/constrained_triangulation.rs: cdt_filter_triangles", "src/constrained_triangulation.rs: apply_constraints"]}
{"id": "C68", "title": "A counter-clockwise polygon keeps the outside; reversing a polygon exchanges kept and dropped", "statement": "When the constraints are the sides of a simple polygon, taken counter-clockwise, in a box whose corners are the last vertices, the constrained call succeeds and the returned triangles cover exactly the part of the box outside the polygon. For every simple polygon, clockwise or not, the call with all sides taken backwards also succeeds, and each point of the box, off the sides, is covered by exactly one of the two results. With several simple loops that do not touch and have the same winding number z on their right, exactly the points of the box with winding number z are covered.", "quantifier": "all exact inputs, all simple polygons of any number of sides in either direction, all families of simple loops, all points of the plane", "why_tests_cant": "all polygons and all points of the plane; a test only samples some points of a few polygons", "anchors": ["src/constrained_triangulation.rs: constrained_triangulation_from_2d_vertices", "src/constrained_triangulation.rs: cdt_filter_triangles"]}
{"id": "C69", "title": "Polygons and areas with holes are filled exactly, without a box and with any number of bins", "statement": "When the constraints are the sides of a simple polygon, taken clockwise, and the unconstrained result for the same vertices covers these sides, the constrained call succeeds and the returned triangles cover exactly the points the polygon turns around, wherever the other vertices are. The same holds for several simple loops that do not touch, outer loops clockwise and holes counter-clockwise. For vertices on a grid the number of triangles is k - 2 + 2m for a polygon of k sides with m places of vertices strictly inside, and k - 2p + 2h + 2m for p outer loops and h holes with k sides in all. For loops with any winding number z on their right, the triangles cover only points of winding number z, and all of them that the unconstrained result covers.", "quantifier": "all exact inputs, all numbers of bins, all simple polygons and families of simple loops whose sides the unconstrained result covers, all points of the plane", "why_tests_cant": "all polygons, all positions of further vertices and all points of the plane; a test only samples some points of a few polygons", "anchors": ["src/constrained_triangulation.rs: constrained_triangulation_from_2d_vertices", "src/constrained_triangulation.rs: cdt_filter_triangles", "src/triangulation.rs: triangulation_from_2d_vertices"]}
{"id": "C70", "title": "The result for a polygon has the polygon as its border and its area", "statement": "When the constraints are the sides of a simple polygon, taken clockwise, the border edges of the returned triangles (those without a reversed partner) are exactly the sides, each once and in its direction, up to duplicate vertices, and the areas of the triangles add up to the area of the polygon given by the shoelace formula. The same holds for several simple loops that do not touch, outer loops clockwise and holes counter-clockwise, with the area of the holes subtracted. The sides have to be covered by the unconstrained result, which is the case in a box.", "quantifier": "all exact inputs, all numbers of bins, all simple polygons and families of simple loops whose sides the unconstrained result covers", "why_tests_cant": "all polygons and all positions of further vertices; a test compares areas and borders for a few polygons", "anchors": ["src/constrained_triangulation.rs: constrained_triangulation_from_2d_vertices", "src/constrained_triangulation.rs: cdt_filter_triangles"]}
{"id": "C71", "title": "In a box the areas of the results add up to the area of the box", "statement": "For vertices in a box whose corners are the last four vertices, with one bin, the areas of the triangles of the unconstrained call add up to the area of the box. For a clockwise simple polygon that does not touch the sides of the box, the areas of the triangles add up to the area of the polygon, and for the same polygon taken backwards to the area of the box minus that of the polygon. The same holds for several simple loops that do not touch, with holes.", "quantifier": "all exact inputs in a box, with duplicates and with vertices on the sides of the box; all simple polygons and families of simple loops inside the box", "why_tests_cant": "all positions of vertices and all polygons; a test compares areas for a few inputs", "anchors": ["src/triangulation.rs: triangulation_from_2d_vertices", "src/constrained_triangulation.rs: constrained_triangulation_from_2d_vertices"]}
{"id": "C72", "title": "The result for a polygon uses exactly the vertices at its corners and inside it", "statement": "When the constraints are the sides of a simple polygon, taken clockwise, and the unconstrained result covers them, then a vertex is, up to duplicates, a corner of a returned triangle if and only if it is a corner of the polygon or strictly inside it: no vertex inside is skipped and no vertex outside is used. The same holds for several simple loops that do not touch, with holes.", "quantifier": "all exact inputs, all numbers of bins, all simple polygons and families of simple loops whose sides the unconstrained result covers, all vertices", "why_tests_cant": "all polygons and all positions of further vertices; a test checks the vertices of a few inputs", "anchors": ["src/constrained_triangulation.rs: constrained_triangulation_from_2d_vertices", "src/constrained_triangulation.rs: cdt_filter_triangles"]}
{"id": "C73", "title": "Polygons side by side are all filled, and nothing else", "statement": "When the constraints are the sides of several clockwise simple polygons that may have corners and whole sides in common but do not overlap, each side of each polygon being given, the call succeeds and the returned triangles cover exactly the points inside one of the polygons. The sides have to be covered by the unconstrained result, which is the case in a box.", "quantifier": "all exact inputs, all numbers of bins, all families of non-overlapping clockwise simple polygons whose sides the unconstrained result covers", "why_tests_cant": "all maps of adjacent polygons and all positions of further vertices; a test checks a few", "anchors": ["src/constrained_triangulation.rs: constrained_triangulation_from_2d_vertices", "src/constrained_triangulation.rs: cdt_filter_triangles", "src/constrained_triangulation.rs: apply_constraints"]}
{"id": "C74", "title": "Each of several polygons side by side is filled by triangles of its own", "statement": "When the constraints are the sides of several clockwise simple polygons that may have corners and whole sides in common but do not overlap, the border edges of the returned triangles with their center inside one polygon are exactly the sides of this polygon, the areas of these triangles add up to the area of this polygon, and the areas of all returned triangles to the sum of the areas of the polygons: no triangle belongs to two of them or lies across a common side.", "quantifier": "all exact inputs, all numbers of bins, all families of non-overlapping clockwise simple polygons whose sides the unconstrained result covers", "why_tests_cant": "all maps of adjacent polygons and all positions of further vertices; a test compares areas for a few", "anchors": ["src/constrained_triangulation.rs: constrained_triangulation_from_2d_vertices", "src/constrained_triangulation.rs: cdt_filter_triangles", "src/constrained_triangulation.rs: apply_constraints"]}
{"id": "C75", "title": "The number of triangles of polygons side by side", "statement": "When the constraints are the sides of several clockwise simple polygons that may have corners and whole sides in common but do not overlap, the number of returned triangles in each polygon is its number of sides, less two, plus twice the number of places of vertices strictly inside it, and the number of all returned triangles is the sum of these numbers: polygons next to a polygon neither add to it nor take from it.", "quantifier": "all exact inputs in a box, and all grid inputs with any number of bins whose unconstrained result covers the sides; all families of non-overlapping clockwise simple polygons", "why_tests_cant": "all maps of adjacent polygons and all positions of further vertices; a test counts triangles for a few", "anchors": ["src/constrained_triangulation.rs: constrained_triangulation_from_2d_vertices", "src/constrained_triangulation.rs: cdt_filter_triangles", "src/constrained_triangulation.rs: apply_constraints"]}
{"id": "C76", "title": "Polygons side by side are joined edge to edge, without cracks", "statement": "When the constraints are the sides of several clockwise simple polygons that may have corners and whole sides in common but do not overlap, each side is, up to duplicate vertices, an edge of a returned triangle on its right; an edge is in the border of the returned triangles if and only if it is a side of a polygon and no other polygon has it in the opposite direction, so that along a common side the triangles of both polygons meet edge to edge with the same vertices; and a vertex is used if and only if it is a corner of a polygon or strictly inside one.", "quantifier": "all exact inputs, all numbers of bins, all families of non-overlapping clockwise simple polygons whose sides the unconstrained result covers; nothing is assumed of it in a box", "why_tests_cant": "all maps of adjacent polygons, all ways to name their corners by duplicate vertices and all positions of further vertices", "anchors": ["src/constrained_triangulation.rs: constrained_triangulation_from_2d_vertices", "src/constrained_triangulation.rs: cdt_filter_triangles", "src/constrained_triangulation.rs: apply_constraints"]}
{"id": "C77", "title": "The public helpers for edges and triangles fit together", "statement": "The opposite of an edge has its ends exchanged and is its own inverse; two edges are equal without direction exactly when one is the other or its opposite; the edges of a triangle are those of its returned corners in the same directions, one edge and the two other edges are all of them, and going around a triangle clockwise and counter-clockwise are inverse; looking for a vertex in a triangle fails exactly when it is not a corner; for an edge of a triangle, in either direction, the opposite vertex is the third corner, and its opposite edge is this edge; a triangle is pseudo-infinite exactly when it is not finite; triangles with indices in range are looked up without a panic; and calling the constrained triangulation with the opposites of the sides of a simple polygon in a box keeps exactly what the call with the sides drops.", "quantifier": "all edges, triangles, vertices and indices, all index types; for the last part all exact inputs in a box", "why_tests_cant": "all ids and positions; the tables behind the helpers are indexed by corner and edge numbers", "anchors": ["src/types.rs: Edge::opposite, undirected_equals, contains", "src/types.rs: TriangleData::edges, other_edges, get_vertex_index, get_opposite_vertex_id, opposite_edge_index_from_vertex, is_pseudo_infinite, to_vertices_array", "src/types.rs: next_clockwise_edge_index, opposite_vertex_index, vertex_next_ccw_edge_index, opposite_vertex_index_from_edge"]}
{"id": "C78", "title": "Polygons filled together or alone give the same triangles", "statement": "For simple clockwise polygons that share whole sides or corners but do not overlap, one call with all their sides as constraints and a call with the sides of one of them return the same triangles inside this polygon, and so do two calls with different neighbours or another order of the polygons, provided each side crosses at most two edges of the unconstrained triangulation, which is Delaunay with a convex area (always so in a box with one bin), and no four vertices on a common circle leave a choice inside the polygon.", "quantifier": "all exact inputs, all such polygons, any number of polygons and sides", "why_tests_cant": "all polygons and all neighbours around each: the other polygons change which edges are flipped, and in which order, during the call", "anchors": ["src/constrained_triangulation.rs: constrained_triangulation_from_2d_vertices"]}
