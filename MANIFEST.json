{
 "claims": [
  {
   "property": "C01",
   "status": "proved",
   "theorems": [
    "C01_fewer_than_three"
   ],
   "note": "Any arithmetic, any constraints."
  },
  {
   "property": "C02",
   "status": "proved",
   "theorems": [
    "C02_indices_valid_dt",
    "C02_indices_valid_cdt"
   ],
   "note": "Any arithmetic; number of vertices within the index type."
  },
  {
   "property": "C03",
   "status": "proved",
   "theorems": [
    "C03_bin_sort_permutation"
   ],
   "note": "Any arithmetic, any bin count."
  },
  {
   "property": "C04",
   "status": "proved",
   "theorems": [
    "C04_bin_sort_in_range",
    "C04_zero_bins_refuted"
   ],
   "note": "Exact rationals, f64, f32; zero bins always panics."
  },
  {
   "property": "C05",
   "status": "proved",
   "theorems": [
    "C05_unit_square",
    "C05_similarity_exact",
    "C05_similarity_preserves",
    "C05_similarity_grid"
   ],
   "note": "Unit square: f64, f32 and rationals. Similarity: rationals, and f64/f32 on grids."
  },
  {
   "property": "C06",
   "status": "proved",
   "theorems": [
    "C06_output_size_dt",
    "C06_output_size_cdt",
    "C06_output_size_exact"
   ],
   "note": "Any arithmetic: at most 2n+2; on exact inputs (grids, well separated) at most 2n-2."
  },
  {
   "property": "C07",
   "status": "proved",
   "theorems": [
    "C07_merged_vertices"
   ],
   "note": "Any arithmetic."
  },
  {
   "property": "C08",
   "status": "proved",
   "theorems": [
    "C08_duplicates_merged"
   ],
   "note": "f64, f32 and rationals, on grids and on well separated inputs."
  },
  {
   "property": "C09",
   "status": "proved",
   "theorems": [
    "C09_clockwise"
   ],
   "note": "f64, f32 and rationals, on grids and on well separated inputs."
  },
  {
   "property": "C10",
   "status": "proved",
   "theorems": [
    "C10_disjoint"
   ],
   "note": "f64, f32 and rationals, on grids and on well separated inputs."
  },
  {
   "property": "C11",
   "status": "proved",
   "theorems": [
    "C11_edges_once"
   ],
   "note": "f64, f32 and rationals, on grids and on well separated inputs."
  },
  {
   "property": "C12",
   "status": "proved",
   "theorems": [
    "C12_no_vertex_inside"
   ],
   "note": "f64, f32 and rationals, on grids and on well separated inputs."
  },
  {
   "property": "C13",
   "status": "proved",
   "theorems": [
    "C13_point_location"
   ],
   "note": "f64, f32 and rationals, on grids and on well separated inputs, at every point of the insertion loop."
  },
  {
   "property": "C14",
   "status": "proved",
   "theorems": [
    "C14_terminates"
   ],
   "note": "f64, f32 and rationals, on grids and on well separated inputs: returns Ok or the documented error, never panics or loops."
  },
  {
   "property": "C15",
   "status": "partial",
   "theorems": [
    "C15_not_delaunay_refuted",
    "C15_insertion_partial",
    "C15_last_vertex_partial"
   ],
   "note": "The full claim is false (witness); what holds is proved on grids and well separated inputs."
  },
  {
   "property": "C16",
   "status": "partial",
   "theorems": [
    "C16_hull_covered_refuted",
    "C16_no_holes_partial"
   ],
   "note": "The full claim is false; witness. Proved: the returned triangles leave no hole, from every point they do not cover one of the four axis rays meets none of them (so pockets exist only at the border)."
  },
  {
   "property": "C17",
   "status": "proved",
   "theorems": [
    "C17_swaps_convex"
   ],
   "note": "f64, f32 and rationals, on grids and on well separated inputs, infinite vertices included."
  },
  {
   "property": "C18",
   "status": "partial",
   "theorems": [
    "C18_error_refuted",
    "C18_ccw_refuted",
    "C18_flat_refuted",
    "C18_edge_twice_refuted"
   ],
   "note": "The claim is false; four witnesses. C09-C14 hold on grids and well separated inputs."
  },
  {
   "property": "C19",
   "status": "proved",
   "theorems": [
    "C19_constraints_respected",
    "C19_constraints_in_mesh"
   ],
   "note": "f64, f32 and rationals, on grids and on well separated inputs."
  },
  {
   "property": "C20",
   "status": "proved",
   "theorems": [
    "C20_constraints_survive"
   ],
   "note": "f64, f32 and rationals, on grids and on well separated inputs; earlier constraints may even cross it."
  },
  {
   "property": "C21",
   "status": "proved",
   "theorems": [
    "C21_cdt_valid_mesh"
   ],
   "note": "f64, f32 and rationals, on grids and on well separated inputs; any constraint list, crossing or not."
  },
  {
   "property": "C22",
   "status": "proved",
   "theorems": [
    "C22_filter_exact",
    "C22_domains"
   ],
   "note": "Any arithmetic, any mesh and constraint set."
  },
  {
   "property": "C23",
   "status": "proved",
   "theorems": [
    "C23_filter_terminates"
   ],
   "note": "Any mesh."
  },
  {
   "property": "C24",
   "status": "proved",
   "theorems": [
    "C24_restoration_terminates"
   ],
   "note": "Any mesh and arithmetic."
  },
  {
   "property": "C25",
   "status": "partial",
   "theorems": [
    "C25_cdt_panics_refuted",
    "C25_cdt_succeeds_partial"
   ],
   "note": "The full claim is false (witness). Proved on grids and well separated inputs: constraints inside the triangulated area with no vertex between their ends always give a result."
  },
  {
   "property": "C26",
   "status": "proved",
   "theorems": [
    "C26_ignored_constraints"
   ],
   "note": "Any arithmetic."
  },
  {
   "property": "C27",
   "status": "proved",
   "theorems": [
    "C27_no_constraint_empty"
   ],
   "note": "Any arithmetic."
  },
  {
   "property": "C28",
   "status": "proved",
   "theorems": [
    "C28_segment_intersection",
    "C28_crossing_is_meeting"
   ],
   "note": "Rationals; f64/f32 on integers up to 2^20/2^6."
  },
  {
   "property": "C29",
   "status": "proved",
   "theorems": [
    "C29_in_circle"
   ],
   "note": "Rationals; f64/f32 on integers up to 2^9/2^2."
  },
  {
   "property": "C30",
   "status": "proved",
   "theorems": [
    "C30_side_tests",
    "C30_margins",
    "C30_slope"
   ],
   "note": "Side tests: rationals; f64/f32 on integers up to 2^20/2^6. The tests with a margin: every finite value. Slope: integer points."
  },
  {
   "property": "C31",
   "status": "proved",
   "theorems": [
    "C31_validate"
   ],
   "note": "Any IEEE format."
  },
  {
   "property": "C32",
   "status": "proved",
   "theorems": [
    "C32_degenerate_counts",
    "C32_none_degenerate"
   ],
   "note": "Counts exact on exact coordinates; (0,0) on DT results on grids."
  },
  {
   "property": "C33",
   "status": "proved",
   "theorems": [
    "C33_parallel_filter"
   ],
   "note": "All recursive splits and thresholds."
  },
  {
   "property": "C35",
   "status": "proved",
   "theorems": [
    "C35_identical_vertices",
    "C35_identical_vertices_refuted"
   ],
   "note": "The documented merging does not happen for identical vertices: exact outcome for every number of copies, both precisions, every number of bins; and a witness against merging."
  },
  {
   "property": "C36",
   "status": "proved",
   "theorems": [
    "C36_translation_scaling"
   ],
   "note": "Exact rationals; both entry points."
  },
  {
   "property": "C38",
   "status": "proved",
   "theorems": [
    "C38_neighbor_update_local"
   ],
   "note": ""
  },
  {
   "property": "C39",
   "status": "proved",
   "theorems": [
    "C39_predicates_exact"
   ],
   "note": "f64 grids of side up to 2^12, f32 up to 2^5; and any well separated points (margins 40, 24, 192 machine epsilons relative to the extent)."
  },
  {
   "property": "C40",
   "status": "proved",
   "theorems": [
    "C40_cdt_ends"
   ],
   "note": "On grids and well separated inputs, any constraint list."
  },
  {
   "property": "C34",
   "status": "partial",
   "theorems": [
    "C34_isometry",
    "C34_planar_dt",
    "C34_planar_cdt",
    "C34_rounded",
    "C34_rounded_dt",
    "C34_rounded_cdt",
    "C34_equal_first_vertices_refuted",
    "C34_oblique_refuted"
   ],
   "note": "The isometry is proved in real arithmetic for every plane. The results in f64, f32 and exact arithmetic are proved for integer points of planes normal to an axis whose first two vertices differ by a power of two along an axis; In other planes the coordinates are rounded: they are proved to be near the exact ones (f64 and f32, explicit error), with the consequence for the result up to that error; without it the claim is refuted in f64: a lattice in the plane of normal (1,2,1) gets a flat triangle. glam's operations are modelled from their documentation. Equal first vertices: refuted, the result then has triangles with two corners at the same place."
  },
  {
   "property": "C37",
   "status": "proved",
   "theorems": [
    "C37_transparent",
    "C37_recording",
    "C37_forced_end_result",
    "C37_forced_end_snapshots",
    "C37_trace",
    "C37_last_snapshot",
    "C37_replay",
    "C37_context"
   ],
   "note": "Any arithmetic, any configuration, both entry points. C37_replay is for the default configuration; C37_recording extends it to what any other one asks for. A forced end at step 0 behaves as one at step 1."
  },
  {
   "property": "C41",
   "status": "proved",
   "theorems": [
    "C41_interior_insertions"
   ],
   "note": "On grids and well separated inputs. `surrounded` is the topological interior of the union of the triangles present before."
  },
  {
   "property": "C42",
   "status": "proved",
   "theorems": [
    "C42_area_never_shrinks"
   ],
   "note": "On grids and well separated inputs."
  },
  {
   "property": "C43",
   "status": "proved",
   "theorems": [
    "C43_delaunay",
    "C43_delaunay_interior"
   ],
   "note": "On grids and well separated inputs. Convexity of the covered area is a hypothesis: C16 is refuted."
  },
  {
   "property": "C44",
   "status": "partial",
   "theorems": [
    "C44_checker_total",
    "C44_circle_count_partial",
    "C44_delaunay_passes_partial",
    "C44_rounded",
    "C44_rounded_passes",
    "C44_float_refuted"
   ],
   "note": "Totality in any arithmetic; the count is right in real arithmetic; in f64 and f32 on integer coordinates it is right when no corner is within a stated margin of a circle, and Delaunay results pass; without the margin it is refuted in f64 in both directions."
  },
  {
   "property": "C45",
   "status": "proved",
   "theorems": [
    "C45_covered_inserted"
   ],
   "note": "On grids and well separated inputs."
  },
  {
   "property": "C46",
   "status": "partial",
   "theorems": [
    "C46_exact_error_refuted",
    "C46_boxed_order",
    "C46_boxed"
   ],
   "note": "Refuted for arbitrary vertices, even without rounding; proved for vertices in a box whose corners are inserted first, on grids and well separated inputs."
  },
  {
   "property": "C47",
   "status": "proved",
   "theorems": [
    "C47_boxed_constraints"
   ],
   "note": "On grids and well separated inputs, one bin."
  },
  {
   "property": "C48",
   "status": "proved",
   "theorems": [
    "C48_local"
   ],
   "note": "On grids and well separated inputs, any constraints."
  },
  {
   "property": "C49",
   "status": "partial",
   "theorems": [
    "C49_constrained_delaunay_refuted",
    "C49_far_partial",
    "C49_common_edge_partial",
    "C49_few_crossed_partial",
    "C49_few_crossed_box_partial",
    "C49_three_crossed_refuted"
   ],
   "note": "Refuted even without rounding. Proved: in a box for the triangles away from the area crossed by constraints; across the edges shared with a Delaunay unconstrained triangulation; across all edges when the constraints do not cross each other and each crosses at most two edges of a locally Delaunay unconstrained triangulation. With three crossed edges it is refuted, so the bound is tight."
  },
  {
   "property": "C50",
   "status": "proved",
   "theorems": [
    "C50_inside",
    "C50_domain",
    "C50_boxed"
   ],
   "note": "On grids and well separated inputs; the equivalence where the unconstrained triangulation covers the constraints, e.g. in a box with one bin."
  },
  {
   "property": "C51",
   "status": "proved",
   "theorems": [
    "C51_same_circles",
    "C51_unique",
    "C51_boxed",
    "C51_order_refuted"
   ],
   "note": "On grids and well separated inputs. The coverage hypothesis holds in boxes with one bin; without it the order matters (refuted)."
  },
  {
   "property": "C52",
   "status": "proved",
   "theorems": [
    "C52_no_rounding",
    "C52_rounded",
    "C52_mesh_f64",
    "C52_mesh_f32",
    "C52_vec3_f64",
    "C52_vec3_f32",
    "C52_rounding_refuted"
   ],
   "note": "Conversions for all floating point numbers; mesh guarantees on exact inputs (3d: axis-parallel planes, as C34). Losing vertices by rounding to f32 is a refutation of a stronger claim."
  },
  {
   "property": "C53",
   "status": "proved",
   "theorems": [
    "C53_at_most",
    "C53_euler",
    "C53_boxed"
   ],
   "note": "On exact inputs. Equality under the condition that the covered area is convex and contains the vertices; C53_boxed shows inputs for which it holds."
  },
  {
   "property": "C54",
   "status": "proved",
   "theorems": [
    "C54_border",
    "C54_triangles",
    "C54_same_number",
    "C54_boxed"
   ],
   "note": "On exact inputs, when the covered area is convex and contains the vertices; C54_boxed shows inputs for which it holds."
  },
  {
   "property": "C55",
   "status": "partial",
   "theorems": [
    "C55_order_partial",
    "C55_order_box_partial",
    "C55_three_crossed_refuted",
    "C55_circle_refuted"
   ],
   "note": "Proved for noncrossing constraints that cross at most two edges each, on general vertices; in a box with one bin nothing is assumed of the unconstrained triangulation. Both hypotheses are tight: refuted with three crossed edges, and with four vertices on an empty circle."
  },
  {
   "property": "C56",
   "status": "proved",
   "theorems": [
    "C56_exactly",
    "C56_exactly_boxed"
   ],
   "note": "On exact inputs without four vertices on an empty circle. The conditions on the result hold in boxes with one bin (C56_exactly_boxed)."
  },
  {
   "property": "C57",
   "status": "partial",
   "theorems": [
    "C57_moved_partial",
    "C57_mirrored_partial",
    "C57_moved_refuted"
   ],
   "note": "Proved in boxes with one bin, for vertices no four of which are on an empty circle. Refuted in general: the shape of the area depends on the axes."
  },
  {
   "property": "C58",
   "status": "partial",
   "theorems": [
    "C58_visible_partial",
    "C58_visible_box_partial",
    "C58_three_crossed_refuted"
   ],
   "note": "Proved for results that are constrained Delaunay in the local sense of C49, and without that assumption in a box for constraints that cross at most two edges each; refuted with three."
  },
  {
   "property": "C59",
   "status": "partial",
   "theorems": [
    "C59_exactly_partial",
    "C59_exactly_box_partial"
   ],
   "note": "Proved for results that are constrained Delaunay in the local sense of C49, and without that assumption in a box for constraints that cross at most two edges each; with three the results are not constrained Delaunay (C58_three_crossed_refuted)."
  },
  {
   "property": "C60",
   "status": "partial",
   "theorems": [
    "C60_widest_partial",
    "C60_widest_box_partial",
    "C60_widest_constrained_partial",
    "C60_not_widest_refuted"
   ],
   "note": "Proved for results that are Delaunay, or constrained Delaunay in the sense of C58; boxes with one bin are such a case. Refuted in general."
  },
  {
   "property": "C61",
   "status": "partial",
   "theorems": [
    "C61_circle_joined_partial",
    "C61_closest_joined_partial",
    "C61_connected_partial",
    "C61_joined_box_partial",
    "C61_closest_refuted"
   ],
   "note": "Proved for Delaunay results with a convex area that contains the vertices; in a box with one bin nothing is assumed of the result. Refuted in general."
  },
  {
   "property": "C62",
   "status": "partial",
   "theorems": [
    "C62_one_more_partial",
    "C62_one_more_box_partial",
    "C62_new_triangle_refuted"
   ],
   "note": "Proved for Delaunay results with convex areas that contain the vertices, on points no four of which are on an empty circle; in boxes with one bin nothing is assumed of the results. Refuted in general."
  },
  {
   "property": "C63",
   "status": "proved",
   "theorems": [
    "C63_selection",
    "C63_every_triangle",
    "C63_round_trip",
    "C63_wrong_way"
   ],
   "note": "For the exact inputs of InputSpec.v. Without the border edges the theorem gives one inclusion: the outside may be selected too, and triangles behind it with it."
  },
  {
   "property": "C64",
   "status": "proved",
   "theorems": [
    "C64_any_mesh",
    "C64_two_calls",
    "C64_boxed"
   ],
   "note": "For the exact inputs of InputSpec.v. The first two start from the results and their areas; the third assumes only the inputs (boxes, one bin)."
  },
  {
   "property": "C65",
   "status": "proved",
   "theorems": [
    "C65_nothing_outside",
    "C65_exactly_inside",
    "C65_boxed"
   ],
   "note": "For the exact inputs of InputSpec.v."
  },
  {
   "property": "C66",
   "status": "proved",
   "theorems": [
    "C66_polygon",
    "C66_polygons"
   ],
   "note": "For the exact inputs of InputSpec.v, in boxes with one bin; clockwise means that some point has a positive winding number."
  },
  {
   "property": "C67",
   "status": "proved",
   "theorems": [
    "C67_polygon_count",
    "C67_loops_count"
   ],
   "note": "For the exact inputs of InputSpec.v, in boxes with one bin; clockwise means that some point has a positive winding number."
  },
  {
   "property": "C68",
   "status": "proved",
   "theorems": [
    "C68_outside",
    "C68_reversed",
    "C68_loops"
   ],
   "note": "For the exact inputs of InputSpec.v, in boxes with one bin; counter-clockwise means that some point has a negative winding number."
  },
  {
   "property": "C69",
   "status": "proved",
   "theorems": [
    "C69_polygon",
    "C69_loops",
    "C69_value",
    "C69_polygon_count",
    "C69_loops_count"
   ],
   "note": "For the exact inputs of InputSpec.v, the counts for vertices on a grid. That the unconstrained result covers the sides is assumed: where it does not, the call may panic (C25)."
  },
  {
   "property": "C70",
   "status": "proved",
   "theorems": [
    "C70_polygon",
    "C70_loops",
    "C70_polygon_boxed",
    "C70_loops_boxed"
   ],
   "note": "For the exact inputs of InputSpec.v. Without a box, that the unconstrained result covers the sides is assumed: where it does not, the call may panic (C25)."
  },
  {
   "property": "C71",
   "status": "proved",
   "theorems": [
    "C71_box",
    "C71_polygon",
    "C71_loops"
   ],
   "note": "For the exact inputs of InputSpec.v, in boxes with one bin."
  },
  {
   "property": "C72",
   "status": "proved",
   "theorems": [
    "C72_polygon",
    "C72_loops",
    "C72_polygon_boxed"
   ],
   "note": "For the exact inputs of InputSpec.v. Without a box, that the unconstrained result covers the sides is assumed: where it does not, the call may panic (C25)."
  },
  {
   "property": "C73",
   "status": "proved",
   "theorems": [
    "C73_tiles",
    "C73_tiles_boxed"
   ],
   "note": "For the exact inputs of InputSpec.v. Without a box, that the unconstrained result covers the sides is assumed: where it does not, the call may panic (C25)."
  },
  {
   "property": "C74",
   "status": "proved",
   "theorems": [
    "C74_tiles",
    "C74_tiles_boxed"
   ],
   "note": "For the exact inputs of InputSpec.v. Without a box, that the unconstrained result covers the sides is assumed: where it does not, the call may panic (C25)."
  },
  {
   "property": "C75",
   "status": "proved",
   "theorems": [
    "C75_tiles",
    "C75_tiles_boxed"
   ],
   "note": "For the exact inputs of InputSpec.v in a box with one bin, and for its grid inputs anywhere with any number of bins. Without a box, that the unconstrained result covers the sides is assumed: where it does not, the call may panic (C25)."
  },
  {
   "property": "C76",
   "status": "proved",
   "theorems": [
    "C76_tiles",
    "C76_tiles_boxed"
   ],
   "note": "For the exact inputs of InputSpec.v. Without a box, that the unconstrained result covers the sides is assumed: where it does not, the call may panic (C25)."
  },
  {
   "property": "C77",
   "status": "proved",
   "theorems": [
    "C77_edges",
    "C77_triangle_edges",
    "C77_around",
    "C77_corner_index",
    "C77_opposite",
    "C77_finite",
    "C77_lookup",
    "C77_opposite_sides"
   ],
   "note": "For all edges and triangles; the part about calls for the exact inputs of InputSpec.v in a box."
  },
  {
   "property": "C78",
   "status": "proved",
   "theorems": [
    "C78_tiles",
    "C78_tiles_boxed",
    "C78_neighbours",
    "C78_circle_refuted"
   ],
   "note": "For the exact inputs of InputSpec.v. More than two crossings per side are left out because the results may then not be Delaunay (C49 is refuted there), four vertices on a circle because either diagonal may be taken: C78_circle_refuted shows that the condition on circles is needed."
  }
 ]
}