{
 "claims": [
  {
   "property": "C01",
   "status": "proved",
   "theorems": [
    "C01_faces_stored_once",
    "C01_edges_stored_once"
   ],
   "note": "For every number type with ordered finite values, in particular binary64."
  },
  {
   "property": "C02",
   "status": "proved",
   "theorems": [
    "C02_proper_tree",
    "C02_proper_edge_tree"
   ],
   "note": ""
  },
  {
   "property": "C03",
   "status": "proved",
   "theorems": [
    "C03_construction_safe",
    "C03_edge_construction_safe"
   ],
   "note": "No out-of-bounds array access, loop bound never reached; the only failures are a bounds-checked list IndexError and ZeroDivisionError."
  },
  {
   "property": "C04",
   "status": "proved",
   "theorems": [
    "C04_nondegenerate_succeeds",
    "C04_network_succeeds",
    "C04_degenerate_fails",
    "C04_float_network_refuted",
    "C04_float_mesh_succeeds",
    "C04_float_network_succeeds",
    "C04_float_mesh_refuted"
   ],
   "note": "Exact reals: construction returns a tree for non-degenerate meshes and every network; a face of zero width on the right border gives IndexError. Binary64: construction returns a tree when every face is at least 2^(k-48) wide and high (coordinates up to 2^k), and for networks with a sufficient extent; squares one unit in the last place wide and a vertical network in projected coordinates give IndexError."
  },
  {
   "property": "C05",
   "status": "proved",
   "theorems": [
    "C05_locate_boxes_brute_force"
   ],
   "note": ""
  },
  {
   "property": "C06",
   "status": "proved",
   "theorems": [
    "C06_boxes_thread_independent",
    "C06_edge_faces_thread_independent",
    "C06_edge_edges_thread_independent",
    "C06_edge_outcomes_thread_independent"
   ],
   "note": "All inputs, every number type. Edges: the same rows for every thread number, and if a clip fails, the same error."
  },
  {
   "property": "C07",
   "status": "proved",
   "theorems": [
    "C07_buffer_growth",
    "C07_edge_face_buffer_growth",
    "C07_edge_edge_buffer_growth"
   ],
   "note": "Every buffer of positive initial size; every number type."
  },
  {
   "property": "C08",
   "status": "proved",
   "theorems": [
    "C08_locate_points_sound"
   ],
   "note": ""
  },
  {
   "property": "C09",
   "status": "proved",
   "theorems": [
    "C09_locate_points_complete"
   ],
   "note": ""
  },
  {
   "property": "C10",
   "status": "proved",
   "theorems": [
    "C10_locate_points_geometric",
    "C10_default_tolerance",
    "C10_zero_tolerance_refuted"
   ],
   "note": "Exact reals, faces strictly convex in either orientation. Boundary points need a positive tolerance (default is positive); the tolerance 0 case is refuted by a binary64 example."
  },
  {
   "property": "C11",
   "status": "proved",
   "theorems": [
    "C11_tree_dependent_refuted"
   ],
   "note": "Refutation in binary64: a point 5.7e-14 right of a square is found with cells_per_leaf=3 and not with cells_per_leaf=1."
  },
  {
   "property": "C12",
   "status": "proved",
   "theorems": [
    "C12_boxes_parameter_independent",
    "C12_points_parameter_independent"
   ],
   "note": ""
  },
  {
   "property": "C13",
   "status": "proved",
   "theorems": [
    "C13_nan_points",
    "C13_nan_edge_points",
    "C13_nan_boxes"
   ],
   "note": "binary64"
  },
  {
   "property": "C14",
   "status": "proved",
   "theorems": [
    "C14_edge_points_sound_complete",
    "C14_edge_points_geometric"
   ],
   "note": "Test-based soundness and completeness for every number type; geometric part over exact reals."
  },
  {
   "property": "C15",
   "status": "proved",
   "theorems": [
    "C15_intersect_edges_brute_force"
   ],
   "note": "Exact reals."
  },
  {
   "property": "C16",
   "status": "proved",
   "theorems": [
    "C16_edge_intersect_edges_brute_force"
   ],
   "note": "Exact reals."
  },
  {
   "property": "C17",
   "status": "proved",
   "theorems": [
    "C17_cohen_sutherland_exact"
   ],
   "note": "Exact reals; at most four rounds."
  },
  {
   "property": "C18",
   "status": "proved",
   "theorems": [
    "C18_liang_barsky_exact",
    "C18_clippers_agree"
   ],
   "note": "Exact reals."
  },
  {
   "property": "C19",
   "status": "proved",
   "theorems": [
    "C19_cyrus_beck_exact",
    "C19_points_on_segment",
    "C19_intersect_edges_geometric",
    "C19_hanging_node_refuted"
   ],
   "note": "Exact reals. Exactness for strictly convex counter-clockwise polygons with both end points in the polygon or farther than twice the tolerance from its boundary; only pieces of the segment are returned for any polygon and tolerance; restated for CellTree2d.intersect_edges on convex meshes. C19_hanging_node_refuted: with a vertex inside a straight side, only one piece of a shared side is returned."
  },
  {
   "property": "C20",
   "status": "proved",
   "theorems": [
    "C20_hanging_node_refuted"
   ],
   "note": "Refutation in binary64, through the public API."
  },
  {
   "property": "C21",
   "status": "proved",
   "theorems": [
    "C21_crossing_found",
    "C21_apart_not_found",
    "C21_found_sound",
    "C21_crossing_point_refuted"
   ],
   "note": "Exact reals. The refutation: properly crossing, nearly parallel segments are reported with NaN coordinates."
  },
  {
   "property": "C22",
   "status": "proved",
   "theorems": [
    "C22_ascending_midpoint",
    "C22_descending_nan"
   ],
   "note": "Exact reals, all collinear overlaps."
  },
  {
   "property": "C23",
   "status": "proved",
   "theorems": [
    "C23_separating_axes_exact",
    "C23_locate_faces_exact"
   ],
   "note": "Exact reals, coordinates at most 2^500. Both polygons' sides are tested; Helly's theorem in the plane gives completeness. API theorem: locate_faces succeeds for every thread count and returns exactly the pairs with a common interior point."
  },
  {
   "property": "C24",
   "status": "proved",
   "theorems": [
    "C24_opposite_sides_not_reported",
    "C24_sharing_an_edge_refuted"
   ],
   "note": "For faces of any shape; the docstring claim that sharing an edge counts as intersection is refuted by a concrete mesh."
  },
  {
   "property": "C25",
   "status": "proved",
   "theorems": [
    "C25_clip_area_exact",
    "C25_area_unique",
    "C25_cut_additive",
    "C25_tiling",
    "C25_intersect_faces_exact",
    "C25_intersect_faces_conservative",
    "C25_intersect_boxes_exact",
    "C25_intersect_boxes_conservative"
   ],
   "note": "Exact reals. Clip area of two strictly convex polygons (<= 32 vertices each) is the area of the intersection of their hulls (SpecArea.area_of: shoelace of a convex polygon with exactly that hull, 0 for flat sets; unique); line cuts are additive; intersect_faces / intersect_boxes return exactly the pairs with positive common area with that area, and for a tiling the areas of one query element sum to its own area."
  },
  {
   "property": "C26",
   "status": "proved",
   "theorems": [
    "C26_intersect_boxes_positive",
    "C26_intersect_faces_positive"
   ],
   "note": "Any number type; every query that returns."
  },
  {
   "property": "C27",
   "status": "proved",
   "theorems": [
    "C27_convex_never_overflows",
    "C27_intersect_faces_any",
    "C27_intersect_boxes_any",
    "C27_nonconvex_overflow"
   ],
   "note": "Convex: exact reals. *_any: any number type, rounding included, no convexity: with at most (3n+1)/2 vertices per clipping edge the calls succeed when that bound fits 64 (e.g. triangles/quads against triangles/quads; boxes against faces of up to 6 vertices). C27_nonconvex_overflow: a simple non-convex 32-vertex query face makes intersect_faces index the work arrays out of bounds (binary64)."
  },
  {
   "property": "C28",
   "status": "proved",
   "theorems": [
    "C28_stored_counter_clockwise",
    "C28_normalisation"
   ],
   "note": "Exact reals, strictly convex faces of any length in either orientation."
  },
  {
   "property": "C29",
   "status": "proved",
   "theorems": [
    "C29_hanging_node_refuted"
   ],
   "note": "Refutation in binary64, through the public API."
  },
  {
   "property": "C30",
   "status": "proved",
   "theorems": [
    "C30_triangle_weights",
    "C30_degenerate_raises"
   ],
   "note": "Exact reals; a degenerate triangle raises ZeroDivisionError."
  },
  {
   "property": "C31",
   "status": "proved",
   "theorems": [
    "C31_wachspress_inside",
    "C31_wachspress_edge",
    "C31_wachspress_convex",
    "C31_edge_error",
    "C31_compute_barycentric_weights",
    "C31_flat_corner_refuted",
    "C31_hanging_node_refuted"
   ],
   "note": "Exact reals. Inside: positive, sum one, reproduce the point; near a side: the two ends interpolate by distance; whole query succeeds on convex meshes with rows summing to one. Flat corner and hanging node: interpolation weights are wrong (refuted)."
  },
  {
   "property": "C32",
   "status": "proved",
   "theorems": [
    "C32_hanging_node_refuted"
   ],
   "note": "Refutation in binary64, through the public API."
  },
  {
   "property": "C33",
   "status": "proved",
   "theorems": [
    "C33_weight_rows"
   ],
   "note": "Any number type; every call that returns."
  },
  {
   "property": "C34",
   "status": "proved",
   "theorems": [
    "C34_cast_faces",
    "C34_padding_polygon",
    "C34_padding_irrelevant"
   ],
   "note": "Any number type; also at the level of construction."
  },
  {
   "property": "C35",
   "status": "proved",
   "theorems": [
    "C35_node_bounds",
    "C35_edge_node_bounds",
    "C35_validate_exact"
   ],
   "note": "Any tree built from a mesh or a network with at least two nodes, for every ordered number type including binary64. C35_validate_exact says what validate answers for arbitrary boxes."
  },
  {
   "property": "C36",
   "status": "proved",
   "theorems": [
    "C36_single_node_refuted",
    "C36_small_mesh_refuted"
   ],
   "note": "Refutation: out-of-bounds access for every single-node tree, in particular for every mesh with at most cells_per_leaf faces."
  },
  {
   "property": "C37",
   "status": "proved",
   "theorems": [
    "C37_stack_refines_list"
   ],
   "note": ""
  },
  {
   "property": "C38",
   "status": "proved",
   "theorems": [
    "C38_locate_points",
    "C38_locate_points_on_edge",
    "C38_points_in_triangles",
    "C38_polygons_intersect",
    "C38_area_of_intersection",
    "C38_box_area_of_intersection",
    "C38_build_face_bboxes",
    "C38_build_edge_bboxes",
    "C38_triangle_weights",
    "C38_wachspress_weights",
    "C38_counter_clockwise",
    "C38_locate_boxes",
    "C38_locate_edge_edges",
    "C38_locate_edge_faces",
    "C38_some_schedule",
    "C38_race",
    "C38_ccw_example"
   ],
   "note": "Iterations as programs over shared cells, one atomic access per step, arbitrary scheduler; every schedule terminates in the memory of the sequential model; per-iteration uninitialised memory; C38_race shows the definition distinguishes racy loops. Typed-list internals of numba and the memory model below single cell accesses are not modelled."
  },
  {
   "property": "C39",
   "status": "proved",
   "theorems": [
    "C39_bounding_boxes",
    "C39_edge_bounding_boxes",
    "C39_face_in_box",
    "C39_tree_box_tight",
    "C39_edge_tree_box_tight"
   ],
   "note": "Tight boxes for every number type, of the elements and of the whole tree; that all points of a convex face lie in its box over exact reals."
  },
  {
   "property": "C40",
   "status": "proved",
   "theorems": [
    "C40_polygon_area_convex",
    "C40_polygon_area_nonneg"
   ],
   "note": "Exact reals."
  },
  {
   "property": "C41",
   "status": "proved",
   "theorems": [
    "C41_construction_keeps",
    "C41_construction_result",
    "C41_intersect_faces_keeps",
    "C41_locate_faces_writes",
    "C41_locate_faces_turns",
    "C41_array_like_shared",
    "C41_array_like_refuted"
   ],
   "note": "heap model of cast.py, the constructors, locate_faces, intersect_faces. ndarrays and lists are left alone also when the call raises; locate_faces writes the counter-clockwise order. Refuted for array-likes that hand out their own buffer (np.ascontiguousarray does not copy): these are overwritten."
  },
  {
   "property": "C42",
   "status": "proved",
   "theorems": [
    "C42_inside_passes",
    "C42_passing_is_near",
    "C42_degenerate_refuted",
    "C42_points_in_triangles"
   ],
   "note": "Exact reals, for one triangle and for the array function; for degenerate triangles the claim fails (C42_degenerate_refuted)."
  },
  {
   "property": "C43",
   "status": "proved",
   "theorems": [
    "C43_default_tolerance",
    "C43_default_tolerance_constructed"
   ],
   "note": "Exact reals."
  },
  {
   "property": "C44",
   "status": "proved",
   "theorems": [
    "C44_invalid_rejected",
    "C44_valid_accepted"
   ],
   "note": ""
  },
  {
   "property": "C45",
   "status": "proved",
   "theorems": [
    "C45_clip_terminates_refuted",
    "C45_intersect_edges_terminates_refuted"
   ],
   "note": "Binary64: non-termination for every number of rounds."
  },
  {
   "property": "C46",
   "status": "proved",
   "theorems": [
    "C46_locate_points",
    "C46_locate_points_on_edge",
    "C46_polygons_intersect",
    "C46_area_of_intersection",
    "C46_box_area_of_intersection",
    "C46_wachspress_weights",
    "C46_locate_boxes",
    "C46_locate_edge_edges",
    "C46_locate_edge_faces"
   ],
   "note": "For any number type and any tree, valid or not."
  },
  {
   "property": "C47",
   "status": "proved",
   "theorems": [
    "C47_tree_is_independent",
    "C47_edges_are_shared",
    "C47_edges_refuted"
   ],
   "note": "CellTree2d independent of later writes; EdgeCellTree2d keeps the caller's edges (refuted independence)."
  },
  {
   "property": "C48",
   "status": "proved",
   "theorems": [
    "C48_float_locate_points",
    "C48_float_default_tolerance",
    "C48_float_edge_points",
    "C48_float_gap_refuted",
    "C48_float_denormal_refuted"
   ],
   "note": "binary64 point queries: error bounds of the crossing test and of the perpendicular distance, carried through the search; two refutations show the provisos are needed"
  },
  {
   "property": "C49",
   "status": "proved",
   "theorems": [
    "C49_float_clip_area",
    "C49_float_intersect_boxes",
    "C49_float_slanted_refuted"
   ],
   "note": "binary64: clipping against axis-parallel rectangles and intersect_boxes on rectangular meshes are accurate; slanted sides refuted"
  },
  {
   "property": "C50",
   "status": "proved",
   "theorems": [
    "C50_close_polygons",
    "C50_edges",
    "C50_edges_network"
   ],
   "note": "any number of faces and columns; np.unique is modelled as sorted distinct rows"
  },
  {
   "property": "C51",
   "status": "proved",
   "theorems": [
    "C51_disk",
    "C51_disk_errors"
   ],
   "note": "exact reals; the triangulation itself is matplotlib's"
  },
  {
   "property": "C52",
   "status": "proved",
   "theorems": [
    "C52_float_counter_clockwise",
    "C52_float_normalisation",
    "C52_float_orientation_refuted"
   ],
   "note": "Positive part for faces without nearly straight corners; the refutation exhibits a five-corner face stored clockwise."
  },
  {
   "property": "C53",
   "status": "proved",
   "theorems": [
    "C53_float_locate_faces",
    "C53_float_exact_refuted"
   ],
   "note": "Convexity is not needed for either direction. The diamond and the gap are measured in coordinates; a disc of the same radius or a Euclidean gap of the same size suffices."
  },
  {
   "property": "C54",
   "status": "proved",
   "theorems": [
    "C54_float_triangle_weights",
    "C54_float_exact_refuted"
   ],
   "note": "Weights of points that are outside by up to a quarter of the height are covered too: the code takes absolute values, which costs twice the outside fraction. Wachspress weights (n_max_vert > 3) in binary64 are not covered."
  },
  {
   "property": "C55",
   "status": "proved",
   "theorems": [
    "C55_float_box_clip"
   ],
   "note": "Cohen-Sutherland in binary64 with the corners clear of the segment; the clearance is needed (C45)."
  },
  {
   "property": "C56",
   "status": "proved",
   "theorems": [
    "C56_float_lines_cross",
    "C56_float_lines_apart",
    "C56_float_edge_edges"
   ],
   "note": "Segments and query edges with margins for the rounding error; the crossing point has an explicit error bound."
  },
  {
   "property": "C57",
   "status": "proved",
   "theorems": [
    "C57_float_cyrus_beck",
    "C57_float_intersect_edges",
    "C57_float_bent_side_refuted"
   ],
   "note": "binary64; segments in general position (margins stated); flat node refuted"
  },
  {
   "property": "C58",
   "status": "proved",
   "theorems": [
    "C58_padding_answers",
    "C58_triangle_wachspress",
    "C58_locate_faces_fill_refuted"
   ],
   "note": "any number type for the queries; exact reals for the weights of triangles; locate_faces with other fill values refuted"
  },
  {
   "property": "C59",
   "status": "proved",
   "theorems": [
    "C59_float_clip_clear",
    "C59_float_intersect_faces",
    "C59_float_intersect_boxes"
   ],
   "note": "binary64; accuracy for pairs whose corners keep clear of the clipping sides"
  },
  {
   "property": "C60",
   "status": "proved",
   "theorems": [
    "C60_float_wachspress",
    "C60_float_wachspress_weights",
    "C60_example"
   ],
   "note": "relative error bound for faces whose corners and sides keep clear of rounding; one polygon and the whole query"
  },
  {
   "property": "C61",
   "status": "proved",
   "theorems": [
    "C61_intersect_boxes_brute_force",
    "C61_locate_faces_brute_force",
    "C61_intersect_faces_brute_force",
    "C61_boxes_parameters",
    "C61_locate_faces_parameters",
    "C61_intersect_faces_parameters",
    "C61_intersect_edges_parameters",
    "C61_edge_edges_parameters",
    "C61_weights_parameters",
    "C61_order_refuted"
   ],
   "note": "Any number type; edge queries: exact reals. The order of rows within one query item depends on the tuning parameters (C61_order_refuted)."
  },
  {
   "property": "C62",
   "status": "proved",
   "theorems": [
    "C62_float_liang_barsky",
    "C62_ends_inside_refuted",
    "C62_example"
   ],
   "note": "Every segment and box, no clearance from the corners. The ends need not lie in the box exactly (C62_ends_inside_refuted)."
  },
  {
   "property": "C63",
   "status": "proved",
   "theorems": [
    "C63_casts",
    "C63_constructor",
    "C63_queries",
    "C63_queries_rejected",
    "C63_list_or_array",
    "C63_edge_columns_ignored",
    "C63_example",
    "C63_rejected_example",
    "C63_integers_required_refuted",
    "C63_edge_columns_example"
   ],
   "note": "Any number type, any nesting. compute_barycentric_weights on ndarrays only; dtypes other than int64 and float64 are not modelled."
  },
  {
   "property": "C64",
   "status": "proved",
   "theorems": [
    "C64_edge_length",
    "C64_edge_length_bound",
    "C64_shared_side_twice",
    "C64_example",
    "C64_shared_side_example"
   ],
   "note": "Exact arithmetic; edge lengths split over the faces, shared sides counted twice"
  },
  {
   "property": "C65",
   "status": "proved",
   "theorems": [
    "C65_interpolation",
    "C65_no_jump",
    "C65_caller_order_refuted",
    "C65_example"
   ],
   "note": "Exact arithmetic; weights taken with the nodes of tree.faces"
  },
  {
   "property": "C66",
   "status": "proved",
   "theorems": [
    "C66_occupancy",
    "C66_network_occupancy",
    "C66_separate_faces",
    "C66_leaf_size_refuted"
   ],
   "note": "Occupancy of nodes for any number type; leaves bounded by cells_per_leaf for meshes whose boxes do not overlap; family of fans refutes the docstring's bound in general."
  },
  {
   "property": "C67",
   "status": "proved",
   "theorems": [
    "C67_transpose",
    "C67_self",
    "C67_bounds",
    "C67_conservative",
    "C67_boxes_as_faces",
    "C67_example",
    "C67_self_example"
   ],
   "note": "Exact arithmetic; coordinates up to 2^500 in size as in C25"
  },
  {
   "property": "C68",
   "status": "proved",
   "theorems": [
    "C68_convex_mesh",
    "C68_stored_counter_clockwise",
    "C68_locate_points",
    "C68_default_tolerance",
    "C68_locate_faces",
    "C68_clip_area",
    "C68_intersect_faces",
    "C68_intersect_boxes",
    "C68_conservative",
    "C68_example"
   ],
   "note": "Exact arithmetic; coordinates up to 2^500 in size for locate_faces and intersect_faces, as in C23. Areas need every face listed clockwise to end with a corner; C29 shows what happens otherwise"
  },
  {
   "property": "C69",
   "status": "proved",
   "theorems": [
    "C69_locate_points",
    "C69_default_tolerance",
    "C69_hanging_mesh",
    "C69_region_unique",
    "C69_example",
    "C69_concave_refuted"
   ],
   "note": "Exact arithmetic for the positive part. The README asks for convex polygons, so the refutations show what the requirement is for"
  },
  {
   "property": "C70",
   "status": "proved",
   "theorems": [
    "C70_float_locate_points",
    "C70_float_default_tolerance",
    "C70_example"
   ],
   "note": "Contains C48's statements about faces as the case of strictly convex faces (C69_hanging_mesh)"
  },
  {
   "property": "C71",
   "status": "proved",
   "theorems": [
    "C71_numbering_faces",
    "C71_renumber",
    "C71_unused_vertices",
    "C71_numbering_edges",
    "C71_extent_R",
    "C71_extent_B64",
    "C71_unused_vertex_network_refuted",
    "C71_example"
   ],
   "note": "Any number type; triangles and general faces"
  },
  {
   "property": "C72",
   "status": "proved",
   "theorems": [
    "C72_locate_points",
    "C72_weights",
    "C72_boxes",
    "C72_locate_faces",
    "C72_intersect_faces",
    "C72_edge_faces",
    "C72_edge_edges",
    "C72_example"
   ],
   "note": "Any number type; all seven queries"
  },
  {
   "property": "C73",
   "status": "proved",
   "theorems": [
    "C73_points_in_triangles",
    "C73_no_margin_refuted",
    "C73_example"
   ],
   "note": "All sizes; margins stated; refuted without a margin. Points within 2^(k-47) of a corner are only covered when no side is within 2^(k-49)"
  },
  {
   "property": "C74",
   "status": "proved",
   "theorems": [
    "C74_selection_ok",
    "C74_points",
    "C74_weights",
    "C74_locate_boxes",
    "C74_intersect_boxes",
    "C74_locate_faces",
    "C74_intersect_faces",
    "C74_edge_selection_ok",
    "C74_edge_points",
    "C74_intersect_edges",
    "C74_edge_edges",
    "C74_shared_side_refuted",
    "C74_example"
   ],
   "note": "All queries; selections in any order, with repetitions"
  },
  {
   "property": "C75",
   "status": "proved",
   "theorems": [
    "C75_int_half",
    "C75_int_half_refuted",
    "C75_allocated",
    "C75_flip",
    "C75_overestimation",
    "C75_tree_integers",
    "C75_separate_faces",
    "C75_overestimation_refuted",
    "C75_example",
    "C75_separate_example"
   ],
   "note": "Double arithmetic of the allocation proved equal to the model's integers"
  },
  {
   "property": "C76",
   "status": "proved",
   "theorems": [
    "C76_mapped_vertices",
    "C76_relisted_faces",
    "C76_convex_built",
    "C76_locate_points",
    "C76_locate_faces",
    "C76_intersect_faces",
    "C76_intersect_boxes",
    "C76_intersect_edges",
    "C76_example",
    "C76_relisted_example"
   ],
   "note": "Exact reals, convex faces; points and edges outside the tolerance bands in both meshes"
  },
  {
   "property": "C77",
   "status": "proved",
   "theorems": [
    "C77_divided",
    "C77_network_divided",
    "C77_cheapest",
    "C77_network_cheapest",
    "C77_real_cost_refuted"
   ],
   "note": "Division for any ordered numbers; least estimated cost over exact reals; real cost refuted in binary64"
  },
  {
   "property": "C78",
   "status": "proved",
   "theorems": [
    "C78_depth",
    "C78_network_depth",
    "C78_stack",
    "C78_network_stack",
    "C78_depth_attained",
    "C78_fixed_stack_refuted"
   ],
   "note": "Depth and stacks for any ordered numbers; greatest depth reached over exact reals; a fixed stack of 32 refuted in binary64"
  },
  {
   "property": "C79",
   "status": "proved",
   "theorems": [
    "C79_locate_boxes",
    "C79_locate_faces",
    "C79_crossing_edges",
    "C79_area_refuted",
    "C79_self_refuted",
    "C79_edges_refuted"
   ],
   "note": "Pairs transposed for any ordered numbers; crossing edges over exact reals; three asymmetries shown in binary64"
  },
  {
   "property": "C80",
   "status": "proved",
   "theorems": [
    "C80_locate_boxes",
    "C80_coarser",
    "C80_exact"
   ],
   "note": "Any two ordered number types; binary64 and exact reals agree"
  },
  {
   "property": "C81",
   "status": "proved",
   "theorems": [
    "C81_mesh_vertices",
    "C81_network_vertices",
    "C81_needed_refuted"
   ],
   "note": "IEEE binary64; faces of any shape"
  },
  {
   "property": "C82",
   "status": "proved",
   "theorems": [
    "C82_corner_weights",
    "C82_mesh_corner_weights"
   ],
   "note": "IEEE binary64; Wachspress weights only (faces with more than three sides allowed)"
  },
  {
   "property": "C83",
   "status": "proved",
   "theorems": [
    "C83_rows_are_wachspress",
    "C83_same_weights"
   ],
   "note": "Exact reals; points within the tolerance of the line of a side are covered by C31 and C65"
  },
  {
   "property": "C84",
   "status": "proved",
   "theorems": [
    "C84_midpoint_between",
    "C84_other_line",
    "C84_axis_overlap",
    "C84_network_overlap",
    "C84_descending_refuted"
   ],
   "note": "binary64; oblique overlaps are decided by the tolerance and are covered in exact arithmetic by C22; C84_descending_refuted is a counterexample to the docstring of midpoint_collinear_lines"
  },
  {
   "property": "C85",
   "status": "proved",
   "theorems": [
    "C85_axis_points"
   ],
   "note": "binary64; with a positive tolerance the distance of a reported face is bounded by C70; oblique sides need the margins of C70"
  },
  {
   "property": "C86",
   "status": "proved",
   "theorems": [
    "C86_mesh_sides",
    "C86_network_edges",
    "C86_narrow_refuted"
   ],
   "note": "binary64; generalises C81 from vertices to whole sides; C86_narrow_refuted shows that the lower bound on the tolerance cannot be dropped"
  },
  {
   "property": "C87",
   "status": "proved",
   "theorems": [
    "C87_order_unique",
    "C87_locate_points",
    "C87_edge_points"
   ],
   "note": "every number type; C87_example computes orders and answers in binary64, with the right half first in one case and last in another"
  },
  {
   "property": "C88",
   "status": "proved",
   "theorems": [
    "C88_order_unique",
    "C88_locate_boxes"
   ],
   "note": "every number type; sharpens C05-C07 from sets of rows to the returned array; C88_example computes the order and two boxes in binary64"
  }
 ]
}
