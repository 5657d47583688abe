{"id": "C01", "title": "Every element is stored in exactly one leaf", "statement": "Whenever CellTree2d / EdgeCellTree2d construction returns, bb_indices is a permutation of 0..n-1 and the leaves of the node array cover consecutive, disjoint ranges of it, so every face (edge) is stored in exactly one leaf.", "quantifier": "all meshes (any finite bounding boxes), all n_buckets, all cells_per_leaf, IEEE binary64 arithmetic with rounding", "why_tests_cant": "A lost or duplicated element depends on how rounding places centroids in buckets; only a proof covers every mesh.", "anchors": ["numba_celltree/creation.py:build", "numba_celltree/creation.py:stable_partition", "numba_celltree/creation.py:sort_bbox_indices", "numba_celltree/creation.py:initialize"]}
{"id": "C02", "title": "The node array is a proper binary tree", "statement": "In the node array of a constructed tree (and in to_dict_of_lists), every node except the root is the child of exactly one node, children come after their parent, both children of a split node are non-empty, the number of nodes is 2*leaves-1, every leaf holds at least one element and the root covers all elements.", "quantifier": "all meshes, n_buckets, cells_per_leaf", "why_tests_cant": "Tree shape is data dependent; a dangling or shared child index shows only for particular bucket occupancies.", "anchors": ["numba_celltree/creation.py:build", "numba_celltree/creation.py:push_node", "numba_celltree/celltree_base.py:to_dict_of_lists"]}
{"id": "C03", "title": "Construction never writes outside its preallocated node array and always terminates", "statement": "Building a tree performs at most the preallocated number of node writes (pessimistic_n_nodes), every array access is in bounds, and the construction loop ends after a number of rounds linear in the number of elements.", "quantifier": "all element counts n >= 1, all bounding boxes, n_buckets, cells_per_leaf", "why_tests_cant": "An out-of-bounds write is silent under numba; the worst case split is not known in advance.", "anchors": ["numba_celltree/creation.py:pessimistic_n_nodes", "numba_celltree/creation.py:build", "numba_celltree/creation.py:initialize"]}
{"id": "C04", "title": "Construction succeeds for every non-degenerate mesh, and exactly how degenerate meshes fail", "statement": "In exact arithmetic, if every element's bounding box has positive width and height, construction returns a tree. If instead some split range has zero extent (or rounding makes a centroid reach the end of the last bucket) construction raises IndexError instead of building a tree; this happens for valid EdgeCellTree2d input in binary64 (vertical edges at large coordinates). In binary64, if all coordinates are at most 2^k in magnitude and every face is at least 2^(k-48) wide and high, construction returns a tree; likewise for networks with a sufficient extent; squares one unit in the last place wide fail.", "quantifier": "all meshes with finite coordinates", "why_tests_cant": "The failing configuration needs a specific relation between coordinate magnitude, extent and tolerance.", "anchors": ["numba_celltree/creation.py:sort_bbox_indices", "numba_celltree/creation.py:centroid_test", "numba_celltree/edge_celltree.py:EdgeCellTree2d.__init__", "numba_celltree/geometry_utils.py:edge_bounding_box"]}
{"id": "C05", "title": "locate_boxes equals brute force", "statement": "CellTree2d.locate_boxes returns the pair (i, j) exactly once if box i and the bounding box of face j overlap (strict interval overlap in x and in y) and returns no other pair.", "quantifier": "all meshes for which a tree is built, all lists of query boxes (finite coordinates), n_buckets, cells_per_leaf, IEEE comparisons", "why_tests_cant": "A missed pair depends on the stored split planes of all ancestors of a leaf.", "anchors": ["numba_celltree/celltree.py:CellTree2d.locate_boxes", "numba_celltree/query.py:locate_box", "numba_celltree/query.py:locate_boxes_helper", "numba_celltree/query.py:locate_boxes"]}
{"id": "C06", "title": "Array-valued queries do not depend on the number of threads", "statement": "locate_boxes and intersect_edges return the same arrays, in the same order, for every number of chunks (threads); the first result array is sorted ascending and pairs of one query item are contiguous.", "quantifier": "all inputs, all n_chunks >= 1 (also more chunks than items)", "why_tests_cant": "The chunk boundaries and offsets vary with the thread count of the machine the test runs on.", "anchors": ["numba_celltree/query.py:locate_boxes", "numba_celltree/query.py:concatenate_indices", "numba_celltree/query.py:make_locate_edges"]}
{"id": "C07", "title": "Result buffers grow without losing or duplicating results", "statement": "When a query produces more hits than the preallocated buffer holds, the retry with a doubled buffer yields exactly the hits an unbounded buffer would have held, and the retry loop terminates.", "quantifier": "all query sequences and all hit counts", "why_tests_cant": "Needs a hit count crossing the capacity in the middle of one item; sizes are unbounded.", "anchors": ["numba_celltree/query.py:locate_boxes_helper", "numba_celltree/query.py:locate_box", "numba_celltree/query.py:make_locate_edges", "numba_celltree/utils.py:grow"]}
{"id": "C08", "title": "locate_points is sound", "statement": "If CellTree2d.locate_points returns j >= 0 for a point, then 0 <= j < n_face and the library's own point-in-polygon-or-on-edge test holds for that point and face j.", "quantifier": "all trees, all points (including NaN and infinities), all tolerances, IEEE arithmetic", "why_tests_cant": "Depends on traversal order and early exit over arbitrary trees.", "anchors": ["numba_celltree/celltree.py:CellTree2d.locate_points", "numba_celltree/query.py:locate_point", "numba_celltree/query.py:locate_points"]}
{"id": "C09", "title": "locate_points is complete", "statement": "If some face j passes the point-in-polygon-or-on-edge test for a point that lies in the (closed) bounding box of face j, locate_points returns a face (not -1) for that point.", "quantifier": "all trees, all finite points, all tolerances, IEEE arithmetic", "why_tests_cant": "A wrong split plane hides a face only from points in a particular region.", "anchors": ["numba_celltree/celltree.py:CellTree2d.locate_points", "numba_celltree/query.py:locate_point"]}
{"id": "C10", "title": "locate_points finds the geometric answer on convex meshes", "statement": "In exact arithmetic, for faces that are strictly convex polygons: a point in the interior of some face is assigned a face, and so is a point on its boundary if the tolerance is positive; the assigned face contains the point or has it within 2*tolerance of its boundary; a point further than 2*tolerance from all faces gets -1; a point inside one face and further than 2*tolerance from all others gets that face.", "quantifier": "all convex meshes, all points, all tolerances >= 0, all tree parameters", "why_tests_cant": "Ray crossing at vertices and horizontal edges are measure-zero cases that sampling misses.", "anchors": ["numba_celltree/geometry_utils.py:point_in_polygon_or_on_edge", "numba_celltree/geometry_utils.py:point_in_polygon", "numba_celltree/query.py:locate_point"]}
{"id": "C11", "title": "Tolerance only widens the search inside the bounding boxes", "statement": "A point closer than the tolerance to a face but outside that face's bounding box may or may not be found, depending on the tree shape: the documented promise that points very close to an edge are identified as falling within the face does not hold for every tree.", "quantifier": "exists mesh, point, tolerance and two values of cells_per_leaf with different answers", "why_tests_cant": "The existing tolerance test uses a single-leaf tree, where the effect cannot occur.", "anchors": ["numba_celltree/query.py:locate_point", "numba_celltree/celltree.py:CellTree2d.locate_points"]}
{"id": "C12", "title": "Answers do not depend on tuning parameters", "statement": "locate_boxes returns the same set of pairs for every n_buckets and cells_per_leaf; locate_points returns the same face whenever at most one face passes the point test.", "quantifier": "all meshes, all pairs of parameter settings", "why_tests_cant": "Needs comparison over all parameter values and all meshes.", "anchors": ["numba_celltree/celltree.py:CellTree2d.__init__", "numba_celltree/query.py:locate_box", "numba_celltree/query.py:locate_point"]}
{"id": "C13", "title": "NaN queries are answered 'nowhere'", "statement": "A point with a NaN coordinate gets -1 from locate_points of either tree, and a box with any NaN coordinate produces no pairs.", "quantifier": "all trees, all NaN-carrying queries, binary64 semantics", "why_tests_cant": "NaN takes the false branch of every comparison; which branch that is differs per node.", "anchors": ["numba_celltree/query.py:locate_point", "numba_celltree/query.py:locate_box", "numba_celltree/geometry_utils.py:point_in_polygon_or_on_edge"]}
{"id": "C14", "title": "EdgeCellTree2d.locate_points is sound and complete", "statement": "A returned index is a valid edge index whose edge passes the point-on-edge test; if some edge passes the test and the point lies in that edge's (tolerance-widened) bounding box, an edge is returned. In exact arithmetic a point exactly on an edge of positive length is always found (tolerance > 0), and a found edge is within 2*tolerance.", "quantifier": "all 1D networks, all points and tolerances", "why_tests_cant": "Same traversal argument as for faces plus degenerate axis aligned boxes.", "anchors": ["numba_celltree/edge_celltree.py:EdgeCellTree2d.locate_points", "numba_celltree/query.py:locate_point_on_edge", "numba_celltree/geometry_utils.py:point_on_edge", "numba_celltree/geometry_utils.py:edge_bounding_box"]}
{"id": "C15", "title": "CellTree2d.intersect_edges equals brute force", "statement": "In exact arithmetic intersect_edges returns exactly the pairs (edge i, face j) for which clipping edge i by face j's bounding box and then by face j itself succeeds, each once, with the clipped segment of that face.", "quantifier": "all trees and query edges", "why_tests_cant": "The traversal mixes sign tests on both dimensions; a wrong branch hides faces from some directions only.", "anchors": ["numba_celltree/celltree.py:CellTree2d.intersect_edges", "numba_celltree/query.py:make_locate_edges", "numba_celltree/query.py:compute_edge_face_intersect"]}
{"id": "C16", "title": "EdgeCellTree2d.intersect_edges equals brute force", "statement": "In exact arithmetic, EdgeCellTree2d.intersect_edges returns exactly the pairs for which the segment-segment test succeeds, each once: the traversal never prunes an intersecting tree edge.", "quantifier": "all networks and query edges", "why_tests_cant": "Tolerances in the segment test and in the bounding boxes must match for every coordinate scale.", "anchors": ["numba_celltree/edge_celltree.py:EdgeCellTree2d.intersect_edges", "numba_celltree/query.py:compute_edge_edge_intersect", "numba_celltree/geometry_utils.py:lines_intersect", "numba_celltree/geometry_utils.py:build_edge_bboxes"]}
{"id": "C17", "title": "Box clipping (Cohen-Sutherland) terminates and is exact", "statement": "In exact arithmetic cohen_sutherland_line_box_clip terminates within four iterations, never divides by zero, reports an intersection iff the segment has more than one point in common with the closed box, and then returns the end points of exactly that common part, oriented from a to b.", "quantifier": "all segments and boxes", "why_tests_cant": "A previous release hung in this loop for an edge vertex on top of a box vertex.", "anchors": ["numba_celltree/algorithms/cohen_sutherland.py:cohen_sutherland_line_box_clip"]}
{"id": "C18", "title": "Box clipping (Liang-Barsky) is exact and agrees with Cohen-Sutherland", "statement": "In exact arithmetic liang_barsky_line_box_clip reports an intersection iff the segment has more than one point in common with the closed box, returns exactly the common part, and therefore agrees with cohen_sutherland_line_box_clip on every input.", "quantifier": "all segments and boxes", "why_tests_cant": "Two different algorithms must agree on all degenerate positions.", "anchors": ["numba_celltree/algorithms/liang_barsky.py:liang_barsky_line_box_clip"]}
{"id": "C19", "title": "Polygon clipping of segments is exact for strictly convex polygons", "statement": "In exact arithmetic, for a strictly convex counter-clockwise polygon, cyrus_beck_line_polygon_clip returns only points of the segment, and for end points outside the tolerance band reports an intersection iff the segment and the polygon share more than one point and returns exactly that common part.", "quantifier": "all strictly convex polygons, all segments", "why_tests_cant": "Vertex hits and collinear edges are measure-zero cases.", "anchors": ["numba_celltree/algorithms/cyrus_beck.py:cyrus_beck_line_polygon_clip", "numba_celltree/algorithms/cyrus_beck.py:collinear_case"]}
{"id": "C20", "title": "Hanging nodes break polygon clipping of segments", "statement": "For a convex polygon with a hanging node (collinear vertex) a segment running along that side can be clipped to only one of the two collinear edges: the returned part is then strictly shorter than the true intersection.", "quantifier": "exists polygon and segment", "why_tests_cant": "Needs the exact collinear configuration.", "anchors": ["numba_celltree/algorithms/cyrus_beck.py:cyrus_beck_line_polygon_clip"]}
{"id": "C21", "title": "Segment-segment intersection", "statement": "In exact arithmetic lines_intersect reports True for every pair of segments that cross properly (each strictly separates the end points of the other), with a point on both segments unless the segments are nearly parallel (squared cross product below tolerance^2 times squared length), in which case the coordinates are NaN; it reports False whenever the segments' bounding boxes are apart by at least the tolerance; a True answer means a common point or both end points of the second segment within the tolerance of the first line.", "quantifier": "all pairs of segments", "why_tests_cant": "Sign tests over all relative positions.", "anchors": ["numba_celltree/geometry_utils.py:lines_intersect", "numba_celltree/geometry_utils.py:intersection_location_point", "numba_celltree/geometry_utils.py:left_of", "numba_celltree/geometry_utils.py:has_overlap"]}
{"id": "C22", "title": "Collinear overlapping segments: midpoint, and the descending case", "statement": "For collinear overlapping axis-parallel or ascending segments the returned point is the midpoint of the overlap; for collinear overlapping descending segments (negative slope) the library reports an intersection with NaN coordinates.", "quantifier": "all ascending collinear overlaps; all strictly descending collinear pairs", "why_tests_cant": "The existing test only has an ascending collinear case.", "anchors": ["numba_celltree/geometry_utils.py:midpoint_collinear_lines", "numba_celltree/geometry_utils.py:lines_intersect"]}
{"id": "C23", "title": "locate_faces reports exactly the faces with overlapping interiors", "statement": "In exact arithmetic, for strictly convex polygons the separating-axis test returns True iff the interiors of the two polygons have a common point; hence locate_faces returns exactly the pairs with overlapping interiors.", "quantifier": "all pairs of strictly convex polygons", "why_tests_cant": "The separating axis theorem is an infinite disjunction over directions.", "anchors": ["numba_celltree/algorithms/separating_axis.py:separating_axes", "numba_celltree/algorithms/separating_axis.py:polygons_intersect", "numba_celltree/celltree.py:CellTree2d.locate_faces"]}
{"id": "C24", "title": "Faces that only share an edge are not reported by locate_faces", "statement": "Contrary to its docstring, two polygons that lie on opposite sides of a common edge are never reported by locate_faces.", "quantifier": "all pairs of polygons separated by the line of one of their edges", "why_tests_cant": "Documentation and implementation disagree on a boundary case for every mesh.", "anchors": ["numba_celltree/celltree.py:CellTree2d.locate_faces", "numba_celltree/algorithms/separating_axis.py:is_separating_axis"]}
{"id": "C25", "title": "Clipped areas are exact and additive", "statement": "In exact arithmetic the area computed for two convex counter-clockwise polygons equals the area of their intersection: every vertex of the clipped polygon lies in both, and cutting a polygon by a line splits its area exactly in two parts, so areas of a tiling add up.", "quantifier": "all pairs of convex polygons", "why_tests_cant": "Sums over arbitrary tilings.", "anchors": ["numba_celltree/algorithms/sutherland_hodgman.py:polygon_polygon_clip_area", "numba_celltree/geometry_utils.py:polygon_area"]}
{"id": "C26", "title": "intersect_boxes / intersect_faces return only and all positive overlaps", "statement": "Every returned pair is one of the located pairs, has area > 0 and every located pair with computed area > 0 is returned, in the located order, with its own area.", "quantifier": "all trees and queries", "why_tests_cant": "Filtering must keep three arrays aligned for every mask.", "anchors": ["numba_celltree/celltree.py:CellTree2d.intersect_boxes", "numba_celltree/celltree.py:CellTree2d.intersect_faces", "numba_celltree/algorithms/sutherland_hodgman.py:area_of_intersection", "numba_celltree/algorithms/sutherland_hodgman.py:box_area_of_intersection"]}
{"id": "C27", "title": "The clipping work arrays never overflow for convex faces", "statement": "Clipping a polygon with at most 32 vertices by a polygon with at most 32 vertices never writes past the 64-entry work arrays when the polygons are convex (exact arithmetic); for non-convex input the vertex count can grow beyond n+1 per clipping edge.", "quantifier": "all convex polygon pairs within MAX_N_VERTEX", "why_tests_cant": "Work arrays are stack allocated without bounds checks; overflow is silent.", "anchors": ["numba_celltree/algorithms/sutherland_hodgman.py:polygon_polygon_clip_area", "numba_celltree/algorithms/sutherland_hodgman.py:push_point", "numba_celltree/utils.py:allocate_clip_polygon"]}
{"id": "C28", "title": "Faces are normalised to counter-clockwise order", "statement": "For strictly convex faces, construction stores each face counter-clockwise, as the original vertex cycle or its reversal, with fill values untouched; applying the normalisation again changes nothing.", "quantifier": "all strictly convex faces of any length", "why_tests_cant": "Number of flips depends on the starting vertex and length.", "anchors": ["numba_celltree/geometry_utils.py:counter_clockwise", "numba_celltree/geometry_utils.py:flip", "numba_celltree/geometry_utils.py:polygon_length"]}
{"id": "C29", "title": "Hanging nodes defeat the counter-clockwise normalisation", "statement": "There is a convex clockwise face with a hanging node in last position that is left clockwise by the normalisation; the area of intersection of a box with such a face is then reported as 0.", "quantifier": "exists face", "why_tests_cant": "The existing test places its hanging nodes elsewhere.", "anchors": ["numba_celltree/geometry_utils.py:counter_clockwise", "numba_celltree/algorithms/sutherland_hodgman.py:polygon_polygon_clip_area"]}
{"id": "C30", "title": "Triangle barycentric weights", "statement": "In exact arithmetic, for a non-degenerate triangle and a point in it the three weights are non-negative, sum to one and reproduce the point; the weights sum to one for every point.", "quantifier": "all non-degenerate triangles and points", "why_tests_cant": "Absolute values make the formula valid only in a region; must hold on all of it.", "anchors": ["numba_celltree/algorithms/barycentric_triangle.py:compute_weights", "numba_celltree/algorithms/barycentric_triangle.py:barycentric_triangle_weights"]}
{"id": "C31", "title": "Wachspress weights", "statement": "In exact arithmetic, for a strictly convex polygon and an interior point outside the edge tolerance, the weights are positive, sum to one and reproduce the point (sum of w_i * v_i = p); on an edge they are the two linear interpolation weights.", "quantifier": "all strictly convex polygons of any size, all interior points", "why_tests_cant": "An identity over all n-gons.", "anchors": ["numba_celltree/algorithms/barycentric_wachspress.py:compute_weights", "numba_celltree/algorithms/barycentric_wachspress.py:interp_edge_case"]}
{"id": "C32", "title": "Hanging nodes break Wachspress edge weights", "statement": "For a convex polygon with a hanging node there is a boundary point whose weights do not reproduce the point.", "quantifier": "exists polygon and point", "why_tests_cant": "Needs an exact collinear configuration and a particular vertex order.", "anchors": ["numba_celltree/algorithms/barycentric_wachspress.py:compute_weights"]}
{"id": "C33", "title": "Points outside the mesh get index -1 and zero weights", "statement": "compute_barycentric_weights returns, for every point, the index locate_points returns; rows of points with index -1 are all zero; each row has n_max_vert entries and entries beyond the face's own vertices are zero.", "quantifier": "all trees and points", "why_tests_cant": "Rows must stay aligned for every face length.", "anchors": ["numba_celltree/celltree.py:CellTree2d.compute_barycentric_weights", "numba_celltree/algorithms/barycentric_triangle.py:barycentric_triangle_weights", "numba_celltree/algorithms/barycentric_wachspress.py:barycentric_wachspress_weights"]}
{"id": "C34", "title": "Fill values are converted and trailing padding is irrelevant", "statement": "cast_faces replaces exactly the entries equal to fill_value by -1 and keeps the rest; a face padded with any number of trailing fill values has the same polygon and bounding box as the unpadded face.", "quantifier": "all faces, fill values and padding widths up to MAX_N_VERTEX", "why_tests_cant": "All padding widths and positions.", "anchors": ["numba_celltree/cast.py:cast_faces", "numba_celltree/geometry_utils.py:polygon_length", "numba_celltree/geometry_utils.py:copy_vertices", "numba_celltree/geometry_utils.py:bounding_box"]}
{"id": "C35", "title": "node_bounds and validate_node_bounds", "statement": "For every constructed tree with at least one split, node_bounds fills a box for every node without out-of-bounds access, each node's box contains the bounding boxes of all elements below it, and validate_node_bounds returns all True.", "quantifier": "all trees with more than one node", "why_tests_cant": "Depends on every stored split plane.", "anchors": ["numba_celltree/query.py:collect_node_bounds", "numba_celltree/query.py:validate_node_bounds", "numba_celltree/celltree_base.py:CellTree2dBase.node_bounds"]}
{"id": "C36", "title": "node_bounds reads and writes out of bounds on a single-leaf tree", "statement": "If the tree has only a root node (n_face <= cells_per_leaf), node_bounds accesses node 1 and 2, which do not exist.", "quantifier": "all trees with a single node", "why_tests_cant": "Out-of-bounds access is silent under numba.", "anchors": ["numba_celltree/query.py:collect_node_bounds"]}
{"id": "C37", "title": "The growable stacks behave as unbounded stacks", "statement": "push/pop (single, double, triple) on the preallocated arrays, including growth, behave like an unbounded LIFO list for every sequence of operations that never pops an empty stack, whatever the uninitialised memory contains.", "quantifier": "all operation histories, all initial capacities >= 1, all garbage contents", "why_tests_cant": "Depth is unbounded; growth happens at powers of two.", "anchors": ["numba_celltree/utils.py:push", "numba_celltree/utils.py:pop", "numba_celltree/utils.py:push_both", "numba_celltree/utils.py:pop_both", "numba_celltree/utils.py:push_triple", "numba_celltree/utils.py:pop_triple", "numba_celltree/utils.py:grow"]}
{"id": "C38", "title": "Parallel loops are schedule independent", "statement": "Each parallel loop (locate_points, locate_points_on_edge, counter_clockwise, build_*_bboxes, polygons_intersect, area_of_intersection, box_area_of_intersection, barycentric weights, per-chunk loops) yields the same arrays for every interleaving of its iterations.", "quantifier": "all interleavings of iteration steps", "why_tests_cant": "Schedules are not controllable in a test.", "anchors": ["numba_celltree/query.py:locate_points", "numba_celltree/query.py:locate_boxes", "numba_celltree/geometry_utils.py:counter_clockwise", "numba_celltree/geometry_utils.py:build_face_bboxes", "numba_celltree/algorithms/separating_axis.py:polygons_intersect"]}
{"id": "C39", "title": "Bounding boxes are tight and contain their element", "statement": "The bounding box of a face contains all its vertices (hence, in exact arithmetic, all its points) and each side is attained by a vertex; an edge box contains the edge with the tolerance margin; the tree bbox contains all element boxes and each of its sides is a side of one of them.", "quantifier": "all faces and edges, IEEE comparisons", "why_tests_cant": "All vertex orders and lengths.", "anchors": ["numba_celltree/geometry_utils.py:bounding_box", "numba_celltree/geometry_utils.py:build_face_bboxes", "numba_celltree/geometry_utils.py:edge_bounding_box", "numba_celltree/celltree_base.py:bbox_tree"]}
{"id": "C40", "title": "polygon_area is the area of a convex polygon", "statement": "In exact arithmetic polygon_area equals the absolute shoelace area for convex polygons, is never negative, and does not change under reversal or rotation of the vertex list.", "quantifier": "all convex polygons of any size", "why_tests_cant": "All sizes and orders.", "anchors": ["numba_celltree/geometry_utils.py:polygon_area"]}
{"id": "C41", "title": "Input arrays: who is mutated", "statement": "Construction and intersect_faces leave the caller's face array as it was; locate_faces writes the counter-clockwise order into the caller's array.", "quantifier": "all inputs", "why_tests_cant": "Aliasing depends on whether a copy is made on every path.", "anchors": ["numba_celltree/cast.py:cast_faces", "numba_celltree/celltree.py:CellTree2d.__init__", "numba_celltree/celltree.py:CellTree2d.locate_faces", "numba_celltree/celltree.py:CellTree2d.intersect_faces"]}
{"id": "C42", "title": "point_in_triangle is exact away from the edges", "statement": "In exact arithmetic a point strictly inside a non-degenerate triangle of either orientation passes point_in_triangle; a passing point is in the closed triangle or within 2*tolerance of one of its edges.", "quantifier": "all triangles and points", "why_tests_cant": "Sign pattern argument over all inputs.", "anchors": ["numba_celltree/geometry_utils.py:point_in_triangle", "numba_celltree/geometry_utils.py:within_perpendicular_distance", "numba_celltree/geometry_utils.py:in_bounds"]}
{"id": "C43", "title": "Default tolerances", "statement": "The default tolerance is at least 1e-15 and at least 1e-12 times every bounding box diagonal, and equals one of these bounds.", "quantifier": "all meshes", "why_tests_cant": "All scales.", "anchors": ["numba_celltree/celltree_base.py:default_tolerance", "numba_celltree/celltree_base.py:bbox_distances"]}
{"id": "C44", "title": "Constructor validation", "statement": "Construction raises ValueError iff n_buckets < 2, cells_per_leaf < 1, or a face array has more than 32 columns; with valid parameters, every face polygon fits the fixed-size work arrays.", "quantifier": "all parameter values", "why_tests_cant": "All integers.", "anchors": ["numba_celltree/celltree.py:CellTree2d.__init__", "numba_celltree/edge_celltree.py:EdgeCellTree2d.__init__", "numba_celltree/cast.py:cast_faces"]}
{"id": "C45", "title": "Cohen-Sutherland clipping does not always terminate in binary64", "statement": "There are ordinary finite segments and boxes (segment (0.3,0.3)-(1.0,1.0), square [0.2,0.9]x[0.2,0.9]) for which the while loop of cohen_sutherland_line_box_clip runs forever in binary64 arithmetic, so CellTree2d.intersect_edges hangs on a one-square mesh with this query edge.", "quantifier": "exists segment and box; for all iteration counts and thread counts", "why_tests_cant": "A test cannot observe non-termination; the cycle needs a rounding coincidence at a box corner.", "anchors": ["numba_celltree/algorithms/cohen_sutherland.py:cohen_sutherland_line_box_clip", "numba_celltree/celltree.py:CellTree2d.intersect_edges"]}
{"id": "C46", "title": "Uninitialised memory never influences a result", "statement": "The results of locate_points, locate_points_on_edge, locate_boxes, locate_edges, polygons_intersect, area_of_intersection, box_area_of_intersection and the Wachspress weights are the same whatever the np.empty arrays they allocate (stacks, polygon buffers, result buffers, clip buffers) happen to contain, including which error is raised; no assumption on the tree or mesh is needed.", "quantifier": "all inputs, all contents of uninitialised memory", "why_tests_cant": "The contents of np.empty are not controllable in a test and usually zero.", "anchors": ["numba_celltree/utils.py:allocate_stack", "numba_celltree/utils.py:grow", "numba_celltree/query.py:locate_box", "numba_celltree/query.py:concatenate_indices", "numba_celltree/algorithms/sutherland_hodgman.py:polygon_polygon_clip_area", "numba_celltree/geometry_utils.py:copy_vertices"]}
{"id": "C47", "title": "Which arrays a tree shares with the caller", "statement": "A CellTree2d built from ndarrays or lists answers queries as on the day it was built whatever the caller does to the arrays afterwards; the edges of an EdgeCellTree2d remain the caller's array, so overwriting it changes the answers.", "quantifier": "all inputs, all later contents of the caller's arrays", "why_tests_cant": "Needs every possible later mutation; sharing is invisible until somebody writes.", "anchors": ["numba_celltree/cast.py:cast_vertices", "numba_celltree/cast.py:cast_faces", "numba_celltree/celltree.py:CellTree2d.__init__", "numba_celltree/edge_celltree.py:EdgeCellTree2d.__init__"]}
{"id": "C48", "title": "Point queries in binary64", "statement": "With IEEE double coordinates up to 2^k, the face assigned to a query point contains it or lies within twice the tolerance plus 2^(k-48) of it, and a point inside a face further than 2^(k-49) from its boundary is always assigned a face; with the default tolerance every point of a face that is not within 2^(k-47) of a corner is assigned one as long as some face measures 2^(k-7). The same holds for points on networks. Without these provisos a point strictly inside a face can be lost, and a side that climbs by a subnormal amount makes the tree report a point far outside.", "quantifier": "all convex meshes and networks with finite double coordinates up to 2^k (k between -150 and 250), all query points, all tolerances", "why_tests_cant": "Rounding errors show for few points, on particular sides of particular meshes; the bound covers all 2^128 points.", "anchors": ["numba_celltree/geometry_utils.py:point_in_polygon_or_on_edge", "numba_celltree/geometry_utils.py:within_perpendicular_distance", "numba_celltree/query.py:locate_point", "numba_celltree/query.py:locate_point_on_edge", "numba_celltree/celltree_base.py:default_tolerance"]}
{"id": "C49", "title": "Overlap areas in binary64", "statement": "With IEEE double coordinates up to 2^k, clipping a convex polygon of at most 12 corners against an axis-parallel rectangle gives a finite area within 2^(k-35) times the extent of the two of the exact overlap; intersect_boxes on a mesh of such rectangles returns, for every number of threads, only pairs that overlap with areas that accurate, and every pair whose overlap exceeds that error. Against slanted sides there is no such bound: two triangles with coordinates below 9 are reported to overlap by more than six times the true overlap.", "quantifier": "all rectangular meshes and boxes with finite double coordinates up to 2^k (k between -200 and 300), all thread counts", "why_tests_cant": "The rounding of the new corners, of the areas and of the early-out tests shows only for particular coordinates; the bound covers all.", "anchors": ["numba_celltree/algorithms/sutherland_hodgman.py:polygon_polygon_clip_area", "numba_celltree/algorithms/sutherland_hodgman.py:intersection", "numba_celltree/geometry_utils.py:polygon_area", "numba_celltree/celltree.py:CellTree2d.intersect_boxes", "numba_celltree/celltree.py:CellTree2d.intersect_faces"]}
{"id": "C50", "title": "Edges of a mesh", "statement": "demo.close_polygons replaces the fill values of every row by its first node and appends that node; demo.edges lists every side of every face exactly once as (smaller, larger) node in lexicographic order, drops the degenerate ones, and its rows are valid input for EdgeCellTree2d.", "quantifier": "all connectivity arrays padded with any fill value, any number of columns", "why_tests_cant": "The mask assignment relies on row-major order matching across three arrays; only particular paddings are tested.", "anchors": ["numba_celltree/demo.py:close_polygons", "numba_celltree/demo.py:edges"]}
{"id": "C51", "title": "Vertices of the demo disk", "statement": "generate_disk(partitions, depth) places the centre and, for k = 1..depth, partitions*k distinct vertices evenly spaced on the circle of radius k/depth, the first one straight above the centre; 1 + partitions*depth*(depth+1)/2 vertices in all, inside the unit circle. partitions < 3 raises ValueError and depth < 0 IndexError.", "quantifier": "all partitions and depths, exact arithmetic", "why_tests_cant": "The angles come from cumulated and repeated arrays over all levels; distinctness is a statement about all pairs.", "anchors": ["numba_celltree/demo.py:generate_disk"]}
{"id": "C52", "title": "Orientation of faces in binary64", "statement": "With IEEE double coordinates up to 2^k, construction stores each strictly convex face counter-clockwise, as the given cycle or its reversal, and normalising again changes nothing, as long as at every corner twice the area of the triangle of the three corners exceeds 9 * 2^-53 times the square of its extent. Without that proviso a strictly convex face listed counter-clockwise can be stored clockwise, and intersect_boxes then does not report its overlap with a box inside it.", "quantifier": "all meshes with finite double coordinates up to 2^k (k between -251 and 400)", "why_tests_cant": "Only faces whose last two corners are nearly straight are affected; test meshes have none.", "anchors": ["numba_celltree/geometry_utils.py:counter_clockwise", "numba_celltree/geometry_utils.py:cross_product", "numba_celltree/celltree.py:CellTree2d.intersect_boxes"]}
{"id": "C53", "title": "Overlapping faces in binary64", "statement": "With IEEE double coordinates up to 2^k, locate_faces reports, once each and whatever the number of threads, every pair of faces whose hulls have a diamond of radius 7 * 2^(k-53) in common, and no pair that lies on different sides of the line of one of their sides with a gap of 13 * 2^(k-53) across it. Closer than that rounding decides: two triangles on opposite sides of a common side can be reported, and two triangles with common inner points can be missed.", "quantifier": "all meshes and query faces with finite double coordinates up to 2^k (k between -250 and 400), sides repeated corners or at least 2^-400 long", "why_tests_cant": "The rounding of the projections depends on the size and direction of every pair of sides; the tests compare a few pairs.", "anchors": ["numba_celltree/algorithms/separating_axis.py:separating_axes", "numba_celltree/algorithms/separating_axis.py:extrema_projected", "numba_celltree/celltree.py:CellTree2d.locate_faces"]}
{"id": "C54", "title": "Barycentric weights in triangles in binary64", "statement": "On a mesh of triangles with double coordinates up to 2^k whose shape is clear of degenerate, compute_barycentric_weights succeeds; a point without a face gets three zeros. A point with a face is in its triangle or hardly outside, its weights are finite and within 80 q of the exact barycentric coordinates, where q is 2^-53 times the squared extent over twice the area of the triangle, they add up to one within 3 * 2^-53, and interpolating the corners with them gives the point back up to 70 q times the extent. Exactness fails: the corner (7, 0) of (0,0), (7,0), (0,7) does not get weight one, and (4, 1) in (0,0), (5,0), (0,5) gets a negative weight.", "quantifier": "all meshes of triangles with finite double coordinates up to 2^k (k between -150 and 250), extent at least 2^-250 and twice the area at least 1000 * 2^-53 times the squared extent; all points up to 2^k and tolerances", "why_tests_cant": "The error depends on the shape and position of the triangle; the tests compare three points with np.allclose.", "anchors": ["numba_celltree/algorithms/barycentric_triangle.py:compute_weights", "numba_celltree/algorithms/barycentric_triangle.py:barycentric_triangle_weights", "numba_celltree/celltree.py:CellTree2d.compute_barycentric_weights"]}
{"id": "C55", "title": "Box clipping in binary64", "statement": "When a segment with double coordinates stays 2^(k-45) away from the four corners of a box, cohen_sutherland_line_box_clip ends within four rounds. Its result is right up to 2^(k-46): if it reports no overlap, no point of the segment is deeper than that inside the box; otherwise both returned ends are in the box (exactly), each is that close to a point of the segment, and every point of the segment that is deeper inside the box is that close to the returned segment.", "quantifier": "all segments and boxes with finite double coordinates up to 2^k (k between -150 and 249), the box at least 2^-250 wide and high, the coordinate differences of the segment zero or at least 2^-250, any fuel from four on", "why_tests_cant": "Rounding moves the intersection with each side; whether the loop ends depends on where the segment passes the corners (without the clearance it can run forever, C45). The tests use a handful of round numbers.", "anchors": ["numba_celltree/algorithms/cohen_sutherland.py:cohen_sutherland_line_box_clip", "numba_celltree/algorithms/cohen_sutherland.py:get_clip"]}
{"id": "C56", "title": "Edge-edge intersection in binary64", "statement": "lines_intersect reports every pair of segments that cross clearly (the ends of each on different sides of the other by more than 9*2^-53*W^2, W bounding the distances of the coordinates), with a point within 37*2^-53*W^2/|D| times the extent of the first segment plus 27*2^(k-53) of the true crossing (D the cross product of the two directions), or NaN only when the segments are parallel up to the documented tolerance; it reports no pair of segments that are clearly apart. EdgeCellTree2d.intersect_edges returns exactly one row for each query edge and network edge that cross clearly, none for those clearly apart, whatever the number of threads, when the query edges keep 2^(k-44) away from the corners of the tree's bounding box.", "quantifier": "all networks and query edges with finite double coordinates up to 2^k (k between -40 and 240), the vertices 2^(k-4) apart in one direction, the coordinate differences of query edges zero or at least 2^-250; all network sizes, builder parameters, thread counts", "why_tests_cant": "Rounding in the side tests, in the clip against the bounding box and in the split distances can each lose a crossing; the tests use round coordinates and a handful of edges.", "anchors": ["numba_celltree/geometry_utils.py:lines_intersect", "numba_celltree/query.py:locate_edge", "numba_celltree/query.py:locate_edge_edges", "numba_celltree/edge_celltree.py:EdgeCellTree2d.intersect_edges"]}
{"id": "C57", "title": "Edge-face intersection in binary64", "statement": "cyrus_beck_line_polygon_clip on a segment in general position with respect to a convex polygon (no vertex within 32*2^-53*W^2 of the line, measured as cross product; the ends not that near to the lines of the crossed sides, nor within the tolerance of the polygon's boundary) returns the common part of segment and polygon, both ends within 22*2^-53*W^2/dl times the extent of the segment plus 23*2^(k-53) (W bounds the distances of the coordinates, dl the cross product of segment and crossed sides); it returns no overlap only if the common part is that short. CellTree2d.intersect_edges gives no row for faces away from the edge, such a common part for each row, and a row for each face whose common part has a point 2^(k-46) inside the face's box and is longer than that error, whatever the number of threads. Without general position it is refuted: for a strictly convex face of five corners, one of which lies a rounding error beside the line of two others, a query along that line returns a third of the common part.", "quantifier": "all convex meshes and query edges with finite double coordinates up to 2^k (k between -40 and 240) in general position in the stated sense; all mesh sizes, fills, orientations, builder parameters, thread counts", "why_tests_cant": "Rounding in the cross products, in the two intersection parameters, in the point-in-polygon test, in the box clip and in the tree walk can each drop or shift an end; the tests use round coordinates.", "anchors": ["numba_celltree/algorithms/cyrus_beck.py:cyrus_beck_line_polygon_clip", "numba_celltree/query.py:locate_edge", "numba_celltree/celltree.py:CellTree2d.intersect_edges"]}
{"id": "C58", "title": "Padding never changes an answer, except that locate_faces knows only one fill value", "statement": "Two trees built from the same faces with different fill values and numbers of columns give identical answers to locate_points, locate_boxes, intersect_boxes, intersect_edges, locate_faces, intersect_faces (whose query faces may be padded differently too), and weights that differ in trailing zeros only when both arrays have more than three columns. Triangles in a wider array get the general weights instead of the triangle formula; in exact arithmetic both are the same. locate_faces, documented to take faces padded with fill_value, reads any padding other than -1 as vertex numbers: it reports overlaps that do not exist, or reads out of bounds, where intersect_faces with the same arrays is right.", "quantifier": "all meshes, fill values, column counts up to 32, queries, thread counts, number types (the weights of triangles over exact reals)", "why_tests_cant": "Equality for all meshes and queries; a padding entry that leaks into a work array only shows for particular vertex numbers.", "anchors": ["numba_celltree/cast.py:cast_faces", "numba_celltree/geometry_utils.py:polygon_length", "numba_celltree/geometry_utils.py:copy_vertices_into", "numba_celltree/celltree.py:CellTree2d.locate_faces"]}
{"id": "C59", "title": "Areas of intersection in double precision for faces with sides in any direction", "statement": "polygon_polygon_clip_area of two counter-clockwise convex polygons whose corners, cut side by side, keep a distance d from the side they are cut by with d^2 >= 2^(k-41) W (coordinates within 2^k, both polygons within an extent W) succeeds, is finite and is within length(clipper) * 2^(k-36) * W of the exact area of the intersection. intersect_faces over binary64 returns the same rows for every thread count and every content of uninitialised memory, each pair once, each with a positive value; the value of every pair that is clear in this sense has that accuracy, and every clear pair with a small diamond in common and a larger area than the error has a row. intersect_boxes over binary64 on such faces (at most six columns) likewise; there the common diamond is not needed. Without clearance the reported area can be more than six times the exact one (C49_float_slanted_refuted).", "quantifier": "all float meshes and queries with coordinates within 2^k, -200 <= k <= 300, with few enough columns for the clipping buffer (C27); all pairs of faces that are clear", "why_tests_cant": "An error bound for all inputs; a corner decided on the wrong side of a clipping line only shows for coordinates within rounding of that line.", "anchors": ["numba_celltree/algorithms/sutherland_hodgman.py:inside", "numba_celltree/algorithms/sutherland_hodgman.py:polygon_polygon_clip_area", "numba_celltree/celltree.py:CellTree2d.intersect_faces", "numba_celltree/celltree.py:CellTree2d.intersect_boxes"]}
{"id": "C60", "title": "Wachspress weights in double precision", "statement": "compute_barycentric_weights over binary64 with more than three columns succeeds on a mesh of convex faces whose corners span triangles of twice the area D, as do the sides with the tolerance as height, where D is at least a thousand roundings of W^2 (W: the extent of the face and the tolerance). A point that is not located has a row of zeros. A located point that is away from the lines of all sides (0.98 tolerance) has the Wachspress weights up to the relative error 72 u W^2 / D + 2 n u (u = 2^-53): they are positive, sum to one up to that error and reproduce a point of the face; entries beyond the corners are zero. If the tolerance covers the rounding of the coordinates such a point is in the face or at the tolerance from a side. Otherwise the point is within 1.01 tolerance of the line of a side, and the two ends of that side have 1 - w and w up to 14 u (1 + w), w being the distance of the point from the first end over the length of the side; all other entries are zero.", "quantifier": "all float meshes and points with coordinates within 2^k, -150 <= k <= 250, all tolerances, face sizes up to 2^40 corners", "why_tests_cant": "An error bound for all inputs; tests compare a few weights with a tolerance.", "anchors": ["numba_celltree/algorithms/barycentric_wachspress.py:compute_weights", "numba_celltree/algorithms/barycentric_wachspress.py:interp_edge_case", "numba_celltree/algorithms/barycentric_wachspress.py:barycentric_wachspress_weights", "numba_celltree/celltree.py:CellTree2d.compute_barycentric_weights"]}
{"id": "C61", "title": "Compound queries equal brute force over the box pairs, whatever the threads and tuning parameters", "statement": "For every number type: intersect_boxes returns exactly the pairs of overlapping bounding boxes whose clipped area (library's clipper on the corners of that box and the vertices of that face) is positive, with that area, each once, sorted by query item, the same array for every number of threads and contents of uninitialised memory; it raises exactly if the clipper raises on one such pair. Likewise locate_faces (boxes overlap and the separating axis test passes both ways) and intersect_faces. Trees built with other n_buckets / cells_per_leaf give the same rows up to order (also intersect_edges of both classes, exact reals), raise on the same queries, and give the same weights to points at most one face claims; the order within one query item does depend on the parameters.", "quantifier": "all documented meshes, all queries, all thread counts, all pairs of parameter settings", "why_tests_cant": "Needs all meshes, queries, thread counts and pairs of parameter settings; tests compare a handful of result arrays.", "anchors": ["numba_celltree/celltree.py:CellTree2d.intersect_boxes", "numba_celltree/celltree.py:CellTree2d.locate_faces", "numba_celltree/celltree.py:CellTree2d.intersect_faces", "numba_celltree/celltree.py:CellTree2d.compute_barycentric_weights", "numba_celltree/algorithms/sutherland_hodgman.py:box_area_of_intersection", "numba_celltree/algorithms/sutherland_hodgman.py:area_of_intersection"]}
{"id": "C62", "title": "Liang-Barsky box clipping in binary64: always returns, error bound without side conditions", "statement": "For every segment and box with double coordinates up to 2^k, liang_barsky_line_box_clip returns (no division by zero, overflowing quotients included). A segment of length zero gives no overlap. Otherwise, up to e = 2^(k-49): if it reports no overlap, no point of the segment is more than e inside the box; if it returns c and d, they are within e of the points at parameters s < t in [0,1], the part of the segment between s and t stays within e of the box, and every point of the segment more than e inside the box lies between s and t. This includes segments on which Cohen-Sutherland loops forever (C45). The returned ends need not lie in the box exactly.", "quantifier": "all segments and boxes with binary64 coordinates up to 2^k, -251 <= k <= 400", "why_tests_cant": "Needs all doubles; the tests compare a few segments with exactly representable crossings.", "anchors": ["numba_celltree/algorithms/liang_barsky.py:liang_barsky_line_box_clip"]}
{"id": "C63", "title": "Arguments: exactly which shapes are accepted, and what they are taken for", "statement": "For every number type and every argument (ndarray of int64 or float64 of any shape, or nested Python lists of any depth): the constructor and the queries accept exactly the documented shapes ((n,2) points and vertices, (n,m) faces with m <= 32, (n,4) boxes, (n,2,2) edges), read element [i,j] (or [i,j,k]) of the argument for the documented coordinate, and raise ValueError on every other shape, including ragged lists and the empty list. On accepted arguments they return or raise what the functions of the other properties do on the rows. Two arguments with the same shape and the same elements (list or array) give the same results. EdgeCellTree2d does not check its edges: columns after the second are ignored. Faces given as floats are accepted and their fractions dropped.", "quantifier": "all ndarrays and nested lists, all number types, all conversions of floats to integers", "why_tests_cant": "Needs all shapes and nestings; the tests pass four or five arrays of wrong shape.", "anchors": ["numba_celltree/cast.py:cast_vertices", "numba_celltree/cast.py:cast_faces", "numba_celltree/cast.py:cast_bboxes", "numba_celltree/cast.py:cast_edges", "numba_celltree/celltree.py:CellTree2d.__init__", "numba_celltree/edge_celltree.py:EdgeCellTree2d.__init__"]}
{"id": "C64", "title": "intersect_edges distributes the length of an edge over the faces", "statement": "In exact arithmetic, for a mesh of strictly convex faces without overlaps and an edge that lies in the mesh, does not run along a side of a face and whose ends are clear of the sides of the faces by the tolerance of the point test: the lengths of the pieces that CellTree2d.intersect_edges returns for the edge add up to the length of the edge. For an edge that leaves the mesh they add up to at most its length. An edge along a side that two faces share is returned in full for both faces, so its lengths add up to at least twice its length.", "quantifier": "all meshes of strictly convex non-overlapping faces, all such edges, all tree parameters, thread counts", "why_tests_cant": "Conservation is a sum over the faces an edge meets, over all meshes and edges; the tests compare the pieces of a few edges on two meshes with stored values.", "anchors": ["numba_celltree/celltree.py:CellTree2d.intersect_edges", "numba_celltree/query.py:make_locate_edges", "numba_celltree/algorithms/cyrus_beck.py:cyrus_beck_line_polygon_clip"]}
{"id": "C65", "title": "Interpolating with the barycentric weights", "statement": "In exact arithmetic, on a mesh of strictly convex faces, interpolate values given at the nodes to a located point with the weights of compute_barycentric_weights and the nodes of tree.faces (the point in its face, and on every side whose line is within the tolerance). A linear field is reproduced at the point. The result lies between the smallest and the largest value of the face. On a side it is the linear interpolation between the two ends of the side, so two faces that share a side give the same value on it. With the caller's own faces instead of tree.faces this fails for clockwise faces, which the constructor has turned around.", "quantifier": "all meshes of strictly convex faces, all values at the nodes, all points and positive tolerances, all tree parameters", "why_tests_cant": "Universal over the values at the nodes and over polygons with any number of sides; the tests check single points of two meshes, with faces given counter-clockwise.", "anchors": ["numba_celltree/celltree.py:CellTree2d.compute_barycentric_weights", "numba_celltree/algorithms/barycentric_wachspress.py:barycentric_wachspress_weights", "numba_celltree/algorithms/barycentric_triangle.py:barycentric_triangle_weights"]}
{"id": "C66", "title": "How full the leaves are", "statement": "A node of a built tree is a leaf only if it has at most cells_per_leaf elements, or if in both directions the centres of all its boxes are in one of the n_buckets equal parts of the extent of its elements; it is divided only if it has more than cells_per_leaf elements and the centres are in at least two parts (or it has two elements and cells_per_leaf is one). In exact arithmetic, if the boxes of the faces have positive size and do not overlap (rectangles, for instance), every leaf has between one and cells_per_leaf faces. Without that the documented meaning of cells_per_leaf fails without bound: n triangles with a common corner that do not overlap are one leaf with n faces, for every n and every cells_per_leaf of two or more.", "quantifier": "all meshes and networks, all tree parameters, all numbers of triangles", "why_tests_cant": "The tests look at the nodes of trees of four faces; that a leaf can be arbitrarily large, and when it cannot, is a statement about all meshes.", "anchors": ["numba_celltree/creation.py:build", "numba_celltree/creation.py:sort_bbox_indices", "numba_celltree/celltree.py:CellTree2d"]}
{"id": "C67", "title": "Moving values between meshes with the areas of intersect_faces", "statement": "In exact arithmetic, for two meshes of strictly convex faces: building the tree on the one and querying with the other gives the transpose of building on the other and querying with the one, with the same areas. A mesh without overlaps with itself gives every face with its own area and nothing else. If the faces of the tree do not overlap, the areas of a query face add up to at most its area, and likewise for the faces of the tree. If the two meshes cover each other, the values f of the faces of the tree averaged over each query face with these areas keep the total (sum of value times area), stay between the smallest and the largest f, and are constant if f is. intersect_boxes gives the same rows as intersect_faces with the boxes as faces.", "quantifier": "all pairs of meshes of strictly convex faces, all values, all tree parameters, thread counts", "why_tests_cant": "Statements about pairs of meshes and all values; the tests compare the areas of single pairs with stored numbers.", "anchors": ["numba_celltree/celltree.py:CellTree2d.intersect_faces", "numba_celltree/celltree.py:CellTree2d.intersect_boxes", "numba_celltree/algorithms/sutherland_hodgman.py:area_of_intersection"]}
{"id": "C68", "title": "Meshes with hanging nodes", "statement": "In exact arithmetic, for meshes whose faces are strictly convex outlines with any number of further vertices (hanging nodes) inside their sides, of either orientation: locate_points returns for each point a face that contains it up to twice the tolerance, and finds every point of a face for a positive tolerance and with the default one; locate_faces reports exactly the pairs of faces with a common interior point. If every face that is listed clockwise ends with a corner rather than a hanging node, all faces are stored counter-clockwise, intersect_faces and intersect_boxes report exactly the pairs with positive common area with this area, and where the faces cover a box or a query face without overlapping, the areas add up to its area. Strictly convex meshes are a special case.", "quantifier": "all meshes of outlines with any number and position of hanging nodes, all query meshes of that kind, points, boxes, tree parameters, thread counts", "why_tests_cant": "The tests contain no face with a hanging node; quadtree meshes of any refinement are covered here.", "anchors": ["numba_celltree/celltree.py:CellTree2d", "numba_celltree/geometry_utils.py:counter_clockwise", "numba_celltree/geometry_utils.py:point_in_polygon_or_on_edge", "numba_celltree/algorithms/separating_axis.py:separating_axes", "numba_celltree/algorithms/sutherland_hodgman.py:polygon_polygon_clip_area"]}
{"id": "C69", "title": "Faces that are not convex", "statement": "In exact arithmetic, for faces that can be cut along chords into pieces that do not overlap and are convex but for hanging nodes, of either orientation: locate_points returns for each point a face that contains it up to twice the tolerance; it finds every point of a face that is not on its outline, and with a positive or the default tolerance every point of a face. The points of a face do not depend on how it is cut, except on its outline. The other queries need convex faces: for an L-shaped face locate_faces reports a face it does not overlap, intersect_boxes a wrong area, and intersect_edges a segment that leaves the face.", "quantifier": "all meshes whose faces can be cut into convex pieces, all points, tolerances and tree parameters; one mesh for the refutations", "why_tests_cant": "The tests contain no face that is not convex; the claim covers polygons with any number of vertices.", "anchors": ["numba_celltree/geometry_utils.py:point_in_polygon_or_on_edge", "numba_celltree/celltree_base.py:CellTree2dBase", "numba_celltree/query.py:locate_points", "numba_celltree/algorithms/separating_axis.py:separating_axes", "numba_celltree/algorithms/sutherland_hodgman.py:polygon_polygon_clip_area", "numba_celltree/algorithms/cyrus_beck.py:cyrus_beck_line_polygon_clip"]}
{"id": "C70", "title": "Faces that are not convex, in binary64", "statement": "In binary64, for coordinates up to 2^k and faces that can be cut along chords into pieces that do not overlap, each convex but for hanging nodes: the face locate_points returns contains the point or lies within twice the tolerance plus 2^(k-48) of it; every point of a face farther than 2^(k-49) from its outline is found, and with a tolerance of at least 2^(k-47) every point of a face farther than that from its corners; the default tolerance is that large as soon as some face extends over 2^(k-7). If only one face is a candidate, it is returned.", "quantifier": "all meshes in binary64 with coordinates up to 2^k, -150 <= k <= 250, whose faces can be cut into such pieces and whose sides are horizontal or climb by at least 2^-250, all points, tolerances and tree parameters", "why_tests_cant": "The tests contain no face that is not convex, and rounding errors depend on the coordinates.", "anchors": ["numba_celltree/geometry_utils.py:point_in_polygon_or_on_edge", "numba_celltree/celltree_base.py:CellTree2dBase", "numba_celltree/query.py:locate_points"]}
{"id": "C71", "title": "Numbering of the vertices", "statement": "Two meshes that list the same corners face by face give the same tree but for its vertices and elements, or the same error, and every query of CellTree2d gives the same answer, however the vertices are numbered, repeated, left unused or padded; the faces given to a query may be renumbered as well. Networks that list the same end points give the same answers when all their vertices have the same extents, as they do when the vertices are only reordered or repeated; a far away vertex that no edge uses can change the answers.", "quantifier": "all meshes and networks of documented form, any number type with the order laws (reals and binary64), all queries, tolerances, tree parameters and contents of uninitialised memory", "why_tests_cant": "The tests use one numbering of each mesh.", "anchors": ["numba_celltree/celltree.py:CellTree2d", "numba_celltree/edge_celltree.py:EdgeCellTree2d", "numba_celltree/geometry_utils.py:build_face_bboxes", "numba_celltree/geometry_utils.py:build_edge_bboxes"]}
{"id": "C72", "title": "Many queries at once or in several calls", "statement": "Querying two lists of points, boxes, faces or edges in one call gives the rows of the first list followed by the rows of the second, with its queries numbered after those of the first, whatever the number of threads and whatever uninitialised memory holds; an edge query that raises an error raises the error of its first failing edge in one call as in several.", "quantifier": "all trees built from meshes and networks of documented form, any number type with the order laws (reals and binary64), all lists of queries, tolerances, thread numbers and contents of uninitialised memory", "why_tests_cant": "The tests compare a few fixed lists of queries with stored answers; rows could leak between queries through the shared buffers and stacks for other lists.", "anchors": ["numba_celltree/query.py:locate_boxes", "numba_celltree/query.py:locate_edges", "numba_celltree/query.py:locate_points", "numba_celltree/celltree.py:intersect_boxes", "numba_celltree/celltree.py:intersect_faces", "numba_celltree/celltree.py:compute_barycentric_weights"]}
{"id": "C73", "title": "Points in triangles in binary64", "statement": "points_in_triangles in binary64 tests each point with the triangle of its own index, whichever way round its corners are given: a point of the triangle passes if it is not within 2^(k-49) of a side (2^k bounds the coordinates); with a tolerance of at least 2^(k-47) it passes everywhere but within 2^(k-47) of the corners; a point that passes lies up to 2^(k-49) on the inner side of all three lines, or within twice the tolerance plus 2^(k-48) of a side.", "quantifier": "all lists of points, indices, faces and vertices with coordinates up to 2^k (k from -150 to 250), all tolerances up to 2^k, all triangles whose sides are not shorter than 2^-250; for the last part triangles that are not thinner than the rounding errors", "why_tests_cant": "The margins hold for every triangle and point; the failing points of the refutation differ from a side by one part in 2^60 and no test comes that close.", "anchors": ["numba_celltree/geometry_utils.py:point_in_triangle", "numba_celltree/geometry_utils.py:points_in_triangles", "numba_celltree/geometry_utils.py:within_perpendicular_distance", "numba_celltree/geometry_utils.py:in_bounds"]}
{"id": "C74", "title": "Selecting and reordering faces and edges", "statement": "A tree built from faces[sel] or edges[sel], a selection of the elements of another tree in any order and with repetitions, finds for locate_boxes, intersect_boxes, locate_faces, intersect_faces and intersect_edges exactly the rows of the other tree whose element is selected, with the same areas and end points, renumbered; the queries may be a selection too. Points that at most one element claims are found in a copy of that element, with the same weights, or nowhere if it is not selected. On sides that two faces share, the order of the faces decides which one is found.", "quantifier": "all meshes and networks of documented form, all selections, tuning parameters, threads and explicit tolerances; any number type with the order laws, exact reals for intersect_edges", "why_tests_cant": "The tests build a few fixed trees; a selection or a new order changes the splits and hence every traversal.", "anchors": ["numba_celltree/celltree.py:CellTree2d", "numba_celltree/edge_celltree.py:EdgeCellTree2d", "numba_celltree/creation.py:initialize", "numba_celltree/query.py:locate_boxes"]}
{"id": "C75", "title": "The number of nodes that is allocated", "statement": "The number of nodes allocated, computed with doubles as int(np.ceil(n / 2)) repeatedly, is the number computed with integers for up to 2^53 elements; it is at least 2 n - 1 (enough for every tree), at most 2 n + log2 n, and no integer overflows. With at most k faces in every leaf it is at most k times the nodes used, plus k + log2 n; with one cell per leaf and faces with separate boxes exactly 2 n - 1 nodes are used. The documented overestimation of at most two times for two cells per leaf does not hold: a mesh of triangles with a common corner is one leaf, so any factor occurs.", "quantifier": "all numbers of elements up to 2^53; all meshes of documented form; any number type with the order laws", "why_tests_cant": "The tests build trees of at most a few hundred elements and do not look at the size of the allocated array.", "anchors": ["numba_celltree/creation.py:pessimistic_n_nodes", "numba_celltree/geometry_utils.py:flip"]}
{"id": "C76", "title": "Turned, mirrored, sheared or rescaled coordinates; other start corners and directions", "statement": "If all coordinates of the mesh and of the queries are put through the same invertible affine map (rotation, mirroring, shear, rescaling, shift), locate_faces, intersect_faces and intersect_boxes find the same pairs and the areas are multiplied by |det|; intersect_edges finds the same rows with the images of the end points and locate_points the same faces, for edges and points that are not within the tolerance bands. The same holds if faces list their corners from another start corner or in the other direction. Every mesh with convex faces can be built.", "quantifier": "all meshes with convex faces of documented form, all invertible affine maps, all listings of the corners, tuning parameters and threads; exact reals", "why_tests_cant": "The tests use a few fixed meshes in fixed positions; a map or another listing changes boxes, splits and the order in which corners are visited.", "anchors": ["numba_celltree/algorithms/sutherland_hodgman.py:polygon_polygon_clip_area", "numba_celltree/algorithms/cyrus_beck.py:cyrus_beck_line_polygon_clip", "numba_celltree/algorithms/separating_axis.py:separating_axes", "numba_celltree/cast.py:cast_faces", "numba_celltree/celltree.py:CellTree2d"]}
{"id": "C77", "title": "Where nodes are split", "statement": "Every node with children is divided at one of the borders of n_buckets equal parts of its extent: the elements whose centre is in a part before the border go left, the others right, both halves are non-empty, and the bounds Lmax and Rmin kept in the node are sides of elements of the left and of the right half (two elements that are to be put in a leaf each are divided without looking at centres). Over the reals the chosen border has the least estimated cost of all borders with elements on both sides. The estimate takes the extent of the left half from the last occupied part before the border only, so the chosen border need not have the least cost computed from the real extents of the halves.", "quantifier": "all meshes and networks of documented form, all n_buckets and cells_per_leaf, all nodes; any ordered numbers including binary64 for the division, exact reals for the least cost", "why_tests_cant": "The tests check the nodes of two small trees; which border is chosen depends on all centres and extents, and a wrong border gives correct but slower queries.", "anchors": ["numba_celltree/creation.py:split_plane", "numba_celltree/creation.py:build", "numba_celltree/creation.py:sort_bbox_indices", "numba_celltree/creation.py:stable_partition"]}
{"id": "C78", "title": "Depth of the tree and size of the stacks", "statement": "No node of the tree of n elements is deeper than n - cells_per_leaf, and there are meshes of convex faces, for every n, n_buckets and cells_per_leaf with n_buckets^n below the largest coordinate, for which this depth is reached; a tree of depth D whose leaves hold at most k elements has at most k * 2^D elements. As long as the depth is at most 31, none of the five tree walks (points, boxes, edges, node bounds, validation) writes beyond the 32 entries its stack starts with. The comment in constants.py sizes the stacks for 2e9 cells in balanced trees: 33 rectangles in a row already overflow 32 entries, so that the growth of the stack in push is necessary for correct answers.", "quantifier": "all meshes and networks of documented form, all parameters, all nodes and queries; any ordered numbers including binary64; exact reals for the depth that is reached", "why_tests_cant": "The tests use small balanced meshes, in which no stack ever grows; the depth of the tree depends on the positions of all elements.", "anchors": ["numba_celltree/constants.py:INITIAL_STACK_LENGTH", "numba_celltree/utils.py:push", "numba_celltree/creation.py:build", "numba_celltree/query.py:locate_box", "numba_celltree/query.py:collect_node_bounds"]}
{"id": "C79", "title": "Exchanging the roles of two meshes or networks", "statement": "Of two meshes either may be put in the tree and the other queried: locate_boxes (with the face boxes of the other mesh) and locate_faces then give the same pairs, transposed, each once, for any numbers of faces, parameters and thread counts. Over exact reals two edges that properly cross are found by intersect_edges whichever of the networks is in the tree, and the points reported are the same. In binary64 this does not carry over to everything: the areas of intersect_faces depend on the choice; an edge can be found in one direction and not in the other, because the tolerance is taken from the edge in the tree only; and a triangle of positive area is not found when queried with itself.", "quantifier": "all pairs of meshes (networks) of documented form, all parameters, all thread counts; any ordered numbers including binary64 for the pairs; exact reals for crossing edges; concrete binary64 inputs for the refutations", "why_tests_cant": "The tests query one mesh in one direction with fixed inputs; symmetry relates two trees over all inputs, and its failures need special coordinates.", "anchors": ["numba_celltree/celltree.py:locate_boxes", "numba_celltree/celltree.py:locate_faces", "numba_celltree/celltree.py:intersect_faces", "numba_celltree/edge_celltree.py:intersect_edges", "numba_celltree/algorithms/separating_axis.py:separating_axes", "numba_celltree/geometry_utils.py:lines_intersect"]}
{"id": "C80", "title": "locate_boxes depends only on the order of the coordinates", "statement": "If the x coordinates of the mesh and of the query boxes are all passed through any function that keeps their order, and the y coordinates through another one (either may also reverse the order, minimum and maximum of the boxes then being exchanged), locate_boxes gives the same pairs, although bucket limits, split planes and orientation of faces may all change. The two meshes may be in different number types: in binary64 the pairs are exactly those of exact reals, for all finite coordinates. If the functions may make different coordinates equal, as rounding does, pairs may disappear but no new pair appears.", "quantifier": "all meshes of documented form for which both trees are built, all functions monotone on the coordinates that occur, all box lists, parameters, thread counts; any ordered numbers, and any two number types", "why_tests_cant": "The tests compare one mesh with one expected answer; this relates the answers of two different trees for arbitrary functions and number types.", "anchors": ["numba_celltree/celltree.py:locate_boxes", "numba_celltree/query.py:locate_box", "numba_celltree/creation.py:build", "numba_celltree/geometry_utils.py:build_face_bboxes", "numba_celltree/geometry_utils.py:boxes_intersect"]}
{"id": "C81", "title": "The vertices of a mesh or network are located, in binary64", "statement": "In IEEE binary64, a point with the coordinates of a vertex of a face (that has another, different vertex) is assigned a face by locate_points, whatever the shape of the face, and a point with the coordinates of an end of an edge of non-zero length is assigned an edge by the network's locate_points: with the default tolerance, and with every tolerance of at least 2^-100. Coordinates are at most 2^250 (2^249 for networks) and different vertices are at least 2^-400 apart in x or y. Both bounds are needed: the ends of an edge of length 2^-600 are assigned no edge, and with a tolerance of zero no vertex of a network is assigned an edge.", "quantifier": "all meshes and networks of documented form with such coordinates for which the tree is built, all point lists, tolerances, build parameters; IEEE binary64 with every rounding", "why_tests_cant": "The tests query a few vertices of small meshes; whether a vertex is found depends on products that must neither round to a wrong sign nor underflow, for every mesh.", "anchors": ["numba_celltree/geometry_utils.py:point_in_polygon_or_on_edge", "numba_celltree/geometry_utils.py:point_on_edge", "numba_celltree/geometry_utils.py:within_perpendicular_distance", "numba_celltree/geometry_utils.py:in_bounds", "numba_celltree/celltree.py:locate_points", "numba_celltree/edge_celltree.py:locate_points", "numba_celltree/celltree_base.py:default_tolerance"]}
{"id": "C82", "title": "Wachspress weights at a corner of the face are exactly one and zero, in binary64", "statement": "In IEEE binary64, the row of weights of a point with the coordinates of a corner of the face it is assigned to has exactly the value one at that corner and exactly zero everywhere else, without any rounding error, when faces can have more than three sides (the Wachspress algorithm): interpolation returns the data of the vertex itself. The face is convex and of reasonable shape, and no side that does not end at the corner has its line within the tolerance of it. The triangle algorithm does not have this property (C54).", "quantifier": "all convex meshes of documented form and reasonable shape with coordinates up to 2^250, all points, tolerances, build parameters, row widths 4..2^40; IEEE binary64 with every rounding", "why_tests_cant": "Tests compare weights with a tolerance (np.allclose) at a handful of corners; an exact value needs the two lengths that are divided to round the same way for every side and every position.", "anchors": ["numba_celltree/algorithms/barycentric_wachspress.py:interp_edge_case", "numba_celltree/algorithms/barycentric_wachspress.py:compute_weights", "numba_celltree/algorithms/barycentric_wachspress.py:barycentric_wachspress_weights", "numba_celltree/celltree.py:compute_barycentric_weights"]}
{"id": "C83", "title": "The weights are the Wachspress weights and do not depend on the coordinate system", "statement": "In exact arithmetic, on a mesh of strictly convex faces, the row of a located point that is not within the tolerance of the line of a side of its face holds the Wachspress weights of the point, all positive, followed by zeros: the weight of a corner is proportional to the area of the triangle at the corner divided by the product of the areas of the triangles of the point with the two sides; with triangles only (other algorithm) as well. So the weights do not depend on the coordinate system: if the mesh and the point are put through the same invertible affine map, and the faces are listed from other corners or in the other direction, each corner of the face has the same weight as before.", "quantifier": "all meshes of documented form with strictly convex faces and their images under all invertible affine maps, all relistings of the faces, all points located in the same face away from the lines of its sides, all positive tolerances, build parameters and row widths; exact reals", "why_tests_cant": "Tests compare a few rows with numbers; that the same weights come out for every rotated, mirrored, sheared or rescaled copy of every mesh is a statement about pairs of runs.", "anchors": ["numba_celltree/celltree.py:compute_barycentric_weights", "numba_celltree/algorithms/barycentric_wachspress.py:compute_weights", "numba_celltree/algorithms/barycentric_wachspress.py:barycentric_wachspress_weights", "numba_celltree/algorithms/barycentric_triangle.py:compute_weights"]}
{"id": "C84", "title": "Overlaps along one horizontal or vertical line in binary64", "statement": "In binary64, if midpoint_collinear_lines reports a point, its coordinates are finite and lie, without any margin, in the bounding boxes of both segments. Two horizontal segments on one line that overlap or touch are always reported by lines_intersect, with a point whose y is exactly that of the line and whose x lies in both segments and is the middle of the overlap up to rounding; the same for vertical segments. Two horizontal (vertical) segments on different lines, however near, are never reported. EdgeCellTree2d.intersect_edges has the same rows: one row with such a point for each overlap, and none for other lines. For a descending overlap the row has no coordinates, although the docstring of midpoint_collinear_lines reserves that for segments that do not overlap.", "quantifier": "all binary64 segments with coordinates up to 2^240 whose ends differ (the first segment by at least 2^-400), all networks of documented form up to 2^240 and query edges that keep away from the corners of the box of the tree, all build parameters, fuels and thread counts", "why_tests_cant": "Tests use one or two overlaps with small integer coordinates; that no rounding moves the reported point off the line or out of a segment is a statement about all doubles.", "anchors": ["numba_celltree/geometry_utils.py:midpoint_collinear_lines", "numba_celltree/geometry_utils.py:lines_intersect", "numba_celltree/query.py:locate_edge_edges", "numba_celltree/edge_celltree.py:EdgeCellTree2d.intersect_edges"]}
{"id": "C85", "title": "Points in faces with horizontal and vertical sides in binary64", "statement": "In a mesh whose faces, convex or not, have only horizontal and vertical sides, CellTree2d.locate_points in binary64 needs no margin. With the default or any nonnegative tolerance, every point of a face gets a face, also when it lies on a side or at a corner. With tolerance zero, every face reported contains the point exactly, every point of a face that is not on its outline gets a face, and the point gets exactly that face if no other contains it.", "quantifier": "all binary64 meshes of documented form with coordinates up to 2^240 whose faces are simple polygons with axis-parallel sides at least 2^-400 long (rectangular, quadtree and L-shaped cells), all points up to 2^240, all tolerances, build parameters and thread counts", "why_tests_cant": "Tests locate a few points of small grids; that no double, however near a side, is lost or given to the wrong cell is a statement about all doubles and all meshes.", "anchors": ["numba_celltree/geometry_utils.py:point_in_polygon_or_on_edge", "numba_celltree/query.py:locate_points", "numba_celltree/celltree.py:CellTree2d.locate_points"]}
{"id": "C86", "title": "Points exactly on a side or an edge in binary64", "statement": "In binary64, every double that lies exactly on a side of a face gets a face from CellTree2d.locate_points with the default tolerance, whatever the shapes of the faces and the directions of the sides: no margin at the corners or elsewhere is needed, and no point between two neighbouring faces is lost. Likewise every double exactly on an edge of a network gets an edge from EdgeCellTree2d.locate_points. A tolerance given by the caller suffices if it is at least 2^-45 of the shorter extent of the side. With a positive tolerance smaller than that a point at distance zero from the only edge can be missed.", "quantifier": "all binary64 meshes and networks of documented form with coordinates up to 2^240, all sides at least 2^-400 long, all finite points on them, all build parameters and thread counts", "why_tests_cant": "Tests use a few points on sides of small integer grids, where the cross product is exactly zero; that its rounding error always stays below the tolerance is a statement about all doubles and all meshes.", "anchors": ["numba_celltree/geometry_utils.py:point_in_polygon_or_on_edge", "numba_celltree/geometry_utils.py:point_on_edge", "numba_celltree/geometry_utils.py:within_perpendicular_distance", "numba_celltree/celltree_base.py:default_tolerance", "numba_celltree/celltree.py:CellTree2d.locate_points", "numba_celltree/edge_celltree.py:EdgeCellTree2d.locate_points"]}
{"id": "C87", "title": "The order in which a point query looks at elements", "statement": "locate_points answers every point with the first element, in an order fixed by the tree and the point, that passes the point test, and with -1 if no element of that order passes. The order is: the elements of a leaf as stored in bb_indices; of two children that can both contain the point, first the child in which the point lies farther from the splitting limit, with ties to the left child; children that cannot contain the point are left out. The order is unique, and the contents of scratch memory do not change it.", "quantifier": "all meshes and networks of documented form over every ordered number type (reals and binary64), all build parameters, all point lists and tolerances, trees of any depth", "why_tests_cant": "Tests accept any face for points in a single face and check a handful of shared points; which of several overlapping or adjacent elements is reported depends on every node on the way down, in trees of any depth.", "anchors": ["numba_celltree/query.py:locate_point", "numba_celltree/query.py:locate_point_on_edge", "numba_celltree/query.py:locate_points", "numba_celltree/celltree.py:CellTree2d.locate_points", "numba_celltree/edge_celltree.py:EdgeCellTree2d.locate_points"]}
{"id": "C88", "title": "The order of the rows of locate_boxes", "statement": "For every tree there is one order of all faces, fixed by the tree alone (the faces of the right child before those of the left one, a leaf as stored in bb_indices), and CellTree2d.locate_boxes returns for each box, in the order of the boxes, exactly the faces whose bounding box overlaps it, in that order. So two boxes list the faces they share in the same order, and the whole returned array is determined by the tree and the boxes, for every number of threads and every content of scratch memory.", "quantifier": "all meshes of documented form over every ordered number type (reals and binary64), all build parameters, all lists of boxes, all thread counts, trees of any depth, any number of rows", "why_tests_cant": "Tests sort or compare a few rows of small meshes; that pruning, the stack, the retries with a larger buffer and the chunks never reorder, drop or double a row is a statement about all trees and all lists of boxes.", "anchors": ["numba_celltree/query.py:locate_box", "numba_celltree/query.py:locate_boxes_helper", "numba_celltree/query.py:locate_boxes", "numba_celltree/query.py:concatenate_indices", "numba_celltree/celltree.py:CellTree2d.locate_boxes"]}
