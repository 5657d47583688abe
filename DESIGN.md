# Formal model of numba_celltree: design

## Technique

Executable Gallina model, one definition per Python function, over an abstract
number type (`Class Num T` in `Num.v`: operations and boolean comparisons, no
laws).  The same model text is instantiated with

* `R` (exact real arithmetic, `NumR.v`) for geometric properties,
* Flocq's `binary_float 53 1024` (IEEE binary64, round to nearest even, NaN,
  infinities, signed zero, `NumB64.v`) for what must survive rounding and for
  the concrete counterexamples.

Theorems about the tree (construction, traversal, buffers, threads) are proved
once for every number type satisfying `NumOrd` (comparisons are transitive, the
finite values are totally preordered; nothing about `+ - * /`), and `NumOrd` is
proved for both instances.  `NumSub` adds the one arithmetic fact the point
test needs: the difference of two distinct finite numbers is not zero.

Exceptions are values (`res A := Ok a | Err e`):

| error | meaning |
|---|---|
| `EIndex` | array access outside `[-len, len)`: undefined behaviour in numba, since compiled array code has no bounds check |
| `EList` | the same on a typed list or tuple: numba raises IndexError |
| `EZeroDiv` | numba's ZeroDivisionError (default error model) |
| `ERuntime`, `EValue` | explicit `raise`, numpy ValueError (empty reductions, shape checks) |
| `EFuel` | a `while` loop did not end within the given number of rounds |

Uninitialised memory (`np.empty`) is a parameter of the model (`garbage T`);
C46 proves that it never reaches a result.

## Files (rocq/theories)

| files | contents |
|---|---|
| `Base` | result monad, arrays with Python index semantics, loops |
| `Num`, `NumR`, `NumB64`, `NumSub`, `NumRoom` | number class, its laws, the two instances |
| `MUtils`, `MGeometry`, `MCreation`, `MAlgorithms`, `MQuery`, `MCelltree` | the model: utils.py + constants.py, geometry_utils.py, creation.py, algorithms/*.py, query.py, celltree_base.py + celltree.py + edge_celltree.py + cast.py |
| `MCast` | cast.py and the public methods on arguments of any shape |
| `MDemo`, `MDisk` | demo.py |
| `MPar` | the `prange` loops as programs over shared cells with an arbitrary scheduler |
| `MHeap` | the constructors and query methods on a heap of numpy arrays (aliasing, copies, in-place writes) |
| `SpecTree`, `SpecQuery`, `SpecApi`, `SpecMesh`, `SpecGeom`, `SpecPoly`, `SpecArea`, `SpecPar`, `SpecHeap`, `SpecCast` | specifications that do not mention the code under study: point sets, convex polygons, areas, valid trees, brute force, schedules, heap frames |
| `P*` | proofs for any number type; `G*`, `RBase` proofs over exact reals; `F*` proofs about binary64 with rounding error bounds; `CsHang` the non-terminating clip |
| `Prop*` | the theorems of MANIFEST.json, each an `exact` of a lemma followed by `Print Assumptions`, with `Example`s that meet the hypotheses |
| `Examples` | concrete meshes, and runs of the model on them |
| `TestSuite`, `TestAlgorithms`, `TestCelltree`, `TestCast`, `TestMesh` | the repository's own tests, run on the model |

## What is modelled

Every function of these files, with file and line numbers in the comments:

* `utils.py` (stacks: `push`, `pop`, `push_both`, `pop_both`, `stack_init`),
  `constants.py`
* `geometry_utils.py`: all of it except the re-packing helpers (see below)
* `creation.py`: all of it
* `query.py`: all of it
* `algorithms/*.py`: `barycentric_triangle`, `barycentric_wachspress`,
  `cohen_sutherland`, `liang_barsky`, `cyrus_beck`, `separating_axis`,
  `sutherland_hodgman`
* `cast.py`, `celltree_base.py`, `celltree.py`, `edge_celltree.py`: the public
  methods.
* `demo.py`: `close_polygons`, `edges`, `example_1d_network`, and the vertices of
  `generate_disk` (over exact reals only).

### Simplifications

* numpy arrays are lists, rows are records (`point`, `box`, `node`, ...) and the
  `as_point`/`as_box`/`to_point`/`to_vector` helpers, which only re-pack, are
  the identity.
* Loops of the form `while size_stack > 0` are `stack_loop` with fuel.  The
  fuel of construction (`4n+2`) and of a traversal (number of nodes + 1) is
  part of the model; that it is never used up is part of the theorems (C03, C05,
  C08, C15, C16).  `cohen_sutherland` takes its fuel as an argument; over `R`
  four rounds suffice (C17), over binary64 no amount does (C45).
* The entries `bb_indices[ptr:ptr+size]` of a leaf are read before the leaf loop
  starts instead of one by one (the array is not written meanwhile).
* `copy_vertices_into`, `copy_box_vertices` return the filled part of the work
  array; the rest of the array is not threaded through the iterations of a
  loop.  `MPar`/C46 show that no iteration reads what an earlier one left.
* The result arrays `indices` and `xy` of the edge queries, always of the same
  length, are one array of rows.
* `int(np.ceil(n / 2))` and `int(length / 2)` are `(n + 1) / 2` and `n / 2` on
  integers (proved equal to the operations on doubles for `n <= 2^53`, C75).
* Integers are unbounded (`Z`); int64 overflow cannot happen for arrays that
  fit in memory and is not modelled.
* Optional arguments: `None` becomes `option`, `n_threads` is an explicit
  parameter (`nb.get_num_threads()`).
* Float literals and `TOLERANCE_FACTOR`, `MIN_TOLERANCE`, `FLOAT_MAX`, ... are
  the exact binary64 values in both instances.
* fastmath is off and no fused multiply-add is used: one rounding per operation.

### Not modelled

* plotting (`demo.plot_edges`, `demo.plot_boxes`), matplotlib's Delaunay triangulation in
  `demo.generate_disk`, the examples; the tests only as described under "Testing the model".
* dtypes other than int64 and float64 and the contiguity of arguments.  Shapes, nested
  lists and conversions between the two dtypes are modelled in `MCast` (C63); everywhere
  else the inputs are already arrays of the right rank.
* numba: compilation, caching, the thread runtime, the memory model below single
  array cell accesses, propagation of exceptions out of a `prange` loop,
  internals of typed lists.
* What an out-of-bounds access does: the model only says that one happens.
* Wall-clock time and memory use.

None of the properties C01-C88 depends on an item of this list; anything that
does (speed, cache hits, compilation) was left out of properties.jsonl.

## Properties

"Any" = every number type with ordered finite values, so in particular binary64
and exact reals.  "R" = exact reals.  "B64" = concrete binary64 computation or
proof.  Exact theorem names are in MANIFEST.json.

| id | numbers | what is modelled, how it is proved |
|---|---|---|
| C01, C02 | any | `build` index by index; inductive predicate `TreeAt` ("node idx stores exactly [lo,hi)"); big-step lemma per stack entry, induction on the size of the range |
| C03 | any | same invariant plus counting: nodes used < `pessimistic_n_nodes` |
| C04 | R, B64 | over R every centroid falls into a bucket; zero-width faces and a vertical network in projected coordinates (B64) do not. B64: bucket limits and centroids are bounded by absolute rounding errors (`FBuild`), so faces at least 2^(k-48) wide and high (coordinates up to 2^k) never fail; squares one unit in the last place wide do |
| C05, C06, C07 | any | traversal lemma over `TreeAt`; induction over queries, chunks, retries |
| C08, C09, C12, C14 | any (geometry: R) | same traversal lemma; NaN points in C13 (B64) |
| C10 | R, B64 | ray casting on strictly convex polygons; edge distance test; tolerance 0 refuted |
| C11 | B64 | answer depends on `cells_per_leaf` within the tolerance band |
| C13 | B64 | all comparisons with NaN are false |
| C15, C16 | R | clip succeeds iff the segment meets the box, hence traversal = brute force |
| C17, C18 | R | invariants of the clipping loops; point-set specification |
| C19 | R | Cyrus-Beck on strictly convex polygons; hanging node refuted (C20: B64, via the API) |
| C21, C22 | R | segment-segment intersection, collinear cases |
| C23, C24 | R | separating axes; completeness by Helly's theorem in the plane (`GHelly`) |
| C25, C40 | R | one Sutherland-Hodgman step = intersection with a half-plane; area is a function of the hull; cuts and tilings add up |
| C26, C33, C34 | any | list reasoning |
| C27 | R, any, B64 | number of vertices after each clipping step |
| C28, C29 | R, B64 | orientation of the first non-straight corner; hanging node refuted |
| C30, C31, C32 | R, B64 | barycentric identities; positivity of Wachspress weights; hanging node refuted |
| C35, C36 | any | traversal of `node_bounds`; single-node tree refuted |
| C37 | - | stacks refine lists |
| C38 | any | iterations touch disjoint cells, hence every schedule ends in the sequential memory |
| C39 | any, R | folds of min and max |
| C41, C47 | any, R, B64 | heap model, frame properties |
| C42, C43 | R | point in triangle, default tolerances |
| C44 | any | constructor validation |
| C45 | B64 | an invariant pair of floats on which `cohen_sutherland` cycles |
| C46 | any | two-run relational proof with different uninitialised memory |
| C48 | B64 | rounding error of one crossing abscissa and of one cross product (`FPoint`), compared with the exact ray-casting and distance tests for points away from the boundary; composed with the exact result C10 and the traversal lemma (`FLocate`) |
| C49 | B64 | a Sutherland-Hodgman step against an axis-parallel side places each new corner within rounding of the exact one (`FCut`, `FClip`); a polygon whose corners move a little keeps its area up to perimeter times displacement (`GMeasure`, `GClose`); shoelace rounding (`FArea`), orientation (`FOrient`) and the box traversal (`FOverlap`); slanted sides refuted |
| C50 | Z | array operations of `demo.edges` row by row: mask assignment, consecutive pairs, unique rows (`PDemo`) |
| C51 | R | block structure of the repeated and cumulated arrays of `demo.generate_disk`; injectivity of the angle (`GDisk`) |
| C52 | B64 | the loop looks at the turns of the last three corners and the first; their computed signs are right when the triangle is larger than the rounding error (`FTurn`, on top of `FOrient`); a face with two nearly straight corners refutes the claim without that proviso |
| C53 | B64 | absolute error of a projection on the normal of a side (`FSat`): a common diamond of radius 7*2^(k-53) forces the computed projections to overlap, a gap of 13*2^(k-53) across a side keeps them apart; the pairs come from `locate_faces_result`, which holds for any numbers; two concrete pairs of triangles refute exactness in both directions |
| C54 | B64 | relative error of the reciprocal of the area and of the two products, from the absolute error of the cross products (`FWeights`), for points that are outside by a fraction tau at most; the location of the points is C48, whose margin bounds tau; two concrete triangles refute exactness |
| C55 | B64 | error of one move (`FBoxClip.move_core`), an invariant on the distance of the two ends from the exact segment, and the corner clearance, which keeps a moved end from needing a second move along the same axis |
| C56 | B64 | error of the side tests and of the crossing point (`FLines`), no skipped subtree contains a point of the segment (`FEdgeTree.left_visited`, also when a quotient overflows), C55 for the bounding box, and the tolerance of the element boxes, which keeps crossings away from its border (`FNetEdges`) |
| C57 | B64 | the computed run of Cyrus-Beck makes the same choices as the exact one when all signs have a margin, so its result is the exact common part up to the rounding of the two parameters (`FCyrus`); tree walk and box clip from C55, C56 (`FMeshEdges`); the case without margin is computed |
| C58 | any / R / B64 | every query sees the faces through `copy_vertices` and `until_fill` only (`PPad`); uniqueness of the weights of a triangle; two computed runs of `locate_faces` |
| C59 | B64 | run of the float clipper coupled step by step with the exact one: corners clear of the line are decided alike (`FSlant`), new corners move by at most a rounding error times the reach over the clearance, the moved polygon stays clear (`FCouple`, `FSlantArea`), and the corners of the exact polygon are those of `SpecClear` (`GStage`); closeness of areas (`GClose`); examples by an exact rational clipper proved equal to the specification (`GClearCheck`) |
| C60 | B64 | areas, weights, sum and quotients with relative errors (`FWach`); the distance test decides correctly except between 0.98 and 1.01 tolerance (`FWachSide`); the loop as a map over the corners (`FWachLoop`); Wachspress weights defined by areas alone (`SpecWach`), their identity for either orientation (`GWachSpec`); located points are in the face or at a side (`FWachLocate`) |
| C61 | any T (edges: R) | locate_boxes equals brute force (C05) and each further step is a map over its pairs; specification by polygons, not by rows of the arrays (`PropQueries`) |
| C62 | b64 | invariant of the loop over the four half planes in terms of the exact slack; comparison of a quotient with a finite parameter is right also when the division overflows (`FLiang`, `PropFloatLiang`) |
| C63 | any T | cast.py on arrays with a shape and on nested lists (`MCast`); specification by shape and element at an index (`SpecCast`); flattening of nested lists is row-major order, by induction on the nesting (`PCast`, `PropCast`) |
| C64 | R | pieces are the common parts of the edge and the faces (C19); as intervals of the edge they do not overlap and leave no gap, and finitely many such intervals have widths adding up to one (`GPieces`, `PropPieces`) |
| C65 | R | the weights reproduce the point, sum to one and are not negative (C31, C33); on a side only the weights of its ends can differ from zero (`PropInterp`) |
| C66 | any T, R | invariant of the construction: the sizes of the buckets are the first-fit counts, so a node stays whole only if one bucket takes all its elements (`POcc`); boxes that do not overlap and have their centres in one half of their extent in both directions are one box (`PropOcc`); explicit family of triangles for the refutation |
| C67 | R | from C25: the rows are the pairs with positive common area; rows and columns of a face add up to its area (C25), or to less if it is not covered (`GPacking`, polygons that do not overlap inside a set); sums exchanged (`PropRegrid`) |
| C68 | R | an outline with hanging nodes has the same hull, interior, boundary and area as the outline (`SpecHang`, `GHang`); ray crossing, separating axes and Sutherland-Hodgman transferred along the subdivision (`GHang`); the corner test of the normalisation (`GHangMesh`); queries as C10, C23, C25 (`PropHang`) |
| C69 | R, B64 | the crossing parity is the sum of the parities of the pieces, chords cancel; it is locally constant away from the outline (`GConcave`); query as C10 (`PropConcave`); the L by computation (`PropConcaveRefuted`) |
| C70 | B64 | the loop agrees with the exact crossing parity away from the outline (`FLocate`), which is right for cut faces (`GConcave`); `FConcave`, `PropFloatConcave` |
| C71 | any / R / B64 | relation between the two trees kept by construction and by every query (`PNumber`); extents equal up to signs of zeros; a computed network with an unused vertex; `PropNumber` |
| C72 | any | collecting loops with the rows found before an error (`PBatch`), chunks joined; `PropBatch` |
| C73 | binary64 | rounding errors of the cross products from a corner; foot of the perpendicular walked to the first side reached (`FTriIn`); `PropFloatTriangle` |
| C74 | any / R / B64 | elements and boxes of the tree of the selection are the selected ones (`sel_tree`), and both trees equal brute force (C05, C08, C09, C14-C16, C61); `PropSelect` |
| C75 | Z and B64; any / R for the use | halves of integers are doubles (Flocq), so ceil and truncation are those of the exact quotient; sum of the halvings by induction; nodes of a tree with leaves of at most k elements counted on `TreeAt`; `PropAlloc` |
| C76 | R | hulls, open hulls, segments and areas under an affine map and a permutation of the corners (`GAffine`), with the exact answers of C10, C19, C23 and C25 for both meshes; `PropAffine` |
| C77 | any ordered numbers, R | the segments of the buckets are the elements of increasing parts through sorting and merging, the plane is the first minimum of the cost, and later rounds permute within the halves (`PSplit`, `GSplit`); `PropSplit` |
| C78 | any ordered numbers, R, binary64 | every division leaves an element on both sides and needs more than cells_per_leaf; the stack never holds more than depth + 1 entries (`PDepth`); a row of rectangles each n_buckets times as wide as the next loses one rectangle per division; the stack of `build` itself is not compared with a fixed one; `PropDepth` |
| C79 | any ordered numbers, R, binary64 | both answers are characterised by the specification, which is symmetric: strict overlap of boxes is, and so is the pair of separating-axis tests; tight boxes of the same corners are equal; for edges, two crossing lines have one common point; `PropSym` |
| C80 | any two ordered number types; binary64 to R | pairs are characterised by C05; boxes are spanned by corners whatever the orientation (C39), so strict inequalities between ends of boxes are inequalities between coordinates; B2R keeps the order of finite numbers; `PropOrder` |
| C81 | binary64 | at a corner one of the two vectors of the cross product is exactly zero, so the product is; the right side of the comparison is at least 2^-1000 and does not underflow; the corner is in the tight box of the face and in the widened box of the edge; complements C48, which leaves out the surroundings of the corners; `PropCorners` |
| C82 | binary64 | the corner is on the line of a side, so the side's branch is taken; the weight is a quotient of two lengths, the first exactly zero at the first end and the same number as the second at the second end, because the rounded length depends only on the values of the coordinates; `PropFloatCorner` |
| C83 | R | the loop's unnormalised weights are those of the specification (`GWach`, `GWachSpec`); a located point outside the bands is in the interior; convex polygons with the same corners have the same sides (`GArea`), areas are multiplied by the determinant, which cancels with the sum of the weights; `PropWeights` |
| C84 | binary64 | rounding is monotone and doubling is exact, so half of a rounded sum stays between the summands; products with an exact zero are zero, so both ends pass the distance test; rows by `FNetEdges`; `PropFloatMidpoint` |
| C85 | binary64 | a side with one zero component makes one product of the cross product an exact zero, so the distance test and the ray crossing are decided as over R (differences have the sign of the exact differences); the loop over the sides then is the ray rule of `GRay`, and C69's pieces give the region; `PropAxis` |
| C86 | binary64 | the two products of the cross product have the same exact value, so their difference is at most 2^-49 of the product of the extents; squares and products of powers of two are exact, so the comparison is decided; the default tolerance is at least 2^-40 of the diagonal of each box; `PropSide` |
| C87 | every number type | the order is specified in `SpecVisit` as an inductive relation on the node array without stack or loop; induction over the tree shows that the explicit stack visits the leaves in that order and stops at the first element that passes; `PropSearch` |
| C88 | every number type | the order is an inductive relation on the node array (`SpecVisit`); induction over the tree shows that skipped subtrees contribute no row and visited ones come right before left; then retries, chunks and concatenation as for C05; `PropRowOrder` |

### Behaviour found to contradict the documentation or a user's expectation

Theorems with suffix `_refuted` (and C27_nonconvex_overflow,
C22_descending_nan, C04_degenerate_fails) give concrete inputs:

* construction raises IndexError for a vertical network in projected
  coordinates (C04) and for faces of zero width at the border;
* the clipping loop of `intersect_edges` does not terminate for a plain square
  and a diagonal segment (C45);
* `node_bounds` on a tree with a single node accesses arrays out of bounds (C36);
* hanging nodes break segment clipping, orientation and interpolation weights
  (C19, C20, C29, C31, C32);
* segments that cross at a very small angle, and collinear overlaps running in
  opposite direction, give NaN coordinates (C21, C22);
* `locate_faces` does not report faces sharing an edge although its docstring
  says so (C24);
* a non-convex query face of 32 vertices overflows the clipping work arrays (C27);
* the answer for points within the tolerance outside a mesh depends on
  `cells_per_leaf` (C11);
* in projected coordinates a point strictly inside a face can be reported as
  outside with the default tolerance; a side that climbs by a subnormal amount
  captures points far outside the face (C48);
* two triangles with coordinates below 9 and sides that coincide up to rounding are reported to
  overlap by six times the area of the smaller one, although the clipping module says rounding
  should not be an issue (C49);
* `counter_clockwise` stores a strictly convex face of five corners, given
  counter-clockwise with one-decimal coordinates, clockwise, after which
  `intersect_boxes` misses a box inside it (C52);
* in binary64 `locate_faces` reports some pairs of faces that only share a side
  and not others, and misses some overlaps of a few units in the last place, with
  one-decimal coordinates (C53);
* in binary64 a corner does not always get weight one and a point of a triangle
  can get a negative weight (C54);
* in binary64 `intersect_edges` returns a third of the common part of an edge and a
  strictly convex face, when the edge runs along a side with a node that is on it
  up to rounding (C57);
* `locate_faces`, documented to take faces padded with `fill_value`, has no such argument and
  reads padding other than -1 as vertex numbers (C58);
* array-likes that hand out their own buffer are overwritten (C41);
  `EdgeCellTree2d` keeps looking at the caller's edge array (C47);
* Liang-Barsky can return ends outside the box by a rounding error (C62);
* faces given as floats are accepted and truncated, and `EdgeCellTree2d` accepts
  edge arrays with more than two columns (C63);
* an edge along a side shared by two faces is returned in full for both, so the
  lengths of its pieces add up to twice its length (C64);
* the interpolation weights belong to the nodes in the order of `tree.faces`, which
  is not the caller's order for clockwise faces; the docstring of
  `compute_barycentric_weights` does not say so (C65);
* a leaf can hold any number of faces whatever `cells_per_leaf` is, for instance
  all triangles of a fan around a common corner (C66);
* hanging nodes do no harm to locate_points and locate_faces, nor to areas as long as no clockwise face ends with one (C68); segments, weights and clockwise faces that end with a hanging node are refuted in C19, C20, C29, C31, C32;
* faces that are not convex are fine for locate_points, but not for locate_faces, intersect_boxes and intersect_edges, which accept them without complaint (C69);
* vertices that no edge uses take part in how far the boxes of the edges of a network are widened and so
  change what `EdgeCellTree2d.locate_points` finds for a given tolerance (C71);
* `points_in_triangles` in binary64 with tolerance 0 finds the point (2^30+1, 2^30) in a triangle it is outside of and not in the neighbour that contains it, across the side they share (`C73_no_margin_refuted`);
* on a side that two faces share, listing the faces in another order changes which of the two `locate_points` finds (`C74_shared_side_refuted`);
* `pessimistic_n_nodes` may allocate any number of times too many nodes also with
  two cells per leaf; its docstring says two (`C75_overestimation_refuted`);
* split_plane estimates the extent of the left half from `current_bucket.Lmax` and that of the right half from `next_bucket.Rmin`, not from all buckets of the half: a long element in an earlier bucket is ignored, and a border with a higher cost may be chosen (`C77_real_cost_refuted`). Answers do not depend on it;
* The stacks start with 32 entries, which a comment derives for 2e9 cells "for relatively balanced trees"; 33 rectangles, each twice as wide as the next, overflow them (`C78_fixed_stack_refuted`). The code grows the stack in `push`, and answers are correct;
* In binary64 the area given by `intersect_faces` for a pair of triangles depends on which one is in the tree (`C79_area_refuted`).
* In binary64 a triangle with integer corners and area 1/2 is not found by `locate_faces` when the tree contains only that triangle (`C79_self_refuted`): rounding in the separating axis test makes the triangle separated from itself.
* `lines_intersect` takes its tolerance from the edge in the tree, so that a pair of edges is found with the long edge in the tree and not with the short one in the tree (`C79_edges_refuted`);
* a point at distance zero from an edge can be missed by `EdgeCellTree2d.locate_points` with a positive tolerance (`C86_narrow_refuted`, tolerance 2^-52, coordinates near 2^53).

## Testing the model

The model was read off the source; the library cannot be run here. As a check
on that reading, `TestSuite`, `TestAlgorithms`, `TestCelltree`, `TestCast` and `TestMesh`
transcribe the tests of /repo/tests, inputs and asserted values, and evaluate
them on the model in binary64, including the two meshes of /repo/tests/data.
The transcribed tests all hold of the model. What this does not show: the asserted values
come from the test files, not from running the library, and most comparisons use
the tolerances of `np.allclose`. Left out: tests of dtypes and plotting, the faces of `test_generate_disk`, and `test_example_material`
(test_celltree.py:423-525), which needs matplotlib's triangulation.

## Testing the theorems

`seeded/LOG.jsonl`: one line per wrong program: the definition edited in a
scratch copy, the edit, the claim it breaks, the theorems that no longer build,
the theorems tightened because of it.
`failed` names the first statement in each file whose proof breaks and
`not_built` the property files that depend on one. Most entries of `failed` are
lemmas about the edited definition, and a broken lemma does not by itself show
that the theorems resting on it are false of the wrong program; it shows that
their proofs do not survive the edit.
`repo_tests_failed` lists the tests of the repository (the transcription above,
74 tests run on the wrong program in binary64) that fail; `null` if the edited
definition is not used by any of them. Of the first 219 wrong programs, 195 are
reached by the tests; 150 of these fail a test, 45 pass all of them and are
rejected only by the theorems (one of them, `b5_lb_eq`, is equivalent over the
reals).
The field is left out where the 74 tests were not run on the wrong program
(some of the last lines).

## Trusted base

* Coq 8.16.1: kernel, `vm_compute` included.  No kernel check is switched off; no
  axiom, parameter, functor or plugin is declared in this development.
* The reading of the Python code recorded in the comments of `M*.v`, with the
  simplifications above.
* Flocq is used as a library of definitions and proved lemmas about floats.  It
  declares no axioms; what it needs comes from the standard library's reals.
* Axioms reported by `Print Assumptions` (all from the standard library):

| axioms | theorems |
|---|---|
| none ("Closed under the global context") | all of C01, C02, C03, C05, C06, C07, C08, C09, C12, C26, C33, C34, C35, C36, C37, C44, C46, C50; C61 except the two edge queries and C61_order_refuted; C63 except the statements about concrete arrays; C14_edge_points_sound_complete, C27_intersect_faces_any, C27_intersect_boxes_any, C38 except C38_ccw_example, C39_bounding_boxes, C39_edge_bounding_boxes, C39_tree_box_tight, C39_edge_tree_box_tight, C41 except C41_locate_faces_turns and C41_array_like_refuted, C47_tree_is_independent, C47_edges_are_shared, C66_occupancy, C66_network_occupancy, C71_renumber, C71_unused_vertices, C72_locate_points, C72_weights, C72_boxes, C72_locate_faces, C72_intersect_faces, C72_edge_faces, C72_edge_edges, C74_selection_ok, C74_points, C74_weights, C74_locate_boxes, C74_intersect_boxes, C74_locate_faces, C74_intersect_faces, C74_edge_selection_ok, C74_edge_points, C75_overestimation, C75_tree_integers, C77_divided, C77_network_divided, C78_depth, C78_network_depth, C78_stack, C78_network_stack, C79_locate_boxes, C79_locate_faces, C80_locate_boxes, C80_coarser, C87_order_unique, C87_locate_points, C87_edge_points, C88_order_unique, C88_locate_boxes |
| `FunctionalExtensionality.functional_extensionality_dep` | C58_padding_answers, C71_numbering_faces, C71_numbering_edges |
| `ClassicalDedekindReals.sig_forall_dec` | C68_convex_mesh, C69_hanging_mesh |
| `ClassicalDedekindReals.sig_forall_dec`, `FunctionalExtensionality.functional_extensionality_dep` | C25_area_unique, C25_cut_additive, C31_edge_error, C69_region_unique, C76_mapped_vertices, C76_relisted_faces |
| these two and `ClassicalDedekindReals.sig_not_dec` | C04_nondegenerate_succeeds, C04_network_succeeds, C04_degenerate_fails, C10_locate_points_geometric, C10_default_tolerance, C14_edge_points_geometric, C15, C16, C17, C18, C19, C21, C22, C23, C24, C25 (others), C27_convex_never_overflows, C28, C30, C31 (others), C39_face_in_box, C40, C41_locate_faces_turns, C42, C43, C51, C58_triangle_wachspress, C61_intersect_edges_parameters, C61_edge_edges_parameters, C64, C65, C66_separate_faces, C66_leaf_size_refuted, C67, C68 except C68_convex_mesh, C69_locate_points, C69_default_tolerance, C69_example, C71_extent_R, C74_intersect_edges, C74_edge_edges, C75_separate_faces, C75_overestimation_refuted, C75_separate_example, C76_convex_built, C76_locate_points, C76_locate_faces, C76_intersect_faces, C76_intersect_boxes, C76_intersect_edges, C76_example, C76_relisted_example, C77_cheapest, C77_network_cheapest, C77_cheapest_example, C78_depth_attained, C78_depth_attained_example, C79_crossing_edges, C79_crossing_example, C83_rows_are_wachspress, C83_same_weights, C83_example |
| the three above and `Classical_Prop.classic` | C04_float_network_refuted, C04_float_mesh_refuted, C04_float_mesh_succeeds, C04_float_network_succeeds, C10_zero_tolerance_refuted, C11, C13, C20, C27_nonconvex_overflow, C29, C32, C38_ccw_example, C41_array_like_refuted, C45, C47_edges_refuted, C48, C49, C52, C53, C54, C55, C56, C57, C58_locate_faces_fill_refuted, C59, C60, C61_order_refuted, C62, C63_example, C63_rejected_example, C63_integers_required_refuted, C63_edge_columns_example, C69_concave_refuted, C70, C71_extent_B64, C71_unused_vertex_network_refuted, C71_example, C72_example, C73_points_in_triangles, C73_no_margin_refuted, C73_example, C74_shared_side_refuted, C74_example, C75_int_half, C75_int_half_refuted, C75_allocated, C75_flip, C75_example, C77_real_cost_refuted, C77_example, C78_fixed_stack_refuted, C78_example, C79_area_refuted, C79_self_refuted, C79_edges_refuted, C79_example, C80_exact, C80_example, C80_coarser_example, C80_exact_example, C81_mesh_vertices, C81_network_vertices, C81_needed_refuted, C81_example, C81_network_example, C82_corner_weights, C82_mesh_corner_weights, C82_example, C84_midpoint_between, C84_other_line, C84_axis_overlap, C84_network_overlap, C84_descending_refuted, C84_example, C85_axis_points, C85_example, C86_mesh_sides, C86_network_edges, C86_narrow_refuted, C86_example, C87_example, C88_example |
