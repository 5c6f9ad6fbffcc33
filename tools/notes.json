{
 "C04": {
  "note": "REFUTED: angle_to of (-1,-1) and (-1,1) is 270. Proved instead: |angle_to| < 360, and C03 (the direction is right modulo full turns)."
 },
 "C07": {
  "note": "REFUTED: clamped accepts negative bounds and then reverses the vector. For bounds that are not negative and in order it is proved (C07_clamped_direction_partial)."
 },
 "C15": {
  "note": "shortest(): proved in full. longest(): REFUTED for arrays whose vectors are all zero (it returns None); proved for every other array."
 },
 "C16": {
  "note": "REFUTED for the array itself as source: list.extend with a generator over the live list never ends (C16_self_extend_refuted: after any number of steps one vector per step has been appended and the loop goes on). Proved for every other source in a store model with live iteration; C16_extend_bad_item: items before one that cannot be converted stay appended when the exception is raised."
 },
 "C19": {
  "note": "REFUTED: Affine * Affine and Affine * point use different index conventions. Exact characterisation of the pairs for which the law holds is proved; the diagonal/translation sub-case is C21."
 },
 "C20": {
  "note": "REFUTED by the same mismatch as C19. Exact characterisation of the transforms for which it holds is proved."
 },
 "C26": {
  "note": "REFUTED: is_conformal only checks that the matrix columns are orthogonal, so non-uniform scales are reported conformal. Proved: angles are preserved when moreover the columns have equal length."
 },
 "C28": {
  "note": "REFUTED: cached predicates keep the value for the EPSILON of their first read. Proved: they are right for any history with a constant EPSILON, and for any EPSILON history that precedes the reads."
 },
 "C33": {
  "note": "REFUTED: inflating (0,0)-(1,1) by -10 gives a 9x9 box. Proved: the exact condition under which the result is enclosed."
 },
 "C35": {
  "note": "REFUTED for polygons: the translation is not adapted to the scaling, so the result can miss the box entirely. Proved: the size is right, and the exact condition for being centred (then it is enclosed)."
 },
 "C37": {
  "note": "REFUTED for every EPSILON below 1. Proved: the image misses box * T by at most EPSILON times the longer side."
 },
 "C46": {
  "note": "REFUTED: LineSegment.from_normal with end_distance < start_distance builds a segment of negative length that contains neither its start nor its midpoint. Proved for every other constructor followed by any history of operations without negative length assignments."
 },
 "C50": {
  "note": "REFUTED as stated: for the counter-clockwise square the answer at an interior point changes from True to False once is_convex has been read (left and right polylines are swapped). Proved for polygons with at most 3 vertices or reported non-convex, that are simple or have at most 4 vertices, in every number system. C50_convex_partial adds convex polygons under its stated hypotheses; C50_convex_exact: for convex polygons with distinct vertices reads and copies never change an answer if and only if the polygon is not misread (SpecSplit.v)."
 },
 "C51": {
  "note": "Vertices, is_convex, is_simple, centroid, bounding_box and equality agree for copies, and original and copy evolve independently under every interleaved history (heap of list objects). REFUTED part: deepcopy drops the polylines, so contains_point of the deep copy can differ from the original; for copy it is proved to agree."
 },
 "C59": {
  "note": "REFUTED as stated: after reading centroid of a non-simple polygon with more than 4 vertices contains_point raises TypeError. Proved: in every reachable state on ordinary (non-NaN) coordinates this is the only failure."
 },
 "C63": {
  "note": "REFUTED: C63_refuted gives a degenerate triangle whose centroid raises ZeroDivisionError. C63_exactly_partial: over the reals it raises exactly for reported-simple polygons of zero area; C63_outcomes_partial: for any number system nothing else can go wrong."
 },
 "C72": {
  "note": "REFUTED as stated: repr omits a declared is_simple while convexity is unknown. Proved in every other reachable state."
 },
 "C65": {
  "note": "REFUTED in general: C65_refuted gives two nine-vertex polygons with a repeated edge (0,0)-(1,0) that compare equal though neither cycle is a rotation or reversed rotation of the other. The positive theorems cover every polygon whose directed edges are pairwise distinct, and (as an equivalence with the same cycle) every polygon with distinct vertices. C65_doubles: on finite doubles equality is that of the exact polygons.",
  "status": "partial"
 },
 "C64": {
  "note": "Proved for the reals and, through OrdLaws, for all non-NaN doubles (rotation/reversal up to == of the coordinates). Comparison with a non-polygon and the `self is other` shortcut are not modelled."
 },
 "C62": {
  "note": "Proved over the reals for every polygon built from vertices, in every later state. Equivariance and start-independence assume that the code reports both polygons simple (it need not: see C61)."
 },
 "C52": {
  "note": "REFUTED as stated (C52_refuted): when the last two vertices coincide the first turn is not examined and a non-convex polygon is reported convex. Proved for every polygon, after any history of operations, whose last two vertices differ, and for all triangles (C52_sound_partial); such a polygon also goes around only once (C52_goes_once_partial)."
 },
 "C53": {
  "note": "Completeness (C53_complete) and invariance under translation and positive scaling (C53_translate_scale) hold without exception. Choice of starting vertex is REFUTED for polygons whose last two vertices coincide (C53_start_refuted) and proved, with orientation reversal, otherwise (C53_start_and_direction_partial). C53_exact characterises the answer; C53_affine gives invariance under every invertible affine map."
 },
 "C60": {
  "note": "REFUTED in two ways: a repeated last vertex can make a self-crossing polygon count as convex and therefore simple (C60_crossing_refuted); the sweep misses contact where an edge begins at the point where a non-adjacent one ends (C60_all_pairs_refuted). Proved: the exact set of pairs the sweep reports (C60_sweep_exact); proper crossings are reported when the last two vertices differ; no contact implies simple without exception; agreement with checking all pairs when vertices are distinct."
 },
 "C61": {
  "note": "REFUTED: a polygon and its mirror image with different answers (C61_mirror_refuted), overlapping collinear edges reported simple (C61_collinear_refuted). Proved: invariance under every invertible affine map when the vertices are distinct (C61_affine_partial); with distinct vertices and no corner that turns straight back, is_simple is true exactly for simple closed curves, so overlapping collinear edges are reported (C61_exact_partial)."
 },
 "C55": {
  "note": "REFUTED in full: once is_convex has been read, contains_point answers False for every point of a counter-clockwise square (C55_refuted). Proved: the winding route is exact for every convex polygon (C55_winding_exact); contains_point is exact in every state while the binary-search chains have not been built, and in every state for polygons without a vertex that is extreme both horizontally and vertically. Without that restriction: exact in every state for distinct vertices whose chains are not misread (C55_not_misread_partial), in particular for clockwise polygons that start at a leftmost vertex (C55_left_first_partial)."
 },
 "C58": {
  "note": "REFUTED in full (C58_refuted: counter-clockwise square and a clockwise quadrilateral). Proved: for every convex polygon in every state the answers are all those of the winding test or all False (C58_all_or_nothing), and they agree with the winding test when no leftmost/rightmost vertex is also lowest/highest, for detected and for declared polygons. For distinct vertices the agreement is characterised exactly: the answers all agree if and only if the chains are not misread, a condition on which of the first leftmost, rightmost, lowest and highest vertices coincide and in which order they are listed; otherwise all answers are False although inner points exist (C58_exact; in every state C58_not_misread_partial)."
 },
 "C67": {
  "note": "REFUTED: for the eight points of C67_refuted the result leaves (10,1200) outside, for every iteration order of the sets: the sorted scan is only right for points that project between its end points. Points on one vertical line lose their extremes (C67_vertical_refuted). Proved instead: the hull encloses every input point when the points are not on one vertical line and every sorted scan of the run gets points projecting between its end points (C67_ahead_partial), in particular for at most seven points (C67_few_partial), and for any number of points none of which lies beyond the perpendiculars through the ends of the chord from leftmost to rightmost (C67_between_partial), for example when these are level or furthest apart (C67_level_or_far_partial).",
  "status": "partial"
 },
 "C68": {
  "note": "REFUTED as stated for the right tangent: with more than 20 vertices the binary search _right_tan_i_convex returns a wrong vertex for certain edges when the point is on the line of the edge that is its right tangent (C68_refuted: 21 vertices of a parabola; C68_two_edges_refuted: for EVERY strictly convex polygon of more than 20 vertices, the closing edge and the edge into the middle vertex). C68_tie_exact says exactly for which edges: the answer is right iff the edge ends in the last vertex, or not in the first and halving the positions meets its end in time (halving_meets); about a quarter of the edges fail. Proved: results are always vertices and no exception is raised, for every kind of number and every cache state (C68_vertices_any, C68_vertices); the linear scan is right for every polygon of up to 20 vertices, convex or not, and every point outside its hull (C68_scan); the left tangent is right for every strictly convex polygon of any size and every point beyond an edge (C68_left); both are right if in addition the right tangent touches one vertex only (C68_right_alone_partial), in particular if the point is on the line of no edge (C68_tangents_partial, C68_off_lines_alone).",
  "status": "partial"
 },
 "C69": {
  "note": "Over exact reals. Vertices, convexity and the two radius shortcuts (n > 4) for every sequence of earlier reads; n = 0, 1, 2 raise.",
  "status": "proved"
 },
 "C70": {
  "note": "REFUTED in general (C70_refuted, and C70_shallow_wrong for every star with n >= 3 and max*cos(pi/n) < min < max: the min-radius shortcut claims points outside). Proved otherwise: exact for deep stars (C70_deep_partial; C70_negative_deep_partial for both radii negative too), equal radii exact for n >= 3 and never claiming a point outside for n = 2 (C70_equal_partial, C70_even_partial); C70_never_misses holds always.",
  "status": "partial"
 },
 "C71": {
  "note": "REFUTED (C71_refuted: star(2, 1, 2) is a convex rhombus). C71_all_radii gives the exact answer and the exact truth for all real radii, C71_true_is_right that a true answer is right; C71_truth, C71_correct_partial the positive-radius form.",
  "status": "partial"
 },
 "C73": {
  "note": "REFUTED for n = 4 (axis-aligned square starting at its lower left corner contains nothing). C73_exact: exact for n >= 5; C73_square_exact: a square is exact if and only if its first corner is not both leftmost and lowest, and otherwise answers no everywhere; C73_never_wrong: a yes is always right.",
  "status": "partial"
 },
 "C74": {
  "note": "Over exact reals. C74_star for positive radii, C74_same_sign for both negative as well; with r1*r2 = 0 the area is zero and no centre of mass exists.",
  "status": "proved"
 },
 "C75": {
  "note": "REFUTED for star(4, 0, -sqrt 2) (returns to its centre, declared simple). C75_all_radii gives answer and truth for all real radii and C75_wrong_exactly exactly when they differ; C75_positive_partial also compares with a polygon of the same vertices, for positive radii.",
  "status": "partial"
 },
 "C80": {
  "note": "REFUTED for segments: two equal segments of length 0 may have different directions and then answer point_left differently, and a segment of negative length (attribute assignment, from_normal with start > end) equals one of positive length but is at other distances. Proved: all characterisations; equal segments of non-negative length are at the same distance from every point, and identical if the length is positive; equivalence also on doubles."
 },
 "C81": {
  "note": "REFUTED: for every two-element array, Vec2 + array raises TypeError and Vec2 * array (and Vec2 * Seq2, Seq2 * Vec2) returns a Vec2 whose components are Vec2s, because the vector unpacks the array as a pair (C81_vector_array_refuted, C81_no_malformed_refuted). Proved for every other length, for the array on the left, for pairs and scalars on either side, and for two sequences."
 },
 "C85": {
  "note": "REFUTED in one sentence: only the minimum is checked, so a negative maximum is accepted and reverses vectors (C85_negative_maximum_refuted). Everything else in the statement is proved, direction under good_bounds (bounds not negative and in order)."
 },
 "C86": {
  "note": "REFUTED as stated: set_epsilon assigns EPSILON before computing the square, so a caught OverflowError leaves EPSILON2 at the old value (C86_refuted); a tolerance below about 1e-162 has EPSILON2 = 0 and then no vector is null or almost equal to itself (C86_underflow_refuted). Proved: after a call that returns the globals agree, in every number system; all is well between 2^-500 and 2^500."
 },
 "C87": {
  "note": "On doubles, assuming x**0.5 is accurate to a relative 2^-52 (sqrt_ok; proved for the IEEE square root) where lengths are involved, and math.hypot to a relative 2^-52 at the two differences (hypot_at) for distance_to."
 },
 "C88": {
  "note": "On doubles; hypotheses sqrt_ok, eps_ok (EPSILON at most 1/4), coordinates between 2^-400 and 2^395 in magnitude bound."
 },
 "C89": {
  "note": "On doubles; same hypotheses as C88."
 },
 "C90": {
  "note": "On doubles; same hypotheses as C88; from_points for two points."
 },
 "C91": {
  "note": "Reading, writing and deleting slices of arrays is proved for every step. REFUTED: 'the number of vertices is fixed at construction': p[:] = (1, 2) on a triangle leaves two plain numbers (Seq2.__setitem__ and Polygon.__setitem__ pass a slice to the list with one vector as its elements); every slice assignment that does not raise leaves numbers in the list (C91_slice_numbers). Fixed length is proved for every history of integer-index assignments. REFUTED: extend is not all-or-nothing (C91_extend gives the exact effect)."
 },
 "C92": {
  "note": "Proved at the level of text: the printed string is split into tokens, parsed and evaluated by a separate reader (SpecExpr.v). Vec2, Affine, Vec2Array, BoundingBox, Polygon: reals and doubles. Line, Ray, LineSegment: exact arithmetic. REFUTED for segments: a segment of length in (0, EPSILON] (possible with from_normal) prints a text whose evaluation raises ValueError. REFUTED on doubles: Ray((0,0),(1,1)) and Line((0,0),(1,1)) read back unequal, because normalizing the printed unit vector changes it by an ulp; the ray read back is proved almost equal (C92_ray_doubles_partial). The notation of numbers is a parameter required to read back; inf and nan print as names and are excluded by that hypothesis."
 },
 "C93": {
  "note": "REFUTED in some cases, proved in the others. contains_point never classifies, so a convex polygon whose is_convex was not read takes n steps per query for ever (C93_contains_unread_refuted), and copy.deepcopy drops the chains for good (C93_contains_deepcopy_refuted); a polygon declared is_convex=True takes n steps per tangents_to_point (C93_tangents_declared_refuted); and for every n > 20 some exterior point on the line of an edge takes n steps even after is_convex was read (C93_tangents_edge_refuted). The other bounds are theorems over any number type, with the sort's cost a parameter. tangents_to_point is logarithmic for strictly convex polygons and points whose right tangent touches one vertex, after is_convex was read or for regular polygons (the _partial theorems); with two vertices on the right tangent it is logarithmic exactly when the answer is right and takes at least n steps when it is wrong (C93_tangents_tie).",
  "status": "partial"
 },
 "C94": {
  "note": "General position with margin 2^-47 M^2 for the points mentioned; products with transforms, centroid and triangles (3 vertices) excluded. C94_inside needs the margin only for edges crossing the height of the point. C94_margin_needed: 2^-57 M^2 is not enough.",
  "status": "proved"
 },
 "C95": {
  "note": "Coordinates of 11 bits on one grid, exponent within 200. C95_same_hull: same vertices as exact arithmetic; C95_raises, C95_encloses_few, C95_encloses_between follow from C66, C67. C95_limit_needed: 28-bit integers are too large. Between 12 and 27 bits nothing is claimed.",
  "status": "proved"
 },
 "C96": {
  "note": "REFUTED (C96_refuted; C96_centroid_breaks for every such star with n >= 3 and a positive radius: reading centroid stores None, after which contains_point raises TypeError). Proved exact for every history of reads without the centroid, and for two peaks with any reads: C96_mixed_radii_partial.",
  "status": "partial"
 },
 "C97": {
  "note": "REFUTED in part, on doubles: fit can stick out by an ulp (C97_fit_refuted), the center of a box near the largest double is infinite (C97_center_refuted), the polygon of a box of side 2^-600 denies interior points because a product underflows (C97_to_polygon_refuted), inflate(d).inflate(-d) is not the identity (C97_inflate_back_refuted). Proved for coordinates up to 2^999: center in the closed box and within 3 half-ulps of the midpoint; width, height, is_empty exact in sign; inflate encloses / stays inside; from_center contains its centre for widths and heights of any sign; axis-parallel transforms map the box into the transformed box, without tolerance; fit lies in the box widened by 16 * 2^-53 * M; to_polygon agrees with the box when no product can underflow.",
  "status": "partial"
 },
 "C98": {
  "note": "REFUTED in full: after is_convex was read on both sides a diamond contains its centre and its image under a turn by 45 degrees does not (C98_after_reads_refuted); on the boundary a mirror image changes the answer (C98_boundary_refuted). Proved, over exact reals: for every invertible transform, every polygon of 4+ vertices in every reachable state that has not been classified as convex (and whose centroid has not been read as None), every point off the boundary, for * and *=; triangles after any reads (with vertices not closer than EPSILON); polygons reported simple and non-convex with distinct vertices after any reads on both sides; convex polygons without corners on either side after any reads. Exactly which convex polygons with distinct vertices keep corresponding answers after arbitrary reads: those where neither the polygon nor its image is misread in the sense of C58 (C98_convex_exact).",
  "status": "partial"
 },
 "C99": {
  "note": "Over exact reals, EPSILON below one. Segments may have length zero for the distance; the regions of a segment need its length above EPSILON.",
  "status": "proved"
 },
 "C100": {
  "note": "All five operators; sequences of exactly two vectors are excluded from the TypeErrors (they are taken for pairs, C81).",
  "status": "proved"
 },
 "C101": {
  "note": "REFUTED for pivots: the rotation by 90 degrees about (1, 2^60) moves its pivot to (0, 2^60) (C101_pivot_refuted). Proved for integer coordinates up to 2^50, also for the image of every such point (C101_pivot_partial); everything else in the statement is proved in full, up to the sign of zero.",
  "status": "partial"
 },
 "C102": {
  "note": "REFUTED in the last clause: points are multiplied from the left, so the images of the axes are the rows, not the columns, unless the matrix is symmetric (C102_axes_refuted, C102_axes_partial). The rest is proved.",
  "status": "partial"
 },
 "C103": {
  "note": "REFUTED as documented (no restriction on the coordinates): C103_in_box_refuted, a convex quadrilateral with exactly representable vertices near x = 7e15 has its computed centroid outside its bounding box. Proved for integer coordinates with 24 n M^3 <= 2^53: correctly rounded centre of mass, same outcome as exact arithmetic (4 or more vertices), inside the bounding box when convex.",
  "status": "partial"
 },
 "C104": {
  "note": "REFUTED in part: the intention that vectors are ordered by length only and that transforms cannot be ordered fails against plain tuples (C104_unorderable_refuted: Vec2(1,0) > (0.0,5.0) is True). Proved for every pair of objects: what == means across classes, that it never raises and that != negates it (C104_equal), equivalence without NaN (C104_equivalence, instances C104_R and C104_float), which pairs can be ordered (C104_unorderable, C104_unorderable_partial) and how (C104_order, over R), hashes (C104_hash) and truth values (C104_truth, over R).",
  "status": "partial"
 },
 "C105": {
  "note": "REFUTED in part: reading is_convex forgets a declared is_simple (C105_simple_kept_refuted). Proved in every number system, for every state: flags tell exactly whether the value is cached (C105_cached), what writes, copies and constructors do to them (C105_writes, C105_new), and that queries never lower them (C105_reads_partial for convexity and centroid, C105_simple_kept_partial for simplicity unless it was declared without convexity).",
  "status": "partial"
 },
 "C106": {
  "note": "Enclosure, and with it the whole claim, is for at most seven points or points projecting between leftmost and rightmost: beyond that the hull itself is wrong (C67_refuted). Within it: shape (C106_shape), exact containment in every history without new vertices (C106_contains), every given point off the edge lines contained (C106_inputs), three-vertex hulls (C106_triangle), and hulls of more than three vertices on doubles of a coarse grid (C106_doubles, C106_doubles_inputs)."
 },
 "C107": {
  "note": "For at most seven points or points projecting between leftmost and rightmost; beyond that the hull itself is wrong (C67_refuted). Hulls of three vertices: region proved, containment of triangles is C56 / C106_triangle."
 },
 "C108": {
  "note": "REFUTED in two ways: a repeated last vertex makes is_convex, is_simple and centroid depend on the starting vertex (C108_properties_refuted), and after is_convex was read on both a square and its reverse disagree on an interior point (C108_contains_refuted). Proved: bounding boxes always agree (C108_bounding_box); is_convex, is_simple and centroid agree after any two histories when no edge repeats and the last two vertices differ (C108_properties_partial), in particular for distinct vertices (C108_distinct); new equal polygons contain the same points everywhere (C108_contains, triangles C108_contains_triangle), also after reads for simple non-convex polygons and after any history for convex ones without corner extremes (C108_contains_simple, C108_contains_convex). On a grid of doubles: C108_doubles, C108_doubles_contains. For convex polygons with distinct vertices the answers agree after all histories if and only if neither polygon is misread in the sense of C58 (C108_convex_exact).",
  "status": "partial"
 },
 "C109": {
  "note": "REFUTED in full (C109_refuted: the eight points of C67_refuted; after stretching the x axis the hull keeps the point that it lost before). Proved when points and images number at most seven or project between the leftmost and the rightmost one: same region (C109_region), equal polygons when no three hull vertices are on a line (C109_equal); existence without conditions (C109_exists); the condition carries over to images for at most seven points and for translations with magnification (C109_sound_images). C109_doubles: the same on doubles for transforms that are exact (C110) with points and images on a grid of 2**11 units, including == between the two hulls.",
  "status": "partial"
 },
 "C110": {
  "note": "On doubles, no assumption on the library functions. C110_limit_needed shows that the bound 2**53 cannot be dropped. The polygon part goes through C84, the containment part through C98_convex_exact."
 },
 "C111": {
  "status": "partial",
  "note": "REFUTED in full (C111_refuted: the eight points of C67_refuted; the hull of three of them encloses a point that the hull of all eight does not). Proved when the lists have at most seven points or project between the leftmost and the rightmost one: C111_monotone, C111_inner, C111_merge, C111_convex_polygon; C111_doubles on doubles of a coarse grid."
 },
 "C112": {
  "note": "Exclusion for all doubles; exactly one answer beside the shape when p - anchor does not overflow. C112_backwards_segment and C112_segment_absorbed show that the conditions on the length are needed."
 },
 "C113": {
  "note": "C113_turned needs no assumption. C113_unit and C113_assigned assume of x ** 0.5: two roundings (true of the IEEE root, C113_ex), inf and nan kept. C113_overflow: a finite ray and a finite transform whose in-place product has a NaN direction."
 },
 "C114": {
  "note": "On doubles, assuming the accuracy of %, radians, cos and sin stated in trig_ok (SpecRot.v); ideal_trig shows that correctly rounded functions meet it."
 },
 "C115": {
  "note": "Library accuracy is the hypothesis trig_ok (SpecRot.v), met by ideal_lib. The statement carries the size condition for convexity; C115_far_center_refuted shows that the doc sentence 'Regular polygons are always convex' is false of the stored doubles without it.",
  "status": "proved"
 },
 "C116": {
  "note": "Any FloatLib: only + - * / and comparisons are used. Undoing on points is stated for transforms without translation, because with translation the exact inverse does not undo the transform on points (C20, C21)."
 },
 "C117": {
  "note": "Accuracy and branch decisions on doubles; hypotheses sqrt_ok and pow_ok on the library. Vectors shorter than 2^-400 or longer than 2^400 are not covered."
 },
 "C118": {
  "note": "REFUTED part: the documented range (-180, 180] of angle and 'smallest angle' of angle_to (C118_seam_refuted, equal vectors with angles -180 and 180). The accuracy statements are proved in full."
 },
 "C119": {
  "note": "Error bounds against the nearest point of the exact line, ray or segment; hypotheses on the library as in C88."
 },
 "C120": {
  "note": "The exact image is taken of the points the shape itself reports (points property). For rays and lines the bound grows with M/l, l the length of the image of the unit direction."
 },
 "C121": {
  "note": "Error bound against the shoelace centre of mass, for every library. The statement carries the area condition; C121_thin_refuted shows that without it the property fails.",
  "status": "proved"
 },
 "C122": {
  "note": "Only points clear of the ring between the two circles; inside the ring the answer comes from the polyline test (C94 for polygons with clear turns). Library accuracy is a hypothesis as in C115.",
  "status": "proved"
 },
 "C123": {
  "note": "The statement carries the room in the area as a condition; C123_thin_refuted shows the condition is needed (an interior point of a thin integer triangle is reported outside).",
  "status": "proved"
 },
 "C124": {
  "note": "The statement carries the margin; C124_round_refuted shows it is needed for the entries of transforms.",
  "status": "proved"
 },
 "C125": {
  "note": "Direct accuracy statements; LineSegment.from_normal and the setters other than end are outside this claim."
 }
}