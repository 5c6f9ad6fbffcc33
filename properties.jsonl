{"id": "C01", "title": "Degrees trigonometry is exact and periodic", "statement": "For every angle in degrees the cosine/sine pair used by polar vectors, rotations, regular polygons and stars equals the true (cos, sin) of that angle, is a unit vector, is the same for angles differing by any whole number of turns, and the right-angle special cases do not disturb this.", "quantifier": "every angle, every integer number of turns", "why_tests_cant": "Tests check some multiples of 15 degrees; the special cases and the reduction mod 360 must agree with the trigonometric value at every real angle.", "anchors": ["planar/util.py:cos_sin_deg", "planar/vector.py:Vec2.polar", "planar/transform.py:Affine.rotation"]}
{"id": "C02", "title": "Polar construction round-trips", "statement": "Vec2.polar(a, r) with r > 0 has length r, and its angle property differs from a by a whole number of turns; conversely every non-zero vector equals Vec2.polar(v.angle, v.length). v.angle always lies in (-180, 180].", "quantifier": "every angle, positive length, and every non-zero vector", "why_tests_cant": "Coordinates range over a continuum; a suite samples a handful of vectors and cannot rule out a branch or sign error elsewhere.", "anchors": ["planar/vector.py:Vec2.polar", "planar/vector.py:Vec2.angle", "planar/vector.py:Vec2.length"]}
{"id": "C03", "title": "angle_to points from one vector to the other", "statement": "Rotating a by a.angle_to(b) degrees gives a vector with exactly the direction of b (a positive multiple), for all non-zero a and b.", "quantifier": "every pair of non-zero vectors", "why_tests_cant": "Coordinates range over a continuum; a suite samples a handful of vectors and cannot rule out a branch or sign error elsewhere.", "anchors": ["planar/vector.py:Vec2.angle_to", "planar/vector.py:Vec2.rotated"]}
{"id": "C04", "title": "angle_to is in the documented range (-180, 180]", "statement": "For all non-zero vectors a, b the value a.angle_to(b) lies in (-180, 180] ('smallest angle').", "quantifier": "every pair of vectors", "why_tests_cant": "The failing inputs are the pairs straddling the negative x axis; a suite passes unless it happens to choose one.", "anchors": ["planar/vector.py:Vec2.angle_to"]}
{"id": "C05", "title": "normalized yields a unit vector in the same direction or null", "statement": "v.normalized() is the null vector exactly when the length of v is at most EPSILON; otherwise it has length 1 and is a positive multiple of v. Normalising twice is the same as once (EPSILON < 1).", "quantifier": "every vector and every positive EPSILON below 1", "why_tests_cant": "Coordinates range over a continuum; a suite samples a handful of vectors and cannot rule out a branch or sign error elsewhere.", "anchors": ["planar/vector.py:Vec2.normalized"]}
{"id": "C06", "title": "scaled_to and clamped bound the length", "statement": "For 0 <= min <= max and |v| > EPSILON, v.clamped(min, max) has length in [min, max], is a non-negative multiple of v, and is v itself when min <= |v| <= max; scaled_to(r) has length |r|. min > max raises ValueError. A null vector is returned unchanged up to EPSILON.", "quantifier": "every vector and every pair of bounds", "why_tests_cant": "Coordinates range over a continuum; a suite samples a handful of vectors and cannot rule out a branch or sign error elsewhere.", "anchors": ["planar/vector.py:Vec2.clamped", "planar/vector.py:Vec2.scaled_to"]}
{"id": "C07", "title": "clamped never reverses the vector", "statement": "v.clamped(min, max) is documented to be 'a vector in the same direction with a bounded length'; it must be a non-negative multiple of v and have length at least min for every accepted pair of bounds.", "quantifier": "every vector and every accepted pair of bounds", "why_tests_cant": "Negative bounds are accepted by the vector method (only the array method checks) and are not in the test suite.", "anchors": ["planar/vector.py:Vec2.clamped", "planar/vector.py:Vec2Array.clamped"]}
{"id": "C08", "title": "project and reflect obey the geometric laws", "statement": "a.project(b) is a multiple of a and b - a.project(b) is perpendicular to a; projecting again changes nothing; v.reflect(w) has the length of v, reflecting twice returns v, it keeps the component along w and negates the component across it; the null results occur exactly when |axis| <= EPSILON.", "quantifier": "every pair of vectors, every EPSILON", "why_tests_cant": "Coordinates range over a continuum; a suite samples a handful of vectors and cannot rule out a branch or sign error elsewhere.", "anchors": ["planar/vector.py:Vec2.project", "planar/vector.py:Vec2.reflect"]}
{"id": "C09", "title": "rotated is an isometry and composes additively", "statement": "v.rotated(t) preserves dot and cross products (hence length and signed angles), v.rotated(s).rotated(t) = v.rotated(s+t), rotating by any whole number of turns is the identity, and Affine.rotation(t) * v = v.rotated(t).", "quantifier": "every vector and every pair of angles", "why_tests_cant": "Coordinates range over a continuum; a suite samples a handful of vectors and cannot rule out a branch or sign error elsewhere.", "anchors": ["planar/vector.py:Vec2.rotated", "planar/transform.py:Affine.rotation", "planar/transform.py:Affine.__mul__"]}
{"id": "C10", "title": "lerp interpolates", "statement": "a.lerp(b, 0) = a and a.lerp(b, 1) = b (bit for bit for finite floats up to the sign of zero), for 0 <= t <= 1 every interpolated point lies on the segment ab at distance t*|ab| from a, and a.lerp(b,t) = b.lerp(a,1-t).", "quantifier": "every pair of vectors and every bias", "why_tests_cant": "The end-point identity in floating point must hold for every finite double; sampling cannot cover rounding cases.", "anchors": ["planar/vector.py:Vec2.lerp"]}
{"id": "C11", "title": "Vector comparison operators are a total preorder by length", "statement": "<, <=, >, >= on vectors compare lengths: exactly one of a<b, b<a, or (a<=b and b<=a) holds, <= is transitive, a<b iff |a| < |b|; == is an equivalence relation equal to componentwise equality and != is always its negation.", "quantifier": "every pair/triple of vectors", "why_tests_cant": "Coordinates range over a continuum; a suite samples a handful of vectors and cannot rule out a branch or sign error elsewhere.", "anchors": ["planar/vector.py:Vec2.__lt__", "planar/vector.py:Vec2.__le__", "planar/vector.py:Vec2.__gt__", "planar/vector.py:Vec2.__ge__", "planar/vector.py:Vec2.__eq__", "planar/vector.py:Vec2.__ne__"]}
{"id": "C12", "title": "almost_equals means distance below EPSILON", "statement": "a.almost_equals(b) is true iff the Euclidean distance between a and b is below EPSILON; it is reflexive and symmetric (for EPSILON > 0); is_null means the length is below EPSILON. Two points both almost equal to a third are within 2*EPSILON.", "quantifier": "every pair of vectors and every positive EPSILON", "why_tests_cant": "Coordinates range over a continuum; a suite samples a handful of vectors and cannot rule out a branch or sign error elsewhere.", "anchors": ["planar/vector.py:Vec2.almost_equals", "planar/vector.py:Vec2.is_null", "planar/vector.py:Vec2.distance_to"]}
{"id": "C13", "title": "Vec2Array behaves as a Python list of vectors", "statement": "Any sequence of append, extend, insert, item/slice assignment and deletion, with any (possibly negative or out-of-range) indices, leaves the array equal to the list obtained by the same list operations on the converted vectors; a failing operation (bad index) raises IndexError and leaves the array unchanged.", "quantifier": "every operation history, every index", "why_tests_cant": "The answer depends on the order of calls; the set of call histories is infinite and tests exercise a few short ones.", "anchors": ["planar/vector.py:Vec2Array.append", "planar/vector.py:Vec2Array.extend", "planar/vector.py:Vec2Array.insert", "planar/vector.py:Vec2Array.__setitem__", "planar/vector.py:Vec2Array.__delitem__", "planar/vector.py:Seq2.__getitem__"]}
{"id": "C14", "title": "Array arithmetic is elementwise and length-checked", "statement": "For +, -, *, /, // between an array and a sequence of the same length, a single vector or a scalar, element k of the result is the vector operation applied to element k; in-place forms give the same value as the out-of-place form; sequences of different length raise ValueError and leave both operands unchanged.", "quantifier": "every array length, every operand", "why_tests_cant": "Length generic and value generic; tests use arrays of 2-3 elements.", "anchors": ["planar/vector.py:Vec2Array.__add__", "planar/vector.py:Vec2Array.__iadd__", "planar/vector.py:Vec2Array.__mul__", "planar/vector.py:Vec2Array.__imul__", "planar/vector.py:Vec2Array.__truediv__", "planar/vector.py:Vec2Array.__sub__", "planar/vector.py:Vec2Array.__rsub__"]}
{"id": "C15", "title": "longest and shortest return an extremal member", "statement": "longest() returns a member of the array of maximum length and shortest() a member of minimum length, for every non-empty array (the first such member).", "quantifier": "every non-empty array", "why_tests_cant": "The failing array for longest() (all vectors zero) is an edge case a sampled suite misses; correctness over every length needs induction.", "anchors": ["planar/vector.py:Vec2Array.longest", "planar/vector.py:Vec2Array.shortest"]}
{"id": "C16", "title": "extend terminates and appends exactly the given vectors", "statement": "extend(it) terminates for every finite source, appends the converted vectors in order and nothing else - including when the source is the array itself, as list.extend does.", "quantifier": "every array and every finite source", "why_tests_cant": "Non-termination cannot be observed by a passing test; aliasing of source and target is not exercised.", "anchors": ["planar/vector.py:Vec2Array.extend"]}
{"id": "C17", "title": "Transforms form a monoid with inverses under multiplication", "statement": "Multiplication of transforms is associative, identity is neutral, the determinant is multiplicative, and for every transform with |det| >= EPSILON, T * ~T and ~T * T are the identity matrix and ~~T = T when |1/det| >= EPSILON.", "quantifier": "every triple of transforms, every EPSILON > 0", "why_tests_cant": "Coordinates range over a continuum; a suite samples a handful of vectors and cannot rule out a branch or sign error elsewhere.", "anchors": ["planar/transform.py:Affine.__mul__", "planar/transform.py:Affine.__invert__", "planar/transform.py:Affine.determinant"]}
{"id": "C18", "title": "Inversion fails exactly on degenerate transforms", "statement": "~T raises TransformNotInvertibleError iff |determinant| < EPSILON (is_degenerate), and never raises ZeroDivisionError when EPSILON > 0.", "quantifier": "every transform, every EPSILON", "why_tests_cant": "The boundary is a real-valued threshold.", "anchors": ["planar/transform.py:Affine.__invert__", "planar/transform.py:Affine.is_degenerate"]}
{"id": "C19", "title": "Composition agrees with application", "statement": "(A * B) * p = A * (B * p) for every point p: a product of transforms applies its factors right to left.", "quantifier": "every pair of transforms and every point", "why_tests_cant": "Existing tests compose only scales and translations or compare matrices; the discrepancy only appears when a factor with an off-diagonal part is combined with a translation or another non-commuting factor.", "anchors": ["planar/transform.py:Affine.__mul__"]}
{"id": "C20", "title": "The inverse undoes the transform on points", "statement": "~T * (T * p) = p for every invertible T and every point p.", "quantifier": "every invertible transform and every point", "why_tests_cant": "Tests compare ~T*T with the identity matrix, not its effect on points.", "anchors": ["planar/transform.py:Affine.__invert__", "planar/transform.py:Affine.__mul__"]}
{"id": "C21", "title": "Where composition and inversion do act correctly on points", "statement": "For transforms whose linear parts are axis-aligned scales (any products of translation and scale), composition agrees with successive application and the inverse undoes the transform on points; and for arbitrary transforms successive application is itself an affine map with determinant det A * det B, so the set of transformations is closed.", "quantifier": "every diagonal transform; every pair of transforms", "why_tests_cant": "Coordinates range over a continuum; a suite samples a handful of vectors and cannot rule out a branch or sign error elsewhere.", "anchors": ["planar/transform.py:Affine.__mul__", "planar/transform.py:Affine.__invert__", "planar/transform.py:Affine.translation", "planar/transform.py:Affine.scale"]}
{"id": "C22", "title": "Determinant is the signed area factor", "statement": "For every triangle and every polygon the signed area of the transformed vertices equals determinant times the signed area of the original; a transform with determinant 0 maps every triangle to zero area.", "quantifier": "every transform, every polygon of any size", "why_tests_cant": "Coordinates range over a continuum; a suite samples a handful of vectors and cannot rule out a branch or sign error elsewhere.", "anchors": ["planar/transform.py:Affine.determinant", "planar/transform.py:Affine.__mul__", "planar/transform.py:Affine.itransform"]}
{"id": "C23", "title": "Transforms preserve collinearity, parallelism and ratios", "statement": "If p lies at ratio t between q and r then T*p lies at ratio t between T*q and T*r; parallel segments map to parallel segments; midpoints map to midpoints.", "quantifier": "every transform and every configuration of points", "why_tests_cant": "Coordinates range over a continuum; a suite samples a handful of vectors and cannot rule out a branch or sign error elsewhere.", "anchors": ["planar/transform.py:Affine.__mul__"]}
{"id": "C24", "title": "rotation about a pivot is a rigid motion fixing the pivot", "statement": "Affine.rotation(t, pivot) * pivot = pivot, distances between any two points are preserved, and the vector from the pivot is rotated by t degrees.", "quantifier": "every angle, pivot and point", "why_tests_cant": "Coordinates range over a continuum; a suite samples a handful of vectors and cannot rule out a branch or sign error elsewhere.", "anchors": ["planar/transform.py:Affine.rotation"]}
{"id": "C25", "title": "is_orthonormal transforms preserve distances", "statement": "If is_orthonormal is true then for all points the squared distance changes by a relative amount of at most 2*EPSILON; with exact orthonormal columns distances are preserved exactly, and every rotation/translation is reported orthonormal; the determinant is then +1 or -1.", "quantifier": "every transform, every pair of points", "why_tests_cant": "Quantifies over all transforms accepted by a tolerance test.", "anchors": ["planar/transform.py:Affine.is_orthonormal", "planar/transform.py:Affine.is_conformal"]}
{"id": "C26", "title": "is_conformal means angles are preserved", "statement": "is_conformal is documented as 'angles between points are preserved'; whenever it is true the transform must preserve perpendicularity and angles between all pairs of vectors.", "quantifier": "every transform reported conformal, every pair of vectors", "why_tests_cant": "Counterexamples are non-uniform scales, which the suite lists as conformal.", "anchors": ["planar/transform.py:Affine.is_conformal"]}
{"id": "C27", "title": "itransform equals mapping the transform over the sequence", "statement": "T.itransform(seq) leaves in seq exactly the list of T * v in order with the same length, including the shortcut for the identity; seq *= T and T * seq give equal vertex lists.", "quantifier": "every transform and every sequence length", "why_tests_cant": "Induction on the length and a case split on exact identity.", "anchors": ["planar/transform.py:Affine.itransform", "planar/vector.py:Seq2.__imul__", "planar/vector.py:Vec2Array.__imul__"]}
{"id": "C28", "title": "Cached transform predicates never go stale", "statement": "is_identity, is_rectilinear, is_conformal, is_orthonormal, is_degenerate always reflect the current EPSILON, whatever was read before set_epsilon was called.", "quantifier": "every transform and every interleaving of property reads and set_epsilon calls", "why_tests_cant": "The answer depends on the order of calls; the set of call histories is infinite and tests exercise a few short ones.", "anchors": ["planar/util.py:cached_property", "planar/transform.py:Affine.is_degenerate", "planar/__init__.py:set_epsilon"]}
{"id": "C29", "title": "BoundingBox of points is the tightest enclosing box", "statement": "For every non-empty list of points, min_point/max_point are the coordinatewise minimum/maximum, every point lies inside the closed box, each of the four sides is attained by some input point; the empty list raises ValueError. Holds for IEEE doubles other than NaN as well as for real numbers.", "quantifier": "every non-empty list of points", "why_tests_cant": "The if/elif update could skip an update for some order of the points; only induction over all lists covers every order.", "anchors": ["planar/box.py:BoundingBox._init_min_max"]}
{"id": "C30", "title": "from_shapes is the smallest box around all shapes", "statement": "The box from from_shapes encloses every vertex of every shape and is contained in every box enclosing all of them; the result does not depend on the order of the shapes.", "quantifier": "every non-empty list of shapes", "why_tests_cant": "Unbounded number of shapes and orders.", "anchors": ["planar/box.py:BoundingBox.from_shapes"]}
{"id": "C31", "title": "Half-open containment tiles the plane", "statement": "If a box is cut by any vertical or horizontal line into two boxes, a point is in the original iff it is in exactly one of the two parts; an empty box contains no point; a contained point lies in the closed box. Holds bit-exactly on doubles.", "quantifier": "every box, every cut, every point", "why_tests_cant": "Boundary behaviour for all points of all boxes.", "anchors": ["planar/box.py:BoundingBox.contains_point", "planar/box.py:BoundingBox.is_empty"]}
{"id": "C32", "title": "from_center and inflate", "statement": "from_center(c, w, h) has centre c, width |w| and height |h|; inflate(d) keeps the centre and changes width to |w + dx| and height to |h + dy|, so inflating by non-negative amounts encloses the original box and inflate by d then by -d restores it when d >= 0.", "quantifier": "every box, centre and amount", "why_tests_cant": "Coordinates range over a continuum; a suite samples a handful of vectors and cannot rule out a branch or sign error elsewhere.", "anchors": ["planar/box.py:BoundingBox.from_center", "planar/box.py:BoundingBox.inflate", "planar/box.py:BoundingBox.center"]}
{"id": "C33", "title": "inflate with a negative amount never enlarges", "statement": "Documented: 'Negative values reduce the size accordingly'. inflate by a negative amount must give a box no wider and no taller than the original.", "quantifier": "every box and negative amount", "why_tests_cant": "Needs amounts below minus twice the size, which tests omit.", "anchors": ["planar/box.py:BoundingBox.inflate"]}
{"id": "C34", "title": "Fitting a box in a box", "statement": "For boxes of positive width and height, box.fit(other) is centred in box, is enclosed by box, keeps the aspect ratio, and touches box in at least one dimension; a zero-width or zero-height argument raises ZeroDivisionError.", "quantifier": "every pair of boxes", "why_tests_cant": "Coordinates range over a continuum; a suite samples a handful of vectors and cannot rule out a branch or sign error elsewhere.", "anchors": ["planar/box.py:BoundingBox.fit"]}
{"id": "C35", "title": "Fitting any shape in a box", "statement": "box.fit(shape) for a polygon returns a shape whose bounding box is centred in and enclosed by box.", "quantifier": "every box and every polygon with non-degenerate bounding box", "why_tests_cant": "The existing tests only use shapes where the defect cancels.", "anchors": ["planar/box.py:BoundingBox.fit", "planar/transform.py:Affine.translation", "planar/transform.py:Affine.scale"]}
{"id": "C36", "title": "Transforming a box by a rectilinear transform", "statement": "For an exactly rectilinear transform (quarter turns, axis scales, flips, translations) box * T is the bounding box of the image: the image of every point of the closed box is in it and it is tight; for a transform reported non-rectilinear the result is the polygon of the four transformed corners. is_rectilinear itself means: level segments become level and upright ones upright, or the two are exchanged, with a slant below EPSILON times their length; and every invertible transform that keeps axis-parallel segments axis-parallel is reported rectilinear for every positive EPSILON.", "quantifier": "every box and transform", "why_tests_cant": "Coordinates range over a continuum; a suite samples a handful of vectors and cannot rule out a branch or sign error elsewhere.", "anchors": ["planar/box.py:BoundingBox.__mul__", "planar/box.py:BoundingBox.to_polygon", "planar/transform.py:Affine.is_rectilinear"]}
{"id": "C37", "title": "box * T encloses the transformed box", "statement": "Whenever T.is_rectilinear is reported, the image of every point of the box lies in box * T (within EPSILON).", "quantifier": "every box and every transform reported rectilinear", "why_tests_cant": "Needs boxes with coordinates large relative to 1/EPSILON.", "anchors": ["planar/box.py:BoundingBox.__mul__", "planar/transform.py:Affine.is_rectilinear"]}
{"id": "C38", "title": "Box and its polygon agree on containment", "statement": "box.to_polygon() is convex, has the box as its bounding box, and contains_point gives the same answer on the polygon as on the box for every point, for every box of positive area.", "quantifier": "every box and point", "why_tests_cant": "Interplay of the y-monotone test and half-open rules over all points including edges and corners.", "anchors": ["planar/box.py:BoundingBox.to_polygon", "planar/polygon.py:Polygon.contains_point", "planar/polygon.py:Polygon._pnp_y_monotone_test"]}
{"id": "C39", "title": "direction and normal stay orthonormal", "statement": "After any history of constructors, direction/normal assignments (including rejected ones) and in-place transforms, a line, ray or segment has unit direction, unit normal, and normal = direction turned clockwise by 90 degrees; a rejected assignment (null vector) raises ValueError and changes nothing.", "quantifier": "every history of operations", "why_tests_cant": "The answer depends on the order of calls; the set of call histories is infinite and tests exercise a few short ones.", "anchors": ["planar/line.py:_LinearGeometry.direction", "planar/line.py:_LinearGeometry.normal", "planar/line.py:Line.__imul__", "planar/line.py:Ray.__imul__", "planar/line.py:LineSegment.__imul__"]}
{"id": "C40", "title": "Line sides partition the plane", "statement": "For every line and point exactly one of point_left, point_right, contains_point holds; point_left/right correspond to the sign of the cross product of the direction with the vector to the point. Partition holds on doubles other than NaN.", "quantifier": "every line, every point, every EPSILON > 0", "why_tests_cant": "Coordinates range over a continuum; a suite samples a handful of vectors and cannot rule out a branch or sign error elsewhere.", "anchors": ["planar/line.py:Line.point_left", "planar/line.py:Line.point_right", "planar/line.py:Line.contains_point", "planar/line.py:Line.distance_to"]}
{"id": "C41", "title": "Line.project is the closest point and distance_to the signed distance", "statement": "line.project(p) is on the line, no point of the line is closer to p, |distance_to(p)| is that distance, and reflect(p) is the mirror image: an involution that preserves distances and negates the signed distance.", "quantifier": "every line and point", "why_tests_cant": "Coordinates range over a continuum; a suite samples a handful of vectors and cannot rule out a branch or sign error elsewhere.", "anchors": ["planar/line.py:Line.project", "planar/line.py:Line.distance_to", "planar/line.py:Line.reflect"]}
{"id": "C42", "title": "Lines round-trip through points", "statement": "Line.from_points(line.points) equals line; Line(p, d) contains p and p + t*d for every t; parallel(p)/perpendicular(p) contain p; from_points of a list succeeds only if all points lie within EPSILON of the line and raises ValueError if fewer than two distinct points.", "quantifier": "every line and every list of points", "why_tests_cant": "Quantifies over lists of any length.", "anchors": ["planar/line.py:Line.from_points", "planar/line.py:Line.points", "planar/line.py:Line.parallel", "planar/line.py:Line.perpendicular", "planar/line.py:Line.from_normal"]}
{"id": "C43", "title": "Ray distance is the true distance to the half-line", "statement": "ray.distance_to(p) is the minimum distance from p to the points anchor + t*direction, t >= 0; contains_point holds iff that distance is below EPSILON; project(p) is within EPSILON of the closest point.", "quantifier": "every ray and point", "why_tests_cant": "Coordinates range over a continuum; a suite samples a handful of vectors and cannot rule out a branch or sign error elsewhere.", "anchors": ["planar/line.py:Ray.distance_to", "planar/line.py:Ray.project", "planar/line.py:Ray.contains_point"]}
{"id": "C44", "title": "Ray regions partition the plane", "statement": "Every point is exactly one of: behind, left, right, or within EPSILON of the carrier line and not behind.", "quantifier": "every ray and point", "why_tests_cant": "Coordinates range over a continuum; a suite samples a handful of vectors and cannot rule out a branch or sign error elsewhere.", "anchors": ["planar/line.py:Ray.point_behind", "planar/line.py:Ray.point_left", "planar/line.py:Ray.point_right"]}
{"id": "C45", "title": "Segment distance is the true distance to the segment", "statement": "For every segment of non-negative length, distance_to(p) is the minimum distance from p to the points between start and end, contains_point holds iff it is below EPSILON, project is within EPSILON of the closest point; regions behind/ahead/left/right and the remainder are exhaustive and left/right exclude behind/ahead.", "quantifier": "every segment and point", "why_tests_cant": "Coordinates range over a continuum; a suite samples a handful of vectors and cannot rule out a branch or sign error elsewhere.", "anchors": ["planar/line.py:LineSegment.distance_to", "planar/line.py:LineSegment.project", "planar/line.py:LineSegment.point_ahead", "planar/line.py:LineSegment.point_left"]}
{"id": "C46", "title": "A segment contains its end points and length is non-negative", "statement": "Every constructible segment has length >= 0 equal to the distance from start to end, and contains its start, end and midpoint.", "quantifier": "every way of constructing a segment", "why_tests_cant": "from_normal with end before start is not in the tests.", "anchors": ["planar/line.py:LineSegment.from_normal", "planar/line.py:LineSegment.vector", "planar/line.py:LineSegment.end"]}
{"id": "C47", "title": "Segment construction from points", "statement": "LineSegment.from_points(ps) starts at the first point, ends at a furthest point from it, accepts only if every point lies within EPSILON of the segment, and LineSegment.from_points(s.points) equals s for segments longer than EPSILON.", "quantifier": "every list of points", "why_tests_cant": "Coordinates range over a continuum; a suite samples a handful of vectors and cannot rule out a branch or sign error elsewhere.", "anchors": ["planar/line.py:LineSegment.from_points", "planar/line.py:LineSegment.points"]}
{"id": "C48", "title": "In-place transforms of linear shapes are atomic and match the point images", "statement": "shape *= T either moves the defining points to their images or raises ValueError leaving the object unchanged (when the image direction is null); T * shape carries every point of the shape to the transformed shape.", "quantifier": "every line/ray/segment and transform", "why_tests_cant": "The answer depends on the order of calls; the set of call histories is infinite and tests exercise a few short ones.", "anchors": ["planar/line.py:Line.__imul__", "planar/line.py:Ray.__imul__", "planar/line.py:LineSegment.__imul__", "planar/transform.py:Affine.__mul__"]}
{"id": "C49", "title": "Cached polygon properties are history independent", "statement": "After any sequence of vertex assignments, in-place transforms, copies and reads, is_convex, is_simple, centroid and bounding_box return the value a freshly built polygon with the same vertices returns (when no convexity/simplicity declaration was made at construction).", "quantifier": "every history of reads and writes", "why_tests_cant": "The answer depends on the order of calls; the set of call histories is infinite and tests exercise a few short ones.", "anchors": ["planar/polygon.py:Polygon._clear_cached_properties", "planar/polygon.py:Polygon.__setitem__", "planar/polygon.py:Polygon.__imul__", "planar/polygon.py:Polygon.__copy__", "planar/polygon.py:Polygon.is_convex", "planar/polygon.py:Polygon.is_simple", "planar/polygon.py:Polygon.centroid", "planar/polygon.py:Polygon.bounding_box"]}
{"id": "C50", "title": "contains_point is history independent", "statement": "contains_point(p) gives the same answer before and after any sequence of reads of is_convex, is_simple, centroid, bounding_box or other containment queries on the same vertices.", "quantifier": "every polygon, point and history of reads", "why_tests_cant": "The answer depends on the order of calls; the set of call histories is infinite and tests exercise a few short ones.", "anchors": ["planar/polygon.py:Polygon.contains_point", "planar/polygon.py:Polygon._split_y_polylines", "planar/polygon.py:Polygon.centroid"]}
{"id": "C51", "title": "Copies are equal and independent", "statement": "copy and deepcopy of a polygon have equal vertices and give the same answers, and assigning to a vertex of one never changes any observable of the other.", "quantifier": "every polygon state and history after the copy", "why_tests_cant": "The answer depends on the order of calls; the set of call histories is infinite and tests exercise a few short ones.", "anchors": ["planar/polygon.py:Polygon.__copy__", "planar/polygon.py:Polygon.__deepcopy__"]}
{"id": "C52", "title": "is_convex is sound", "statement": "If is_convex (computed, not declared) is true and the polygon is not degenerate, every vertex lies on the same closed side of the line through every edge.", "quantifier": "every polygon with any number of vertices", "why_tests_cant": "Turn-sign and direction-change counting must imply global convexity for every vertex list; pentagram-like winding-2 curves are the classic counterexample.", "anchors": ["planar/polygon.py:Polygon._classify", "planar/polygon.py:Polygon.is_convex"]}
{"id": "C53", "title": "is_convex is complete and invariant", "statement": "If every vertex lies on the same side of every edge and the polygon goes around once, is_convex is true; the answer is invariant under translation, scaling, choice of starting vertex and orientation reversal.", "quantifier": "every convex polygon with any number of vertices", "why_tests_cant": "Unbounded number of vertices and positions of the start vertex.", "anchors": ["planar/polygon.py:Polygon._classify"]}
{"id": "C54", "title": "General point test computes the winding number", "statement": "The general (non-convex) containment test returns true iff the winding number of the vertex cycle around the point is non-zero, with points on the boundary counted by the half-open rule; the winding number of a cycle is the sum of the winding numbers of the triangles of any fan, so adjoining polygons sharing an edge never both miss or double count a point.", "quantifier": "every closed vertex cycle and point", "why_tests_cant": "Tests compare a few polygons with a reference implementation on a grid.", "anchors": ["planar/polygon.py:Polygon._pnp_winding_test"]}
{"id": "C55", "title": "Containment in convex polygons is exact", "statement": "For a strictly convex polygon, contains_point is true for every point strictly inside all edges, false for every point strictly outside some edge, and on the boundary follows the half-open rule (left/top edges included).", "quantifier": "every convex polygon and point", "why_tests_cant": "Coordinates range over a continuum; a suite samples a handful of vectors and cannot rule out a branch or sign error elsewhere.", "anchors": ["planar/polygon.py:Polygon.contains_point", "planar/polygon.py:Polygon._pnp_winding_test", "planar/polygon.py:Polygon._pnp_y_monotone_test"]}
{"id": "C56", "title": "Triangle containment agrees with the general test", "statement": "For every non-degenerate triangle whose two shorter sorted edges are longer than EPSILON the barycentric test gives the same answer as the winding test for every point, whatever the vertex order.", "quantifier": "every triangle and point", "why_tests_cant": "Two inclusive/exclusive branches must agree with the half-open rule on all edges and vertices.", "anchors": ["planar/polygon.py:Polygon._pnp_triangle_test", "planar/polygon.py:Polygon._pnp_winding_test"]}
{"id": "C57", "title": "The bounding-box filter never changes the answer", "statement": "For polygons answered by the general test, rejecting points outside the half-open bounding box first never changes the result.", "quantifier": "every polygon and point", "why_tests_cant": "Mismatch of half-open conventions would only show on boundary points.", "anchors": ["planar/polygon.py:Polygon.contains_point", "planar/box.py:BoundingBox.contains_point"]}
{"id": "C58", "title": "The y-monotone test agrees with the winding test", "statement": "For convex polygons (declared or detected), the binary-search containment test answers exactly as the winding test for every point.", "quantifier": "every convex polygon and point", "why_tests_cant": "Depends on which vertex is first and on the winding direction; tests use a few fixed polygons.", "anchors": ["planar/polygon.py:Polygon._pnp_y_monotone_test", "planar/polygon.py:Polygon._split_y_polylines"]}
{"id": "C59", "title": "Containment queries never raise", "statement": "contains_point(p) returns a boolean for every polygon of three or more vertices and every point, whatever properties were read before.", "quantifier": "every polygon, point and history", "why_tests_cant": "The answer depends on the order of calls; the set of call histories is infinite and tests exercise a few short ones.", "anchors": ["planar/polygon.py:Polygon.contains_point", "planar/polygon.py:Polygon.centroid"]}
{"id": "C60", "title": "is_simple is invariant and detects crossings", "statement": "If two non-adjacent edges cross properly, is_simple is false; if no two non-adjacent edges share a point, is_simple is true; the sweep gives the same answer as checking all pairs of edges.", "quantifier": "every polygon of any size", "why_tests_cant": "Sweep bookkeeping over all vertex lists.", "anchors": ["planar/polygon.py:Polygon._check_is_simple", "planar/polygon.py:Polygon._segments_intersect"]}
{"id": "C61", "title": "is_simple is independent of orientation of the plane", "statement": "Polygons that are mirror images of each other have the same is_simple, and polygons with overlapping collinear edges are reported non-simple.", "quantifier": "every polygon", "why_tests_cant": "The degenerate touching/overlapping configurations are a measure-zero set that random tests never hit.", "anchors": ["planar/polygon.py:Polygon._check_is_simple", "planar/polygon.py:Polygon._segments_intersect"]}
{"id": "C62", "title": "Centroid is the centre of mass", "statement": "For a simple polygon with non-zero area the centroid equals the area-weighted average given by the shoelace formula; it is independent of the starting vertex and orientation, and is equivariant: the centroid of T*P is T*centroid(P) for every invertible transform; for convex polygons it lies inside.", "quantifier": "every simple polygon and transform", "why_tests_cant": "Coordinates range over a continuum; a suite samples a handful of vectors and cannot rule out a branch or sign error elsewhere.", "anchors": ["planar/polygon.py:Polygon.centroid"]}
{"id": "C63", "title": "centroid never raises", "statement": "Reading centroid returns a point or None for every polygon.", "quantifier": "every polygon", "why_tests_cant": "Zero-area polygons are an edge case.", "anchors": ["planar/polygon.py:Polygon.centroid"]}
{"id": "C64", "title": "Polygon equality ignores start vertex and direction", "statement": "P == Q whenever Q's vertices are a rotation or reversed rotation of P's; == is reflexive, symmetric and transitive; != is its negation.", "quantifier": "every pair of polygons of any size", "why_tests_cant": "Unbounded vertex count and all rotations.", "anchors": ["planar/polygon.py:Polygon.__eq__", "planar/polygon.py:Polygon.__ne__"]}
{"id": "C65", "title": "Polygon equality implies the same cycle", "statement": "If P == Q then the vertex cycle of Q is a rotation or reversed rotation of that of P ('duplicate vertices must also match'). On finite doubles two polygons are equal exactly if the polygons of their exact real coordinates are.", "quantifier": "every pair of polygons", "why_tests_cant": "Counterexamples need repeated consecutive pairs of vertices (nine or more vertices).", "anchors": ["planar/polygon.py:Polygon.__eq__"]}
{"id": "C66", "title": "Hull vertices come from the input", "statement": "Every vertex of Polygon.convex_hull(points) is one of the points; and the leftmost and rightmost x coordinates are those of the input, whatever the set iteration order.", "quantifier": "every point list and every set iteration order", "why_tests_cant": "Set iteration order is an implementation detail of the interpreter.", "anchors": ["planar/polygon.py:_adaptive_quick_hull", "planar/polygon.py:_ahull_partition_points", "planar/polygon.py:_ahull_sort_points"]}
{"id": "C67", "title": "Convex hull encloses the points", "statement": "Every input point lies in the hull polygon, for every iteration order.", "quantifier": "every point list and every set iteration order", "why_tests_cant": "The adaptive switch to the sorted scan happens for particular point distributions only.", "anchors": ["planar/polygon.py:Polygon.convex_hull", "planar/polygon.py:_adaptive_quick_hull", "planar/polygon.py:_ahull_sort_points"]}
{"id": "C68", "title": "Tangent points support the polygon", "statement": "tangents_to_point(p) returns vertices of the polygon for every polygon and point; for a strictly convex polygon and p strictly outside, all vertices lie on one closed side of each line from p through a returned point.", "quantifier": "every polygon and exterior point", "why_tests_cant": "Binary search correctness over all sizes and positions.", "anchors": ["planar/polygon.py:Polygon._pt_tangents", "planar/polygon.py:Polygon._left_tan_i_convex", "planar/polygon.py:Polygon._right_tan_i_convex", "planar/polygon.py:Polygon.tangents_to_point"]}
{"id": "C69", "title": "Regular polygons", "statement": "Polygon.regular(n, r, c, a) has n vertices at distance r from c at equal angles, contains_point's radius shortcuts agree with the exact geometry: a point nearer than the cached inner radius is inside every edge and one further than the outer radius is outside.", "quantifier": "every n >= 3, radius, centre, angle", "why_tests_cant": "Coordinates range over a continuum; a suite samples a handful of vectors and cannot rule out a branch or sign error elsewhere.", "anchors": ["planar/polygon.py:Polygon.regular", "planar/polygon.py:Polygon.contains_point"]}
{"id": "C70", "title": "Star polygons", "statement": "Polygon.star(n, r1, r2) with positive radii: contains_point answers true only for points inside the star polygon.", "quantifier": "every peak count and pair of positive radii", "why_tests_cant": "Radii close to each other are not tested.", "anchors": ["planar/polygon.py:Polygon.star", "planar/polygon.py:Polygon.contains_point"]}
{"id": "C71", "title": "star reports convexity truthfully", "statement": "Polygon.star(...).is_convex is true iff the star's vertices form a convex polygon.", "quantifier": "every peak count and radii", "why_tests_cant": "Tests use strongly concave stars.", "anchors": ["planar/polygon.py:Polygon.star"]}
{"id": "C72", "title": "repr round-trips the observable state", "statement": "eval(repr(P)) is a polygon equal to P with the same known convexity and simplicity.", "quantifier": "every polygon state", "why_tests_cant": "State generic.", "anchors": ["planar/polygon.py:Polygon.__repr__", "planar/polygon.py:Polygon.__init__"]}
{"id": "C73", "title": "Containment in regular polygons is exact", "statement": "Polygon.regular(n, r, c, a).contains_point(q) answers, for n >= 4 and whatever was read before, exactly as the winding test on the polygon's vertices.", "quantifier": "every n >= 4, radius, centre, angle, sequence of reads and point", "why_tests_cant": "The failing case needs a square aligned with the axes whose first vertex is the lower left one.", "anchors": ["planar/polygon.py:Polygon.regular", "planar/polygon.py:Polygon.contains_point"]}
{"id": "C74", "title": "Stored centroid of regular polygons and stars", "statement": "The centroid that Polygon.regular and Polygon.star store without computing is the centre of mass of the vertices, as Polygon.centroid defines it for other polygons.", "quantifier": "every vertex count, non-zero radius or pair of positive radii, centre and angle", "why_tests_cant": "Centroid of generated polygons is only compared with the centre argument, never with the area formula.", "anchors": ["planar/polygon.py:Polygon.regular", "planar/polygon.py:Polygon.star", "planar/polygon.py:Polygon.centroid"]}
{"id": "C75", "title": "Stars report simplicity truthfully", "statement": "Polygon.star(n, r1, r2).is_simple is true only if no two non-adjacent edges meet, and is what a polygon made from the same vertices answers.", "quantifier": "every peak count and pair of radii", "why_tests_cant": "Zero and negative radii are not combined in tests.", "anchors": ["planar/polygon.py:Polygon.star", "planar/polygon.py:Polygon.is_simple"]}
{"id": "C76", "title": "Which exceptions the vector methods raise", "statement": "With a non-negative EPSILON, normalized, scaled_to, project and reflect never raise, whatever doubles the vectors hold (NaN, infinities, tiny and huge components included). clamped raises ValueError only if min_length > max_length and OverflowError only if the square of a bound is out of range.", "quantifier": "all doubles", "why_tests_cant": "Tests use a handful of ordinary vectors; division by zero after underflow needs particular doubles.", "anchors": ["planar/vector.py:Vec2.normalized", "planar/vector.py:Vec2.scaled_to", "planar/vector.py:Vec2.project", "planar/vector.py:Vec2.reflect", "planar/vector.py:Vec2.clamped"]}
{"id": "C77", "title": "Lines, rays and segments raise ValueError only", "statement": "With a non-negative EPSILON, constructing a line, ray or segment, its methods, and its in-place operations and attribute assignments raise no exception except ValueError; in particular never ZeroDivisionError.", "quantifier": "all doubles in points, vectors, offsets and transforms", "why_tests_cant": "Underflow and NaN paths are not tested.", "anchors": ["planar/line.py:Line", "planar/line.py:Ray", "planar/line.py:LineSegment"]}
{"id": "C78", "title": "Distance, products and quotients of vectors", "statement": "distance_to is the Euclidean metric: non-negative, symmetric, zero only between equal points, triangle inequality; abs(v) is the length. dot is symmetric, cross antisymmetric, dot^2 + cross^2 is the product of the squared lengths. v / s, v / w, s / v and the floor divisions give the componentwise quotient (or its floor) and raise ZeroDivisionError exactly when a divisor is 0.", "quantifier": "every pair and triple of vectors and every scalar", "why_tests_cant": "A formula with a swapped coordinate passes many sample points.", "anchors": ["planar/vector.py:Vec2.distance_to", "planar/vector.py:Vec2.dot", "planar/vector.py:Vec2.cross", "planar/vector.py:Vec2.__abs__", "planar/vector.py:Vec2.__truediv__", "planar/vector.py:Vec2.__rtruediv__", "planar/vector.py:Vec2.__floordiv__", "planar/vector.py:Vec2.__rfloordiv__"]}
{"id": "C79", "title": "almost_equals of shapes means closeness of all attributes", "statement": "almost_equals between two boxes, lines, rays, segments, sequences or transforms is true iff every defining point, vector or number differs by less than EPSILON (sequences: same length and pointwise); it is reflexive and symmetric.", "quantifier": "every pair of shapes and every positive EPSILON", "why_tests_cant": "An attribute left out of the comparison goes unnoticed by tests that vary one attribute.", "anchors": ["planar/box.py:BoundingBox.almost_equals", "planar/line.py:Line.almost_equals", "planar/line.py:Ray.almost_equals", "planar/line.py:LineSegment.almost_equals", "planar/vector.py:Seq2.almost_equals", "planar/transform.py:Affine.almost_equals"]}
{"id": "C80", "title": "Equality of shapes is equality of point sets", "statement": "== is an equivalence on boxes, lines, rays, segments, sequences and transforms without NaN. Two boxes or two rays are equal iff they consist of the same points; two lines iff they have the same points and direction; two segments iff they start and end at the same points. Equal shapes answer every query alike.", "quantifier": "every pair of shapes", "why_tests_cant": "Infinitely many pairs of shapes; equal shapes with different attributes arise only through attribute assignment.", "anchors": ["planar/box.py:BoundingBox.__eq__", "planar/line.py:Line.__eq__", "planar/line.py:Ray.__eq__", "planar/line.py:LineSegment.__eq__", "planar/vector.py:Seq2.__eq__"]}
{"id": "C81", "title": "Array arithmetic works with the array on either side", "statement": "For +, * between a Vec2Array and a single vector, pair, scalar or other sequence the operand order does not matter and the result is elementwise; the result has the class of the other sequence; unequal lengths raise ValueError; no arithmetic operator ever returns a vector whose components are not numbers.", "quantifier": "every number type, array length, operand class and value", "why_tests_cant": "Which method Python calls depends on the classes and on the length of the operands; the failing length (exactly two) is one a suite of array tests with three elements misses.", "anchors": ["planar/vector.py:Vec2.__add__", "planar/vector.py:Vec2.__mul__", "planar/vector.py:Vec2.__rtruediv__", "planar/vector.py:Vec2Array.__add__", "planar/vector.py:Vec2Array.__mul__", "planar/vector.py:Vec2Array.__rsub__"]}
{"id": "C82", "title": "Transforms apply from either side and keep the kind of object", "statement": "x * m equals m * x for every object x that is not a transform; the result has the kind of x, except that a box under a non-rectilinear transform becomes a polygon and a pair a Vec2; objects that are not shapes or vectors raise TypeError; each point of a sequence is mapped to its image; x *= m leaves x equal to x * m or raises the same exception.", "quantifier": "every transform and operand", "why_tests_cant": "Quantifies over operands of ten classes and all transforms, including those where one form raises.", "anchors": ["planar/transform.py:Affine.__mul__", "planar/transform.py:Affine.__rmul__", "planar/transform.py:Affine.itransform", "planar/box.py:BoundingBox.__mul__", "planar/line.py:Line.__imul__", "planar/polygon.py:Polygon.__imul__"]}
{"id": "C83", "title": "Sequence objects never share state", "statement": "In any program over Seq2 and Vec2Array objects, a statement changes the contents of its target only: copies, slices, from_points results and results of arithmetic are independent of the objects they were made from; an operation whose operand is the array itself acts as on a snapshot of the operand; a raising index, length or arithmetic operation leaves its target unchanged; no object changes class.", "quantifier": "every program, store and operand aliasing", "why_tests_cant": "Sharing shows only after later mutations of either object; the set of programs and aliasings is infinite.", "anchors": ["planar/vector.py:Seq2.from_points", "planar/vector.py:Seq2.__copy__", "planar/vector.py:Vec2Array.__getitem__", "planar/vector.py:Vec2Array.__setitem__", "planar/vector.py:Vec2Array.__iadd__", "planar/transform.py:Affine.itransform"]}
{"id": "C84", "title": "Polygon queries on doubles of limited size are free of rounding errors", "statement": "For a polygon of four or more vertices whose coordinates are doubles of the form z * 2^e with one common exponent e and |z| <= 2^25 (all integers up to 33 million, or all multiples of 1/1024 up to 32768), after any history of queries, vertex assignments and copies on that grid: is_convex, is_simple, bounding_box, contains_point and tangents_to_point return exactly what exact real arithmetic on the same coordinates gives. In particular is_convex decides convexity of the true polygon, is_simple is false exactly if two non-adjacent edges meet (distinct vertices), contains_point of a new polygon says whether the boundary winds around the point, and the tangent points support the polygon. For distinct vertices and no folded corner is_simple says whether the true edges form a simple closed curve; contains_point of a convex polygon with distinct vertices that is not misread (C58) is right for every grid point in every state. With 28-bit coordinates is_convex can be wrong.", "quantifier": "every exponent in range, vertex list, history, query point", "why_tests_cant": "Rounding errors show only on near-degenerate inputs; the claim is about all of the doubles on each grid.", "anchors": ["planar/polygon.py:Polygon._classify", "planar/polygon.py:Polygon._check_is_simple", "planar/polygon.py:Polygon.contains_point", "planar/polygon.py:Polygon._split_y_polylines", "planar/polygon.py:Polygon.tangents_to_point", "planar/polygon.py:Polygon.bounding_box"]}
{"id": "C85", "title": "Array normalizing and clamping act on every element", "statement": "Vec2Array.normalized and clamped return an array of the same length and order. Each element of normalized is the unit vector in the direction of the original, or null if its length is at most EPSILON. With bounds that are not negative and in order, each element of clamped is a non-negative multiple of the original with length within the bounds, unchanged if the length was already within them. A negative minimum raises ValueError even for an empty array, a maximum below the minimum raises unless the array is empty, nothing else raises. No vector is ever reversed.", "quantifier": "every array, bounds and EPSILON", "why_tests_cant": "Arrays of every length and all real lengths and bounds; rejection of bad bounds depends on emptiness.", "anchors": ["planar/vector.py:Vec2Array.normalized", "planar/vector.py:Vec2Array.normalize", "planar/vector.py:Vec2Array.clamped", "planar/vector.py:Vec2Array.clamp"]}
{"id": "C86", "title": "set_epsilon keeps EPSILON and EPSILON2 in step", "statement": "After any sequence of set_epsilon calls, including ones that raised and were caught, EPSILON2 is the square of EPSILON, so is_null, almost_equals, project, reflect and normalized all use the same tolerance; for every positive tolerance the null vector is_null and every finite vector almost_equals itself. set_epsilon raises only OverflowError, exactly if the square of the argument is out of range.", "quantifier": "every sequence of calls, tolerance and vector", "why_tests_cant": "The two globals go out of step only after a caught exception, or for tolerances whose square underflows.", "anchors": ["planar/__init__.py:set_epsilon", "planar/vector.py:Vec2.is_null", "planar/vector.py:Vec2.almost_equals", "planar/vector.py:Vec2.project", "planar/vector.py:Vec2.reflect"]}
{"id": "C87", "title": "Vector and transform arithmetic on doubles is accurate", "statement": "On finite doubles whose intermediate values stay in range: + and - of vectors return each coordinate within a relative 2^-53 of the exact sum or difference; dot and cross are within 3*2^-53 of the sum of the magnitudes of the two products (plus the underflow unit), so the sign of cross is right unless the exact value is below that; applying an Affine is within 5*2^-53 of the magnitudes added; lerp with a bias in [0,1] is within 5*2^-53 of the larger coordinate; length is within a relative 7*2^-53 and normalized within 10*2^-53 of the exact unit vector, for lengths between 2^-400 and 2^400 and above EPSILON; distance_to is within a relative 4*2^-53 (plus the underflow unit) for coordinates differing by up to 2^1000, also where the square of the distance would overflow.", "quantifier": "all finite doubles in range, every square root accurate to 2^-52 and every hypot accurate to 2^-52", "why_tests_cant": "Worst cases of rounding and cancellation are isolated points among 2^256 inputs.", "anchors": ["planar/vector.py:Vec2.__add__", "planar/vector.py:Vec2.dot", "planar/vector.py:Vec2.cross", "planar/vector.py:Vec2.lerp", "planar/vector.py:Vec2.length", "planar/vector.py:Vec2.normalized", "planar/transform.py:Affine.__mul__", "planar/vector.py:Vec2.distance_to"]}
{"id": "C88", "title": "Lines on doubles decide as exact geometry beyond a small margin", "statement": "With coordinates up to M in magnitude, Line(point, direction) and Line.from_points built from doubles succeed when the direction is longer than EPSILON (by a relative 2^-50); distance_to is within 2^-46*M of the signed distance to the exact line, and point_left, point_right and contains_point answer as exact geometry does unless the point is within 2^-46*M of the decision boundary. from_points accepts further points that are within EPSILON of the exact line by that margin and raises ValueError if one is further away by that margin; if EPSILON exceeds the margin the line contains both defining points.", "quantifier": "all finite doubles in range, every query point and list of points", "why_tests_cant": "Needs the worst case over all roundings of normalization, offset and distance.", "anchors": ["planar/line.py:Line.__init__", "planar/line.py:Line.from_points", "planar/line.py:Line.distance_to", "planar/line.py:Line.point_left", "planar/line.py:Line.point_right", "planar/line.py:Line.contains_point"]}
{"id": "C89", "title": "Rays on doubles decide as exact geometry beyond a small margin", "statement": "With coordinates up to M, Ray(anchor, direction) and Ray.from_points built from doubles: distance_to is within 2^-45*M of the distance to the nearest point of the exact ray; point_behind, point_left, point_right answer as exact geometry unless within 2^-46*M of a decision boundary, contains_point unless within 2^-45*M. from_points accepts points clearly within EPSILON of the exact ray and raises ValueError for a point clearly further away.", "quantifier": "all finite doubles in range, every query point and list of points", "why_tests_cant": "Which of two formulas distance_to uses is itself decided with rounding errors; the claim needs that both agree near the switch.", "anchors": ["planar/line.py:Ray.__init__", "planar/line.py:Ray.from_points", "planar/line.py:Ray.distance_to", "planar/line.py:Ray.contains_point", "planar/line.py:Ray.point_behind", "planar/line.py:Ray.point_left", "planar/line.py:Ray.point_right"]}
{"id": "C90", "title": "Segments on doubles decide as exact geometry beyond a small margin", "statement": "With coordinates up to M, LineSegment(anchor, vector) and LineSegment.from_points([a, b]) built from doubles: length and end are within 2^-45*M of the exact ones, distance_to is within 2^-43*M of the distance to the nearest point of the exact segment, contains_point is right unless within 2^-43*M of the boundary, point_behind, point_ahead, point_left, point_right unless within 2^-45*M. from_points([a, b]) succeeds and contains both points when they are further apart than EPSILON and EPSILON exceeds the margin.", "quantifier": "all finite doubles in range, every query point", "why_tests_cant": "Three formulas switched by rounded comparisons; the end point is recomputed from direction and length, so membership of the end is not obvious.", "anchors": ["planar/line.py:LineSegment.__init__", "planar/line.py:LineSegment.from_points", "planar/line.py:LineSegment.distance_to", "planar/line.py:LineSegment.contains_point", "planar/line.py:LineSegment.point_ahead", "planar/line.py:LineSegment.point_behind", "planar/line.py:LineSegment.point_left", "planar/line.py:LineSegment.point_right", "planar/line.py:LineSegment.end"]}
{"id": "C91", "title": "Items and slices: which elements are read and written, and the fixed length of Seq2 and Polygon", "statement": "Reading a[i:j:k] of a sequence lists exactly the elements at positions i, i+k, i+2k, ... before j (with Python's clamping and negative indices), in that order; k = 0 is a ValueError; [::-1] reverses. Assigning to an extended slice of a Vec2Array needs as many vectors as positions (ValueError otherwise), writes exactly those positions and leaves the length alone; deleting one leaves exactly the other elements in order; extend with a malformed element keeps the ones before it and raises TypeError. The number of elements of a Seq2, and so the number of vertices of a Polygon, is fixed at construction.", "quantifier": "all sequences, all bounds and steps (missing, negative, out of range), all assignment histories, all element types", "why_tests_cant": "Slice arithmetic has many sign and clamping cases; the fixed-length claim is about every history of assignments and is false for slices, which tests of integer indices never reach.", "anchors": ["planar/vector.py:Seq2.__getitem__", "planar/vector.py:Seq2.__setitem__", "planar/vector.py:Vec2Array.__getitem__", "planar/vector.py:Vec2Array.__setitem__", "planar/vector.py:Vec2Array.__delitem__", "planar/vector.py:Vec2Array.extend", "planar/polygon.py:Polygon.__setitem__"]}
{"id": "C92", "title": "The printed form of an object evaluates to an equal object", "statement": "repr is a precise representation: evaluating repr(x) as a Python expression gives an object equal to x, for every Vec2, Affine, BoundingBox, Vec2Array, Polygon, Line, Ray and LineSegment whose numbers print as literals that read back. Vectors, transforms and arrays come back identical; polygons with the same vertices and the same known convexity; lines, rays and segments identical in exact arithmetic.", "quantifier": "all objects of the eight classes, every way of printing numbers that reads back, all lengths of arrays and polygons", "why_tests_cant": "The tests compare the text of a few objects with a literal and never evaluate it; the text must be parseable for every number of vertices and every combination of cached flags.", "anchors": ["planar/vector.py:Vec2.__repr__", "planar/vector.py:Vec2Array.__repr__", "planar/transform.py:Affine.__repr__", "planar/box.py:BoundingBox.__repr__", "planar/polygon.py:Polygon.__repr__", "planar/line.py:Line.__repr__", "planar/line.py:Ray.__repr__", "planar/line.py:LineSegment.__repr__"]}
{"id": "C93", "title": "Documented running times of the polygon methods", "statement": "The complexities in the docstrings hold: is_convex and construction take O(n) steps; is_simple O(n) for convex polygons and O(n^2) at worst; centroid O(n) once simplicity is known; contains_point O(1) for triangles and when a known radius decides, O(log n) for convex polygons, O(n) otherwise; tangents_to_point O(log n) for convex polygons, O(n) otherwise; convex_hull O(n log n) at worst, with a recursion depth of O(log n). A step is one turn of a loop, one element of a comprehension or copy, or one recursive call.", "quantifier": "all numbers of vertices, all polygons and points, all cache states reached by the API, every cost function of the sort", "why_tests_cant": "A bound for every n and the worst input cannot be measured; the two cases where the logarithmic claim fails (a convex polygon that was never classified, and one declared convex) give right answers, only slowly.", "anchors": ["planar/polygon.py:Polygon.is_convex", "planar/polygon.py:Polygon.is_simple", "planar/polygon.py:Polygon.centroid", "planar/polygon.py:Polygon.contains_point", "planar/polygon.py:Polygon._pnp_winding_test", "planar/polygon.py:Polygon._pnp_y_monotone_test", "planar/polygon.py:Polygon.tangents_to_point", "planar/polygon.py:Polygon.convex_hull", "planar/polygon.py:_adaptive_hull"]}
{"id": "C94", "title": "Polygon queries on doubles are right for points in general position with a small margin", "statement": "Let M bound the coordinates (2^-400 <= M <= 2^395) of a set of points with any double coordinates, such that every three different points of the set span a triangle of twice the area more than 2^-47 * M^2 (points may coincide). For a polygon of four or more vertices from the set, made with any declarations and after any history of queries, vertex assignments and copies with points of the set: is_convex, is_simple, bounding_box, contains_point and tangents_to_point return exactly what exact real arithmetic on the same coordinates gives, whatever route the caches make them take. Hence is_convex decides convexity of the true polygon, is_simple is false exactly if two non-adjacent edges meet (distinct vertices), and tangents_to_point of a strictly convex polygon of any size returns supporting vertices for a point beyond an edge. For contains_point of a new polygon less is needed: only the edges crossing the height of the point must pass it with that margin; then the answer says whether the boundary winds around the point. With a margin of 2^-57 * M^2 is_convex can be wrong.", "quantifier": "every scale M, set of doubles in general position, vertex list, declaration, history, query point", "why_tests_cant": "Wrong signs appear only for nearly collinear points; the claim bounds how near for all doubles at once, along all routes of all histories.", "anchors": ["planar/polygon.py:Polygon._classify", "planar/polygon.py:Polygon._check_is_simple", "planar/polygon.py:Polygon.contains_point", "planar/polygon.py:Polygon._pnp_winding_test", "planar/polygon.py:Polygon._split_y_polylines", "planar/polygon.py:Polygon.tangents_to_point", "planar/polygon.py:Polygon.bounding_box"]}
{"id": "C95", "title": "The convex hull of doubles on a coarse grid is computed exactly", "statement": "Let all coordinates of the points be doubles of the form z * 2^e with an integer |z| <= 2^11 and one e between -200 and 200. Then Polygon.convex_hull returns exactly the vertices, in the same order, that exact real arithmetic on the same points gives (for some iteration order of the sets of real points), although one division is rounded. Hence IndexError is raised only for no points and ValueError only if there are at most two different points; the vertices are input points, a leftmost and a rightmost point among them; and for points not all of one x, if they are at most seven or none lies beyond the perpendiculars through the ends of the chord from leftmost to rightmost point, every point is inside or on the returned polygon. With three integer points of 28 bits the hull can leave a point outside.", "quantifier": "every e, every list of points on the grid of any length, every iteration order of sets", "why_tests_cant": "The claim covers every configuration of some 2^22 grid points and every set order; the rounded division decides the partition of each recursive call.", "anchors": ["planar/polygon.py:Polygon.convex_hull", "planar/polygon.py:_adaptive_quick_hull", "planar/polygon.py:_ahull_partition_points", "planar/polygon.py:_ahull_sort_points"]}
{"id": "C96", "title": "Containment in stars with zero or mixed-sign radii", "statement": "Polygon.star(n, r1, r2) with a radius zero or with radii of opposite signs: contains_point(q) is true exactly for the points that the boundary winds around, whatever properties of the star were read before.", "quantifier": "every peak count, pair of different radii with r1*r2 <= 0, centre, angle, earlier reads and query point", "why_tests_cant": "Tests build self-crossing stars but never query them, let alone after reading the centroid.", "anchors": ["planar/polygon.py:Polygon.star", "planar/polygon.py:Polygon.contains_point", "planar/polygon.py:Polygon.centroid"]}
{"id": "C97", "title": "Bounding boxes on doubles", "statement": "With float coordinates a BoundingBox keeps what it promises in exact arithmetic: center lies in the closed box; width and height are non-negative and is_empty is true exactly when two sides coincide; inflate by a non-negative amount encloses the box and inflate by a negative amount of at most its size stays inside; from_center contains the centre; box * t contains p * t for every point p of the box when t maps axis-parallel lines to axis-parallel lines; fit(other) lies in the box; to_polygon() contains the same points as the box.", "quantifier": "every pair of finite double corners, amount, transform, point and libm", "why_tests_cant": "Tests use a handful of short decimal coordinates, for which rounding is benign; the refuting inputs are off by one unit in the last place, or extremely large or small.", "anchors": ["planar/box.py:BoundingBox.center", "planar/box.py:BoundingBox.is_empty", "planar/box.py:BoundingBox.inflate", "planar/box.py:BoundingBox.from_center", "planar/box.py:BoundingBox.fit", "planar/box.py:BoundingBox.to_polygon", "planar/box.py:BoundingBox.__mul__"]}
{"id": "C98", "title": "Containment commutes with transforms", "statement": "For an invertible affine transform m, a polygon p and a point q that is not on an edge of p, `(p * m).contains_point(q * m)` equals `p.contains_point(q)`, and `p *= m` leads to the same answer; in particular mirror images, shears and unequal scales change nothing.", "quantifier": "all invertible transforms, all polygons (of any shape, also self-crossing, with repeated vertices) in all reachable states, all points off the boundary", "why_tests_cant": "The answer is a winding count over half-open edges, whose terms all change under a shear or turn; that the total does not (up to sign) is a topological fact about infinitely many polygons, points and transforms. Tests sample a few shapes and axis-aligned maps.", "anchors": ["planar/polygon.py:Polygon.contains_point", "planar/polygon.py:Polygon._pnp_winding_test", "planar/polygon.py:Polygon.__imul__", "planar/transform.py:Affine.__mul__", "planar/transform.py:Affine.itransform"]}
{"id": "C99", "title": "Distances, sides, projections and mirror images of lines, rays and segments move with the shape", "statement": "If m stretches all lengths by the factor k > EPSILON (translations, rotations about any point, mirror images, scales by one number, and compositions), then for a line, ray or segment s with transformed shape s*m and every point p: (s*m).distance_to(p*m) is k times s.distance_to(p) (for a line with its sign, which a mirror image changes); for lines project and reflect give the transformed points; for k = 1 also contains_point, point_behind, point_ahead and project give the same answers and point_left and point_right stay, or are swapped by a mirror image. For an arbitrary transform the signed distance from a line is multiplied by the determinant over the stretch along the line.", "quantifier": "all lines, rays and segments with orthonormal frames, all such transforms, all points", "why_tests_cant": "Tests transform a few shapes and compare attributes; no test measures a transformed shape against transformed points, and the relation ranges over all shapes, transforms and points.", "anchors": ["planar/line.py:Line.__imul__", "planar/line.py:Line.distance_to", "planar/line.py:Line.project", "planar/line.py:Line.reflect", "planar/line.py:Ray.distance_to", "planar/line.py:LineSegment.distance_to", "planar/transform.py:Affine.__mul__"]}
{"id": "C100", "title": "Every arithmetic operator is componentwise in the order written, or raises TypeError", "statement": "For +, -, *, / and //: between vectors, a vector and a pair, an array and a vector, pair or number, two arrays, and a plain sequence or polygon on the left of an array, the result is computed component by component with the left operand on the left, elementwise for arrays, a zero divisor raising ZeroDivisionError and different lengths ValueError; a number divided by a vector divides the number by each component. Numbers are not added to or subtracted from vectors or arrays, -, / and // do not take an array on the right of a number, pair or vector nor a plain sequence on the right of an array, and there is no operator between two plain sequences: all these are TypeErrors (sequences of exactly two vectors excepted, see C81).", "quantifier": "every number type, operator, operand class, length and value", "why_tests_cant": "The reflected methods are reached only through Python's dispatch; a swapped operand in one of them is invisible to the commuting operators and to operands with equal values.", "anchors": ["planar/vector.py:Vec2.__rtruediv__", "planar/vector.py:Vec2.__rfloordiv__", "planar/vector.py:Vec2Array.__sub__", "planar/vector.py:Vec2Array.__rsub__", "planar/vector.py:Vec2Array.__rtruediv__", "planar/vector.py:Vec2Array.__rfloordiv__", "planar/vector.py:Vec2Array.__truediv__"]}
{"id": "C101", "title": "Right angles are perfect on doubles", "statement": "For an angle that is a multiple of 90 degrees (any finite double, of either sign), on doubles: rotated() and polar() and Affine.rotation() swap and negate coordinates without any rounding for every finite vector, so right-angle turns compose exactly and four of them are the identity; the matrix has determinant exactly 1, is recognised by is_rectilinear, is_conformal and is_orthonormal for every EPSILON, and its inverse is the rotation by the opposite angle; a rotation about a pivot keeps the pivot. Affine.shear raises ValueError for infinite angles and only then.", "quantifier": "all finite doubles, all multiples of 90 that are doubles, any math library with an exact remainder and cos 0 = 1, sin 0 = 0", "why_tests_cant": "Exactness for all vectors and all multiples needs the rounding rules of IEEE arithmetic; samples with small integers hide the rounding that moves a pivot.", "anchors": ["planar/util.py:cos_sin_deg", "planar/vector.py:Vec2.rotated", "planar/vector.py:Vec2.polar", "planar/transform.py:Affine.rotation", "planar/transform.py:Affine.shear", "planar/transform.py:Affine.__invert__"]}
{"id": "C102", "title": "Transform constructors do what they are named for", "statement": "translation(o) moves every point by o, scale multiplies the coordinates, shear(ax, ay) moves (x, y) to (x + tan(ax) y, y + tan(ay) x); is_identity is true exactly when every entry is within EPSILON of the identity's, and then no point moves by more than EPSILON (|x| + |y| + 1) along an axis; column_vectors are the coefficients the transform applies, and the first two are the images of the unit axes.", "quantifier": "every offset, factor, angle, matrix, point and EPSILON > 0", "why_tests_cant": "Two swapped matrix entries agree on every symmetric sample; coordinates range over a continuum.", "anchors": ["planar/transform.py:Affine.translation", "planar/transform.py:Affine.scale", "planar/transform.py:Affine.shear", "planar/transform.py:Affine.is_identity", "planar/transform.py:Affine.column_vectors"]}
{"id": "C103", "title": "Centroid on doubles with integer coordinates", "statement": "For a polygon of n vertices with integer coordinates of magnitude at most M and 24 n M^3 <= 2^53, centroid computed in double arithmetic is None, raises ZeroDivisionError or is a point exactly as in exact arithmetic, and each coordinate of the point is a double nearest to that of the true centre of mass; for a convex polygon the point lies in the bounding box. (Documented as the geometric center without any restriction: for a convex quadrilateral near x = 7e15, whose vertices are exact doubles, the computed centroid lies to the right of all vertices.)", "quantifier": "every polygon with such vertices, after any history of queries, assignments and transforms", "why_tests_cant": "Rounding error depends on every bit of every coordinate and accumulates over the vertices; tests compare a few centroids up to a tolerance.", "anchors": ["planar/polygon.py:Polygon.centroid"]}
{"id": "C104", "title": "Comparison, hash and truth value across classes", "statement": "For any two objects of the library's classes (or numbers or tuples of numbers): == is True exactly if they are two numbers, two of (tuple, Vec2, Affine) with the same numbers, or two objects of the same remaining class that the class's __eq__ accepts; in particular objects of different classes such as Seq2 and Vec2Array are unequal. == never raises, != is its negation, and without NaN == is reflexive, symmetric and transitive across all classes. Equal objects have equal hashes; sequences, polygons, boxes, lines, rays and segments cannot be hashed (TypeError). <, <=, >, >= compare numbers, vectors by length, and a plain tuple with a tuple, Vec2 or Affine entry by entry; everything else raises TypeError. (Intended: vectors are ordered by length only and transforms not at all. With a plain tuple on either side this fails silently: Vec2(1, 0) > (0.0, 5.0) is True.) An object is false exactly if it is zero, the null vector, or an empty sequence.", "quantifier": "every pair (triple, for transitivity) of objects", "why_tests_cant": "The outcome depends on both classes and on Python's order of trying the two methods, which favours subclasses; tests compare a few pairs, mostly within one class.", "anchors": ["planar/vector.py:Vec2.__eq__", "planar/vector.py:Vec2.__ne__", "planar/vector.py:Vec2.__gt__", "planar/vector.py:Vec2.__bool__", "planar/vector.py:Seq2.__eq__", "planar/vector.py:Seq2.__hash__", "planar/transform.py:Affine.__gt__", "planar/polygon.py:Polygon.__eq__", "planar/box.py:BoundingBox.__eq__", "planar/line.py:Line.__eq__", "planar/util.py:assert_unorderable"]}
{"id": "C105", "title": "The known-flags of a polygon", "statement": "is_convex_known, is_simple_known and is_centroid_known are True exactly while the value is cached: then reading it changes nothing, and after a successful read the flag is True and further reads return the same value. An assignment to a vertex, an in-place transform or a multiplication resets the flags to False, except that a triangle is always known to be convex and simple; a rejected assignment changes nothing; copies keep the flags; at construction a flag is True only for triangles or if declared. No query lowers a flag, with the same value, if simplicity was not declared without convexity. (Documented: mutating the polygon invalidates the cached value. But for a polygon declared is_simple=True, merely reading is_convex can forget the declaration.)", "quantifier": "every polygon state and every history of queries, assignments, transforms and copies", "why_tests_cant": "The flags depend on the history of calls and on which internal steps fill which cache; the histories are infinitely many.", "anchors": ["planar/polygon.py:Polygon.is_convex_known", "planar/polygon.py:Polygon.is_simple_known", "planar/polygon.py:Polygon.is_centroid_known", "planar/polygon.py:Polygon._clear_cached_properties", "planar/polygon.py:Polygon._classify", "planar/polygon.py:Polygon.__copy__"]}
{"id": "C106", "title": "The convex hull is a polygon that contains its points", "statement": "For points that are not all on one line, and that number at most seven or all project between the leftmost and the rightmost point, the polygon returned by convex_hull is clockwise and convex, has distinct vertices taken from the points, starts at a leftmost point and has a non-empty inside. contains_point on it is exact after any history without new vertices: True for every point strictly inside all edges, in particular for every given point that is on no edge line, False for every point strictly outside some edge, and on the boundary it follows the half-open rule. (Other polygons known to be convex can answer False everywhere, C58; hulls never do, because they start at their leftmost vertex and run clockwise. With three vertices this needs vertices at least EPSILON apart.) On doubles the same holds for points on a grid of 2^11 steps and query points on the grid of 2^25 steps of the same width: True strictly inside, False strictly outside some edge, as exact arithmetic decides inside and outside.", "quantifier": "every list of points, every iteration order of the point sets, every history, every query point; every such grid of doubles", "why_tests_cant": "Which chain the search takes for the left one depends on where the vertex list starts; the hull's start and direction come from the hull algorithm, over all point sets.", "anchors": ["planar/polygon.py:Polygon.convex_hull", "planar/polygon.py:Polygon.contains_point", "planar/polygon.py:Polygon._split_y_polylines", "planar/polygon.py:Polygon._pnp_y_monotone_test"]}
{"id": "C107", "title": "The convex hull polygon bounds the smallest convex set around the points", "statement": "For points that are not all on one line, and that number at most seven or all project between the leftmost and the rightmost point: the points on the right of (or on) all edges of the polygon returned by convex_hull are exactly the points that are in every convex set containing the given points. So hulls of the same points, in any order, with repetitions, and whatever the iteration order of sets, bound the same region; every extreme point of the region is a vertex; the hull of the vertices of a hull is again defined and bounds the same region, and has the same vertices in the same order if no three of them are on a line. contains_point on a hull of more than three vertices is True for every point that has some room around it within the region and False for every point outside it, after any history without new vertices or centroid reads. The same for doubles on a grid of 2^11 steps with exact real regions, and query points on the 2^25 grid.", "quantifier": "every list of points, every iteration order of the sets, every history, every query point; every such grid of doubles", "why_tests_cant": "The specification quantifies over all convex sets; tests compare with a few expected vertex lists.", "anchors": ["planar/polygon.py:Polygon.convex_hull", "planar/polygon.py:_adaptive_quick_hull", "planar/polygon.py:_ahull_partition_points", "planar/polygon.py:_ahull_sort_points", "planar/polygon.py:Polygon.contains_point"]}
{"id": "C108", "title": "Equal polygons answer alike", "statement": "Polygons that compare equal (same cycle of vertices from any start in either direction, the documented meaning of ==) can be used in place of each other: whatever was called on each before, they have the same is_convex, is_simple, centroid (or the same error) and bounding box, and they contain the same points, on the boundary too.", "quantifier": "every two equal polygons, every two histories, every query point", "why_tests_cant": "The equality ignores start and direction while every algorithm walks the list from its first entry; tests compare answers for one order of the vertices.", "anchors": ["planar/polygon.py:Polygon.__eq__", "planar/polygon.py:Polygon.is_convex", "planar/polygon.py:Polygon.is_simple", "planar/polygon.py:Polygon.centroid", "planar/polygon.py:Polygon.bounding_box", "planar/polygon.py:Polygon.contains_point"]}
{"id": "C109", "title": "Convex hulls move with the transform", "statement": "Polygon.convex_hull(points) * T and Polygon.convex_hull of the transformed points describe the same polygon, for every invertible transform T, whatever the order and repetitions of the points and the iteration order of sets: both exist when the points are not all on one line, they bound the same region, and if no three vertices of a hull are on a line they compare equal with == and have the same number of vertices.", "quantifier": "every list of points, every invertible transform, every order and repetition of the transformed points, every iteration order of the sets", "why_tests_cant": "The algorithm sorts by x and scans along a chord, so a transform changes every decision it takes; tests compute one hull in one position.", "anchors": ["planar/polygon.py:Polygon.convex_hull", "planar/polygon.py:_adaptive_quick_hull", "planar/polygon.py:_ahull_sort_points", "planar/polygon.py:Polygon.__mul__", "planar/polygon.py:Polygon.__eq__"]}
{"id": "C110", "title": "Transforms with integer entries are exact on doubles of limited size", "statement": "On double-precision numbers that are whole multiples of a power of two and of limited size, transforms with whole-number linear entries do no rounding at all: T * point, T * sequence, the in-place product, T1 * T2 and T.determinant are the exact results as long as these stay within 2**53 units; T.is_degenerate is true, and ~T raises, exactly if the exact determinant is 0 (for every EPSILON in (0, 1]); if the determinant is a power of two up to sign, ~T is exact and T * ~T and ~T * T compare equal to the identity; and polygon * T, within 2**25 units, answers is_convex, is_simple, bounding_box, contains_point and tangents_to_point exactly as the exact image polygon does. For a convex polygon neither of whose positions has the coinciding extreme vertices of C58, T * point is in polygon * T if and only if point is in polygon, for every point off the edges.", "quantifier": "every transform, point, sequence and polygon on such a grid, every exponent of the grid in range, every history of calls, every EPSILON", "why_tests_cant": "Tests use a handful of small values, where an expression that rounds and one that does not agree; which sizes are safe, and that no intermediate result rounds, needs an argument about every operation.", "anchors": ["planar/transform.py:Affine.__mul__", "planar/transform.py:Affine.itransform", "planar/transform.py:Affine.__invert__", "planar/transform.py:Affine.determinant", "planar/transform.py:Affine.is_degenerate", "planar/polygon.py:Polygon.__mul__"]}
{"id": "C111", "title": "The convex hull is a closure operator", "statement": "Polygon.convex_hull behaves as the convex hull of geometry does: giving more points never makes the enclosed region smaller; giving points that the hull encloses already changes nothing (same region, and an equal polygon if no three hull vertices are on a line); the hulls of two parts can be merged, convex_hull(list(h1) + list(h2)) enclosing exactly what convex_hull(part1 + part2) encloses; and a convex polygon without three vertices on a line is equal to the convex hull of its own vertices, whichever way round it is given.", "quantifier": "every list of points, every added point, every split in two parts, every convex polygon, every iteration order of the sets", "why_tests_cant": "Tests compare the hull of one list with a known answer; these laws relate the answers for different inputs, for which the scan takes different decisions throughout.", "anchors": ["planar/polygon.py:Polygon.convex_hull", "planar/polygon.py:_adaptive_quick_hull", "planar/polygon.py:_ahull_partition_points", "planar/polygon.py:Polygon.__eq__"]}
{"id": "C112", "title": "Sides of rays and segments exclude each other in floating point", "statement": "On doubles, for any ray and point whatever (rounding, overflow, infinities and NaN included) at most one of Ray.point_behind, point_left, point_right is true; for a segment whose length is finite and not negative at most one of LineSegment.point_behind, point_ahead, point_left, point_right is true. Beside the ray (computed direction.dot(p - anchor) >= 0) exactly one of point_left, point_right, contains_point is true, and point_behind is false; likewise beside a segment, when that number is at most the length and below length + EPSILON as computed. Both bounds are needed: a segment made backwards by from_normal has points both ahead of and behind it, and EPSILON is lost in a length of 2**40, so that the end point is ahead of the segment and on it.", "quantifier": "every ray, segment and point with double attributes, every finite EPSILON > 0, every libm", "why_tests_cant": "Exclusion at the margin depends on how each sum rounds, for 2**64 values of each of seven doubles; tests do not reach overflow, NaN or absorption.", "anchors": ["planar/line.py:Ray.point_behind", "planar/line.py:Ray.point_left", "planar/line.py:Ray.point_right", "planar/line.py:Ray.contains_point", "planar/line.py:LineSegment.point_ahead", "planar/line.py:LineSegment.point_behind", "planar/line.py:LineSegment.point_left", "planar/line.py:LineSegment.point_right", "planar/line.py:LineSegment.contains_point"]}
{"id": "C113", "title": "Direction and normal of lines, rays and segments on doubles", "statement": "On doubles, after any constructor and any sequence of assignments and in-place transforms with any arguments (infinities, NaN and overflow included, rejected ones too), normal is bit for bit the direction turned clockwise by 90 degrees; and direction and normal have length 1 within 15 * 2**-53, or both contain NaN. An accepted assignment of a finite vector gives a direction within 10 * 2**-53 of the exact unit vector in each coordinate, however long the vector is; NaN gets in exactly by vectors with an infinite coordinate (which are accepted, not rejected), for example when a finite ray is transformed by a finite matrix and a coordinate overflows. direction.dot(normal) is exactly 0.", "quantifier": "every constructor, every history, all doubles, every EPSILON >= 2**-399, every x ** 0.5 accurate to two roundings", "why_tests_cant": "The invariant is over unbounded histories and over all magnitudes of doubles; tests assign a few short vectors and compare with a tolerance.", "anchors": ["planar/line.py:_LinearGeometry.direction", "planar/line.py:_LinearGeometry.normal", "planar/line.py:Line.__imul__", "planar/line.py:Ray.__imul__", "planar/line.py:LineSegment.__imul__", "planar/line.py:LineSegment.vector", "planar/vector.py:Vec2.normalized"]}
{"id": "C114", "title": "Rotations on doubles are accurate for every angle", "statement": "On doubles, for every finite angle in degrees (of any size and sign) the cosine and sine used by planar are within 40*2^-53 of the exact ones. Hence v.rotated(angle) and Affine.rotation(angle) * v lie within 132*2^-53 of the length of v from the exact rotation (plus the underflow unit), the length is kept to the same error, rotating by angle and then by -angle returns within 265*2^-53 of the length; Vec2.polar(angle, length) lies within 84*2^-53*|length| of the exact point; Affine.rotation(angle, pivot) * v is within 282*2^-53*(|v| + |pivot|) of the exact rotation about the pivot, so the pivot stays put to that error. Every rotation matrix, whatever angle and pivot, is reported conformal and orthonormal and not degenerate for EPSILON between 2^-44 and 1/2.", "quantifier": "all finite angles, all vectors and pivots with coordinates up to 2^990, every math library whose % is correct to the rounding of the final addition, radians within three roundings, cos and sin within 2^-52", "why_tests_cant": "The error depends on the remainder of the angle, on the special cases of right angles and on cancellation; a test samples a few of 2^192 inputs and compares with another rounded computation.", "anchors": ["planar/util.py:cos_sin_deg", "planar/vector.py:Vec2.rotated", "planar/vector.py:Vec2.polar", "planar/transform.py:Affine.rotation", "planar/transform.py:Affine.is_orthonormal", "planar/transform.py:Affine.is_conformal", "planar/transform.py:Affine.is_degenerate"]}
{"id": "C115", "title": "Regular polygons and stars on doubles", "statement": "On doubles, Polygon.regular(n, radius, center, angle) and Polygon.star(n, r1, r2, center, angle) succeed and each vertex lies within 2^-53*((90 + 2*(m + 2)*(|angle| + 361)/45)*r + 2*|center|) (plus the underflow unit) of its exact place on the circle, where m is the number of vertices and r the larger radius; so the error of accumulating the angle grows only linearly with the number of vertices. The centroid of a regular polygon is the given center, bit for bit. If n^3 times that bound is at most |radius| the stored vertices are pairwise distinct and strictly convex in counter-clockwise order, so the claims is_convex = True and is_simple = True, which planar does not check, are right. Without the condition they are wrong: Polygon.regular(4, 1.0, (2**60, 2**60)) has four equal vertices and is reported convex and simple.", "quantifier": "all vertex counts up to 65536, all finite radii and centers up to 2^990 of either sign, all angles up to 65536 degrees, every math library accurate as in C114", "why_tests_cant": "The error depends on the number of vertices, angle, radius and center together; tests compare a few polygons with another rounded computation and never check convexity of the doubles themselves.", "anchors": ["planar/polygon.py:Polygon.regular", "planar/polygon.py:Polygon.star", "planar/polygon.py:Polygon.is_convex", "planar/polygon.py:Polygon.centroid", "planar/util.py:cos_sin_deg"]}
{"id": "C116", "title": "Inverses of transforms on doubles", "statement": "On doubles, ~m raises TransformNotInvertibleError when the exact |a*e - b*d| is below EPSILON, and is accepted when it is above, up to 3*2^-53*(|a*e| + |b*d|). When accepted, with c = (|a*e| + |b*d|)/|a*e - b*d| at most 2^47, each linear entry of ~m has relative error at most 8*2^-53*c against the exact inverse matrix, and the translation entries at most 12*2^-53*c relative to the sizes of the two products they are computed from. With all entries up to M (M >= 1) and k = 2*M^2/|det|, (m * ~m).is_identity is True whenever EPSILON exceeds 37*2^-53*k^2*M; and for transforms without translation ~m * (m * v) is within 64*2^-53*k^2 times the size of v of v.", "quantifier": "all transforms with finite entries up to 2^200 and |det| at least 2^-200 (no lower bound for the rejection), all vectors up to 2^200, all EPSILON, any math library", "why_tests_cant": "The error grows with the cancellation in the determinant, which random test matrices almost never have; the bound is over all matrices.", "anchors": ["planar/transform.py:Affine.__invert__", "planar/transform.py:Affine.determinant", "planar/transform.py:Affine.is_degenerate", "planar/transform.py:Affine.is_identity", "planar/transform.py:Affine.__mul__", "planar/transform.py:Affine.almost_equals"]}
{"id": "C117", "title": "Scaling, clamping, projecting and reflecting vectors on doubles", "statement": "On doubles, v.scaled_to(len) is within 11*2^-53*|len| per coordinate of the vector of length len in the exact direction of v when |v| is above EPSILON, and exactly (0, 0) when it is below (up to 7*2^-53 relative). v.project(o) is within 11*2^-53*|o| of the exact projection and v.reflect(o) within 32*2^-53*|v| of the exact reflection, and both are exactly (0, 0) when the square of the divisor is below EPSILON**2. v.clamped(min_length, max_length) with ordered bounds never fails, keeps the direction of v, has a length within 22*2^-53 (relative) of a number that respects both bounds up to 8*2^-53 (relative) and 2^-500, and returns v itself, bit for bit, when |v| lies between the bounds by that margin.", "quantifier": "all finite vectors of length 2^-400 to 2^400 (the projected vector may be shorter), all lengths and bounds up to 2^400 given or omitted, all EPSILON, every math library with accurate square root and square", "why_tests_cant": "Tests use vectors with short exact coordinates; cancellation in the dot product and decisions near the bounds depend on every bit of the inputs.", "anchors": ["planar/vector.py:Vec2.scaled_to", "planar/vector.py:Vec2.clamped", "planar/vector.py:Vec2.project", "planar/vector.py:Vec2.reflect"]}
{"id": "C118", "title": "Angles of vectors on doubles", "statement": "On doubles, v.angle differs from the exact angle by at most 6*2^-53 of it, lies within 180 (plus 1081*2^-53) of zero and on the side given by the sign of the y component, and the exact direction of the reported angle is within 50*2^-53*|v| of v. Rotating v exactly by v.angle_to(o) gives the direction of o within 118*2^-53*|v|, v.rotated(v.angle_to(o)) within 250*2^-53*|v|, and Vec2.polar(v.angle, v.length) is within 143*2^-53*|v| of v. The claims that angle is in (-180, 180] and angle_to the smallest angle fail also between equal vectors: Vec2(-1, -0.0) == Vec2(-1, 0.0), yet their angles are -180 and 180 and angle_to between them is 360.", "quantifier": "all nonzero vectors of finite doubles (for the rotation up to 2^990, for polar of length 2^-400 to 2^400), every math library with accurate atan2, degrees, cosine, sine and square root", "why_tests_cant": "Tests compare with a tolerance at a few angles; signed zeros on the negative axis and the relative error of tiny angles are not sampled.", "anchors": ["planar/vector.py:Vec2.angle", "planar/vector.py:Vec2.angle_to", "planar/vector.py:Vec2.rotated", "planar/vector.py:Vec2.polar", "planar/vector.py:Vec2.__eq__"]}
{"id": "C119", "title": "Projection and reflection on lines, rays and segments on doubles", "statement": "On doubles with coordinates up to M, Line(p, v).project(q) is within 2^-42*M of the nearest point of the exact line and Line(p, v).reflect(q) within 2^-43*M of the exact mirror image of q. Ray(p, v).project(q) never raises, is within 2^-43*M of the nearest point of the exact ray when q is not behind the anchor, within EPSILON + 2^-42*M of it always, and is exactly the anchor when q is more than EPSILON + 2^-43*M behind. LineSegment(p, v).project(q) is within 2^-42*M of the nearest point of the exact segment when q is level with the segment, within EPSILON + 2^-42*M of it always, and is exactly the start (the end property) when q is clearly before the start (beyond the end).", "quantifier": "all anchors, directions and query points of finite doubles with coordinates up to M, M between 2^-400 and 2^395, direction length clearly above EPSILON, every tolerance up to 1/4, every math library with an accurate square root", "why_tests_cant": "Tests project a handful of points and compare with a tolerance; they never bound the error uniformly, nor check which of the cases (interior, start, end) is taken near the decision boundary.", "anchors": ["planar/line.py:Line.project", "planar/line.py:Line.reflect", "planar/line.py:Ray.project", "planar/line.py:LineSegment.project"]}
{"id": "C120", "title": "Transforming lines, rays and segments on doubles", "statement": "On doubles with coordinates up to M, segment * T and segment *= T give the same segment: its start is exactly T * start as computed, its ends are within 2^-43*M of the exact images of the reported ends, and its distance_to and contains_point are those of the exact image segment within 2^-42*M. ray * T and ray *= T give the same ray, whose anchor is exactly T * anchor as computed, whose direction is within 2^-47*(1 + M/l) of the exact direction through the images of its two reported points at distance l, and whose distance_to is that of the exact image ray within 2^-44*M*(1 + M/l). line * T and line *= T give the same line, likewise with signed distances within 2^-45*M*(1 + M/l).", "quantifier": "all transforms, lines, rays, segments and query points of finite doubles whose terms are at most M/2 (M between 2^-400 and 2^395) and whose image is longer than EPSILON by a margin, every tolerance up to 1/4, every math library with an accurate square root", "why_tests_cant": "Tests transform a few shapes by round numbers; accumulated rounding, its magnification by short images, and agreement of the in-place form with the copying form are not bounded by any finite set of cases.", "anchors": ["planar/line.py:Line.__imul__", "planar/line.py:Ray.__imul__", "planar/line.py:LineSegment.__imul__", "planar/transform.py:Affine.__mul__"]}
{"id": "C121", "title": "Accuracy of the centroid on doubles", "statement": "On doubles with n vertices and coordinates up to M, the centroid of a polygon is None when is_simple is False, and otherwise is within 2^-46*X*n^2*M^2/(2A) in each coordinate of the exact centre of mass of the vertices, where A is the exact area, X bounds the coordinates of the exact centre of mass, and 2A is at least 2^-40*n^2*M^2; in particular it is within 2^-46*n^2*M^3/(2A) when the vertices form a convex polygon in either direction. The condition on the area cannot be dropped: a triangle with integer vertices near 2^27 and area 1/2 is reported simple, and its centroid raises ZeroDivisionError.", "quantifier": "all vertex lists of finite doubles with coordinates up to M (M between 2^-300 and 2^300, at most 2^20 vertices, X up to 2^600), after any sequence of modelled polygon operations and cached reads, every math library", "why_tests_cant": "Tests compare the centroid of a few small polygons with a tolerance; they never bound the accumulated rounding error over all vertex counts nor relate it to cancellation in the area.", "anchors": ["planar/polygon.py:Polygon.centroid", "planar/polygon.py:Polygon.is_simple"]}
{"id": "C122", "title": "Points clearly inside or outside a regular polygon on doubles", "statement": "On doubles, whatever was read from the polygon before, Polygon.regular(n, r, c, a).contains_point(q) is True when q is nearer to the centre than the inscribed circle of the exact polygon by at least a band, and False when q is beyond the circumscribed circle by at least the band; in the first case q is strictly inside every edge of the exact polygon, in the second strictly outside some edge. The band is 2^-46*M plus twice the error bound of a vertex from C115 (which grows with n and the starting angle).", "quantifier": "all n from 5 to 65536, radii (of either sign), centres and points of finite doubles up to M (M between 2^-300 and 2^300), starting angles up to 65536 in size, any sequence of reads before, every math library with accurate cosine, sine, radians and square root", "why_tests_cant": "Tests try a few points of a few small polygons; they cannot show that the stored squared radii, each with its own rounding error, never misjudge a point that is clear of the two circles.", "anchors": ["planar/polygon.py:Polygon.regular", "planar/polygon.py:Polygon.contains_point"]}
{"id": "C123", "title": "Point queries on triangles on doubles", "statement": "On doubles, whatever was read from the triangle before (with the same EPSILON), Polygon([a, b, c]).contains_point(q) is True when the three barycentric coordinates of q in the exact triangle are all at least r = 2^-39*M^4/K^2, and False when one of them is at most -r, where K is twice the signed area and M bounds the coordinates; the order and orientation of the vertices do not matter. The area must satisfy K^2 >= 2^-33*M^4 and the vertices must be apart by more than EPSILON. Without room in the area the answer can be wrong well inside: for a triangle with integer vertices below 2^28 the computed denominator cancels to zero and a point with barycentric coordinates 1/4, 1/4, 1/2 is reported outside.", "quantifier": "all triangles and points of finite doubles with coordinates up to M (M between 2^-200 and 2^200) meeting the stated room, every EPSILON with a finite square, any sequence of reads before, every math library", "why_tests_cant": "Tests try a few points of one or two triangles; the barycentric test goes through fourth powers of the coordinates and a reciprocal, and only an error bound over all inputs shows how near an edge an answer can be trusted.", "anchors": ["planar/polygon.py:Polygon.contains_point", "planar/polygon.py:Polygon._pnp_triangle_test"]}
{"id": "C124", "title": "almost_equals on doubles", "statement": "On doubles, a.almost_equals(b) of vectors is True when the exact distance times (1 + 2^-50) is at most EPSILON and False when it is at least EPSILON times (1 + 2^-50). Two transforms are almost equal when every pair of entries differs by clearly less than EPSILON, and not almost equal when some pair differs by EPSILON or more (no margin is needed there, because rounding a difference never takes it below a double it exceeds). Lines, rays, segments, bounding boxes and sequences are almost equal when every compared attribute (offset and direction, anchor and direction, anchor and vector, both corners, every element) is clearly near, and not when one of them is clearly far, whatever the others hold (even NaN); sequences of different lengths never are. The margin is needed: entries that differ by less than EPSILON can be reported as different.", "quantifier": "all finite doubles with distances up to 2^400, all tolerances from 2^-400 to 2^400, every math library that squares within two roundings", "why_tests_cant": "Tests compare values far below or far above the tolerance; how near the tolerance the answer is still right, for values of any magnitude, needs an error bound for the rounded squares and sums.", "anchors": ["planar/vector.py:Vec2.almost_equals", "planar/transform.py:Affine.almost_equals", "planar/line.py:Line.almost_equals", "planar/line.py:Ray.almost_equals", "planar/line.py:LineSegment.almost_equals", "planar/box.py:BoundingBox.almost_equals", "planar/vector.py:Seq2.almost_equals"]}
{"id": "C125", "title": "Parallels, perpendiculars, supporting lines and the points of segments on doubles", "statement": "On doubles, Line(p, v).parallel(p2) and .perpendicular(p2) succeed and answer distance_to, point_left, point_right and contains_point as the exact line through p2 along v (or along v turned counter-clockwise) does, for every query point, except within 2^-44*M of a decision boundary (M bounds the coordinates of the points; the length of v is not limited). The line attribute of Ray(a, v) and LineSegment(a, v) does the same for the exact line through a along v. Line.from_normal(n, offset) reports the distance of q as its coordinate along n less the offset, up to 2^-46*M. LineSegment(a, v) has end a + v, mid a + v/2 and vector v, each coordinate right up to 2^-45*M; after assigning end = b the anchor is unchanged, the end is b, mid is halfway between a and b and length is the distance, with the same error.", "quantifier": "all finite doubles with points up to M (M between 2^-400 and 2^395), directions and normals of length between 2^-399 and 2^399 and clearly above EPSILON, every EPSILON up to 1/4, every math library with a square root right within 2 roundings", "why_tests_cant": "The tests check axis-parallel lines with exact results; a derived line is built from a direction that has already been rounded, normalised a second time, and only an error bound over all directions shows that it still separates points as the requested line does.", "anchors": ["planar/line.py:Line.parallel", "planar/line.py:Line.perpendicular", "planar/line.py:Line.from_normal", "planar/line.py:Ray.line", "planar/line.py:LineSegment.line", "planar/line.py:LineSegment.end", "planar/line.py:LineSegment.mid", "planar/line.py:LineSegment.vector"]}
