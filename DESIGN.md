# Formal model of planar (pure-Python 2D geometry) in Rocq

Subject: `/repo/planar/*.py` at the pinned commit (the pure Python
implementation; the C extension mentioned in the tests is not in the tree).

## 1. Approach

* **Shallow, function-by-function model.** Every Python function becomes a
  total Gallina function with the same branches. Exceptions are values
  (`res A := Ok a | Err e`). Loops become structural recursion over the list
  being iterated, or fuelled recursion with an explicit `OutOfFuel` outcome that
  the theorems exclude.
* **One model text, several number systems.** The model is written once over a
  type class `Num T` of operations (add, sub, mul, div, opp, abs, `**0.5`, `**2`,
  `<`, `<=`, `==`, cos, sin, tan, atan2, mod, floor-division, literals), and
  instantiated with
  - `R` — the *real-arithmetic idealisation*: no rounding, no NaN, no infinity,
    division by 0 is an exception. Geometric theorems are about this instance;
  - IEEE binary64 (`PrimFloat`) with the libm functions (`cos`, `sin`, `tan`,
    `atan2`, `pow`, `%`, `//`) as universally quantified parameters. Theorems
    that only involve comparisons, and executable counterexamples, are stated
    about this instance;
  - *any* `Num T` — theorems about control flow, caches, histories, list
    structure hold for every number system, hence bit-for-bit for doubles.
* **Mutable objects are records**, a mutating method returns the new record
  (and, when it raises, the record it leaves behind). Histories are lists of
  operations folded over a state.
* **EPSILON** (module global, `set_epsilon`) is an explicit argument `E` of each
  modelled function that reads it; `EPSILON2` is `E**2`.
* **Python set iteration order** (convex hull) is an arbitrary permutation
  oracle.
* Every model definition has a comment with the file and lines it models and
  the simplifications made.

Specifications (what "inside", "closest", "convex", "rotation of a list" mean)
are written separately in `Spec*.v` in plain mathematics, without using the
model's helpers. `Prop*.v` files contain only the property theorems, each closed
by `exact` of a lemma, followed by `Print Assumptions` and non-vacuity examples.

## 2. What is modelled per property, and how it is proved

| id | model | proof |
|----|-------|-------|
| C01 | `cos_sin_deg` over R with Python `%` as floor-mod | case split on the special values; periodicity of cos/sin lifted to Z |
| C02 | `Vec2.polar`, `angle`, `length`; atan2 defined on R by quadrant | polar decomposition lemma for atan2 |
| C03, C04 | `angle_to`, `rotated` | angle-addition; C04 refuted by a witness |
| C05–C07 | `normalized`, `scaled_to`, `clamped` | nra/field after `sqrt` lemmas; C07 refuted with negative bounds |
| C08–C10 | `project`, `reflect`, `rotated`, `lerp` | field arithmetic; lerp end points also on floats through Flocq |
| C11, C12 | comparison operators, `almost_equals`, `is_null` | order reasoning; generic over ordered number systems where possible |
| C13–C16 | `Vec2Array` as list state machine with Python index/slice arithmetic | refinement to a list spec, induction over histories; longest and self-extend refuted |
| C17–C28 | `Affine` as a 6-tuple, constructors, `__mul__`, `__invert__`, predicates, `itransform`, instance-dict cache | ring/field; C19, C20, C26, C28 refuted with witnesses, with the positive fragment beside (C21) |
| C29–C38 | `BoundingBox` | induction over point lists (generic in an ordered number system, instantiated at R and floats); C33, C35, C37 refuted |
| C39–C48 | `Line`, `Ray`, `LineSegment` as records with setters | invariant over histories; closest-point proofs in R; C46 refuted for from_normal |
| C49–C51 | `Polygon` record with all cache fields; operations as a state machine | invariant "every cache field is unknown or equals the fresh value" (any number system); C50 refuted with witnesses, conditional theorem beside; `C50_convex_exact` (`PropSplit.v`): for convex polygons with distinct vertices it holds if and only if they are not `misread` |
| C52, C53 | `_classify` loop | lemma: at most two lexicographic direction changes and one turn sign imply the edge vectors are angularly sorted; partial-sum argument; degenerate-tail counterexample |
| C54–C58 | winding / y-monotone / triangle tests | sum of half-plane crossing contributions; per-triangle lemma; bisect lemma; C58 refuted (CCW square); `MonoFacts5.v`, `PropSplit.v`: for distinct vertices the search is right if and only if the chains are not `misread` (Spec in `SpecSplit.v`: which of the first extreme vertices coincide), otherwise it always answers False |
| C59, C63 | exceptions of `contains_point`, `centroid` | refuted with witnesses, conditional theorem beside |
| C60, C61 | `_segments_intersect`, sweep | sweep = all-pairs lemma; orientation counterexample; `PropSimple2.v`: two straight runs over one another are followed (induction on the number of vertices ahead) to a corner of one on an edge of the other, which the sweep sees, so is_simple is exact without spikes |
| C62 | centroid fan sum | algebra over lists by induction |
| C64, C65 | `__eq__` trigram multisets | multiset of trigrams is invariant under rotation/reversal; NoDup case reconstructs the cycle; 9-vertex counterexample |
| C66, C67 | adaptive quick hull with iteration-order oracle | inclusion by induction; enclosure for the quick-hull part; sorted-scan counterexample; `HullFacts5.v`: if the points project on the chord between leftmost and rightmost, the supporting lines of every subproblem make at most a right angle with its chord, so every sorted scan is sound |
| C68 | tangents | membership for all; support for convex; `TieFacts.v`: the search past the lowest vertex never turns back, so with two vertices on the right tangent the outcome is decided by where halving meets them |
| C69–C71, C73–C75, C96 | `regular`, `star` constructors | trigonometric bounds; star witnesses; `PropRegular2.v`: exactly which squares are answered correctly; `StarFacts3.v`, `PropStar2.v`: orientation formulas of stars with any real radii (zero, negative, mixed) |
| C72 | `__repr__` as a record of printed fields, and the constructor it calls | case analysis on the cache |
| C76, C77 | vector, line, ray, segment methods on doubles (`FNum`) with `**2` overflow | rounding-free case analysis: null tests guard every division; failed setters leave the object unchanged |
| C78–C80 | `distance_to`, `dot`, `cross`, division operators; `__eq__`, `almost_equals` of every shape | algebra over R; order reasoning on doubles |
| C81, C82 | `Dispatch.v`: values of all classes and Python's choice between `__op__`, `__rop__`, `NotImplemented` | case analysis over classes; two-element arrays refuted |
| C83 (and C16) | `Heap.v`: objects and the lists they refer to in a store, live iteration | ownership invariant (no two objects hold the same list) over every program |
| C84 | the polygon model at `FNum` and at `RNum` side by side | `RelPoly.v`: every function preserves the relation 'same real value, at most k bits'; `FloatExact.v`: the doubles of a binary grid satisfy it (Flocq); `PropExact2.v` transfers C61 and the C58 characterisation |
| C85 | `arr_normalized`, `arr_clamped` in `Seq.v` | elementwise from C05/C06; rejection both ways; negative maximum refuted |
| C86 | `Settings.v`: the globals EPSILON, EPSILON2 as a state, `set_epsilon`, the functions that read EPSILON2 | induction over calls; overflow and underflow refuted on doubles; justifies the explicit argument `E` |
| C87–C90 | vectors, transforms, lines, rays, segments at `FNum` against exact real geometry | `FloatErr*.v`: forward error analysis (`apx f x d`: finite and within d of x) on Flocq's rounding bounds; distances are continuous across the branch they switch on, so a wrong branch costs only the margin |
| C91 | items, slices with any step, extend on the list state | `SliceFacts.v`: positions as an arithmetic progression; fixed length refuted for slices, proved for integer indices |
| C92 | `Repr.v`: the text of `__repr__` with the printing of numbers a parameter | `SpecExpr.v`: lexer, parser and evaluator of the needed Python expressions; induction over the vertex list; normalizing twice on doubles |
| C93 | `Cost.v`: the polygon methods again with a step counter (proved equal to the methods) | bounds by induction over loops and recursion; a weight argument for the hull (a call keeps at most 4/5 of the points of its caller or sorts); unimodal search with halving for tangents; points on a parabola as the family for the refutations |
| C94 | the polygon model at `FNum` and at `RNum` side by side | `RelClear.v`: as `RelPoly.v`, from agreement of coordinate comparisons and of the signs of three-point determinants only (successive non-zero edges share an end point); `ClearFacts.v`: the rounding error of such a determinant is at most 2^-47 M^2, and it is exactly zero when two of the points coincide |
| C95 | the hull model at `FNum` and at `RNum` side by side | `RelHull.v`: every quantity compared by the hull has at most 53 bits on a power of the grid, except the products with the rounded inverse of the denominator, of which only the sign is used (`HullGrid.v`); `PropHullGrid.v` builds the set order on the reals from the one on doubles |
| C97 | `Box.v`, `BoxPoly.v` at `FNum` | `BoxFloat.v`: rounding is monotone and keeps doubles, so coordinates stay on the right side of the corners; error chain for `fit`; sign of the vertical-edge determinant for `to_polygon`; witnesses by computation for overflow, underflow and last-digit failures |
| C98 | `Polygon.v`, `Affine.v` | `TransTri.v`: the winding number of a triangle around a point off its edges is determined by orientations; `TransFacts.v`: fan decomposition from an apex whose spokes avoid the point, so the winding number is kept up to the sign of the determinant; then C56, C57, C50, C53, C61 for the states reached by reads; refuted by computation after `is_convex` was read, and on the boundary; exact condition for convex polygons in `PropMove.v` from C58_exact |
| C99 | `Line.v`, `LineOps.v` | `SpecMotion.v`: every distance is multiplied by k; `LineTrans.v`: then dot products are multiplied by k², the determinant is ±k², and the frame of the image is the image of the frame over k (normal up to that sign) |
| C100 | `Dispatch.v`, `Vec.v`, `Seq.v` | `PropOps.v`: the operator of two numbers, pairs and lists written out (`num_op`, `pair_op`, `list_op_is`), then by cases on the operator and the classes |
| C101 | `Vec.v`, `Affine.v` on `FNum` | `IntExact.v`: integer doubles add, subtract and multiply exactly; `x * -1` is `-x` and adding a zero changes nothing but the sign of zero. `PropTurn.v`: the four matrices; library hypotheses `right_lib`, met by `int_lib` |
| C102 | `Affine.v` | `PropCons.v`: formulas for the image of a point written out; by algebra |
| C103 | `Polygon.v` on `FNum` | `PropMassF.v`: the running sums are integers below 2^53, by induction over the vertices, so only the last division rounds; Spec: no finite double is closer to the shoelace centre of mass; box bound from the sign of the fan of triangles; witness for the failure beyond the bound |
| C104 | `Compare.v`, `Dispatch.v` | `PropCompare.v`: Spec `same_value`, `orderable`, `lex`; Python's comparison protocol (subclass first, reflected method, default) by cases on the two classes; equivalence from C64, C80 and elementwise equality; hash functions of numbers and tuples are arbitrary, the former respecting `==` |
| C105 | `Polygon.v`, `PolyOps.v` | `PropKnown.v`: Spec `tells`, `reset_flags`; each query keeps what was known (`keeps`), by cases; the invariant `backed` (simplicity known implies convexity known) over histories |
| C106 | hull + containment | `HullFacts6.v`: hull vertices are distinct by induction over the recursion; enclosure from C67; a clockwise list that starts at its leftmost vertex is not `misread` (C58), so the search is exact; `PropHullPolyF.v` transfers this to doubles by C95 and C84 |
| C107 | hull + containment | Spec in `SpecRegion.v` (intersection of all convex sets); `RegionFacts.v`: farthest vertices bound enclosed points (cone at a corner), fan from a vertex puts every enclosed point in a triangle or on an edge line, successors in a strictly convex cycle are unique; enclosure from C106; doubles by C95 and C84 |
| C108 | `__eq__` against every query | `PropSame.v`: equal trigram multisets give equal edge multisets, so equal winding numbers and boxes; pairs of non-adjacent edges transported along rotation and reversal (index bijections); refuted for repeated last vertices and for convex polygons once classified; doubles: `RelEq.v` (equality only compares vertices), grid by C84; exact condition for convex polygons in `PropMove.v` |
| C109 | hull + transforms | `PropHullTrans.v`: the smallest convex set and its extreme points commute with affine images; with C107 the hulls bound corresponding regions; clockwise cycles through the same points are rotations of each other, so C64 gives `==`; refuted for points outside the strip of C67 (the stretched points of C67_refuted); on doubles in `PropHullTransF.v` through C95 and C110 |
| C110 | transforms on doubles | `SpecGrid.v`, `GridOps.v`: sums, differences and products of bounded multiples of a power of two do not round; `PropGrid.v`: points, sequences, products, determinant and inverse are exact, polygons through the relation of C84, containment through C98; a witness at 2**53 |
| C111 | hull laws | `PropHullLaws.v`: from C107 (the hull bounds the smallest convex set) and the corners of C109; `PropHullLawsF.v` on doubles through C95; refuted with the points of C67 |
| C112 | sides on doubles | `PropSides.v`, `SideFacts.v`: order of doubles (NaN compares false), monotone rounding of `length + EPSILON` with overflow, commutativity of double products |
| C113 | frame on doubles | `PropFrame.v`, `FrameF.v` (error of the length up to the overflow threshold, kinds of doubles), generic induction over histories; assumes of `x ** 0.5` two roundings and `inf`, `nan` kept |
| C114 | `cos_sin_deg`, `rotated`, `vec_polar`, `arotation` at `FNum` against `prot` over R (`SpecGeom.v`), library accuracy `trig_ok` (`SpecRot.v`) | `RotFacts.v`: cosine and sine are 1-Lipschitz, so the errors of `%` and `radians` carry over; forward error analysis as in C87; `IdealLib.v` builds a library of correctly rounded functions meeting `trig_ok` |
| C115 | `poly_regular`, `poly_star` at `FNum` against `regular_points`, `star_points` over R (`SpecRegular.v`), bound `ring_err` (`SpecRing.v`), `strictly_convex` (`SpecTangent.v`) | `RingF.v`: induction over the vertices with the accumulated error of the angle; `RingConvex.v`: points moved by less than r/n^3 keep every orientation of a regular polygon; far-center witness evaluated |
| C116 | `ainvert`, `amul`, `aapply`, `is_identity`, `is_degenerate` at `FNum` against an exact inverse matrix `inverse_of` (`SpecInv.v`) | `InvF.v`, `InvF2.v`: forward error analysis relative to the cancellation in the determinant |
| C117 | `scaled_to`, `clamped`, `vec_project`, `vec_reflect` at `FNum` against the exact scaled, projected and reflected vectors | `ScaleF.v`: relative error of length, squared length, dot product and quotient; `SpecScale.v`: `pow_ok` |
| C118 | `angle`, `angle_to`, `rotated`, `vec_polar` at `FNum` against the angle with signed zeros `is_arg` (`SpecAngle.v`) | `PropAngle.v`: error propagation through `degrees`, Lipschitz bound for points of a circle |
| C119 | `line_project`, `line_reflect`, `ray_project`, `seg_project` at `FNum` against `nearest` points of `along_line`, `along_ray`, `along_seg` (`SpecGeom.v`, `SpecLine.v`) | `ProjF.v`, `PropProj.v`: perturbation of the projection on a nearly unit direction, margins around the case distinctions |
| C120 | `seg_mul`, `seg_imul`, `ray_mul`, `ray_imul`, `line_mul`, `line_imul` at `FNum` against the exact images `img` of the reported points (`SpecAffine.v`) and `set_distance` (`SpecErr.v`) | `PropLineMulF.v`: images within margins, stability of the distance to a segment or ray under perturbation of its ends or direction, then C88–C90 |
| C121 | `get_centroid` at `FNum` after any operations against `mass_centre`, `area2` (`SpecMass.v`, `SpecGeom.v`) | `PropCentroid.v`: induction over the vertices with an error of 190 k² u M³ in the moments and 42 k² u M² in the doubled area, then the error of the quotient |
| C122 | `poly_regular`, `contains_point` (the radius shortcuts) at `FNum` after any reads against the circles of the exact polygon `regular_points` (`SpecRegular.v`), band `ring_err` (`SpecRing.v`) plus a margin | `PropRegularF.v`: error of the stored inner radius and of the squared distance, then squares of numbers clearly apart compare as the numbers do |
| C123 | `contains_point`, `triangle_test`, `tri_build`, `tri_eval` at `FNum` after any reads against the barycentric coordinates `bary` of the exact triangle | `PropTriF.v`: forward error of the dot products, the denominator, its reciprocal and both coordinates; the comparisons hold beyond the margin; hypotheses closed under permuting the vertices; witness of cancellation (`C123_thin_refuted`) |
| C124 | `vec_almost_equals`, `affine_almost_equals`, `line_almost_equals`, `ray_almost_equals`, `seg_almost_equals`, `box_almost_equals`, `seq_almost_equals` at `FNum` against exact distances and differences | `PropAlmostF.v`: relative error of the sum of squares and of the squared tolerance; monotone rounding for single differences; witness of a difference rounding up to the tolerance (`C124_round_refuted`) |
| C125 | `line_parallel`, `line_perpendicular`, `line_from_normal`, `ray_line`, `seg_line`, `seg_end`, `seg_mid`, `seg_vector`, `seg_set_end` at `FNum` against exact signed offsets and points | `PropParF.v`: a computed direction is a good direction again (`dir_good`), the offsets of two close directions are close (`offset_close`), then the construction bound of C88; product and sum bounds for the points |

Not expressible: string formatting details (`%r` of floats), hashing quality,
complexity claims (O(log n)), interpreter-level behaviour of subclassing.

## 3. Trusted base

* Coq 8.16.1 kernel (and coqchk in the gate).
* Axioms: `ASSUMPTIONS.md` (regenerate with `tools/assumptions.py`) lists, for
  each property theorem, what `Print Assumptions` prints. They are all from
  Coq's standard library:
  - theorems over R: `ClassicalDedekindReals.sig_forall_dec`, `sig_not_dec`,
    `functional_extensionality_dep` and `Classical_Prop.classic`;
  - theorems for any `Num T`: none;
  - theorems on doubles: the primitive float and int63 operations, their
    `FloatAxioms`/`Uint63` specifications, and those of R when Flocq's
    correctness lemmas are used (Flocq adds no axioms of its own).
  No axioms are added by this development.
* The reading of the Python source: the model is related to the code only by
  the citations.
* `QNum : Num Q` is used only to compute witnesses of refutations exactly; the
  transfer from Q to R is proved.

### 3.1 What is modelled

| file | modelled in | functions |
|------|-------------|-----------|
| vector.py | `Vec.v`, `Seq.v`, `SeqItems.v`, `Repr.v`, `Dispatch.v`, `Compare.v`, `Heap.v` | all of Vec2, Seq2 and Vec2Array except `__str__` of Vec2, `__pos__`, and `__len__`, `__iter__` (those of the list itself) |
| transform.py | `Affine.v`, `AffineCache.v`, `Repr.v`, `Dispatch.v`, `Compare.v` | all constructors, properties, operators, comparisons, `itransform`, `__repr__`, the instance cache; not `__str__` |
| box.py | `Box.v`, `BoxPoly.v`, `Repr.v` | everything except the accessors `min_point`, `max_point`, `bounding_box` (record fields) |
| line.py | `Line.v`, `LineOps.v`, `Repr.v` | everything except `__str__` (the text of `__repr__` with `%s` for `%r`) |
| polygon.py | `Polygon.v`, `PolyOps.v`, `Tangent.v`, `Hull.v`, `Cost.v` | everything; `__repr__` as the fields it prints (C72) and as text (C92, `Repr.v`) |
| util.py | `AffineCache.v`, `Compare.v` | `assert_unorderable`, `cos_sin_deg`, `cached_property` as a per-instance memo table |
| `__init__.py` | `Settings.v`, argument `E` elsewhere | `set_epsilon` and the two globals |

### 3.2 What is not modelled, or simplified

* **Rounding** in theorems over R. Those theorems say nothing about doubles; the
  theorems on doubles and for any `Num T` do.
* **libm**: on doubles `cos`, `sin`, `tan`, `atan2`, `pow`, `hypot`, `%`, `//` are
  parameters (`FloatLib`); no theorem assumes anything about their accuracy,
  except the theorems with a hypothesis saying so: `sqrt_ok L` (C87–C90: `x**0.5`
  within a relative 2^-52, proved of the IEEE square root), `sq_lib L` (C86),
  `eps_ok L E` (the square of EPSILON is at most 1/2), `right_lib L` (C101: `%` of
  multiples of 90, cosine and sine of 0), `sqrt_edges L` (C113: square root of
  zero, infinity and NaN), `hypot_at L x y` (C87: `math.hypot` within a relative
  2^-52 at the arguments it is given), `trig_ok L` (C114: `%` 360, `radians`,
  `cos`, `sin` accurate to a few roundings; met by the correctly rounded functions,
  `ideal_trig`), `pow_ok L` (C117: `x ** 2` within two roundings of the square; met
  by the IEEE product), `angle_ok L` (C118: `atan2` and `degrees` accurate to a few
  roundings, `atan2` with the signed zeros of C99; met by `signed_lib`).
  `**2` raising OverflowError and `math.tan`'s domain error are modelled;
  other overflow errors (`hypot`, `int` conversions) are not.
* **Integers and other numeric types** as components: Vec2 multiplies by 1.0,
  after which components are floats; lines, rays and boxes are modelled with
  float components only.
* **Identity shortcuts**: `self is other` in `Polygon.__eq__`, the identity test
  of tuple comparison (visible only with NaN), `self is not identity` in
  `itransform` (the following `!=` decides).
* **Hash tables**: sets and dicts of vectors are modelled by `==` of the keys
  (Python's requirement that hash agrees with `==` is assumed); iteration order
  of the set in `convex_hull` is an arbitrary argument.
* **Operands of foreign classes** beyond those of `Dispatch.v` (strings, user
  classes, subclasses); malformed vectors (components not numbers) appear as
  results in C81 but not as operands.
* **Slices**: all steps (`SeqItems.v`); a slice assignment to a Polygon is modelled on the
  list of vertices only: after it the list holds plain numbers (C91) and no further
  method of such a polygon is modelled.
* **Text** of exception messages and of `str` of Vec2 and Affine; the digits Python prints for a
  number (a parameter of `Repr.v`, required only to read back); the class name in `repr` of a subclass; hashing quality; running times other than the step counts of `Cost.v` (a step is one turn of a loop, one element of a comprehension, copy or slice, or one recursive call; dict and set operations count as bounded, a sort of m elements as a parameter `sortc m`);
  recursion limits, memory exhaustion, threads.
