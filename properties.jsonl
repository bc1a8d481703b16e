{"id": "C01", "title": "Curve construction accepts exactly the well-formed inputs", "statement": "NurbsCurve::try_new returns Ok exactly when there are more control points than the degree and the number of knots equals control points + degree + 1, and Err otherwise. On success the degree and the control points are kept unchanged and in order, and the stored knots are a sorted permutation of the given ones. It panics only when the knots are not totally ordered (NaN).", "quantifier": "every degree, every list of control points of any dimension, every list of knots", "why_tests_cant": "the accept/reject boundary and the permutation/sortedness must hold for every length and every ordering of the knots", "anchors": ["src/curve/nurbs_curve.rs: NurbsCurve::try_new"]}
{"id": "C02", "title": "Knot span search terminates and brackets the parameter", "statement": "For a knot vector with sorted knots and every parameter, the span search terminates, returns an index between the degree and the last control point index, and inside the domain the returned span contains the parameter. For arbitrary scalar comparisons (NaN included) it still terminates and stays in range, so evaluating a well-formed curve never indexes out of bounds.", "quantifier": "every knot vector length, degree, parameter (including outside the domain, NaN, infinities)", "why_tests_cant": "binary search with tolerance and a break condition: termination and bracketing depend on every knot configuration", "anchors": ["src/knot/knot_vector.rs: KnotVector::find_knot_span_index"]}
{"id": "C03", "title": "Basis functions are the Cox-de Boor B-spline basis", "statement": "The basis functions returned for the span containing u equal the textbook Cox-de Boor recursion, are all non-negative inside the span and sum to one, for every degree. (In exact arithmetic: in double precision the sum may differ from one in the last digit, which is shown by a witness.)", "quantifier": "every degree, every sorted knot vector (any multiplicities), every parameter in the domain", "why_tests_cant": "holds for all degrees and knot configurations; tests only sample numerically", "anchors": ["src/knot/knot_vector.rs: KnotVector::basis_functions"]}
{"id": "C04", "title": "Curve evaluation is the rational B-spline formula and never panics", "statement": "For a well-formed curve with positive weights and any parameter, evaluating the curve never panics, and inside the domain the point returned is sum(N_i(u) w_i P_i)/sum(N_i(u) w_i) with N_i the Cox-de Boor basis on the curve's knots.", "quantifier": "every well-formed curve of any degree, dimension, number of control points; every parameter", "why_tests_cant": "universal over curves and parameters; NaN/zero-weight/overrun bugs live in corner configurations", "anchors": ["src/curve/nurbs_curve.rs: NurbsCurve::point_at", "src/curve/nurbs_curve.rs: NurbsCurve::point", "src/curve/nurbs_curve.rs: dehomogenize"]}
{"id": "C05", "title": "Evaluated points stay in the bounding box of the control points", "statement": "For a well-formed curve with positive weights, every point evaluated in the domain lies in the axis-aligned bounding box computed for the curve, and more generally in every half-space containing the (dehomogenised) control points. (In exact arithmetic: in double precision a curve whose control points all coincide already leaves its own box.)", "quantifier": "every curve with positive weights, every parameter of the domain", "why_tests_cant": "convex-hull property quantifies over a continuum of parameters and all curves; culling in intersection search relies on it", "anchors": ["src/curve/nurbs_curve.rs: NurbsCurve::point_at", "src/bounding_box/mod.rs: BoundingBox::from(&NurbsCurve)"]}
{"id": "C06", "title": "Clamped curves interpolate their end control points", "statement": "If the first and last degree+1 knots coincide, evaluating at the start (end) of the domain returns exactly the first (last) control point. (In exact arithmetic: in double precision the first point of a clamped line may differ in the last digit.)", "quantifier": "every clamped well-formed curve, every degree", "why_tests_cant": "needs all degrees and knot spacings", "anchors": ["src/curve/nurbs_curve.rs: NurbsCurve::point_at", "src/misc/end_points.rs: EndPoints"]}
{"id": "C07", "title": "Local control", "statement": "Changing control point i changes the curve only for parameters in [knot_i, knot_(i+degree+1)]; elsewhere evaluation is unchanged.", "quantifier": "every curve, every control point index, every replacement value, every parameter", "why_tests_cant": "a frame property: must hold for all parameters outside the support", "anchors": ["src/curve/nurbs_curve.rs: NurbsCurve::point"]}
{"id": "C08", "title": "Affine transformation commutes with evaluation", "statement": "Transforming a curve by an affine matrix and evaluating gives the transformed evaluated point; weights are unchanged. (For projective matrices the statement is examined and refuted if false.)", "quantifier": "every affine matrix, every well-formed curve with non-zero weights, every parameter", "why_tests_cant": "universal over matrices, curves and parameters", "anchors": ["src/curve/nurbs_curve.rs: Transformable::transform"]}
{"id": "C09", "title": "Reversing a curve mirrors its parametrisation", "statement": "Inverting a curve keeps it well-formed and keeps the first knot, last knot and (for symmetric trimming of the domain) maps evaluation at u to evaluation of the original at first+last-u; inverting twice restores the original curve. (In exact arithmetic: in double precision a second inversion may change a knot in the last digit.)", "quantifier": "every well-formed curve, every parameter", "why_tests_cant": "needs all knot vectors (non-uniform, unclamped) and all parameters", "anchors": ["src/curve/nurbs_curve.rs: Invertible::invert", "src/knot/knot_vector.rs: KnotVector::invert"]}
{"id": "C10", "title": "Normalising knots is a pure reparametrisation", "statement": "normalize_knots makes the domain [0,1] and evaluation at (u-min)/(max-min) on the result equals evaluation at u on the original, for curves whose domain is not empty.", "quantifier": "every well-formed curve with non-degenerate domain, every parameter", "why_tests_cant": "affine invariance over all knots and degrees", "anchors": ["src/curve/nurbs_curve.rs: NurbsCurve::normalize_knots"]}
{"id": "C11", "title": "Adding a knot to a knot vector is sorted insertion", "statement": "KnotVector::add inserts the knot after all knots <= it, returns the index at which the new knot sits, keeps the vector sorted and every other knot.", "quantifier": "every sorted knot vector, every knot value", "why_tests_cant": "all lengths, duplicates, below-first and above-last insertions", "anchors": ["src/knot/knot_vector.rs: KnotVector::add", "src/knot/knot_vector.rs: KnotVector::floor"]}
{"id": "C12", "title": "Knot multiplicities partition the knot vector", "statement": "KnotVector::multiplicity returns runs whose lengths sum to the number of knots and which, expanded, reproduce the knots up to the tolerance; for knots that are equal or more than epsilon apart the expansion is exact and each distinct knot appears once. is_clamped holds exactly when the first and last runs are longer than the degree.", "quantifier": "every non-empty knot vector", "why_tests_cant": "run-length encodings must hold for every run structure", "anchors": ["src/knot/knot_vector.rs: KnotVector::multiplicity", "src/knot/knot_vector.rs: KnotVector::is_clamped"]}
{"id": "C13", "title": "Domain clamping", "statement": "Constraining a parameter to a curve's domain returns a value in the domain, leaves in-domain parameters unchanged and is idempotent.", "quantifier": "every well-formed curve and parameter", "why_tests_cant": "order property for all values", "anchors": ["src/knot/knot_vector.rs: KnotVector::clamp", "src/curve/nurbs_curve.rs: NurbsCurve::knots_constrain"]}
{"id": "C14", "title": "Adding a knot to a curve preserves its shape", "statement": "try_add_knot with a knot inside the knot range adds exactly one control point and one knot, keeps the curve well-formed, and does not change any evaluated point. A knot outside the domain but within the knot range keeps every point on the old domain, its end excluded. (Found to hold only when neighbouring weights agree: a refutation is proved for general rational curves.)", "quantifier": "every well-formed curve, every knot in range, every parameter", "why_tests_cant": "shape preservation must hold at every parameter; a test on unit weights misses the rational case", "anchors": ["src/curve/nurbs_curve.rs: NurbsCurve::try_add_knot"]}
{"id": "C15", "title": "Knot refinement preserves the curve", "statement": "try_refine_knot with a sorted list of interior knots increases knots and control points by the number inserted, yields the sorted merge of the knots, and does not change any evaluated point of the curve.", "quantifier": "every well-formed curve, every sorted list of inserted knots inside the domain, every parameter", "why_tests_cant": "right-to-left multi-insertion loop: correctness depends on every interleaving of old and new knots", "anchors": ["src/curve/nurbs_curve.rs: NurbsCurve::try_refine_knot"]}
{"id": "C16", "title": "Splitting a curve", "statement": "Splitting at a parameter strictly inside the domain yields two well-formed curves whose domains meet at the parameter and which evaluate to the original curve on their halves. (Refuted for the left piece when the parameter is an existing interior knot.)", "quantifier": "every well-formed curve, every split parameter, every evaluation parameter", "why_tests_cant": "needs every position relative to the knots, all degrees", "anchors": ["src/split/mod.rs: Split for NurbsCurve"]}
{"id": "C17", "title": "Trimming a curve", "statement": "Trimming to a parameter range returns pieces that evaluate to the original curve on exactly that range (one piece for an increasing range, two pieces wrapping around for a decreasing one).", "quantifier": "every well-formed curve, every pair of parameters inside the domain", "why_tests_cant": "composition of splits over all parameter pairs", "anchors": ["src/trim/mod.rs: Trim for NurbsCurve"]}
{"id": "C18", "title": "Bezier decomposition reproduces the curve", "statement": "Decomposing a clamped curve into Bezier segments yields one segment per non-empty knot span, each of degree+1 control points, in parameter order with contiguous domains, and each evaluates to the original curve on its domain.", "quantifier": "every clamped well-formed curve, every parameter", "why_tests_cant": "all knot multiplicity patterns", "anchors": ["src/curve/nurbs_curve.rs: NurbsCurve::try_decompose_bezier_segments"]}
{"id": "C19", "title": "Derivatives are true derivatives", "statement": "The first derivative vector returned for a curve at a parameter is the mathematical derivative of the evaluated point with respect to the parameter (and the k-th homogeneous derivative is the k-th derivative of the homogeneous curve) inside a knot span.", "quantifier": "every well-formed curve with positive weights, every interior parameter of a span, every order", "why_tests_cant": "a limit statement: cannot be tested by finite evaluation", "anchors": ["src/knot/knot_vector.rs: KnotVector::derivative_basis_functions", "src/curve/nurbs_curve.rs: NurbsCurve::derivatives", "src/curve/nurbs_curve.rs: NurbsCurve::tangent_at"]}
{"id": "C20", "title": "Rational derivatives satisfy the quotient rule", "statement": "The derivative list of a rational curve satisfies the Leibniz identities sum_i binom(k,i) w^(i) C^(k-i) = A^(k) for every order k, so it is the derivative of A/w.", "quantifier": "every order, every curve with non-zero weight function at the parameter", "why_tests_cant": "all orders k", "anchors": ["src/curve/nurbs_curve.rs: NurbsCurve::rational_derivatives", "src/misc/binomial.rs: Binomial::get"]}
{"id": "C21", "title": "Polylines pass through their points", "statement": "A polyline curve has one knot per vertex equal to the accumulated chord length (scaled to [0,1] when normalised), evaluates to vertex i at knot i and to the segment between vertices in between.", "quantifier": "every list of at least two points with distinct consecutive points, every parameter", "why_tests_cant": "all lists of points, all parameters", "anchors": ["src/curve/nurbs_curve.rs: NurbsCurve::polyline"]}
{"id": "C22", "title": "Periodic curves are closed", "statement": "A periodic curve built from n points has matching start and end points (its first and last evaluated domain points coincide) and is well-formed.", "quantifier": "every list of at least degree+1 points, every degree >= 1", "why_tests_cant": "all degrees and numbers of points", "anchors": ["src/curve/nurbs_curve.rs: NurbsCurve::try_periodic"]}
{"id": "C23", "title": "Interpolation passes through the data", "statement": "Interpolating a list of distinct points, more than the degree, succeeds for every degree (the linear system is never singular), the interpolating curve evaluates to point i at its parameter, starts at the first and ends at the last point, and it is the only unweighted curve of that degree on those knots that does. The closed curve visits the points in order and ends where it starts whenever the solver finds one. (Refuted: a closed quadratic through an even number of points with uniform parameters is an error unless the alternating sum of the points vanishes.)", "quantifier": "every list of points with distinct consecutive points, every degree, every exact linear solver", "why_tests_cant": "all data sets and degrees", "anchors": ["src/curve/nurbs_curve.rs: try_interpolate_control_points", "src/curve/nurbs_curve.rs: try_solve_interpolation"]}
{"id": "C24", "title": "Circles, arcs and ellipses lie where they should", "statement": "A circle or an arc of at most a full turn built from orthogonal axes has the requested angle range as domain; every evaluated point is at distance |radius| from the centre and at an angle of the range, every angle of the range is reached, and the arc starts and ends exactly at the requested angles. A full ellipse from any two independent axes is traced in the same sense. An end angle not greater than the start angle is an error. (Refuted: an arc a shade below half a turn, an arc of two full turns and very short arcs are errors; an elliptic arc with different radii leaves its ellipse.)", "quantifier": "every centre, axes, radius, angle range and parameter", "why_tests_cant": "a continuum of parameters, all angle ranges", "anchors": ["src/curve/nurbs_curve.rs: NurbsCurve::try_arc", "src/curve/nurbs_curve.rs: NurbsCurve::try_ellipse_arc", "src/curve/nurbs_curve.rs: NurbsCurve::try_circle", "src/curve/nurbs_curve.rs: NurbsCurve::try_ellipse", "src/misc/ray.rs: Ray::find_intersection"]}
{"id": "C25", "title": "Degree elevation preserves the curve", "statement": "try_elevate_degree returns a well-formed curve of the target degree with the same domain and the same evaluated points. On a single span (a Bezier curve) raising the degree by one does this up to three surplus points and knots at the end. Polylines and quadratic curves with exactly four pieces are elevated correctly. (Refuted in general: the output arrays have room for exactly four pieces, so raising by one never answers a curve for more than four pieces, and for fewer the knots of every curve whose domain ends above zero are out of order; cubics with four pieces change shape; the function panics for increments >= 2.)", "quantifier": "every well-formed curve, every target degree", "why_tests_cant": "all degrees and increments", "anchors": ["src/curve/nurbs_curve.rs: NurbsCurve::try_elevate_degree"]}
{"id": "C26", "title": "Knot removal keeps the curve well-formed", "statement": "try_remove_knot on a knot absent from the vector fails without changes; when it succeeds with count t, exactly t knots and t control points disappear and the curve stays well-formed; removing a simple interior knot moves the curve by at most the tolerance times an explicit factor (1 in odd degree), and an inserted knot can always be removed again. (Refuted: the plain tolerance in even degree, and removal of multiple knots.)", "quantifier": "every well-formed curve, knot and tolerance", "why_tests_cant": "index arithmetic over all multiplicities", "anchors": ["src/curve/nurbs_curve.rs: NurbsCurve::try_remove_knot"]}
{"id": "C27", "title": "Dimension elevation embeds the curve", "statement": "Elevating the dimension of a curve yields a curve whose evaluated points are the original ones with a zero coordinate appended, at every parameter.", "quantifier": "every curve, every parameter", "why_tests_cant": "all parameters and curves", "anchors": ["src/curve/nurbs_curve.rs: NurbsCurve::elevate_dimension"]}
{"id": "C28", "title": "Memoised binomials are Pascal's triangle", "statement": "The memoised binomial calculator returns the binomial coefficient for every n and k, whatever sequence of queries was made before, and its table never holds a wrong value; it agrees with the closed-form product function.", "quantifier": "every n, k and every history of previous queries", "why_tests_cant": "history-dependent cache", "anchors": ["src/misc/binomial.rs: Binomial::get", "src/misc/binomial.rs: binomial"]}
{"id": "C29", "title": "Closest point on a segment is optimal", "statement": "The closest-point routine returns a point of the segment, with the parameter interpolated consistently, whose distance to the query is minimal among all points of the segment.", "quantifier": "every query point, segment (longer than epsilon) and parameter range, any dimension", "why_tests_cant": "optimality over a continuum", "anchors": ["src/misc/trigonometry.rs: segment_closest_point"]}
{"id": "C30", "title": "Ray intersection is the closest approach", "statement": "For non-parallel rays the two returned points lie on their rays and realise the minimal distance between the two lines; for coplanar crossing lines they coincide.", "quantifier": "every pair of rays, any dimension", "why_tests_cant": "optimality over a continuum", "anchors": ["src/misc/ray.rs: Ray::find_intersection"]}
{"id": "C31", "title": "Transposing control points is an involution", "statement": "Transposing a rectangular grid swaps indices; twice gives the original. An empty grid panics.", "quantifier": "every rectangular grid", "why_tests_cant": "all sizes", "anchors": ["src/misc/transpose.rs: transpose_control_points"]}
{"id": "C32", "title": "Point-in-polygon depends only on the polygon", "statement": "The polygon containment test gives the same answer when the vertex list is rotated, reversed, or when polygon and point are translated together, and rejects every point outside the vertical extent of the polygon; the winding number and the answer do not change along any segment that avoids the boundary; for triangles/convex polygons it is exactly strict containment up to boundary.", "quantifier": "every vertex list, every point", "why_tests_cant": "all polygons", "anchors": ["src/misc/polygon_boundary.rs: PolygonBoundary::contains"]}
{"id": "C33", "title": "Segment intersection test is sound and complete off the collinear case", "statement": "Two segments are reported intersecting only if they share a point, and non-collinear segments sharing a point are reported. (Collinear overlapping segments are reported disjoint: refutation.)", "quantifier": "every pair of segments", "why_tests_cant": "continuum of configurations", "anchors": ["src/misc/line.rs: Line::intersects", "src/misc/orientation.rs: orientation"]}
{"id": "C34", "title": "Arc-length parameter search brackets the answer", "statement": "Searching the parameter at a length always returns a parameter in the segment's domain, and whenever the measured length function is continuous it terminates; on exit the bracket has measured length width at most the tolerance and contains the requested length; the measured lengths are those of the segments, and the whole-curve search picks the segment that contains the length. (A negative tolerance never terminates: proved; unclamped curves: refuted.)", "quantifier": "every clamped curve with positive weights, length, tolerance, and every quadrature rule with nodes in [-1, 1] and non-negative weights", "why_tests_cant": "termination and bracket invariants", "anchors": ["src/curve/nurbs_curve.rs: compute_bezier_segment_parameter_at_length", "src/curve/nurbs_curve.rs: NurbsCurve::try_parameter_at_length"]}
{"id": "C35", "title": "Dividing a curve by length", "statement": "Dividing by a positive length shorter than the curve yields samples whose recorded lengths are 0, L, 2L, ... up to the total, with parameters inside the domain and non-decreasing segment order; non-positive or too large lengths are rejected, as is division into a single part. (Unclamped curves: refuted.)", "quantifier": "every clamped curve with positive weights, every length, every quadrature rule as in C34", "why_tests_cant": "nested loops over all segments", "anchors": ["src/curve/nurbs_curve.rs: NurbsCurve::try_divide_by_length"]}
{"id": "C36", "title": "Curve tessellation starts and ends on the curve", "statement": "Adaptive tessellation with a positive tolerance terminates, contains the start and the end point (when the curve moves at most M times the parameter for an M that is not astronomically large), and all of its points are points of the curve in increasing parameter order, whatever the random sampling; degree-1 curves return their vertices; a tolerance of zero or less leaves one point. (The tessellation need not stay within the tolerance of the curve: refutation.)", "quantifier": "every curve, tolerance, and every sequence of random choices", "why_tests_cant": "randomised recursion", "anchors": ["src/tessellation/tessellation_curve.rs: tessellate_adaptive"]}
{"id": "C37", "title": "Bounding box laws", "statement": "The box of a point set contains every point and is the smallest such box; the overlap test is symmetric and exact for tolerance zero; containment test and size/center/corners agree with the per-axis intervals.", "quantifier": "every non-empty point set, box pairs, any dimension", "why_tests_cant": "all dimensions and sets", "anchors": ["src/bounding_box/mod.rs: BoundingBox"]}
{"id": "C38", "title": "Bounding-box traversal misses no intersection", "statement": "The traversal of two bounding-box trees returns only pairs of leaves with overlapping boxes, and every coincidence of two curves, or of a surface and a curve, whose random divisions stay clear of existing knots (always the case for single spans) is covered by some returned leaf pair; it terminates. Without an explicit tolerance a piece is divided while its range is longer than one 64th of that of the whole curve.", "quantifier": "every pair of trees, every random split choice", "why_tests_cant": "worklist over random subdivisions", "anchors": ["src/bounding_box/bounding_box_traversal.rs: BoundingBoxTraversal::try_traverse", "src/bounding_box/curve_bounding_box_tree.rs"]}
{"id": "C39", "title": "Compound curves are contiguous", "statement": "Building a compound curve from spans never invents spans and always keeps the first one; the stored knot vectors are laid end to end from 0, so clamped spans have contiguous domains. Spans given in connected order are all kept in order and unreversed. (Refuted: all spans of a connected chain are kept in any order; adjacent stored spans are always connected; unclamped spans leave no gap.)", "quantifier": "every non-empty list of spans", "why_tests_cant": "greedy re-ordering over all orders and directions", "anchors": ["src/region/compound_curve.rs: CompoundCurve::new", "src/region/curve_direction.rs: CurveDirection"]}
{"id": "C40", "title": "Compound evaluation is defined on the whole domain", "statement": "For a compound curve with contiguous spans, evaluation succeeds for every parameter of the overall domain, uses a span containing it, and fails outside.", "quantifier": "every compound curve, every parameter", "why_tests_cant": "all spans and parameters", "anchors": ["src/region/compound_curve.rs: CompoundCurve::point_at"]}
{"id": "C41", "title": "Reversing a compound curve", "statement": "Inverting a compound curve reverses its traversal: span order and direction are reversed, and inverting twice restores it. (Parameter domains are not re-aligned, so evaluation over the domain is not the mirrored one: refutation.)", "quantifier": "every compound curve", "why_tests_cant": "multi-span parametrisation", "anchors": ["src/region/compound_curve.rs: Invertible for CompoundCurve"]}
{"id": "C42", "title": "Boolean operations without intersections", "statement": "When the boundaries do not cross, the boolean result describes exactly the set operation for each of the three containment configurations. (Identical boundaries are rejected: refutation.)", "quantifier": "every operation and containment configuration", "why_tests_cant": "decision table over set semantics", "anchors": ["src/boolean/clip.rs: clip"]}
{"id": "C43", "title": "Clipping walk is total and uses each crossing once", "statement": "With an even number of crossings whose order along both curves is consistent, the clipping walk terminates, partitions the crossings into closed loops, visits each crossing exactly once, and never reaches its internal error states. A crossing is classified as line-like when the short chords around it do not meet properly, as regular when the chords meet at a cosine below 0.9975, and as tangential with that cosine otherwise. When an odd number of regular crossings is left and the others are tangential, the tangential crossing with the largest cosine is added.", "quantifier": "every arrangement (pair of permutations) of crossings", "why_tests_cant": "graph walk over all arrangements", "anchors": ["src/boolean/clip.rs: clip"]}
{"id": "C44", "title": "Boolean operations on regions with holes", "statement": "Given correct operations on closed curves, the operations on regions cover exactly these points: a region minus a curve, a region intersected with a curve or with another region, and the union with a curve that meets its exterior and does not lie inside a hole agree with the operations on sets; subtracting a region takes away everything inside its exterior, its holes included; uniting two regions covers both of them except every point inside a hole of the second, so it is the union of the sets when the first region does not reach into these holes; uniting with a disjoint curve answers the first region alone. (So the natural claim of agreement with sets is refuted for disjoint unions, operands inside holes, holes of the subtrahend and overlapping holes, each with a witness.)", "quantifier": "every pair of regions of any number of holes, every family of curves with correct operations", "why_tests_cant": "composition of clip results over arbitrarily many holes; set semantics over all points of the plane", "anchors": ["src/boolean/boolean_region.rs"]}
{"id": "C45", "title": "Reported curve intersections are genuine", "statement": "Every intersection reported between two curves has both parameters inside the curves' domains, points that are the evaluations at these parameters, and distance below the tolerance; results are ordered along the first curve with no two closer than the merge threshold. The same holds between a surface and a curve. If the solver succeeds on every pair of parts that meet, every meeting leads to a reported intersection at least as close as the solver's answer. (Two genuine intersections can be merged: refutation.)", "quantifier": "every pair of curves, every behaviour of the numerical solver", "why_tests_cant": "solver is arbitrary; post-conditions must hold regardless", "anchors": ["src/intersects/curve_curve/intersection_curve_curve.rs"]}
{"id": "C46", "title": "Closest-parameter iteration stays in the domain", "statement": "Newton iterations for the closest parameter on an open curve or surface always stay in the parameter domain. Closedness of a surface in each direction means that opposite rows or columns of control points agree up to ten epsilon. (For closed curves a parameter below the start leaves the domain: refutation.)", "quantifier": "every curve, point, starting parameter, iteration count", "why_tests_cant": "iteration history", "anchors": ["src/closest_parameter/curve_closest_parameter_newton.rs", "src/closest_parameter/surface_closest_parameter_newton.rs"]}
{"id": "C47", "title": "Line search of the intersection solver", "statement": "The backtracking line search terminates within its iteration budget and every accepted step satisfies the sufficient-decrease condition.", "quantifier": "every cost function and start", "why_tests_cant": "iteration over arbitrary functions", "anchors": ["src/intersects/curve_curve/curve_intersection_bfgs.rs"]}
{"id": "C48", "title": "Surface evaluation is the tensor-product formula", "statement": "A surface point is the rational tensor-product combination of control points, independent of the order of evaluation; it is the mean of the affine control points returned by the public accessor, weighted by basis function products times weights; it lies in the surface's bounding box for positive weights; the iso-curve at a parameter evaluates to the surface.", "quantifier": "every well-formed surface and parameter pair", "why_tests_cant": "all degrees and nets", "anchors": ["src/surface/nurbs_surface.rs: NurbsSurface::point_at", "src/surface/nurbs_surface.rs: NurbsSurface::try_isocurve"]}
{"id": "C49", "title": "Planes, extrusions and flips", "statement": "An extruded surface satisfies S(u,v)=C(v)+(1-u)*direction; a plane patch interpolates its corners bilinearly; flipping/inverting a surface mirrors the parametrisation, and flipping twice in the same way gives the surface back.", "quantifier": "every profile, vector, parameter", "why_tests_cant": "all profiles", "anchors": ["src/surface/nurbs_surface.rs: NurbsSurface::extrude", "src/surface/nurbs_surface.rs: NurbsSurface::plane", "src/surface/nurbs_surface.rs: NurbsSurface::flip"]}
{"id": "C50", "title": "Regular surface tessellation is a valid mesh", "statement": "Regular tessellation yields (du+1)(dv+1) vertices/normals/uvs and 2*du*dv triangles whose indices are in range, with consistent orientation; every grid cell is covered by exactly two triangles. For a continuous surface with positive weights, every point of the surface is near a point of the grid: in every coordinate they differ by at most the rates at which the control net moves along u and v (with the least weight and the size of the net for rational surfaces) times half a cell.", "quantifier": "every number of divisions; the distance bound for every well-formed continuous surface of degrees at least one", "why_tests_cant": "all sizes and all surface points", "anchors": ["src/surface/nurbs_surface.rs: NurbsSurface::regular_tessellate", "src/surface/nurbs_surface.rs: NurbsSurface::regular_sample_points"]}
{"id": "C51", "title": "Adaptive surface tessellation tiles the parameter domain", "statement": "Adaptive tessellation of a clamped or unclamped surface with sorted knots always returns a mesh (no error, no panic, no endless subdivision, a node count bounded by the depth limit); its triangles, read in parameter space, are all counter-clockwise, have pairwise disjoint interiors and together cover exactly the whole parameter rectangle; every vertex carries the surface point of its parameters; every index refers to an existing vertex and vertices, normals and parameters have equal counts. Refuted by witnesses: the mesh has no hanging vertices (a crack opens along inner grid lines in the top row); constraining a side only moves that side (the opposite side is moved onto it); an empty constraint list is harmless (it panics).", "quantifier": "every surface, every option record, every subdivision decision the normals lead to", "why_tests_cant": "recursive subdivision with neighbour links; cases depend on the whole tree", "anchors": ["src/tessellation/adaptive_tessellation_processor.rs", "src/tessellation/adaptive_tessellation_node.rs", "src/tessellation/surface_tessellation.rs", "src/tessellation/surface.rs: adaptive tessellation", "src/tessellation/boundary_constraints.rs"]}
{"id": "C52", "title": "Mesh concatenation", "statement": "Adding meshes keeps all vertices and faces, keeps face indices valid and pointing at the same geometry, is associative, and total area is additive. The area is the sum of the areas of the triangles whatever their orientation (half the absolute determinant in the plane, half the root of Gram's determinant in space), hence never negative.", "quantifier": "every pair/list of valid meshes", "why_tests_cant": "all sizes", "anchors": ["src/polygon_mesh/mod.rs: PolygonMesh"]}
{"id": "C53", "title": "Serialisation round-trips", "statement": "Deserialising a serialised curve, surface, compound curve, region or trimmed surface gives back an equal value, for every format whose documents are trees of numbers, lists and keyed maps. A document is accepted exactly when it has every required field once and no other field (regions ignore unknown fields; a trimmed surface may repeat or omit its exterior as long as the earlier ones are unreadable), and then gives exactly the written values; for curves and surfaces the order of the fields is irrelevant; reading never panics. (Refuted: 'only well-formed values': lengths and knot order are not checked, so a value that the constructor rejects and that panics when evaluated can be read; an unreadable exterior of a trimmed surface is silently dropped.)", "quantifier": "every value, every document, every field order", "why_tests_cant": "round-trip over all values and field permutations", "anchors": ["src/curve/nurbs_curve.rs: serde::Deserialize", "src/surface/nurbs_surface.rs: serde::Deserialize", "src/region/compound_curve.rs: serde::Deserialize", "src/region/mod.rs: Region", "src/surface/trimmed_surface.rs: serde::Deserialize"]}
{"id": "C54", "title": "Knot unification of profiles", "statement": "The sorted union of knot lists contains every knot with its maximal multiplicity and nothing else, the difference contains exactly what must be inserted, so after unification all profile curves share one knot vector.", "quantifier": "every pair of sorted lists", "why_tests_cant": "multiset laws over all lists", "anchors": ["src/surface/nurbs_surface.rs: sorted_set_union", "src/surface/nurbs_surface.rs: sorted_set_sub", "src/surface/nurbs_surface.rs: try_unify_curve_knot_vectors"]}
{"id": "C55", "title": "Curves are continuous at their knots", "statement": "Approaching an interior knot of multiplicity at most the degree from the left span or the right span gives the same point, so the evaluated curve has no jumps; a knot of multiplicity degree+1 may jump. Likewise the point of a surface depends continuously on both parameters together when no interior knot has multiplicity degree+1 in its direction.", "quantifier": "every curve, every interior knot", "why_tests_cant": "limit from both sides", "anchors": ["src/curve/nurbs_curve.rs: NurbsCurve::point_at", "src/surface/nurbs_surface.rs: NurbsSurface::point_at"]}
{"id": "C56", "title": "Merging tessellation parameters", "statement": "Merging two sorted parameter lists yields a sorted list containing every parameter of both (up to the tolerance), without losing the end points.", "quantifier": "every pair of sorted lists", "why_tests_cant": "all interleavings", "anchors": ["src/tessellation/surface.rs: merge_sorted_parameters"]}
{"id": "C57", "title": "Trimming a compound curve", "statement": "Trimming a compound curve to a range keeps, span by span and in order, exactly the parts of the curve whose parameters lie in the range (or outside it for a reversed range), each part evaluating to the original curve. (At a junction of two spans refuted: the whole next span is kept.)", "quantifier": "every compound curve, every pair of parameters away from the knots", "why_tests_cant": "all positions of the two parameters relative to all spans", "anchors": ["src/trim/mod.rs: TrimRange for CompoundCurve"]}
{"id": "C58", "title": "Transforming and searching compound curves", "statement": "Applying an affine map to a compound curve maps every evaluated point; the closest point over the spans is one of the per-span closest points and none of them is nearer.", "quantifier": "every compound curve, affine matrix, query point and every per-span search", "why_tests_cant": "all span counts and all per-span results", "anchors": ["src/region/compound_curve.rs: transform", "src/region/compound_curve.rs: find_closest_point"]}
{"id": "C59", "title": "Closest point on a curve", "statement": "The closest-parameter search starts from the point of the sampled polyline nearest to the query; when this seed already is the query point it is returned unchanged; the search always answers on an open curve; the quantities driving the iteration are the first and second derivative of half the squared distance; an answer found before the iteration limit satisfies the orthogonality condition up to the step tolerance; on a straight segment the answer is the globally closest point. (In general the answer may be farther than the seed: refutation.)", "quantifier": "every well-formed curve with positive weights, every query point", "why_tests_cant": "global minimality over all parameters and all iteration histories", "anchors": ["src/curve/nurbs_curve.rs: find_closest_parameter", "src/closest_parameter/curve_closest_parameter_newton.rs"]}
{"id": "C60", "title": "Closest point on a surface is no worse than any vertex of its tessellation", "statement": "Whatever the linear solver answers, the reported parameter of the surface is at most as far from the query as every vertex of the tessellation the search was started from, and for open surfaces lies in the domain. Started from the surface alone, the search on an open surface in space always answers when the linear solver does (it never panics, and it only ever fails when the solver fails), and its answer is at most as far from the query as every point of the grid with two parts per control span (the knots in a direction of degree one). Away from knots a step is the Newton step for half the squared distance: it solves with its gradient and Hessian.", "quantifier": "every surface, vertex list, query point, every behaviour of the linear solver", "why_tests_cant": "all iteration histories and all solver answers", "anchors": ["src/surface/nurbs_surface.rs: find_closest_parameter", "src/closest_parameter/surface_closest_parameter_newton.rs"]}
{"id": "C61", "title": "Quasi-Newton update of the intersection solver", "statement": "Each update of the inverse Hessian satisfies the secant equation, stays symmetric, and stays positive definite when the curvature along the step is positive; the direction then is a descent direction; the cost minimised is the squared distance of the two curves, or of the surface and the curve, and the gradient used is its gradient; from a consistent state one step moves along minus inverse Hessian times gradient by a power of one half, lowers the cost and leaves a consistent state; the result of a run is never worse than its start (the starts of two curves; the middles of a surface patch and a curve), and a run ends within its iteration limit.", "quantifier": "every dimension, matrix, gradients and steps; every cost and gradient function", "why_tests_cant": "all iteration histories and all cost functions", "anchors": ["src/intersects/curve_curve/curve_intersection_bfgs.rs: next_iter", "src/intersects/surface_curve/surface_curve_intersection_bfgs.rs: next_iter"]}
{"id": "C62", "title": "Intersections of compound curves", "statement": "The intersections of a compound curve with a curve are exactly those of its spans, except that the last one of a span is dropped when it lies within the seam tolerance of the span's end and the first one of the next span lies within it of that span's start; every reported intersection names the span it lies on. (An open compound loses a genuine intersection on its last span, and an intersection at a joint of the other compound is reported twice: refutations.)", "quantifier": "every list of spans, every other curve or compound, every behaviour of the curve intersection", "why_tests_cant": "all span counts and hit patterns", "anchors": ["src/intersects/curve_curve/intersection_compound_curve.rs"]}
{"id": "C63", "title": "Uniform knot vectors", "statement": "A uniform knot vector for n >= 2 distinct knots and any degree is the sorted clamped vector 0,..,0,1,..,n-1,..,n-1 with n + 2*degree entries, valid for n + degree - 1 control points, with domain [0, n-1]; n = 0 panics.", "quantifier": "every number of knots and every degree", "why_tests_cant": "all sizes and degrees", "anchors": ["src/knot/knot_vector.rs: uniform", "src/knot/knot_vector.rs: domain"]}
{"id": "C64", "title": "Regular samples of a curve", "statement": "Sampling n >= 2 points of a curve between two parameters of its domain answers exactly n points, the j-th being the curve point at the j-th of n equally spaced parameters; the first and last sample lie at the ends of the range, and the variant with parameters reports these parameters with the same points. For a continuous curve of degree at least one, no homogeneous coordinate moves faster than the control points do (degree times the difference of neighbouring control points over their knot range); with the least weight and the size of the control points this bounds the speed of the points themselves, so every point of the sampled range has a sample within that rate times half a step in every coordinate. (A single sample is not a number: refutation.)", "quantifier": "every well-formed curve with positive weights, every sub-range of the domain, every n >= 2", "why_tests_cant": "all counts, ranges and curves", "anchors": ["src/curve/nurbs_curve.rs: sample_regular_range", "src/curve/nurbs_curve.rs: sample_regular_range_with_parameter"]}
{"id": "C65", "title": "Closedness of curves and compound curves", "statement": "A curve, clamped or not, is reported closed exactly when its evaluated end points are nearer than ten times the machine epsilon; a compound curve exactly when the start of its first span and the end of its last span are.", "quantifier": "every well-formed curve with positive weights; every non-empty list of such spans", "why_tests_cant": "all curves, both branches of the test must agree with evaluation", "anchors": ["src/curve/nurbs_curve.rs: is_closed", "src/region/compound_curve.rs: is_closed"]}
{"id": "C66", "title": "Clamping a curve", "statement": "Clamping leaves a clamped curve as it is. Clamping an unclamped curve whose weights are all equal succeeds, only adds copies of the first and of the last knot, gives a clamped valid curve, and keeps every point on the old domain (its end excluded). (It does not keep the curve as a whole: the result has a larger domain and other end points; refutation.)", "quantifier": "every well-formed curve with separated knots, clamped or with equal weights", "why_tests_cant": "all degrees and knot vectors", "anchors": ["src/curve/nurbs_curve.rs: try_clamp"]}
{"id": "C67", "title": "Length, bounding box and tessellation of compound curves", "statement": "The length of a compound curve is the sum of the lengths of its spans and fails exactly when a span fails; its bounding box contains every point of every span; its tessellation lists the vertices of the spans in order, dropping the repeated vertex at each joint, and a closed compound ends exactly at its first vertex.", "quantifier": "every list of spans, every measured length, every random stream", "why_tests_cant": "all numbers of spans and vertices", "anchors": ["src/region/compound_curve.rs: try_length", "src/bounding_box/mod.rs: From<&CompoundCurve>", "src/tessellation/tessellation_compound_curve.rs"]}
{"id": "C68", "title": "Surfaces of revolution", "statement": "Revolving a space curve about a unit axis by an angle theta answers a well-formed surface whose isocurve at every u is the profile turned about the axis by an angle between 0 and theta; u = 0 is the profile itself, u = 1 the profile turned by theta, and every angle in between is reached. Angles of at most a quarter turn whose squared sine is below the machine epsilon (in particular 0 and minus half a turn) are errors when the profile leaves the axis. (An axis that is not a unit vector is accepted but does not give a rotation: refutation.)", "quantifier": "every well-formed profile with positive weights whose control points lie on the axis or more than epsilon away, every centre, every unit axis, every angle in ]-2 pi, 2 pi]", "why_tests_cant": "all profiles, degrees, angles and parameters", "anchors": ["src/surface/nurbs_surface.rs: try_revolve", "src/misc/ray.rs: find_intersection"]}
{"id": "C69", "title": "Spheres", "statement": "A sphere of radius r > epsilon around a unit axis is a well-formed surface all of whose points lie at distance exactly r from the centre, and every point at that distance is a point of the surface.", "quantifier": "every centre, unit axis, perpendicular direction and radius", "why_tests_cant": "all radii, frames and parameters", "anchors": ["src/surface/nurbs_surface.rs: try_sphere"]}
{"id": "C70", "title": "Lofted surfaces", "statement": "Lofting at least two clamped sections of the same degree answers, with a linear solver that solves every regular system, a well-formed surface whose v = 0 isocurve is the first section and whose v = 1 isocurve is the last one, point by point; two sections give the ruled surface between them; when the chord parameters agree for all columns of control points, every section is the isocurve at its parameter. (Otherwise an interior section may not even lie on the surface, and sections that share a control point give not-a-number control points or panic: refutations.)", "quantifier": "every list of at least two sections with positive weights, all degrees, knots and weights, every exact solver", "why_tests_cant": "all families of sections and parameters", "anchors": ["src/surface/nurbs_surface.rs: try_loft", "src/surface/nurbs_surface.rs: try_unify_curve_knot_vectors", "src/curve/nurbs_curve.rs: try_interpolate_control_points"]}
{"id": "C71", "title": "Moving frames along a curve", "statement": "For every non-empty list of parameters at which the tangent does not vanish, the frames are right-handed orthonormal bases placed at the evaluated points, whose first direction is the unit tangent; from one frame to the next the normal is turned by the smallest rotation that takes one tangent to the other (about an axis orthogonal to both; a reversed tangent keeps the normal); the matrix of a frame is a rigid motion taking the third coordinate axis to the tangent and the second to the normal. (An empty list of parameters panics, and a vanishing tangent gives not-a-number frames: refutations.)", "quantifier": "every well-formed space curve with positive weights and every list of parameters of its domain", "why_tests_cant": "all lists of parameters and curves; the trigonometry of each step must cancel exactly", "anchors": ["src/curve/nurbs_curve.rs: compute_frenet_frames", "src/misc/frenet_frame.rs: rotation, matrix"]}
{"id": "C72", "title": "Swept surfaces", "statement": "Sweeping a clamped profile along a rail whose tangent does not vanish answers, with a linear solver that solves every regular system, a well-formed surface whose v = 0 isocurve is the profile placed in the frame at the start of the rail and whose v = 1 isocurve is the profile placed in the last frame, at the end of the rail, point by point.", "quantifier": "every space profile and rail with positive weights, all degrees and knots, every exact solver", "why_tests_cant": "all profiles, rails and parameters", "anchors": ["src/surface/nurbs_surface.rs: try_sweep"]}
{"id": "C73", "title": "Point containment by ray casting", "statement": "For a closed plane curve, or a closed compound of curves, and a point inside the box of its control points whose horizontal ray meets the curve only in proper crossings that are far enough apart, the containment query answers true exactly when the point is near the boundary or the ray to the right crosses the curve an odd number of times; that parity depends only on the curve and the point, not on the random subdivision. Points outside the box of the control points are answered false, an open curve is refused, and every reported crossing lies on the curve, to the right of the point and within the minimum distance of its height. (An open compound curve is not refused, and two crossings closer than the tolerance are merged, which inverts the answer: refutations.)", "quantifier": "every closed rational plane curve and compound, every point in general position and every stream of random numbers", "why_tests_cant": "all curves, points and random subdivisions; recursion to any depth", "anchors": ["src/contains/contains_curve.rs: contains, x_ray_intersection", "src/contains/contains_compound_curve.rs: contains"]}
{"id": "C74", "title": "Tessellation of plane regions", "statement": "The mesh of a plane region uses only points of the boundary polylines as vertices; every triangle is a non-degenerate face of the constrained triangulation whose centroid lies in the exterior polygon and in none of the holes. When the triangulation accepts all boundary edges, every boundary point is a vertex, every triangle lies entirely inside the region (no triangle crosses the boundary or covers part of a hole) and no triangle of the triangulation with a point in the region is left out.", "quantifier": "every region, any number of holes, every constrained triangulation that keeps its constraints and has faces free of them", "why_tests_cant": "all polygons, holes and triangulations", "anchors": ["src/tessellation/tessellation_region.rs: tessellate", "src/misc/polygon_boundary.rs: PolygonBoundary"]}
{"id": "C75", "title": "Tessellation of trimmed surfaces", "statement": "Sampling a trimming curve ends for every tolerance and answers points of that curve at strictly increasing parameters of its domain (or at the given parameters), each with the point of the surface it maps to. The mesh of a trimmed surface has only surface points as vertices, and when the boundary edges are accepted by the triangulation its triangles are exactly the non-degenerate ones that lie inside the exterior curve's polygon and outside the holes, with no triangle crossing a boundary. (A trimming curve that closes in space but not in the parameter plane loses its first vertex; normals at the trimming curves are not unit vectors: refutations.)", "quantifier": "every trimmed surface with positive weights whose trimming curves stay in the domain, all tolerances and constraints, every lawful constrained triangulation", "why_tests_cant": "all surfaces, curves, tolerances and triangulations; recursion of any depth", "anchors": ["src/tessellation/trimmed_surface.rs: trimmed_surface_adaptive_tessellate, tessellate_uv_curve_adaptive, iterate_uv_curve_tessellation", "src/tessellation/trimmed_surface_constraints.rs"]}
{"id": "C76", "title": "Making and moving trimmed surfaces", "statement": "Trimming a flat surface by closest points answers trimming curves that trace the given curves exactly, point by point in the same parameter, when the control points are found on the surface; trimming it by projection answers curves that trace the given ones shifted along the direction, using the nearest hit of each control point; every surface point straight ahead of a control point is on the ray shot from it when no two components of the direction have opposite signs and the direction is at least of unit length. Without trimming curves both are errors. A transformation moves every boundary point by the same affine map. Inversion mirrors both parameters of the surface but keeps the trimming curves, reversed. (So inversion moves the trimmed region to another part of the surface, and on an unevenly parametrised surface a mapped curve does not trace the given one; along a direction with components of both signs the ray can end before it reaches the surface: refutations.)", "quantifier": "every flat patch parametrised affinely, every rational curve, every direction, every affine transformation; inversion for every trimmed surface", "why_tests_cant": "all surfaces, curves and parameters", "anchors": ["src/surface/trimmed_surface.rs: try_map_closest_point, try_projection, try_project_curve, try_map_curve_closest_point, transform, invert"]}
{"id": "C77", "title": "Single-span curves are Bezier curves", "statement": "A curve whose knots are two values repeated degree + 1 times is the rational Bezier curve of its control points: at parameter u = a + t (b - a) its point is the sum of the Bernstein polynomials of t times the control points divided by the same sum of the weights. Decomposing a clamped curve into segments therefore gives the Bernstein coefficients of the curve on every knot span.", "quantifier": "every curve of any degree and dimension with positive weights, every parameter; for the decomposition every clamped curve with separated knots", "why_tests_cant": "all degrees and a continuum of parameters", "anchors": ["src/curve/nurbs_curve.rs: NurbsCurve::point_at, NurbsCurve::try_decompose_bezier_segments"]}
{"id": "C78", "title": "Curves are smooth at their knots", "statement": "At an interior parameter of multiplicity m in the knot vector, a curve of degree p is p - m times differentiable: each derivative the library returns up to that order is the derivative of the one before it at the knot itself, not only inside the spans, and the last of them is continuous. At a parameter that is no knot this holds for every order. With m = p the curve may have a corner.", "quantifier": "every well-formed curve of any degree and dimension with positive weights, every interior parameter, every order of derivative", "why_tests_cant": "limits from both sides, for all degrees, multiplicities and orders", "anchors": ["src/curve/nurbs_curve.rs: NurbsCurve::rational_derivatives, NurbsCurve::tangent_at, NurbsCurve::derivatives"]}
{"id": "C79", "title": "End tangents follow the control polygon", "statement": "The tangent a clamped curve reports at the start of its domain is the first leg of its control polygon (second minus first control point) times degree / width of the first knot span times the ratio of the second weight to the first; at the end it is the last leg with the mirrored factor.", "quantifier": "every clamped well-formed curve of degree at least one with positive weights", "why_tests_cant": "all degrees, knot spacings and weights", "anchors": ["src/curve/nurbs_curve.rs: NurbsCurve::tangent_at"]}
{"id": "C80", "title": "Corners of surfaces", "statement": "If both knot vectors of a surface are clamped, evaluating it at the four corners of its domain gives exactly the four corner control points.", "quantifier": "every clamped well-formed surface of any degrees with positive weights, each corner", "why_tests_cant": "all degrees, knot vectors and nets", "anchors": ["src/surface/nurbs_surface.rs: NurbsSurface::point_at"]}
{"id": "C81", "title": "Rounding errors of evaluation are bounded", "statement": "With every arithmetic operation rounded (relative error at most mu, order preserved), evaluating a curve with positive weights inside its domain still picks a knot span that contains the parameter, never panics, and answers a point whose coordinates differ from the exact ones by at most gamma(14 p + 5) times the largest coordinate of the control points, where gamma(n) = (1 - mu)^-n - 1; the computed basis functions are non-negative and relatively accurate, and the point leaves the box of the control points by no more than that error. Surfaces likewise with 14 (p + q) + 9 operations. In double precision the bounds are (14 p + 6) 2^-53 and (14 (p + q) + 10) 2^-53. Exponent overflow and underflow are not covered.", "quantifier": "every rounding function with the standard relative error, every well-formed curve and surface with positive weights and machine-number knots, every parameter of the domain", "why_tests_cant": "all roundings, degrees, knots, control points and parameters at once; tests see single values", "anchors": ["src/knot/knot_vector.rs: KnotVector::find_knot_span_index, KnotVector::basis_functions", "src/curve/nurbs_curve.rs: NurbsCurve::point_at", "src/surface/nurbs_surface.rs: NurbsSurface::point_at"]}
{"id": "C82", "title": "Lengths under motions and reparametrisation", "statement": "The length reported for a curve is multiplied by k when the curve is transformed by a matrix whose linear part multiplies all lengths by k (k = 1 for rotations, reflections and translations). Normalising the knots does not change it. Reversing the curve does not change it, provided the quadrature rule treats both directions alike.", "quantifier": "every clamped well-formed curve with positive weights and separated knots, every similarity matrix, every quadrature rule with nodes in [-1, 1] and non-negative weights (symmetric for reversal)", "why_tests_cant": "all curves, motions and rules; the reported number is itself a numerical approximation, so tests compare only to a tolerance", "anchors": ["src/curve/nurbs_curve.rs: NurbsCurve::try_length, NurbsCurve::normalize_knots, NurbsCurve::invert", "src/curve/nurbs_curve.rs: Transformable for NurbsCurve, Invertible for NurbsCurve"]}
{"id": "C83", "title": "Derivatives under motions and reparametrisation", "statement": "The derivatives of every order that a transformed curve reports are the linear part of the matrix applied to the derivatives of the original. Normalising the knots multiplies the r-th derivative by the r-th power of the length of the domain. Reversing the curve multiplies the r-th derivative at the mirrored parameter by (-1)^r, except at interior knots, where the two sides differ.", "quantifier": "every well-formed curve with positive weights, every affine matrix, every parameter of the domain and every order", "why_tests_cant": "all curves, matrices, orders and parameters", "anchors": ["src/curve/nurbs_curve.rs: NurbsCurve::rational_derivatives, NurbsCurve::normalize_knots", "src/curve/nurbs_curve.rs: Transformable for NurbsCurve, Invertible for NurbsCurve"]}
{"id": "C84", "title": "Variation diminution", "statement": "A plane does not meet a curve more often than it meets the control polygon: if the points of the curve at increasing parameters lie alternately on the two sides of a plane (a line in the plane), then there are control points, in the same order, that lie alternately on the same sides. In particular, if every control point is at least as far along some direction as the one before it, then so is every point of the curve: a curve with monotone control points is monotone, whatever the weights.", "quantifier": "every well-formed curve of any degree and dimension with positive weights, every plane, every number of increasing parameters of the closed domain", "why_tests_cant": "all planes and all finite sets of parameters at once; tests see sampled crossings", "anchors": ["src/curve/nurbs_curve.rs: NurbsCurve::point_at, NurbsCurve::dehomogenized_control_points"]}
{"id": "C85", "title": "Tessellation with prescribed boundary parameters", "statement": "Constrained tessellation succeeds whenever each prescribed list is non-empty, strictly increasing and inside the domain. On a side of least u or least v that has a prescribed list, and with no minimal depth requested, every vertex has one of the listed parameters, so that two surfaces meshed with the same list along a common edge have the same vertices there. Every parameter listed for the side of least v gives a vertex, and the vertex is exactly the surface point of that parameter. The sides of greatest u and v do not have this property: a vertex with a parameter that is not listed remains on them.", "quantifier": "every well-formed surface with simple interior knots in directions of degree 1, every constraint record inside the domain, all tessellation options (no minimal depth for the second claim)", "why_tests_cant": "all surfaces, all lists of parameters and all depths of subdivision; watertightness is a claim about every vertex of every mesh", "anchors": ["src/tessellation/surface.rs: NurbsSurface::tessellate with constraints", "src/tessellation/boundary_constraints.rs: BoundaryConstraints, BoundaryEvaluation", "src/tessellation/adaptive_tessellation_node.rs: should_divide, get_edge_corners", "src/tessellation/surface_tessellation.rs: SurfaceTessellation::new"]}
{"id": "C86", "title": "Vertex normals of adaptive meshes", "statement": "Every vertex of an unconstrained adaptive mesh carries the normalised normal of the surface at the parameters of the vertex: where the partial derivatives exist and their cross product is not tiny, the vertex normal is that cross product divided by its length, a unit vector. Where the partial derivatives are nearly parallel the normal is one of the surface at other parameters; within a cell it is taken from a corner that is not degenerate, unless all four corners are degenerate or the first corner and both its neighbours are. The repair is applied to every cell with a degenerate corner whose depth lies between the two limits, and such a cell is not divided further. Not guaranteed (refutations): at a pole on a grid line the normal is not a number, between grid lines it can stay zero, and the normals of vertices on constrained sides are not normalised.", "quantifier": "every surface, all tessellation options, every vertex; any scalar type for the structural claim, real arithmetic for the unit normals", "why_tests_cant": "shading depends on each normal of each mesh; a test only looks at some surfaces, and poles and constrained sides are easily missed", "anchors": ["src/tessellation/surface.rs: NurbsSurface::tessellate", "src/tessellation/adaptive_tessellation_node.rs: fix_normals, evaluate_surface, has_bad_normals", "src/tessellation/boundary_constraints.rs: BoundaryEvaluation", "src/tessellation/surface_tessellation.rs: SurfaceTessellation::new"]}
{"id": "C87", "title": "A curve has one control polygon on its knots, so knots can be inserted in any order", "statement": "If no knot inside the domain has a multiplicity above degree + 1, the homogeneous curve determines its control points, and a non-rational curve is determined by its points. Therefore refining a curve with a list of knots gives exactly the same curve (degree, knots, control points and weights) as refining it with some of them first and the others later, or with one knot at a time in any order; for curves of equal weights adding knots one by one in any order gives that curve too. Refining and then reversing equals reversing and then refining at the mirrored knots, and refining commutes with affine maps. Not guaranteed (refutations): a control point between degree + 2 equal knots is free, and rational curves with different control points and weights can have the same points.", "quantifier": "every valid curve of every degree and dimension, every list of new knots inside the domain that keeps away from close but different knots, every order; all affine maps", "why_tests_cant": "there are factorially many orders and the results must agree exactly; a test compares a few orders on a few curves", "anchors": ["src/curve/nurbs_curve.rs: try_refine_knot, try_add_knot, invert, transform"]}
{"id": "C88", "title": "A surface has one control net on its knots, so refinements in both directions commute", "statement": "If no knot inside the domain has a multiplicity above degree + 1, the homogeneous surface determines its control net, and a surface whose weights are all 1 is determined by its points. Therefore refining in u and in v gives exactly the same surface (degrees, knots, net and weights) in whatever order the two directions and the portions of the knot lists are taken, and refining commutes with affine maps and with flips of either or both directions (the new knots being reflected in a flipped direction).", "quantifier": "every valid surface of all degrees and sizes, all lists of new knots inside the domain that keep away from close but different knots, every interleaving of the insertions; all affine maps", "why_tests_cant": "the interleavings of insertions are unbounded in number and the results must agree exactly", "anchors": ["src/surface/nurbs_surface.rs: NurbsSurface::try_refine_knot, NurbsSurface::flip, Transformable for NurbsSurface", "src/curve/nurbs_curve.rs: try_refine_knot"]}
{"id": "C89", "title": "The order of cuts does not matter", "statement": "Cutting a curve at b and its first part at a gives the same three curves as cutting it at a and its second part at b; the inner one is the trim to [a, b] and the outer two are the trim to the wrapped range [b, a]. Cutting a surface along u = a and both parts along v = b gives the same four surfaces as cutting along v first.", "quantifier": "every valid curve and surface without knots of multiplicity above degree + 1 inside the domain, all parameters inside the domain that are not close to a knot or to each other", "why_tests_cant": "all curves, surfaces and pairs of parameters, exact equality of degrees, knots, points and weights", "anchors": ["src/split/mod.rs: Split for NurbsCurve, Split for NurbsSurface", "src/trim/mod.rs: TrimRange for NurbsCurve (try_trim_range)"]}
{"id": "C90", "title": "Rounding errors of knot refinement and splitting stay bounded", "statement": "When every arithmetic operation is rounded with relative error u, refining a curve and splitting it still succeed and produce exactly the knots of the exact computation, and every control point is off by at most the accumulated error of 11 operations per inserted knot, relative to the largest control point coordinate. The refined curve and both halves deviate from the original curve by a bound that depends only on the ratio of the largest to the smallest weight, and so do the points computed on them. In double precision the unit is 2^-53.", "quantifier": "every valid curve of any degree, dimension, size and positive weights, all lists of machine-number knots inside the domain (all cut parameters), every rounding function that is monotone with relative error u, all parameters", "why_tests_cant": "rounding errors depend on the data, and whether they stay small for all curves, knots and degrees cannot be sampled", "anchors": ["src/curve/nurbs_curve.rs: try_refine_knot, point_at, point", "src/split/mod.rs: Split for NurbsCurve", "src/knot/knot_vector.rs: find_knot_span_index"]}
{"id": "C91", "title": "A compound curve is assembled from the pieces of a closed curve in any order and direction", "statement": "If the spans are the pieces of a closed curve whose joints are at least 1e-4 apart, then they may be handed over in any order and each in either direction: the construction uses every span exactly once, turns exactly those that do not run along with the first one, and yields a closed compound curve in which each span starts where the previous one ends. The points of the compound curve are exactly the points of the spans. (For open chains spans can be lost: refutation in C39.)", "quantifier": "every number of spans, all permutations and all choices of directions, every valid clamped continuous NURBS span of any degree, dimension and positive weights", "why_tests_cant": "n spans have n! 2^n presentations; the result must be a closed chain for all of them", "anchors": ["src/region/compound_curve.rs: CompoundCurve::new, point_at, is_closed", "src/region/curve_direction.rs: CurveDirection::new", "src/curve/nurbs_curve.rs: invert"]}
{"id": "C92", "title": "Boolean operations keep exactly the right parts of both boundaries", "statement": "For two closed curves or closed compound curves (in any mix) that cross at finitely many transversal intersections, the regions produced by a boolean operation have closed exteriors, no interiors, and the points on these exteriors are exactly: for the union, the points of either curve outside the other one; for the intersection, the points of either curve inside the other one; for the difference, the points of the subject outside the clip curve and the points of the clip curve inside the subject; plus the intersection points. Nothing of either boundary is lost and nothing else appears. Trimming a valid clamped continuous curve, or a closed compound curve, yields pieces of the same kind that cover exactly the requested parameter range (the wrapped-around range when the bounds are given in descending order).", "quantifier": "all pairs of boundaries, each a valid closed clamped continuous NURBS curve or a closed compound curve of any number of such spans, of any degrees, sizes and positive weights, all three operations, every even number of crossings in any order of listing, both values of the initial containment tests", "why_tests_cant": "the number of crossings, their interleaving along the two curves and the operation give unboundedly many cases, and the trace of the result is an infinite set of points", "anchors": ["src/boolean/clip.rs: clip", "src/boolean/boolean_curve.rs: Boolean for NurbsCurve", "src/boolean/boolean_compound_curve.rs: Boolean for CompoundCurve", "src/trim/mod.rs: TrimRange for CompoundCurve", "src/trim/mod.rs: TrimRange for NurbsCurve (try_trim_range)", "src/region/compound_curve.rs: CompoundCurve::new"]}
{"id": "C93", "title": "Adaptive tessellation divides a cell exactly where the options ask for it", "statement": "With options, every cell of the parameter grid is divided recursively into halves: a cell that is not divided has at least the least depth, and is at the greatest depth, touches a degenerate normal, or has normals that differ by no more than the tolerance along every side not fixed by boundary constraints; a cell that is divided is below the least depth, or is below the greatest depth, has no degenerate normal, and its normals differ by more than the tolerance across the division. Without options no cell is divided at all; the default options mean tolerance 0.025 (squared distance of unit normals), no least depth and at most eight divisions.", "quantifier": "every surface, boundary constraint, options and scalar type (including floats with NaN)", "why_tests_cant": "the subdivision depends on the normals of unboundedly many cells, recursively", "anchors": ["src/tessellation/adaptive_tessellation_node.rs: AdaptiveTessellationNode", "src/tessellation/adaptive_tessellation_processor.rs: AdaptiveTessellationProcessor", "src/tessellation/surface.rs: surface_adaptive_tessellate"]}
{"id": "C94", "title": "Degenerate input: what is refused, what is accepted and what panics", "statement": "The hope that input without a meaningful answer is answered with an error, not with NaN and not with a panic, is false, and it is stated exactly how it fails. A polyline is never refused: the empty list panics, every other list gives a curve; that curve is valid exactly when its first two points differ and its last two points differ. With coincident points all normalised knots are NaN, and without normalisation the points are NaN although every control point is finite. Interpolation through coincident points hands a system of NaNs to the linear solver and, if that answers, returns NaN knots without an error. Normalising knots never refuses a curve: it panics when there are too few knots and answers otherwise, with NaN knots for an empty domain, which the checked constructor accepts. The checked constructor accepts degree zero; the closest point search panics on curves of degree zero, and on valid open curves with positive weights it panics only for degree zero and otherwise answers.", "quantifier": "polyline and normalisation: every list of points, every curve, every scalar type (including NaN); validity of polylines: all lists of at least two points; closest point search: every curve of degree zero over every scalar type, every valid open curve and point over the reals; the NaN claims: existence of such input in double precision", "why_tests_cant": "that no degenerate input slips through is a claim about all inputs; tests only show the ones somebody thought of", "anchors": ["src/curve/nurbs_curve.rs: polyline, try_new, normalize_knots, find_closest_parameter, try_interpolate"]}
{"id": "C95", "title": "Polylines and meshes stay near the shape they stand for, and cover it", "statement": "Every point of a segment of the polyline through regular samples of a curve, and every point of a triangle of the regular or of the adaptive mesh of a surface, is near a point of the curve or surface; and every point of the curve (in the sampled range) or surface is near a point of a segment or triangle. The distance in a coordinate is at most the rate of that coordinate times half the parameter distance of neighbouring samples: for surfaces the sum over both directions of rate times half the width of a cell of the starting grid. So halving the steps halves the bound, and there are no holes larger than it.", "quantifier": "every valid continuous curve and surface of any degree and size with positive weights, all sample ranges and counts, all numbers of divisions, all adaptive options without boundary constraints, every point of every segment and triangle and every point of the shape", "why_tests_cant": "a claim about all points of all triangles of meshes of unbounded size, in both directions", "anchors": ["src/curve/nurbs_curve.rs: sample_regular_range", "src/surface/nurbs_surface.rs: regular_tessellate", "src/tessellation/surface.rs: surface_adaptive_tessellate"]}
{"id": "C96", "title": "Union and intersection do not depend on the order of the operands", "statement": "Swapping the two operands of a union or an intersection leaves the result unchanged as a set of boundary points when the boundaries cross, and as a collection of regions when they do not; only the starting points and the order of the pieces may differ. For a closed curve and a closed compound curve the crossings found one way round are, by construction, the swapped crossings found the other way round; for two operands of the same kind this is what is asked of the intersection finder.", "quantifier": "all pairs of a closed curve and a closed compound curve, or of two boundaries of the same kind for which the finder reports the same crossings both ways; any degrees, sizes and number of crossings; for boundaries that do not cross, every scalar type and every containment test", "why_tests_cant": "the orders in which crossings are listed and walked differ between the two calls, for unboundedly many crossings", "anchors": ["src/boolean/boolean_curve.rs: Boolean for NurbsCurve", "src/boolean/boolean_compound_curve.rs: Boolean for CompoundCurve", "src/boolean/clip.rs: clip", "src/boolean/mod.rs: Boolean"]}
{"id": "C97", "title": "Intersecting two curves in the other order", "statement": "Exchanging the two curves mirrors the run of the intersection solver step by step, so each candidate pair is refined to the same pair of parameters, exchanged. The reported intersections then match one to one up to the merging tolerance, provided the refined hits form clusters: hits closer than the tolerance on one curve are so on the other one, and closeness is transitive. Without that proviso it fails: for a path that visits the same point of a line twice with another crossing in between, one order reports three intersections and the other order two.", "quantifier": "all pairs of curves of one dimension, every list of candidate pairs of any length and order, all solver options and iteration limits; the failure is a concrete pair of curves in double arithmetic", "why_tests_cant": "a claim about all iterations of a numerical solver and about all lists of hits", "anchors": ["src/intersects/curve_curve/intersection_curve_curve.rs: find_intersections", "src/intersects/curve_curve/curve_intersection_bfgs.rs: CurveIntersectionBFGS", "src/intersects/curve_curve/curve_intersection_problem.rs: CurveIntersectionProblem"]}
{"id": "C98", "title": "Casting between float types", "statement": "Casting a curve, surface, box or mesh converts every stored number and nothing else, so widening and narrowing back gives the object back exactly. Rounding keeps the order of the knots, and the cast of a valid curve or surface is valid exactly if its first and last spans (in each direction) do not collapse, which holds when they are wider than the rounding errors of their ends; a valid double precision curve whose spans collapse is cast to a curve with an empty domain. A box contains the casts of the points it contained. A cast mesh keeps its faces, and each coordinate of its points, normals and parameters moves by at most mu times its size. If the knots are exactly representable in the target type and the weights are positive, every point of the cast curve or surface is within 2*mu*A/(1-mu) of the original point in each coordinate, mu being the unit roundoff of the target and A the largest coordinate of the control points. Whatever the knots, a clamped knot vector stays clamped if its distinct knots stay apart, and the two ends of a clamped curve move by at most the same bound.", "quantifier": "every valid curve and surface of all degrees and sizes, every monotone conversion of bounded relative error, all parameters of the domain", "why_tests_cant": "the error bound must hold for all sizes of the control polygon and all parameters; a test compares a few values", "anchors": ["src/curve/nurbs_curve.rs: NurbsCurve::cast", "src/surface/nurbs_surface.rs: NurbsSurface::cast", "src/knot/knot_vector.rs: KnotVector::cast", "src/bounding_box/mod.rs: BoundingBox::cast", "src/tessellation/surface_tessellation.rs: SurfaceTessellation::cast"]}
