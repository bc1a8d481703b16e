# Formal model of mattatz/curvo in Rocq

## 1. What is modelled and how

The model lives in `rocq/theories`. It is a function-by-function transcription of the Rust
source into small total Gallina functions; every definition carries a comment with the file and
lines it transcribes.

* **Scalars.** All code is generic over a class `Scalar T` (zero, one, + - * /, unary minus, abs,
  `<`, `<=`, `==` as booleans, the machine epsilon, conversion from usize, sqrt, ...). The very
  same Gallina code is instantiated at
  * the real numbers `R` with an arbitrary epsilon: exact-arithmetic theorems;
  * IEEE binary64 (`PrimFloat`): doc-test values of the repo and refutation witnesses are run by
    `vm_compute`;
  * the real numbers with every operation rounded by an arbitrary rounding function of bounded
    relative error (`FlOps`, C81): error bounds of evaluation; Flocq's round-to-nearest is an instance;
  * any instance whatsoever: purely structural theorems (lengths, indices, absence of panics,
    termination) are proved for every `Scalar` instance, hence also for floats with NaN/inf.
* **Panics and errors.** `Res A := Ok a | Err e | Panic p | OutOfFuel`. Index out of bounds, `unwrap`
  on `None`, usize underflow (debug profile) are `Panic`. `anyhow::Result` errors are `Err`.
* **Loops.** `for` loops are the bounded combinator `for_`, `while` loops take explicit fuel and
  return `OutOfFuel` when exhausted; termination theorems show that this never happens.
* **Points** are lists of coordinates; homogeneous points carry the weight last.
* **Numerical solvers, RNG, LU, quadrature, Delaunay** are oracle arguments; theorems quantify over
  them and state the contract they need (if any) as a hypothesis.

## 2. Trusted base

* Coq 8.16.1 kernel (and its `vm_compute`, primitive floats/ints for the binary64 runs).
* The reading of the Rust code; no code was run. Each definition cites its source lines.
* Real-number theorems are about exact arithmetic: rounding is not modelled there (C81 bounds its effect
  on evaluation). Flocq contributes definitions and proved lemmas, no axioms of its own.
* Axioms: only the standard library's, as listed by `Print Assumptions` under every property theorem
  (see section 5).

## 3. Plan per property

* **C01 Curve construction accepts exactly the well-formed inputs.** Model try_new with an explicit insertion sort that panics on incomparable elements; prove iff, Permutation and Sorted.
* **C02 Knot span search terminates and brackets the parameter.** Model as a fuelled while loop; prove fuel is never exhausted and the range for ANY scalar type; prove bracketing at R.
* **C03 Basis functions are the Cox-de Boor B-spline basis.** Line-by-line model of the triangular in-place loop; loop invariant against an independent recursive definition over R.
* **C04 Curve evaluation is the rational B-spline formula and never panics.** Compose C02/C03; dehomogenisation yields Panic on zero weight and the theorem excludes it from positivity.
* **C05 Evaluated points stay in the bounding box of the control points.** Convexity from C03 (non-negativity and partition of unity) per half-space; bounding box min/max fold.
* **C06 Clamped curves interpolate their end control points.** Special values of the Cox-de Boor basis at a knot of full multiplicity.
* **C07 Local control.** Span search result independent of control points; support of the basis.
* **C08 Affine transformation commutes with evaluation.** Linear algebra over the rational formula; a projective witness refutes the unrestricted claim.
* **C09 Reversing a curve mirrors its parametrisation.** Closed form of the running-sum loop; reflection symmetry of Cox-de Boor by induction on the degree.
* **C10 Normalising knots is a pure reparametrisation.** Affine invariance of Cox-de Boor.
* **C11 Adding a knot to a knot vector is sorted insertion.** rposition + insert model; Permutation, Sorted.
* **C12 Knot multiplicities partition the knot vector.** fold model; expansion lemma by induction.
* **C13 Domain clamping.** Real order reasoning.
* **C14 Adding a knot to a curve preserves its shape.** Boehm insertion identity by induction on degree; witness for rational weights.
* **C15 Knot refinement preserves the curve.** Refinement of the loop to iterated single (Boehm) insertion, plus C14's identity.
* **C16 Splitting a curve.** Insert degree+1 copies (C15), cut, locality of evaluation; binary64 witness for the multiplicity defect.
* **C17 Trimming a curve.** Compose C16.
* **C18 Bezier decomposition reproduces the curve.** Iterated refinement to full multiplicity; slicing.
* **C19 Derivatives are true derivatives.** Loop invariant of the derivative table; derivable_pt_lim of Cox-de Boor.
* **C20 Rational derivatives satisfy the quotient rule.** Algebra + Pascal's rule for the memoised binomial.
* **C21 Polylines pass through their points.** Degree-1 evaluation.
* **C22 Periodic curves are closed.** Shift invariance of the uniform basis and continuity at simple knots.
* **C23 Interpolation passes through the data.** LU solver is an oracle with its contract as hypothesis (exact; fails on singular systems only; Gaussian elimination is shown to meet it); rows of the matrix are basis values. Nonsingularity is the Schoenberg-Whitney theorem, proved by counting sign changes of the derivative spline (variation diminishing) and splitting where the spline vanishes on a span; averaged knots interlace the parameters.
* **C24 Circles, arcs and ellipses lie where they should.** Loop invariant on the control points (piece ends on the ellipse, middle points on the common tangents), the rational quadratic identity and its inverse with real trigonometry; the ray intersection is computed symbolically.
* **C25 Degree elevation preserves the curve.** Line-by-line model executed at binary64; refutation witnesses; the no-op branch is proved. Single span: the coefficient table is computed symbolically and compared with the degree-raising identity of the Bernstein polynomials. Room: a loop invariant counts the knots written. Four pieces: symbolic execution and the local polynomial identity.
* **C26 Knot removal keeps the curve well-formed.** Line-by-line model; counts; error of the removed control points carried through the partition of unity; deviations reported as refutations.
* **C27 Dimension elevation embeds the curve.** Coordinatewise evaluation.
* **C28 Memoised binomials are Pascal's triangle.** State-passing memo model with invariant over all histories.
* **C29 Closest point on a segment is optimal.** Cauchy-Schwarz style argument in any dimension.
* **C30 Ray intersection is the closest approach.** Orthogonality of the connecting vector.
* **C31 Transposing control points is an involution.** List induction.
* **C32 Point-in-polygon depends only on the polygon.** Winding fold with orientation as exact sign; permutation arguments.
* **C33 Segment intersection test is sound and complete off the collinear case.** Exact-sign orientation oracle over R; intermediate-value style algebra.
* **C34 Arc-length parameter search brackets the answer.** Length quadrature is an oracle; bisection invariant; termination under Lipschitz measured length.
* **C35 Dividing a curve by length.** Loop model over segment lengths with bisection as C34.
* **C36 Curve tessellation starts and ends on the curve.** RNG is an oracle stream; termination by interval width.
* **C37 Bounding box laws.** Per-axis fold.
* **C38 Bounding-box traversal misses no intersection.** Abstract tree interface (oracle split) with worklist invariant.
* **C39 Compound curves are contiguous.** Greedy loop model over abstract end points; knot alignment.
* **C40 Compound evaluation is defined on the whole domain.** find over contiguous domains.
* **C41 Reversing a compound curve.** List model; witness.
* **C42 Boolean operations without intersections.** Set semantics of regions as predicates; table compared with union/intersection/difference.
* **C43 Clipping walk is total and uses each crossing once.** Array-based linked list model; permutation orbit argument.
* **C44 Boolean operations on regions with holes.** Set model with an abstract algebra of curves (met by an interval model); folds over the holes with the covered set as invariant; witnesses for the refutations.
* **C45 Reported curve intersections are genuine.** Solver as oracle; filter/sort/coalesce pipeline.
* **C46 Closest-parameter iteration stays in the domain.** Step function with arbitrary derivative oracle.
* **C47 Line search of the intersection solver.** Fuelled loop over arbitrary cost oracle.
* **C48 Surface evaluation is the tensor-product formula.** Double-sum form from C03.
* **C49 Planes, extrusions and flips.** Explicit control nets and C48.
* **C50 Regular surface tessellation is a valid mesh.** Index arithmetic; for the distance, for a fixed v the surface is a curve in u whose control points are weighted means of the rows, so the bound for curves applies in each direction.
* **C51 Adaptive surface tessellation tiles the parameter domain.** Node store modelled literally (AdaptModel). Structural facts for any scalar type, NaN included: indices, vertices on the surface, termination, node count (AdaptProofs, AdaptForest, AdaptSurface). Over the reals: the node store is a forest of binary subdivision trees (AdaptForest), leaves partition the domain (AdaptReal), each leaf polygon lists points along its four sides in order (AdaptEdges), fans tile leaf rectangles (AdaptPoly, AdaptMesh), so the mesh tiles the domain (AdaptTiling, AdaptMain). Degree 1 directions need strictly increasing interior knots (grid lines are the knots themselves).
* **C52 Mesh concatenation.** List/offset arithmetic.
* **C53 Serialisation round-trips.** Value-tree model of serde documents; each visitor is a fold over the keyed map, characterised by an iff with a declarative description of the accepted documents; round trip and field order follow.
* **C54 Knot unification of profiles.** Counting lemmas per element.
* **C55 Curves are continuous at their knots.** Special values of the two adjacent span polynomials; for surfaces the blending functions are continuous and sums, products and quotients preserve joint continuity.
* **C56 Merging tessellation parameters.** Two-pointer merge model.
* **C57 Trimming a compound curve.** Per-span case analysis on top of the split theorems.
* **C58 Transforming and searching compound curves.** Induction over spans; the per-span search is an arbitrary function.
* **C59 Closest point on a curve.** Invariant of the scan over the samples; the Newton loop as iterates of its step; gradient and Hessian of a segment computed exactly.
* **C60 Closest point on a surface is no worse than any vertex of its tessellation.** Invariant of the Newton loop: the best cost never increases and belongs to the best parameter.
* **C61 Quasi-Newton update of the intersection solver.** Linear algebra over sums; Cauchy-Schwarz argument for positive definiteness; loop invariant on the best cost.
* **C62 Intersections of compound curves.** Loop invariant of the circular windows.
* **C63 Uniform knot vectors.** Index computation on the three concatenated blocks.
* **C64 Regular samples of a curve.** Pointwise from the evaluation theorem; the last parameter by field arithmetic. The rate bounds the derivative on every span by partition of unity, the mean value theorem bounds the movement inside a span, and continuity at the knots joins the spans.
* **C65 Closedness of curves and compound curves.** End point interpolation of clamped curves; evaluation theorem for the others.
* **C66 Clamping a curve.** Exactness of the run-length encoding of the knots; float witness for the unclamped case.
* **C67 Length, bounding box and tessellation of compound curves.** Induction over spans; convex hull property per span.
* **C68 Surfaces of revolution.** Each column is a chain of rational quadratics; a rational quadratic with cosine weight traces the arc, at an angle that depends on the parameter only; rotation about the axis is affine, so it commutes with the profile sum.
* **C69 Spheres.** Half circle theorem for the profile and the revolution theorem; surjectivity by spherical coordinates.
* **C70 Lofted surfaces.** Unification theorem for the sections, interpolation theorem for the columns, end point interpolation of clamped rows.
* **C71 Moving frames along a curve.** Rodrigues' formula preserves inner products; the axis and angle computed by the code take one tangent to the other; induction over the list.
* **C72 Swept surfaces.** Frame theorem, affine invariance of the profile and the loft theorem; the placed profiles already share their knots.
* **C73 Point containment by ray casting.** The bounding box traversal cuts the parameter domain into pieces; a piece that was dropped does not meet the ray, a kept piece is answered by bisection; parity of crossings is additive over pieces and unique for a Lipschitz curve (intermediate value theorem).
* **C74 Tessellation of plane regions.** The winding number is constant along a segment that avoids the boundary (C32), so the answer for the centroid decides the whole triangle; induction over the loops inserted into the triangulation.
* **C75 Tessellation of trimmed surfaces.** Halving intervals until they are below the minimum length bounds the depth; sorted pieces are appended; the triangulation part as in C74.
* **C76 Making and moving trimmed surfaces.** The mapped curve keeps weights and knots, so its point is the weighted mean of the parameters of its control points; an affine patch commutes with the mean, and the mean of points of the convex domain stays in it.
* **C77 Single-span curves are Bezier curves.** Induction on the degree: the Cox-de Boor recursion on a single span is the recursion of the Bernstein polynomials, with binomials from Pascal's triangle.
* **C78 Curves are smooth at their knots.** The m-th derivatives of the basis are combinations of the basis of degree p - m; the special values at a knot make the combinations of the two adjacent spans agree; the quotient recursion carries this to the rational derivatives; gluing of differentiable functions.
* **C79 End tangents follow the control polygon.** First derivatives of the basis at a knot of full multiplicity and the quotient rule.
* **C80 Corners of surfaces.** The tensor-product sum split into rows and columns, each a clamped curve.
* **C81 Rounding errors of evaluation are bounded.** The same model run at a scalar instance that rounds after each operation; a calculus of relative errors for non-negative quantities (the recursion of the basis only adds, multiplies and divides non-negative numbers) and of absolute errors against the sum of moduli for the coordinates; round-to-nearest is shown to be such a rounding.
* **C82 Lengths under motions and reparametrisation.** The Bezier pieces of the two curves correspond; one-sided derivatives of equal functions agree, so the speeds correspond at every quadrature node; the sums are transported node by node.
* **C83 Derivatives under motions and reparametrisation.** Induction on the order: the difference of the two sides vanishes inside the span, hence so does its slope on the closed span.
* **C84 Variation diminution.** Inserting a knot cuts corners of the control polygon, which adds no sign change to an affine form; inserting each parameter as often as the degree makes the curve pass through control points there; the ends of the domain by continuity.
* **C85 Tessellation with prescribed boundary parameters.** Invariant on the nodes: a corner on the side carries the constraint flag and the side flag, and a node that is split across the side has no such corner; the snapping of flagged points picks a listed point of least distance; the cell of the first row that has the listed parameter as a corner keeps it through all subdivisions.
* **C86 Vertex normals of adaptive meshes.** Invariant on the corners of all nodes, kept by subdivision and by the repair of normals; snapping replaces points by boundary points, whose normals are raw; then the normal is related to the true partial derivatives by the theorem on normal_at.
* **C87 A curve has one control polygon on its knots, so knots can be inserted in any order.** Basis functions of one span are linearly independent (induction on the degree by differentiation), every control point acts on some non-empty span, so two curves with the same knots and the same values are equal; the operations preserve the values and produce the same sorted knots.
* **C88 A surface has one control net on its knots, so refinements in both directions commute.** Tensor-product basis functions are independent because those of each direction are; each refinement preserves the homogeneous surface and inserts its knots, so all orders reach surfaces with equal knots and equal values.
* **C89 The order of cuts does not matter.** The pieces have the same knots (the old ones on their side and degree + 1 copies of the cut) and the same values as the original, so uniqueness of the control points makes them equal.
* **C90 Rounding errors of knot refinement and splitting stay bounded.** The exact and the rounded run of the insertion loop are compared step by step: same spans, same knots, and one interpolation adds 11 roundings because its factors lie in [0, 1]. Partition of unity carries the error of the control points over to the curve without amplification.
* **C91 A compound curve is assembled from the pieces of a closed curve in any order and direction.** Invariant of the connecting loop: the connected spans followed by the remaining ones (suitably turned) form the closed chain. Joints that are far apart leave only the next span, or the last one while only the first is placed, as candidates; a chain that runs against the first span is reversed as a whole.
* **C92 Boolean operations keep exactly the right parts of both boundaries.** The walk partitions the kept segments into loops (C37); each segment is trimmed to one or two spans whose ends are the crossings (and the curve's start), consecutive spans join exactly, so each loop is a closed cycle with far joints and C91 assembles it; the union of the traces of the kept segments is the set of parameters whose containment status, toggled at every crossing, is the one the operation keeps.
* **C93 Adaptive tessellation divides a cell exactly where the options ask for it.** Induction on the recursion of the subdivision with a frame condition on the node store.
* **C94 Degenerate input: what is refused, what is accepted and what panics.** The loops never reach an error branch; accumulated chord lengths increase exactly where neighbouring points differ. Degree zero makes the number of samples zero, so the loop bound underflows; for higher degrees totality is C46. The NaN claims are concrete double precision witnesses evaluated in the kernel.
* **C95 Polylines and meshes stay near the shape they stand for, and cover it.** The rates follow from the control points (C50, C64) and bound how far two points of the shape are apart. A weighted mean of values is within half the spread of some parameter inside the cell; the triangles tile the parameter rectangle (C50, C51), so each parameter pair lies in some triangle.
* **C96 Union and intersection do not depend on the order of the operands.** The whole operation (finder, swap of the crossings and re-sorting, classification by the tangent test, containment of the starting points, walk) is modelled; C92 characterises the traced set, and that characterisation is symmetric except for the difference. The classification of a crossing is shown to be symmetric.
* **C97 Intersecting two curves in the other order.** Simulation between the two runs of the solver (parameters, gradients and inverse Hessians mirrored, same costs and step lengths); the selection keeps one hit of each cluster, so a pigeon hole argument gives equally many. The refutation is computed in binary64.
* **C98 Casting between float types.** A cast maps one conversion over the stored numbers. Monotonicity keeps the knots sorted; the relative error of every term carries over to the sums with non-negative basis functions and hence to the quotient. The collapse is exhibited with Flocq's round to nearest at 24 bits.

## 4. What is modelled and what is not

Per source file: the functions transcribed (with the model files whose definitions cite their lines), then the functions left out. Left out are constructors, getters, builder setters (`with_*`), number casts, formatting, trait declarations without a body and thin forwarding methods; they hold no logic of their own and appear in the model as record construction and projection.

* `src/boolean/boolean_compound_curve.rs`: `boolean` (BooleanModel, CompoundModel, RegionModel).
* `src/boolean/boolean_curve.rs`: `boolean` (BooleanModel).
* `src/boolean/boolean_region.rs`: `boolean`, `distribute_interiors_to_regions` (RegionModel). Not modelled: `boolean`.
* `src/boolean/clip.rs`: `clip`, `non_visited` (ClipModel). Not modelled: `default`, `add_node_chunk`, `node_chunks`, `add_span`, `spans`, `new`, `regions`, `regions_mut`, `into_regions`, `info`.
* `src/boolean/degeneracies.rs`: `new` (ClipModel).
* `src/boolean/has_parameter.rs`: not modelled: `parameter`.
* `src/boolean/mod.rs`: `union`, `intersection`, `difference`, `boolean` (BBoxModel, BooleanModel).
* `src/boolean/node.rs`: `subject`, `vertex`, `prev`, `set_prev`, `next`, `set_next`, `status_mut`, `visited`, `visit` (AdaptModel). Not modelled: `new`, `neighbor`, `set_neighbor`, `status`.
* `src/boolean/operation.rs`: not modelled: `fmt`.
* `src/boolean/status.rs`: `invert` (ClipModel).
* `src/boolean/vertex.rs`: not modelled: `new`, `curve`, `position`, `parameter`.
* `src/bounding_box/bounding_box_traversal.rs`: `try_traverse` (TraversalModel). Not modelled: `pairs`, `pairs_iter`, `into_pairs`, `into_pairs_iter`.
* `src/bounding_box/bounding_box_tree.rs`: `is_dividable`, `try_divide`, `bounding_box` (TraversalModel).
* `src/bounding_box/curve_bounding_box_tree.rs`: `new`, `is_dividable`, `try_divide`, `bounding_box` (TraversalModel). Not modelled: `curve`, `curve_owned`.
* `src/bounding_box/mod.rs`: `new`, `new_with_points`, `max`, `center`, `size`, `intersects`, `contains`, `cast`, `corners`, `lines`, `from` (BBoxModel, CastModel, CompoundModel, SurfaceBoxModel). Not modelled: `min`, `from_iter`.
* `src/bounding_box/surface_bounding_box_tree.rs`: `new`, `is_dividable`, `try_divide` (TraversalModel). Not modelled: `surface`, `surface_owned`, `bounding_box`.
* `src/closest_parameter/curve_closest_parameter_newton.rs`: `next_iter`, `terminate` (ClosestModel). Not modelled: `new`, `with_gamma`.
* `src/closest_parameter/curve_closest_parameter_problem.rs`: `gradient`, `hessian` (ClosestModel). Not modelled: `new`.
* `src/closest_parameter/surface_closest_parameter_newton.rs`: `next_iter`, `terminate`, `constrain` (ClosestModel). Not modelled: `new`, `with_gamma`, `init`.
* `src/closest_parameter/surface_closest_parameter_problem.rs`: `cost`, `gradient`, `hessian` (ClosestModel). Not modelled: `new`.
* `src/contains/contains_compound_curve.rs`: `contains` (CompoundModel, ContainsModel).
* `src/contains/contains_curve.rs`: `contains`, `x_ray_intersection` (ContainsModel).
* `src/contains/mod.rs`: not modelled: `contains`.
* `src/curve/curve_length_parameter.rs`: not modelled: `new`, `parameter`, `length`.
* `src/curve/knot_style.rs`: `parameterize` (InterpModel). Not modelled: `alpha`.
* `src/curve/nurbs_curve.rs`: `try_new`, `polyline`, `dehomogenized_control_points`, `weights`, `point_at`, `sample_regular_range`, `sample_regular_range_with_parameter`, `point`, `tangent_at`, `second_derivative_at`, `point_tangent_at`, `rational_derivatives`, `derivatives`, `control_points_iter_mut`, `knots_domain`, `knots_domain_interval`, `knots_constrain`, `normalize_knots`, `try_length`, `try_parameter_at_length`, `try_divide_by_length`, `try_divide_by_count`, `try_periodic`, `try_interpolate`, `try_periodic_interpolate`, `try_circle`, `try_ellipse`, `try_arc`, `try_ellipse_arc`, `elevate_dimension`, `try_elevate_degree`, `try_add_knot`, `try_remove_knot`, `is_clamped`, `is_closed`, `try_refine_knot`, `find_closest_point`, `find_closest_parameter`, `try_clamp`, `try_decompose_bezier_segments`, `cast`, `transform`, `invert`, `compute_frenet_frames`, `compute_bezier_segment_parameter_at_length`, `compute_bezier_segment_length`, `dehomogenize`, `try_interpolate_control_points`, `try_periodic_interpolate_control_points`, `try_solve_interpolation`, `serialize`, `deserialize`, `expecting`, `visit_str`, `new`, `visit_map` (ArcModel, CastModel, ClosestModel, CurveKnotModel, CurveModel, ElevateModel, FrameModel, InterpModel, LengthModel, SerdeModel, TrimModel). Not modelled: `dehomogenize`, `degree`, `knots`, `knots_mut`, `control_points`, `control_points_iter`.
* `src/intersects/curve_curve/compound_curve_intersection.rs`: `b_curve`, `swap` (BooleanModel). Not modelled: `new`, `a_curve`, `a_parameter`, `b_parameter`, `a`, `b`.
* `src/intersects/curve_curve/curve_intersection_bfgs.rs`: `next_iter`, `terminate` (BfgsModel). Not modelled: `default`, `new`, `with_step_size_tolerance`, `with_cost_tolerance`, `init`.
* `src/intersects/curve_curve/curve_intersection_problem.rs`: `new`, `gradient`, `cost` (BfgsModel).
* `src/intersects/curve_curve/curve_intersection_solver_options.rs`: `default`, `with_minimum_distance` (IntersectModel). Not modelled: `with_knot_domain_division`, `with_step_size_tolerance`, `with_cost_tolerance`, `with_max_iters`.
* `src/intersects/curve_curve/intersection_compound_curve.rs`: `find_intersections` (CompoundModel, IntersectModel).
* `src/intersects/curve_curve/intersection_curve_curve.rs`: `find_intersections` (IntersectModel).
* `src/intersects/has_intersection.rs`: `a`, `b`, `a_parameter`, `b_parameter` (IntersectModel).
* `src/intersects/intersection.rs`: not modelled: `new`, `as_tuple`, `a_parameter`, `b_parameter`, `a`, `b`.
* `src/intersects/mod.rs`: not modelled: `find_intersections`.
* `src/intersects/surface_curve/intersection_surface_curve.rs`: `find_intersections` (IntersectModel).
* `src/intersects/surface_curve/surface_curve_intersection_bfgs.rs`: `next_iter`, `terminate` (BfgsModel). Not modelled: `default`, `new`, `with_step_size_tolerance`, `with_cost_tolerance`, `init`.
* `src/intersects/surface_curve/surface_curve_intersection_problem.rs`: `new`, `gradient`, `cost` (BfgsModel).
* `src/knot/knot_multiplicity.rs`: not modelled: `new`, `knot`, `multiplicity`, `increment_multiplicity`.
* `src/knot/knot_vector.rs`: `uniform`, `to_vec`, `first`, `last`, `iter`, `iter_mut`, `domain`, `clamp`, `floor`, `add`, `multiplicity`, `is_clamped`, `find_knot_span_linear`, `find_knot_span_index`, `basis_functions`, `derivative_basis_functions`, `regulary_spaced_basis_functions`, `regularly_spaced_derivative_basis_functions`, `regularly_spaced_span`, `cast`, `invert` (CastModel, KnotModel). Not modelled: `new`, `len`, `is_empty`, `as_slice`, `index`, `from_iter`.
* `src/misc/binomial.rs`: `binomial`, `get`, `memo`, `memoize` (MiscModel). Not modelled: `default`, `new`.
* `src/misc/end_points.rs`: `end_point`, `end_points`, `first_point` (BooleanModel, CurveModel). Not modelled: `first_point`.
* `src/misc/frenet_frame.rs`: `binormal`, `rotation`, `matrix` (FrameModel). Not modelled: `new`, `position`, `tangent`, `normal`, `cast`.
* `src/misc/invertible.rs`: not modelled: `invert`, `inverse`.
* `src/misc/line.rs`: `tangent`, `intersects`, `bounding_rect` (BBoxModel). Not modelled: `new`, `start`, `end`.
* `src/misc/orientation.rs`: `orientation` (MiscModel).
* `src/misc/polygon_boundary.rs`: `contains` (MiscModel). Not modelled: `new`, `vertices`, `from_iter`.
* `src/misc/ray.rs`: `new`, `origin`, `direction`, `point_at`, `find_intersection` (MiscModel).
* `src/misc/transformable.rs`: not modelled: `transform`, `transformed`.
* `src/misc/transpose.rs`: `transpose_control_points` (MiscModel).
* `src/misc/trigonometry.rs`: `three_points_are_flat`, `segment_closest_point` (MiscModel, TessCurveModel).
* `src/polygon_mesh/mod.rs`: `faces`, `triangles`, `area`, `add`, `sum` (BBoxModel, MergeModel). Not modelled: `new`, `vertices`.
* `src/region/compound_curve.rs`: `new`, `point_at`, `is_closed`, `try_length`, `find_closest_point`, `from`, `transform`, `invert`, `serialize`, `deserialize`, `expecting`, `visit_str`, `visit_map` (BooleanModel, CompoundModel, SerdeModel). Not modelled: `spans`, `spans_mut`, `from_iter`.
* `src/region/curve_direction.rs`: `new` (CompoundModel).
* `src/region/mod.rs`: `into_tuple`, `exterior`, `into_exterior`, `interiors`, `into_interiors`, `interiors_mut`, `transform`, `invert`, `from` (BBoxModel). Not modelled: `new`.
* `src/split/mod.rs`: `try_split`, `new` (BBoxModel, SplitModel, SurfaceModel). Not modelled: `try_split`.
* `src/surface/mod.rs`: `opposite` (AdaptModel, SurfaceModel).
* `src/surface/nurbs_surface.rs`: `new`, `u_degree`, `v_degree`, `u_knots`, `v_knots`, `u_knots_domain`, `v_knots_domain`, `knots_domain_at`, `knots_domain`, `knots_domain_interval`, `control_points`, `transposed_control_points`, `dehomogenized_control_points`, `point_at`, `point`, `regular_sample_points`, `point_given_bases_knot_spans`, `regular_sample_normals`, `regular_sample_rational_derivatives`, `regular_sample_derivatives`, `derivatives_given_bases_knot_spans`, `regular_tessellate`, `normal_at`, `rational_derivatives`, `derivatives`, `flip`, `plane`, `extrude`, `try_loft`, `try_isocurve`, `try_boundary_curves`, `try_refine_knot`, `find_closest_point`, `find_closest_parameter`, `cast`, `try_sweep`, `try_revolve`, `try_sphere`, `try_unify_curve_knot_vectors`, `sorted_set_union`, `sorted_set_sub`, `transform`, `invert`, `serialize`, `deserialize`, `expecting`, `visit_str`, `visit_map` (AccessorModel, AdaptModel, CastModel, ClosestModel, FrameModel, LoftModel, MergeModel, RevolveModel, SerdeModel, SurfaceBoxModel, SurfaceModel, TraversalModel, TrimModel).
* `src/surface/trimmed_surface.rs`: `try_projection`, `try_map_closest_point`, `surface`, `surface_mut`, `exterior`, `exterior_mut`, `interiors`, `interiors_mut`, `try_project_curve`, `try_map_curve_closest_point`, `from`, `transform`, `invert`, `serialize`, `deserialize`, `expecting`, `visit_str`, `new`, `visit_map` (AdaptModel, SerdeModel, TrimModel). Not modelled: `new`.
* `src/tessellation/adaptive_tessellation_node.rs`: `new`, `center`, `get_edge_corners`, `get_all_corners`, `evaluate_mid_point`, `has_bad_normals`, `fix_normals`, `should_divide`, `evaluate_surface` (AdaptModel). Not modelled: `id`, `is_leaf`, `assign_children`.
* `src/tessellation/adaptive_tessellation_option.rs`: `default` (AdaptModel).
* `src/tessellation/adaptive_tessellation_processor.rs`: `into_nodes`, `divide`, `iterate` (AdaptModel). Not modelled: `new`.
* `src/tessellation/boundary_constraints.rs`: `v_parameters_at_u_max`, `u_parameters`, `v_parameters`, `sorted_parameters`, `new`, `closest_point` (AdaptModel). Not modelled: `default`, `new`, `with_v_parameters_at_u_min`, `with_u_parameters_at_v_min`, `with_v_parameters_at_u_max`, `with_u_parameters_at_v_max`, `u_parameters_at_v_min`, `u_parameters_at_v_max`, `v_parameters_at_u_min`, `closest_point_at_u_min`, `closest_point_at_u_max`, `closest_point_at_v_min`, `closest_point_at_v_max`.
* `src/tessellation/mod.rs`: not modelled: `tessellate`, `constrained_tessellate`.
* `src/tessellation/surface.rs`: `surface_adaptive_tessellate`, `north`, `south`, `east`, `west`, `merge_sorted_parameters` (AdaptModel, MergeModel). Not modelled: `tessellate`, `constrained_tessellate`.
* `src/tessellation/surface_point.rs`: `new` (AdaptModel). Not modelled: `with_constraints`, `is_u_constrained`, `is_v_constrained`, `with_boundary`, `is_u_min`, `is_u_max`, `is_v_min`, `is_v_max`, `into_tuple`, `normal`, `point`, `uv`, `is_normal_degenerated`.
* `src/tessellation/surface_tessellation.rs`: `new`, `triangulate`, `faces`, `cast` (AdaptModel, CastModel). Not modelled: `points`, `normals`, `uvs`.
* `src/tessellation/tessellation_compound_curve.rs`: `tessellate` (TessCurveModel).
* `src/tessellation/tessellation_curve.rs`: `tessellate`, `tessellate_adaptive` (TessCurveModel).
* `src/tessellation/tessellation_region.rs`: `tessellate` (TrimModel).
* `src/tessellation/trimmed_surface.rs`: `new`, `point`, `position`, `tessellate`, `constrained_tessellate`, `trimmed_surface_adaptive_tessellate`, `tessellate_uv_curve_adaptive`, `iterate_uv_curve_tessellation` (AdaptModel, SerdeModel, TrimModel).
* `src/tessellation/trimmed_surface_constraints.rs`: not modelled: `new`, `with_exterior`, `with_interiors`, `push_interior`, `exterior`, `interiors`.
* `src/trim/mod.rs`: `try_trim_range` (BBoxModel, CompoundModel, SplitModel). Not modelled: `try_trim_range`.

Whole parts of the crate outside the model:

* `argmin` executors: the Newton and BFGS solvers, their line searches and stopping rules are modelled; the observer and checkpoint machinery of argmin is not.
* The LU solver of nalgebra, the Gauss-Legendre rule, the random generator of `contains`, the constrained Delaunay triangulation of `spade` and the polygon triangulation are oracles (section 6).
* `serde` derives: field presence, order and duplicates are modelled for the hand-written visitors; the JSON text layer is not.
* Examples, benches and the `bevy` and `log` features.
* Machine integers: `usize` is `nat` with underflow as a panic; overflow is not modelled.
* Allocation, sharing and clone cost.

## 5. What Print Assumptions lists

Every property theorem is followed by `Print Assumptions` in its Props file. The answers fall into these sets (standard library only):

* **`ClassicalDedekindReals.sig_forall_dec`, `ClassicalDedekindReals.sig_not_dec`, `FunctionalExtensionality.functional_extensionality_dep`**: 312 theorems.
  `C51_adaptive_mesh`, `C24_arc_angle_order`, `C77_bezier_point_at`, `C77_decompose_bernstein`, `C25_elevate_bezier_points`, `C25_elevate_bezier_unsorted`, `C92_trim_inside_fine`, `C92_trim_outside_fine`, `C92_clip_boundary`, `C92_clip_boundary_sets`, `C92_trim_arc_inside`, `C92_trim_arc_outside`, `C92_clip_boundary_any`, `C92_clip_boundary_any_sets`, `C92_boolean_trace`, `C96_boolean_swap`, `C96_boolean_swap_mixed`, `C98_cast_box_contains`, `C98_cast_near`, `C98_cast_surf_near`, `C98_cast_clamped`, `C98_cast_ends_near`, `C14_add_knot_anywhere`, `C14_add_knot_extends`, `C66_try_clamp_extends`, `C43_clip_select_extra`, `C43_clip_walk_ordered`, `C39_compound_new_chained`, `C39_compound_new_contiguous`, `C39_compound_new_joined`, `C39_compound_eval`, `C40_compound_point_at_inside`, `C40_compound_point_at_outside`, `C41_compound_invert_involutive`, `C41_compound_invert_eval`, `C57_compound_trim_inside`, `C57_compound_trim_outside`, `C58_compound_transform_affine`, `C58_compound_closest_spec`, `C85_constrained_answers`, `C85_constrained_sides`, `C85_constrained_complete`, `C73_contains_outside`, `C01_try_new_real`, `C02_find_span_brackets`, `C02_find_span_real`, `C03_basis_functions_cox`, `C03_basis_functions_real`, `C04_point_at_spec`, `C04_point_at_zero_weight`, `C05_convex_hull`, `C05_control_box`, `C06_clamped_start`, `C06_clamped_end`, `C07_local_control`, `C08_transform_affine`, `C09_invert_spec`, `C09_invert_involutive`, `C10_normalize_knots_spec`, `C11_kadd_real`, `C12_multiplicity_close`, `C12_multiplicity_exact`, `C12_is_clamped_iff`, `C13_kclamp_spec`, `C14_add_knot_preserves`, `C14_add_knot_effect`, `C15_refine_knot_preserves`, `C16_split_preserves`, `C16_split_right`, `C16_split_at_end`, `C17_trim_inside`, `C17_trim_outside`, `C18_decompose_spec`, `C21_polyline_spec`, `C21_polyline_normalized`, `C22_periodic_closed`, `C22_periodic_too_few`, `C27_elevate_dimension_spec`, `C55_point_at_continuous`, `C91_compound_new_cycle`, `C91_compound_new_shuffled`, `C91_cycle_reverse`, `C94_closest_panics_iff`, `C94_polyline_valid_iff`, `C19_derivative_basis_spec`, `C19_derivatives_spec`, `C19_tangent_is_derivative`, `C20_rational_derivatives_spec`, `C20_second_is_derivative`, `C20_rational_leibniz`, `C25_elevate_pieces`, `C25_elevate_needs_four_pieces`, `C25_elevate_four_quadratic`, `C25_elevate_four_polyline`, `C71_frame_places`, `C71_placed_rigid`, `C05_bb_curve_contains`, `C28_bin_get_history`, `C28_bin_get_spec`, `C28_binomial_fn_spec`, `C29_segment_closest_optimal`, `C29_segment_closest_short`, `C30_ray_intersection_closest`, `C32_winding_crossings`, `C32_contains_inside`, `C32_contains_outside`, `C32_contains_convex`, `C32_contains_rotate`, `C32_contains_rev`, `C32_contains_translate`, `C32_winding_chord`, `C33_line_intersects_sound`, `C33_line_intersects_complete`, `C33_line_intersects_collinear_refuted`, `C37_bb_points_tight`, `C37_bb_points_smallest`, `C37_bb_points_empty`, `C37_bb_contains_iff`, `C37_bb_new_spec`, `C37_bb_intersects_iff`, `C37_bb_intersects_zero`, `C37_bb_intersects_sym`, `C37_bb_center_size`, `C37_bb_corners_spec`, `C23_interpolate_passes`, `C23_interpolate_outcome`, `C23_interpolate_too_few`, `C23_periodic_interpolate_passes`, `C23_periodic_interpolate_too_few`, `C23_periodic_interpolate_degree_zero`, `C63_uniform_real`, `C63_uniform_zero_panics`, `C02_find_span_linear_real`, `C02_find_span_linear_differs_refuted`, `C23_periodic_even_quadratic_fails`, `C45_cc_intersections_complete`, `C45_sc_intersections_spec`, `C45_finish_apart`, `C45_finish_covers`, `C45_finish_keeps`, `C45_sc_intersections_complete`, `C61_bfgs_cc_improves`, `C61_bfgs_sc_improves`, `C26_remove_simple_knot`, `C26_remove_odd_degree`, `C26_remove_zero_tolerance`, `C26_remove_inserted_knot`, `C34_seg_length_value`, `C34_try_length_spec`, `C34_line_length`, `C34_polyline_length`, `C34_seg_parameter_bracket`, `C34_seg_parameter_accuracy`, `C34_seg_parameter_diverges`, `C34_parameter_at_length_spec`, `C70_loft_sections`, `C70_loft_ruled`, `C70_loft_misses_section_refuted`, `C54_union_spec`, `C54_sub_spec`, `C54_sub_perm`, `C54_unify_spec`, `C56_merge_in`, `C56_merge_sorted_sorted`, `C56_merge_strict`, `C52_mesh_area2_add`, `C52_mesh_area3_add`, `C13_knots_constrain_spec`, `C64_sample_regular_range_spec`, `C64_sample_regular_range_with_parameter_spec`, `C65_is_closed_spec`, `C65_compound_is_closed_spec`, `C66_try_clamp_id`, `C67_compound_length_spec`, `C67_compound_box`, `C59_find_closest_point_on`, `C82_length_transform`, `C82_length_normalize`, `C82_length_invert`, `C83_derivatives_transform`, `C83_derivatives_normalize`, `C83_derivatives_invert`, `C46_closest_parameter_total`, `C46_closed_wrap_escapes`, `C46_closed_wrap_above`, `C46_surf_closest_in_domain`, `C59_closest_guess_spec`, `C59_closest_exact_hit`, `C59_closest_parameter_stationary`, `C59_closest_on_line`, `C60_surf_closest_no_worse`, `C47_line_search_outcome`, `C47_line_search_accepts`, `C61_bfgs_secant`, `C61_bfgs_symmetric`, `C61_bfgs_posdef`, `C61_direction_descends`, `C61_bfgs_best`, `C86_adaptive_unit_normals`, `C86_adaptive_true_normals`, `C59_closest_problem`, `C60_surf_newton_step`, `C46_close_rows_spec`, `C61_cc_cost_spec`, `C61_cc_gradient_spec`, `C61_sc_cost_spec`, `C61_sc_gradient_spec`, `C61_bfgs_step`, `C52_mesh_area2_spec`, `C52_mesh_area3_spec`, `C52_mesh_area_nonneg`, `C43_degeneracy_spec`, `C38_ct_default_divides`, `C04_accessors_spec`, `C04_evaluation_accessors`, `C92_boolean_methods`, `C92_boolean_cover`, `C92_boolean_start`, `C97_solver_swap`, `C97_refine_swap`, `C97_bfgs_refine_swap`, `C68_revolve_rejects`, `C68_revolve_nonunit_refuted`, `C90_refine_rounded`, `C90_refine_point_rounded`, `C90_split_point_rounded`, `C81_find_span_rounded`, `C81_basis_functions_rounded`, `C81_point_at_rounded`, `C81_box_rounded`, `C81_surf_point_at_rounded`, `C78_returned_exists`, `C78_derivatives_smooth`, `C78_derivatives_continuous`, `C78_corner_at_full_multiplicity`, `C79_tangent_at_start`, `C79_tangent_at_end`, `C80_surface_corners`, `C55_surf_point_continuous`, `C48_surf_accessors`, `C48_surf_evaluation_accessors`, `C49_flip_involutive`, `C88_surf_refine_flip`, `C60_surf_closest_grid`, `C60_surf_closest_answers`, `C60_surf_closest_total`, `C60_surf_closest_point_total`, `C88_points_determine_surface`, `C88_surf_refine_any_order`, `C88_surf_refine_commute`, `C88_surf_refine_transform`, `C89_cut_order`, `C89_surf_cut_order`, `C48_surf_point_at_spec`, `C48_surf_hull`, `C48_surf_box`, `C48_surf_derivatives_spec`, `C48_surf_rational_derivatives_spec`, `C48_normal_at_spec`, `C48_surf_refine_u`, `C48_surf_refine_v`, `C48_isocurve_u_inside`, `C48_isocurve_v_inside`, `C48_boundary_curves_spec`, `C48_surf_split_u`, `C48_surf_split_v`, `C49_plane_spec`, `C49_extrude_spec`, `C49_flip_u_spec`, `C49_flip_v_spec`, `C49_flip_uv_spec`, `C49_surf_transform_affine`, `C50_regular_tessellate_spec`, `C50_regular_sample_points_spec`, `C50_regular_sample_normals_spec`, `C50_unit_normal`, `C36_tessellate_structure`, `C36_tessellate_complete`, `C36_tessellate_nonpositive`, `C36_tessellate_degree_one`, `C38_traverse_curves`, `C38_traverse_bezier`, `C38_traverse_surface_curve`, `C38_traverse_patch_bezier`, `C32_winding_connected`, `C32_contains_connected`, `C74_region_tessellate_spec`, `C75_uv_points_structure`, `C75_trim_loops_total`, `C75_trimmed_tessellate_spec`, `C76_flat_trim`, `C76_map_closest_flat`, `C76_projection_flat`, `C76_projection_reaches`, `C76_projection_short_refuted`, `C76_nearest_hit_spec`, `C76_no_trimming_curves`, `C76_transform_boundary`, `C76_invert_boundary`, `C76_trimmed_invert_moves_refuted`, `C74_region_tessellate_order`, `C87_points_determine_curve`, `C87_refine_in_steps`, `C87_refine_any_order`, `C87_add_knot_is_refine`, `C87_add_knots_any_order`, `C87_refine_invert`, `C87_refine_transform`, `C87_points_determine_curve_refuted`, `C87_rational_points_refuted`, `C84_variation_diminishing`, `C84_monotone_control`

* **Closed under the global context** (no axioms): 79 theorems.
  `C51_adaptive_indices`, `C51_adaptive_terminates`, `C51_adaptive_node_count`, `C51_adaptive_on_surface`, `C96_boolean_swap_disjoint`, `C98_cast_round_trip`, `C93_adaptive_divides`, `C93_adaptive_default`, `C42_clip_no_crossing`, `C43_clip_select_spec`, `C43_clip_select_fails`, `C43_clip_walk`, `C43_clip_total`, `C44_region_difference_correct`, `C44_region_union_correct`, `C44_region_intersection_correct`, `C44_region_region_intersection_correct`, `C44_region_region_difference_spec`, `C44_region_region_union_spec`, `C44_region_region_union_correct`, `C44_region_union_disjoint_spec`, `C39_compound_new_origin`, `C39_compound_new_empty`, `C41_compound_invert_spec`, `C73_contains_open`, `C73_crossings_sound`, `C01_try_new_spec`, `C02_find_span_total`, `C04_point_at_total`, `C11_kadd_total`, `C12_multiplicity_total`, `C94_closest_degree_zero_refuted`, `C94_polyline_never_errs`, `C94_normalize_never_errs`, `C71_frames_empty_refuted`, `C31_transpose_spec`, `C31_transpose_involutive`, `C31_transpose_empty`, `C37_bb_lines_spec`, `C02_find_span_linear_any`, `C45_cc_intersections_genuine`, `C45_sc_intersections_genuine`, `C62_compound_hits`, `C62_compound_hits_sound`, `C62_compound_keeps_hits`, `C62_compounds_hits_sound`, `C25_elevate_noop`, `C25_elevate_by_two_panics`, `C26_remove_absent`, `C26_remove_counts`, `C52_triangles_ok`, `C52_mesh_add_triangles`, `C52_mesh_sum_triangles`, `C52_mesh_add_assoc`, `C67_tessellate_compound_join`, `C46_closest_parameter_in_domain`, `C46_newton_run_steps`, `C61_bfgs_run_terminates`, `C86_adaptive_normals`, `C86_fix_normals_spec`, `C86_repair_spec`, `C53_curve_round_trip`, `C53_surface_round_trip`, `C53_compound_round_trip`, `C53_region_round_trip`, `C53_trimmed_round_trip`, `C53_curve_read_iff`, `C53_surface_read_iff`, `C53_compound_read_iff`, `C53_region_read_iff`, `C53_trimmed_read_iff`, `C53_curve_field_order`, `C53_surface_field_order`, `C53_trimmed_field_order`, `C53_reading_total`, `C36_join_open_steps`, `C36_join_closed_steps`, `C36_join_closed_ends`, `C38_traverse_sound`

* **Primitive binary64 and int63 operations of the kernel** (`PrimFloat.eqb`, `PrimFloat.leb`, `PrimFloat.ltb`, `PrimFloat.sqrt`, `PrimInt63.int`, `PrimInt63.lor`, `PrimInt63.lsl`, `PrimInt63.sub`, `abs`, `add`, `div`, `float`, `mul`, `of_uint63`, `opp`, `sub`), which Coq lists although they are not axioms about values: 48 theorems.
  `C51_adaptive_crack_refuted`, `C51_adaptive_constrained_refuted`, `C51_adaptive_empty_constraint_refuted`, `C42_clip_identical_refuted`, `C44_region_union_disjoint_refuted`, `C44_region_union_in_hole_refuted`, `C44_region_difference_holes_refuted`, `C44_region_union_punches_refuted`, `C44_region_intersection_duplicates_refuted`, `C44_clip_union_ring_refuted`, `C39_compound_new_drops_refuted`, `C39_compound_new_disconnects_refuted`, `C39_compound_gap_refuted`, `C41_compound_invert_refuted`, `C57_compound_trim_junction_refuted`, `C85_adaptive_max_side_refuted`, `C73_contains_open_compound_refuted`, `C73_contains_merged_refuted`, `C71_frames_cusp_refuted`, `C23_interpolate_coincident_refuted`, `C23_interpolate_degree_zero_refuted`, `C45_intersections_not_merged_refuted`, `C45_endpoint_intersection_found_refuted`, `C62_open_compound_keeps_hits_refuted`, `C62_compound_hits_distinct_refuted`, `C34_parameter_unclamped_refuted`, `C35_divide_unclamped_refuted`, `C70_loft_shared_corner_refuted`, `C70_loft_fan_refuted`, `C64_sample_once_refuted`, `C66_try_clamp_unclamped_refuted`, `C46_closed_closest_in_domain_refuted`, `C59_closest_improves_guess_refuted`, `C61_bfgs_step_descends_refuted`, `C86_adaptive_pole_refuted`, `C86_adaptive_zero_normal_refuted`, `C86_adaptive_constrained_normal_refuted`, `C97_intersections_symmetric_refuted`, `C03_basis_sum_float_refuted`, `C05_box_float_refuted`, `C06_endpoint_float_refuted`, `C09_invert_twice_float_refuted`, `C48_isocurve_double_knot_refuted`, `C48_regular_derivatives_mixed_refuted`, `C36_tessellate_deviates_refuted`, `C75_trim_seam_refuted`, `C75_trim_normals_refuted`, `C76_map_uneven_refuted`

* **`ClassicalDedekindReals.sig_forall_dec`, `ClassicalDedekindReals.sig_not_dec`, `Classical_Prop.classic`, `FunctionalExtensionality.functional_extensionality_dep`**: 43 theorems.
  `C24_arc_traces`, `C24_circle_traces`, `C24_ellipse_traces`, `C24_arc_near_half_turn_refuted`, `C24_arc_two_turns_refuted`, `C24_ellipse_arc_refuted`, `C98_cast_collapse_refuted`, `C59_closest_guess_near`, `C73_curve_contains_parity`, `C73_compound_contains_parity`, `C73_parity_unique`, `C71_frames_spec`, `C72_sweep_spec`, `C23_schoenberg_whitney`, `C23_interpolate_succeeds`, `C23_interpolate_unique`, `C34_seg_parameter_terminates`, `C34_parameter_at_length_total`, `C35_divide_by_length_spec`, `C35_divide_by_count_spec`, `C64_curve_lipschitz`, `C64_points_lipschitz`, `C64_samples_dense`, `C64_rational_lipschitz`, `C64_rational_samples_dense`, `C70_loft_succeeds`, `C72_sweep_succeeds`, `C95_regular_polyline_near`, `C95_mesh_near`, `C95_regular_mesh_near`, `C95_adaptive_mesh_near`, `C68_revolve_turns`, `C69_sphere_spec`, `C90_refine_point_double`, `C90_split_point_double`, `C81_point_at_double`, `C81_surf_point_at_double`, `C81_nearest_rounding`, `C60_surf_closest_near`, `C60_surf_closest_point_near`, `C50_surf_lipschitz`, `C50_surf_points_lipschitz`, `C50_surf_samples_dense`

* **Primitive binary64 and int63 operations of the kernel** (`PrimFloat.eqb`, `PrimFloat.leb`, `PrimFloat.ltb`, `PrimInt63.int`, `PrimInt63.lor`, `PrimInt63.lsl`, `PrimInt63.sub`, `abs`, `add`, `div`, `float`, `mul`, `of_uint63`, `opp`, `sqrt`, `sub`), which Coq lists although they are not axioms about values: 18 theorems.
  `C08_transform_projective_refuted`, `C14_add_knot_rational_refuted`, `C16_split_at_knot_refuted`, `C18_decompose_unclamped_refuted`, `C94_polyline_coincident_refuted`, `C94_polyline_coincident_point_refuted`, `C94_normalize_empty_domain_refuted`, `C94_degree_zero_closest_refuted`, `C94_interpolate_coincident_refuted`, `C25_elevate_degree_refuted`, `C25_elevate_degree_shape_refuted`, `C26_remove_tolerance_refuted`, `C26_remove_double_refuted`, `C26_remove_double_panic_refuted`, `C26_remove_wrong_knot_refuted`, `C53_curve_not_validated_refuted`, `C53_curve_knots_not_sorted_refuted`, `C53_trimmed_bad_exterior_refuted`

* **`ClassicalDedekindReals.sig_forall_dec`, `FunctionalExtensionality.functional_extensionality_dep`**: 11 theorems.
  `C98_span_kept`, `C98_cast_mesh_near`, `C55_hcoord_continuous`, `C55_full_multiplicity_jumps`, `C19_dbs_deriv`, `C64_regular_first`, `C64_regular_last`, `C88_net_unique`, `C48_shcoord_rows`, `C48_shcoord_cols`, `C87_control_points_unique`

* **`ClassicalDedekindReals.sig_forall_dec`**: 2 theorems.
  `C98_cast_curve_ok`, `C98_cast_surf_ok`

* **Primitive binary64 and int63 operations of the kernel** (`PrimFloat.eqb`, `PrimFloat.leb`, `PrimFloat.ltb`, `PrimInt63.int`, `PrimInt63.lor`, `PrimInt63.lsl`, `PrimInt63.sub`, `Warning`, `abs`, `add`, `div`, `float`, `mul`, `of_uint63`, `opp`, `sqrt`, `sub`), which Coq lists although they are not axioms about values: 1 theorems.
  `C25_elevate_degree_spans_refuted`

* **`float`**: 1 theorems.
  `C86_fix_normals_refuted`

The first three axioms are those of the classical Dedekind reals (`Coq.Reals.ClassicalDedekindReals`, `Coq.Logic.FunctionalExtensionality`), `classic` comes from `Coq.Logic.Classical_Prop` through the library's intermediate value theorem, trigonometry and limits.

## 6. Oracles and their contracts

* **Linear solver** (`solve`, interpolation, loft, sweep): a function from a matrix and right-hand sides to a result. Contract where needed: an answer satisfies the system. Structural theorems hold for any solver.
* **2x2 / 3x3 solver** (`solve2`, surface Newton step): any function; no contract.
* **Quadrature** (`gauss`): abscissae and weights; contract `rule_ok`: paired abscissae in [-1, 1] with non-negative weights; that the weights sum to two is asked only where a length is computed exactly (polylines).
* **Random stream** (`rng`): any sequence of scalars; contract where needed: values in [0, 1].
* **Optimisers** (curve/curve and surface/curve intersection): the BFGS iteration itself is modelled; theorems about merging and filtering hold for any candidate list.
* **Delaunay triangulation** (`Delaunay V` with `lawful`): keeps the inserted vertices and constraints, an accepted constraint is covered by constraint edges, no constraint runs through a face. Covering of the region is not assumed.
* **Measurement of a span** (`measure` in compound length): any function.

## 7. Reading the deliverables

* `theories/*Model.v`: transcription; `*Spec.v`: independent notions (B-spline basis by the Cox-de Boor recursion, polygons, trimmed regions); the other files: proofs; `Props*.v`: the property theorems, each with a non-vacuity example and `Print Assumptions`.
* `MANIFEST.json`: property to theorem names; `_refuted` theorems give witnesses against the natural claim, `_partial` ones prove a weaker statement than the property.
* `seeded/LOG.jsonl`: one line per rebuild of a scratch copy of the model with one deliberate error. The file is regenerated from the raw run records, it is not appended to.
  * `proofs_that_broke` is what the build reported: the first failing proof of each file. Later proofs of the same file were not tried.
  * `theorems_failed`: theorems of the claimed property (of all properties in lines with `built_from`, the commit that was edited) that were in that build, whose file did not compile, and that depend by name on a broken proof. The dependency is read off identifiers in the current sources, not off the kernel.
  * `theorems_not_rebuilt`: theorems of the property whose file did not compile for another reason, so the run says nothing about them.
  * `theorems_that_still_proved`: theorems of the property whose file did compile.
  * `inferred_dependents`: further theorems of today's sources that depend by name on a broken proof. Many were written after the run and were never built against that error.
  * Correction: up to commit 8b1b5af the log listed these inferred dependents as `theorems_failed`, left `theorems_that_still_proved` empty whenever any proof broke, and omitted some repeated runs and one edit that did not compile. Those versions overstate what was tested.
  * Totals: 589 runs of 512 edits. A theorem of the claimed property failed in 479 runs, none did in 73, 36 are undetermined, 1 edit did not compile. On its latest run, 3 of the edits still have no recorded failing theorem (of the claimed property, or of any where `built_from` is given); their log lines say why.
