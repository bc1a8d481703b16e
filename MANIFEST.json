{
 "claims": [
  {
   "property": "C01",
   "status": "proved",
   "theorems": [
    "C01_try_new_spec",
    "C01_try_new_real"
   ],
   "note": ""
  },
  {
   "property": "C02",
   "status": "proved",
   "theorems": [
    "C02_find_span_total",
    "C02_find_span_brackets",
    "C02_find_span_real",
    "C02_find_span_linear_any",
    "C02_find_span_linear_real",
    "C02_find_span_linear_differs_refuted"
   ],
   "note": ""
  },
  {
   "property": "C03",
   "status": "proved",
   "theorems": [
    "C03_basis_functions_cox",
    "C03_basis_functions_real",
    "C03_basis_sum_float_refuted"
   ],
   "note": "over the reals; the sum of the basis in double precision is refuted (basis_sum_float_refuted)"
  },
  {
   "property": "C04",
   "status": "proved",
   "theorems": [
    "C04_point_at_spec",
    "C04_point_at_zero_weight",
    "C04_point_at_total",
    "C04_accessors_spec",
    "C04_evaluation_accessors"
   ],
   "note": ""
  },
  {
   "property": "C05",
   "status": "proved",
   "theorems": [
    "C05_convex_hull",
    "C05_control_box",
    "C05_bb_curve_contains",
    "C05_box_float_refuted"
   ],
   "note": "half-spaces, control-point box and the computed BoundingBox, over the reals; in double precision refuted by one rounding error (box_float_refuted)"
  },
  {
   "property": "C06",
   "status": "proved",
   "theorems": [
    "C06_clamped_start",
    "C06_clamped_end",
    "C06_endpoint_float_refuted"
   ],
   "note": "over the reals; in double precision the first point may be off by one rounding error (endpoint_float_refuted)"
  },
  {
   "property": "C07",
   "status": "proved",
   "theorems": [
    "C07_local_control"
   ],
   "note": ""
  },
  {
   "property": "C08",
   "status": "proved",
   "theorems": [
    "C08_transform_affine",
    "C08_transform_projective_refuted"
   ],
   "note": "affine matrices proved; the claim for projective matrices is refuted (transform_projective_refuted)"
  },
  {
   "property": "C09",
   "status": "proved",
   "theorems": [
    "C09_invert_spec",
    "C09_invert_involutive",
    "C09_invert_twice_float_refuted"
   ],
   "note": "over the reals; inverting twice in double precision is refuted (invert_twice_float_refuted)"
  },
  {
   "property": "C10",
   "status": "proved",
   "theorems": [
    "C10_normalize_knots_spec"
   ],
   "note": ""
  },
  {
   "property": "C11",
   "status": "proved",
   "theorems": [
    "C11_kadd_real",
    "C11_kadd_total"
   ],
   "note": ""
  },
  {
   "property": "C12",
   "status": "proved",
   "theorems": [
    "C12_multiplicity_close",
    "C12_multiplicity_exact",
    "C12_multiplicity_total",
    "C12_is_clamped_iff"
   ],
   "note": ""
  },
  {
   "property": "C13",
   "status": "proved",
   "theorems": [
    "C13_kclamp_spec",
    "C13_knots_constrain_spec"
   ],
   "note": ""
  },
  {
   "property": "C14",
   "status": "proved",
   "theorems": [
    "C14_add_knot_anywhere",
    "C14_add_knot_extends",
    "C14_add_knot_preserves",
    "C14_add_knot_effect",
    "C14_add_knot_rational_refuted"
   ],
   "note": "holds for uniform weights; refuted for rational curves (add_knot_rational_refuted); add_knot_effect gives the exact effect for any weights"
  },
  {
   "property": "C15",
   "status": "proved",
   "theorems": [
    "C15_refine_knot_preserves"
   ],
   "note": ""
  },
  {
   "property": "C16",
   "status": "proved",
   "theorems": [
    "C16_split_preserves",
    "C16_split_right",
    "C16_split_at_end",
    "C16_split_at_knot_refuted"
   ],
   "note": "at parameters off the knots; at an existing interior knot the left half is refuted (split_at_knot_refuted), the right half is proved"
  },
  {
   "property": "C17",
   "status": "proved",
   "theorems": [
    "C17_trim_inside",
    "C17_trim_outside"
   ],
   "note": ""
  },
  {
   "property": "C18",
   "status": "proved",
   "theorems": [
    "C18_decompose_spec",
    "C18_decompose_unclamped_refuted"
   ],
   "note": "clamped curves; for unclamped curves refuted (decompose_unclamped_refuted)"
  },
  {
   "property": "C19",
   "status": "proved",
   "theorems": [
    "C19_dbs_deriv",
    "C19_derivative_basis_spec",
    "C19_derivatives_spec",
    "C19_tangent_is_derivative"
   ],
   "note": ""
  },
  {
   "property": "C20",
   "status": "proved",
   "theorems": [
    "C20_rational_derivatives_spec",
    "C20_second_is_derivative",
    "C20_rational_leibniz"
   ],
   "note": ""
  },
  {
   "property": "C21",
   "status": "proved",
   "theorems": [
    "C21_polyline_spec",
    "C21_polyline_normalized"
   ],
   "note": ""
  },
  {
   "property": "C22",
   "status": "proved",
   "theorems": [
    "C22_periodic_closed",
    "C22_periodic_too_few"
   ],
   "note": ""
  },
  {
   "property": "C23",
   "status": "proved",
   "theorems": [
    "C23_interpolate_passes",
    "C23_interpolate_outcome",
    "C23_interpolate_too_few",
    "C23_periodic_interpolate_passes",
    "C23_periodic_interpolate_too_few",
    "C23_periodic_interpolate_degree_zero",
    "C23_interpolate_coincident_refuted",
    "C23_interpolate_degree_zero_refuted",
    "C23_schoenberg_whitney",
    "C23_interpolate_succeeds",
    "C23_interpolate_unique",
    "C23_periodic_even_quadratic_fails"
   ],
   "note": "Open interpolation: whatever an exact solver returns, the curve is well-formed on [0,1] and evaluates to point i at its normalised chord length; it never panics and fails only when the solver declares a system of basis values (rows summing to 1) singular. With a solver that fails on singular systems only, it always succeeds (Schoenberg-Whitney) and the curve is unique among the unweighted ones on its knots, provided the first and last parameter steps are at least eps. Closed quadratics through evenly many uniformly parametrised points fail unless their alternating sum is zero. Periodic interpolation: for the three knot styles the closed curve visits the points in order at the accumulated steps and its end point is its first point. Refuted: coincident points and degree 0 are not rejected, the returned knots contain NaN. The LU solver is a parameter with its contract (what it returns solves the system)."
  },
  {
   "property": "C24",
   "status": "proved",
   "theorems": [
    "C24_arc_traces",
    "C24_circle_traces",
    "C24_ellipse_traces",
    "C24_arc_angle_order",
    "C24_arc_near_half_turn_refuted",
    "C24_arc_two_turns_refuted",
    "C24_ellipse_arc_refuted"
   ],
   "note": "Real arithmetic, sin/cos of the standard library, tolerance eps <= 1/2. Arcs up to a full turn succeed unless shorter than half a turn with sin^2(angle) < eps; then they are errors (near_half_turn_refuted). Ellipse arcs with different radii leave the ellipse (ellipse_arc_refuted)."
  },
  {
   "property": "C25",
   "status": "proved",
   "theorems": [
    "C25_elevate_bezier_points",
    "C25_elevate_bezier_unsorted",
    "C25_elevate_pieces",
    "C25_elevate_needs_four_pieces",
    "C25_elevate_four_quadratic",
    "C25_elevate_four_polyline",
    "C25_elevate_noop",
    "C25_elevate_by_two_panics",
    "C25_elevate_degree_refuted",
    "C25_elevate_degree_spans_refuted",
    "C25_elevate_degree_shape_refuted"
   ],
   "note": "the claim is refuted: any increment of two or more panics on every curve (proved for all curves), and raising by one gives a wrong domain, a panic or another shape (three witnesses); the no-op case is proved; for single-span curves raised by one the result is correct up to three surplus zero points and knots, whose presence breaks the ordering of the knots whenever the domain ends above zero (real arithmetic, all degrees); for every clamped curve of every degree the result has room for exactly four pieces (more: no result; fewer: trailing zero knots); polylines and quadratics with four pieces are correct"
  },
  {
   "property": "C26",
   "status": "proved",
   "theorems": [
    "C26_remove_absent",
    "C26_remove_counts",
    "C26_remove_tolerance_refuted",
    "C26_remove_double_refuted",
    "C26_remove_double_panic_refuted",
    "C26_remove_wrong_knot_refuted",
    "C26_remove_simple_knot",
    "C26_remove_odd_degree",
    "C26_remove_zero_tolerance",
    "C26_remove_inserted_knot"
   ],
   "note": "counts and dimensions for every scalar; a simple interior knot is removed within tolerance times an explicit factor (1 for odd degree), exactly for tolerance 0, and an inserted knot is always removed; for multiple knots and for the plain tolerance in even degree refuted by four witnesses"
  },
  {
   "property": "C27",
   "status": "proved",
   "theorems": [
    "C27_elevate_dimension_spec"
   ],
   "note": ""
  },
  {
   "property": "C28",
   "status": "proved",
   "theorems": [
    "C28_bin_get_history",
    "C28_bin_get_spec",
    "C28_binomial_fn_spec"
   ],
   "note": ""
  },
  {
   "property": "C29",
   "status": "proved",
   "theorems": [
    "C29_segment_closest_optimal",
    "C29_segment_closest_short"
   ],
   "note": ""
  },
  {
   "property": "C30",
   "status": "proved",
   "theorems": [
    "C30_ray_intersection_closest"
   ],
   "note": ""
  },
  {
   "property": "C31",
   "status": "proved",
   "theorems": [
    "C31_transpose_spec",
    "C31_transpose_involutive",
    "C31_transpose_empty"
   ],
   "note": ""
  },
  {
   "property": "C32",
   "status": "proved",
   "theorems": [
    "C32_winding_crossings",
    "C32_contains_inside",
    "C32_contains_outside",
    "C32_contains_convex",
    "C32_contains_rotate",
    "C32_contains_rev",
    "C32_contains_translate",
    "C32_winding_chord",
    "C32_winding_connected",
    "C32_contains_connected"
   ],
   "note": ""
  },
  {
   "property": "C33",
   "status": "proved",
   "theorems": [
    "C33_line_intersects_sound",
    "C33_line_intersects_complete",
    "C33_line_intersects_collinear_refuted"
   ],
   "note": "sound always, complete off the collinear case; collinear overlap refuted (line_intersects_collinear_refuted)"
  },
  {
   "property": "C34",
   "status": "proved",
   "theorems": [
    "C34_seg_length_value",
    "C34_try_length_spec",
    "C34_line_length",
    "C34_polyline_length",
    "C34_seg_parameter_terminates",
    "C34_seg_parameter_bracket",
    "C34_seg_parameter_accuracy",
    "C34_seg_parameter_diverges",
    "C34_parameter_at_length_spec",
    "C34_parameter_at_length_total",
    "C34_parameter_unclamped_refuted"
   ],
   "note": "clamped curves with positive weights and any quadrature rule with nodes in [-1,1] and non-negative weights; the length over the first eps of a segment must stay below the tolerance, otherwise the search may loop (a negative tolerance always does); for unclamped curves refuted"
  },
  {
   "property": "C35",
   "status": "proved",
   "theorems": [
    "C35_divide_by_length_spec",
    "C35_divide_by_count_spec",
    "C35_divide_unclamped_refuted"
   ],
   "note": "clamped curves, same conditions as C34; parameters are ordered across segments, within a segment each one is bracketed by the measured length; dividing into one part is always rejected; unclamped curves refuted"
  },
  {
   "property": "C36",
   "status": "proved",
   "theorems": [
    "C36_tessellate_structure",
    "C36_tessellate_complete",
    "C36_tessellate_nonpositive",
    "C36_tessellate_degree_one",
    "C36_join_open_steps",
    "C36_join_closed_steps",
    "C36_join_closed_ends",
    "C36_tessellate_deviates_refuted"
   ],
   "note": "termination, order and membership for every tolerance and random stream; both end points and flat chords when the curve moves at most M times the parameter and M is not astronomically large; a tolerance of zero or less leaves one point (proved), and an S-shaped curve may be replaced by its chord (refuted)"
  },
  {
   "property": "C37",
   "status": "proved",
   "theorems": [
    "C37_bb_points_tight",
    "C37_bb_points_smallest",
    "C37_bb_points_empty",
    "C37_bb_contains_iff",
    "C37_bb_new_spec",
    "C37_bb_intersects_iff",
    "C37_bb_intersects_zero",
    "C37_bb_intersects_sym",
    "C37_bb_center_size",
    "C37_bb_corners_spec",
    "C37_bb_lines_spec"
   ],
   "note": ""
  },
  {
   "property": "C38",
   "status": "proved",
   "theorems": [
    "C38_ct_default_divides",
    "C38_traverse_sound",
    "C38_traverse_curves",
    "C38_traverse_bezier",
    "C38_traverse_surface_curve",
    "C38_traverse_patch_bezier"
   ],
   "note": "soundness for any two trees and any scalar; coverage for curves and surfaces whose division parameters stay at least eps away from existing knots, which is proved for single-span curves (any random numbers) and single-span surfaces (default tolerance)"
  },
  {
   "property": "C39",
   "status": "proved",
   "theorems": [
    "C39_compound_new_origin",
    "C39_compound_new_empty",
    "C39_compound_new_chained",
    "C39_compound_new_contiguous",
    "C39_compound_new_joined",
    "C39_compound_eval",
    "C39_compound_new_drops_refuted",
    "C39_compound_new_disconnects_refuted",
    "C39_compound_gap_refuted"
   ],
   "note": "positive claims proved; three stronger claims refuted with witnesses (a chain given in reverse order loses spans, stored neighbours may be unconnected, unclamped spans leave a gap)"
  },
  {
   "property": "C40",
   "status": "proved",
   "theorems": [
    "C40_compound_point_at_inside",
    "C40_compound_point_at_outside"
   ],
   "note": ""
  },
  {
   "property": "C41",
   "status": "proved",
   "theorems": [
    "C41_compound_invert_spec",
    "C41_compound_invert_involutive",
    "C41_compound_invert_eval",
    "C41_compound_invert_refuted"
   ],
   "note": "order, direction, involution and the exact evaluation proved; mirrored evaluation over the whole domain refuted"
  },
  {
   "property": "C42",
   "status": "proved",
   "theorems": [
    "C42_clip_no_crossing",
    "C42_clip_identical_refuted"
   ],
   "note": "the three configurations for any curves and an exact containment answer; identical curves are rejected instead (clip_identical_refuted)"
  },
  {
   "property": "C43",
   "status": "proved",
   "theorems": [
    "C43_clip_select_extra",
    "C43_clip_select_spec",
    "C43_clip_select_fails",
    "C43_clip_walk",
    "C43_clip_total",
    "C43_clip_walk_ordered",
    "C43_degeneracy_spec"
   ],
   "note": "for every scalar type and every pair of orders of the crossings; trimming and joining are arguments"
  },
  {
   "property": "C44",
   "status": "proved",
   "theorems": [
    "C44_region_difference_correct",
    "C44_region_union_correct",
    "C44_region_intersection_correct",
    "C44_region_region_intersection_correct",
    "C44_region_region_difference_spec",
    "C44_region_region_union_spec",
    "C44_region_region_union_correct",
    "C44_region_union_disjoint_spec",
    "C44_region_union_disjoint_refuted",
    "C44_region_union_in_hole_refuted",
    "C44_region_difference_holes_refuted",
    "C44_region_union_punches_refuted",
    "C44_region_intersection_duplicates_refuted",
    "C44_clip_union_ring_refuted"
   ],
   "note": "relative to correct operations on curves (curve_algebra, satisfied by an interval model); exact characterisations of what differences, unions and intersections cover; the natural claim of full set semantics is refuted by six witnesses, including an exponential repetition of holes"
  },
  {
   "property": "C45",
   "status": "proved",
   "theorems": [
    "C45_cc_intersections_genuine",
    "C45_sc_intersections_genuine",
    "C45_cc_intersections_complete",
    "C45_sc_intersections_spec",
    "C45_finish_apart",
    "C45_finish_covers",
    "C45_finish_keeps",
    "C45_intersections_not_merged_refuted",
    "C45_endpoint_intersection_found_refuted",
    "C45_sc_intersections_complete"
   ],
   "note": "soundness for every scalar (floats and NaN included) and every solver; order, gaps, coverage of the raw hits in exact arithmetic; a meeting of the curves is reported when the solver succeeds on every pair of parts that meet; two genuine intersections merged and an intersection at an end point missed are refuted with the library's own solver in floats"
  },
  {
   "property": "C46",
   "status": "proved",
   "theorems": [
    "C46_closest_parameter_in_domain",
    "C46_newton_run_steps",
    "C46_closest_parameter_total",
    "C46_closed_wrap_escapes",
    "C46_closed_wrap_above",
    "C46_surf_closest_in_domain",
    "C46_closed_closest_in_domain_refuted",
    "C46_close_rows_spec"
   ],
   "note": "open curves for every scalar, open surfaces in exact arithmetic; closed curves refuted in floats and a step below the start proved to leave the domain; closing of surfaces by the control points proved equivalent to agreement up to ten eps"
  },
  {
   "property": "C47",
   "status": "proved",
   "theorems": [
    "C47_line_search_outcome",
    "C47_line_search_accepts"
   ],
   "note": "every cost function that answers or fails; the step handed back at the end of the budget may be a rejected one (see bfgs_step_descends_refuted under C61)"
  },
  {
   "property": "C48",
   "status": "proved",
   "theorems": [
    "C48_surf_accessors",
    "C48_surf_evaluation_accessors",
    "C48_surf_point_at_spec",
    "C48_shcoord_rows",
    "C48_shcoord_cols",
    "C48_surf_hull",
    "C48_surf_box",
    "C48_surf_derivatives_spec",
    "C48_surf_rational_derivatives_spec",
    "C48_normal_at_spec",
    "C48_surf_refine_u",
    "C48_surf_refine_v",
    "C48_isocurve_u_inside",
    "C48_isocurve_v_inside",
    "C48_boundary_curves_spec",
    "C48_surf_split_u",
    "C48_surf_split_v",
    "C48_isocurve_double_knot_refuted",
    "C48_regular_derivatives_mixed_refuted"
   ],
   "note": "iso-curves off the knots, at simple knots and at clamped ends; at interior knots of multiplicity two or more refuted (isocurve_double_knot_refuted); sampled derivatives with mixed degrees refuted"
  },
  {
   "property": "C49",
   "status": "proved",
   "theorems": [
    "C49_flip_involutive",
    "C49_plane_spec",
    "C49_extrude_spec",
    "C49_flip_u_spec",
    "C49_flip_v_spec",
    "C49_flip_uv_spec",
    "C49_surf_transform_affine"
   ],
   "note": ""
  },
  {
   "property": "C50",
   "status": "proved",
   "theorems": [
    "C50_surf_lipschitz",
    "C50_surf_points_lipschitz",
    "C50_surf_samples_dense",
    "C50_regular_tessellate_spec",
    "C50_regular_sample_points_spec",
    "C50_regular_sample_normals_spec",
    "C50_unit_normal"
   ],
   "note": "the theorem is over the reals; du = 0 or dv = 0 gives a one-row grid there, where floats would produce NaN parameters"
  },
  {
   "property": "C51",
   "status": "proved",
   "theorems": [
    "C51_adaptive_indices",
    "C51_adaptive_terminates",
    "C51_adaptive_node_count",
    "C51_adaptive_on_surface",
    "C51_adaptive_mesh",
    "C51_adaptive_crack_refuted",
    "C51_adaptive_constrained_refuted",
    "C51_adaptive_empty_constraint_refuted"
   ],
   "note": "Totality, tiling and points on the surface over the reals (exact arithmetic) for surfaces in space, without constraints; indices, points on the surface, termination and node count for any scalar type and any constraints. Three refutations with float witnesses: hanging vertices, constrained sides, empty constraint lists."
  },
  {
   "property": "C52",
   "status": "proved",
   "theorems": [
    "C52_triangles_ok",
    "C52_mesh_add_triangles",
    "C52_mesh_sum_triangles",
    "C52_mesh_add_assoc",
    "C52_mesh_area2_add",
    "C52_mesh_area3_add",
    "C52_mesh_area2_spec",
    "C52_mesh_area3_spec",
    "C52_mesh_area_nonneg"
   ],
   "note": ""
  },
  {
   "property": "C53",
   "status": "proved",
   "theorems": [
    "C53_curve_round_trip",
    "C53_surface_round_trip",
    "C53_compound_round_trip",
    "C53_region_round_trip",
    "C53_trimmed_round_trip",
    "C53_curve_read_iff",
    "C53_surface_read_iff",
    "C53_compound_read_iff",
    "C53_region_read_iff",
    "C53_trimmed_read_iff",
    "C53_curve_field_order",
    "C53_surface_field_order",
    "C53_trimmed_field_order",
    "C53_reading_total",
    "C53_curve_not_validated_refuted",
    "C53_curve_knots_not_sorted_refuted",
    "C53_trimmed_bad_exterior_refuted"
   ],
   "note": "Any scalar type whose numbers the format keeps. Documents are value trees (no streaming parser state after a failed value, no binary formats, no human-readable number formatting); f64 numbers are kept exactly. Array-shaped documents of hand-written visitors are rejected, as in the code (no visit_seq). Refuted: validation on reading, unreadable exterior."
  },
  {
   "property": "C54",
   "status": "proved",
   "theorems": [
    "C54_union_spec",
    "C54_sub_spec",
    "C54_sub_perm",
    "C54_unify_spec"
   ],
   "note": ""
  },
  {
   "property": "C55",
   "status": "proved",
   "theorems": [
    "C55_point_at_continuous",
    "C55_hcoord_continuous",
    "C55_full_multiplicity_jumps",
    "C55_surf_point_continuous"
   ],
   "note": ""
  },
  {
   "property": "C56",
   "status": "proved",
   "theorems": [
    "C56_merge_in",
    "C56_merge_sorted_sorted",
    "C56_merge_strict"
   ],
   "note": ""
  },
  {
   "property": "C57",
   "status": "proved",
   "theorems": [
    "C57_compound_trim_inside",
    "C57_compound_trim_outside",
    "C57_compound_trim_junction_refuted"
   ],
   "note": "parameters at least eps from every knot; at a junction refuted"
  },
  {
   "property": "C58",
   "status": "proved",
   "theorems": [
    "C58_compound_transform_affine",
    "C58_compound_closest_spec"
   ],
   "note": ""
  },
  {
   "property": "C59",
   "status": "proved",
   "theorems": [
    "C59_closest_guess_near",
    "C59_find_closest_point_on",
    "C59_closest_guess_spec",
    "C59_closest_exact_hit",
    "C59_closest_parameter_stationary",
    "C59_closest_on_line",
    "C59_closest_improves_guess_refuted",
    "C59_closest_problem"
   ],
   "note": "the seed claim needs sampled segments of length at least eps; the derivative claim is for parameters strictly inside a span; global minimality proved for straight segments, refuted in general; the first guess is within a bound proportional to the sample spacing of the global minimum (closest_guess_near)"
  },
  {
   "property": "C60",
   "status": "proved",
   "theorems": [
    "C60_surf_closest_no_worse",
    "C60_surf_newton_step",
    "C60_surf_closest_grid",
    "C60_surf_closest_answers",
    "C60_surf_closest_total",
    "C60_surf_closest_near",
    "C60_surf_closest_point_near",
    "C60_surf_closest_point_total"
   ],
   "note": "surf_closest_no_worse takes the vertices of the tessellation as an argument, surf_closest_grid/_answers/_total include the adaptive tessellation; open nets differ by ten epsilon; surf_closest_near bounds the distance to the global minimum by the grid spacing times the rates of the surface; the Newton step is identified strictly inside a cell of the knots"
  },
  {
   "property": "C61",
   "status": "proved",
   "theorems": [
    "C61_bfgs_cc_improves",
    "C61_bfgs_sc_improves",
    "C61_bfgs_secant",
    "C61_bfgs_symmetric",
    "C61_bfgs_posdef",
    "C61_direction_descends",
    "C61_bfgs_best",
    "C61_bfgs_run_terminates",
    "C61_bfgs_step_descends_refuted",
    "C61_cc_cost_spec",
    "C61_cc_gradient_spec",
    "C61_sc_cost_spec",
    "C61_sc_gradient_spec",
    "C61_bfgs_step"
   ],
   "note": "any dimension; gradients identified strictly inside spans; one step from a consistent state decreases the cost when it is bounded by a parabola along the step; descent of every step refuted when the budget ends"
  },
  {
   "property": "C62",
   "status": "proved",
   "theorems": [
    "C62_compound_hits",
    "C62_compound_hits_sound",
    "C62_compound_keeps_hits",
    "C62_compounds_hits_sound",
    "C62_open_compound_keeps_hits_refuted",
    "C62_compound_hits_distinct_refuted"
   ],
   "note": "for every scalar and every curve intersection function; two stronger claims refuted in floats"
  },
  {
   "property": "C63",
   "status": "proved",
   "theorems": [
    "C63_uniform_real",
    "C63_uniform_zero_panics"
   ],
   "note": "All sizes and degrees; n = 0 panics."
  },
  {
   "property": "C64",
   "status": "proved",
   "theorems": [
    "C64_curve_lipschitz",
    "C64_points_lipschitz",
    "C64_samples_dense",
    "C64_rational_lipschitz",
    "C64_rational_samples_dense",
    "C64_sample_regular_range_spec",
    "C64_sample_regular_range_with_parameter_spec",
    "C64_regular_first",
    "C64_regular_last",
    "C64_sample_once_refuted"
   ],
   "note": "Real arithmetic; the single-sample case is refuted with a float witness; the rate in the density statement is an upper bound from the control points, not the exact speed."
  },
  {
   "property": "C65",
   "status": "proved",
   "theorems": [
    "C65_is_closed_spec",
    "C65_compound_is_closed_spec"
   ],
   "note": "Real arithmetic with separated knots."
  },
  {
   "property": "C66",
   "status": "proved",
   "theorems": [
    "C66_try_clamp_extends",
    "C66_try_clamp_id",
    "C66_try_clamp_unclamped_refuted"
   ],
   "note": "Identity on clamped curves; with equal weights the points on the old domain are kept (try_clamp_extends); refutation for the whole curve of unclamped ones."
  },
  {
   "property": "C67",
   "status": "proved",
   "theorems": [
    "C67_compound_length_spec",
    "C67_compound_box",
    "C67_tessellate_compound_join"
   ],
   "note": "Length over any per-span measurement; box over the reals; tessellation for any scalar type."
  },
  {
   "property": "C68",
   "status": "proved",
   "theorems": [
    "C68_revolve_turns",
    "C68_revolve_rejects",
    "C68_revolve_nonunit_refuted"
   ],
   "note": "Real arithmetic with the standard library's sin/cos, epsilon <= 1/4. Columns are built separately and transposed at the end. Refuted: non-unit axes."
  },
  {
   "property": "C69",
   "status": "proved",
   "theorems": [
    "C69_sphere_spec"
   ],
   "note": "Real arithmetic, epsilon <= 1/4; r > epsilon. The given x direction must be perpendicular to the axis and non-zero."
  },
  {
   "property": "C70",
   "status": "proved",
   "theorems": [
    "C70_loft_sections",
    "C70_loft_ruled",
    "C70_loft_misses_section_refuted",
    "C70_loft_shared_corner_refuted",
    "C70_loft_fan_refuted",
    "C70_loft_succeeds"
   ],
   "note": "Real arithmetic; sections of one degree (degree elevation fails in general, see C25); columns with consecutive points whose normalised chord parameters are at least epsilon apart; the linear solver is an oracle that must be exact and, for success, solve every regular system (Gaussian elimination is shown to do both). Refuted: interior sections (real witness with exact solver), shared control points (float witnesses)."
  },
  {
   "property": "C71",
   "status": "proved",
   "theorems": [
    "C71_frames_spec",
    "C71_frame_places",
    "C71_placed_rigid",
    "C71_frames_empty_refuted",
    "C71_frames_cusp_refuted"
   ],
   "note": "Real arithmetic with the standard library's sin, cos and acos; 0 < epsilon < 1. Refuted: empty parameter list (any scalar type), vanishing tangent (float witness)."
  },
  {
   "property": "C72",
   "status": "proved",
   "theorems": [
    "C72_sweep_spec",
    "C72_sweep_succeeds"
   ],
   "note": "Real arithmetic; the linear solver is an oracle that must be exact and, for success, solve every regular system; consecutive placed control points must have normalised chord parameters at least epsilon apart. Interior sections are subject to the limits stated in C70."
  },
  {
   "property": "C73",
   "status": "proved",
   "theorems": [
    "C73_curve_contains_parity",
    "C73_compound_contains_parity",
    "C73_parity_unique",
    "C73_contains_outside",
    "C73_contains_open",
    "C73_crossings_sound",
    "C73_contains_open_compound_refuted",
    "C73_contains_merged_refuted"
   ],
   "note": "Real arithmetic, positive weights. General position is the predicate clear_of: the curve stays on one side of the point on every piece that meets the height of the ray, crossings are further apart than the minimum distance, the heights change at a bounded rate and the bisection has enough steps for it. The closest point query used for the boundary test is kept as it is modelled (Newton iteration, C46). Refuted: open compound curves, merged crossings (float witnesses)."
  },
  {
   "property": "C74",
   "status": "proved",
   "theorems": [
    "C74_region_tessellate_spec",
    "C74_region_tessellate_order"
   ],
   "note": "Real arithmetic. The constrained Delaunay triangulation (crate spade) is an oracle under the contract of TrimSpec.lawful: it keeps vertices and constraints, an accepted constraint is covered by constraint edges, no constraint runs through a face. That the faces cover the region is not part of the contract."
  },
  {
   "property": "C75",
   "status": "proved",
   "theorems": [
    "C75_uv_points_structure",
    "C75_trim_loops_total",
    "C75_trimmed_tessellate_spec",
    "C75_trim_seam_refuted",
    "C75_trim_normals_refuted"
   ],
   "note": "Real arithmetic; the triangulation is an oracle as in C74. The surface mesh that provides inner vertices is the adaptive one of C51. Boundary loops must close in the parameter plane or stay open in space for the first vertex to be kept (see the seam refutation)."
  },
  {
   "property": "C76",
   "status": "proved",
   "theorems": [
    "C76_flat_trim",
    "C76_map_closest_flat",
    "C76_projection_flat",
    "C76_projection_reaches",
    "C76_projection_short_refuted",
    "C76_nearest_hit_spec",
    "C76_no_trimming_curves",
    "C76_transform_boundary",
    "C76_invert_boundary",
    "C76_trimmed_invert_moves_refuted",
    "C76_map_uneven_refuted"
   ],
   "note": "Real arithmetic; the linear solver and the surface-curve intersections are oracles. Hypotheses: the closest point search finds a parameter pair whose surface point is the control point (for closest points), reported hits lie on surface and ray (for projection). Refuted: region fixed under inversion (real witness), uneven parametrisation (float witness), rays along directions of mixed sign reach the surface (real witness)."
  },
  {
   "property": "C77",
   "status": "proved",
   "theorems": [
    "C77_bezier_point_at",
    "C77_decompose_bernstein"
   ],
   "note": "Real arithmetic; spans at least epsilon wide. In the decomposition theorem the weight sum of the piece must not vanish at the parameter."
  },
  {
   "property": "C78",
   "status": "proved",
   "theorems": [
    "C78_returned_exists",
    "C78_derivatives_smooth",
    "C78_derivatives_continuous",
    "C78_corner_at_full_multiplicity"
   ],
   "note": "over the reals, positive weights, end spans at least epsilon wide; sharpness by a curve with a corner"
  },
  {
   "property": "C79",
   "status": "proved",
   "theorems": [
    "C79_tangent_at_start",
    "C79_tangent_at_end"
   ],
   "note": "over the reals, positive weights, end spans at least epsilon wide"
  },
  {
   "property": "C80",
   "status": "proved",
   "theorems": [
    "C80_surface_corners"
   ],
   "note": "over the reals, positive weights, end spans at least epsilon wide"
  },
  {
   "property": "C81",
   "status": "proved",
   "theorems": [
    "C81_find_span_rounded",
    "C81_basis_functions_rounded",
    "C81_point_at_rounded",
    "C81_box_rounded",
    "C81_surf_point_at_rounded",
    "C81_point_at_double",
    "C81_surf_point_at_double",
    "C81_nearest_rounding"
   ],
   "note": "unbounded exponent range: overflow and underflow are not covered; round-to-nearest with 53 (24) bits is shown to be an instance"
  },
  {
   "property": "C82",
   "status": "proved",
   "theorems": [
    "C82_length_transform",
    "C82_length_normalize",
    "C82_length_invert"
   ],
   "note": "real arithmetic; the quadrature rule is an oracle; normalisation needs knots still separated by epsilon after scaling"
  },
  {
   "property": "C83",
   "status": "proved",
   "theorems": [
    "C83_derivatives_transform",
    "C83_derivatives_normalize",
    "C83_derivatives_invert"
   ],
   "note": "real arithmetic; positive weights"
  },
  {
   "property": "C84",
   "status": "proved",
   "theorems": [
    "C84_variation_diminishing",
    "C84_monotone_control"
   ],
   "note": "real arithmetic; positive weights"
  },
  {
   "property": "C85",
   "status": "proved",
   "theorems": [
    "C85_constrained_answers",
    "C85_constrained_sides",
    "C85_constrained_complete",
    "C85_adaptive_max_side_refuted"
   ],
   "note": "real arithmetic; the sides of greatest u and v are refuted (adaptive_max_side_refuted)"
  },
  {
   "property": "C86",
   "status": "proved",
   "theorems": [
    "C86_adaptive_normals",
    "C86_adaptive_unit_normals",
    "C86_adaptive_true_normals",
    "C86_fix_normals_spec",
    "C86_repair_spec",
    "C86_adaptive_pole_refuted",
    "C86_adaptive_zero_normal_refuted",
    "C86_adaptive_constrained_normal_refuted",
    "C86_fix_normals_refuted"
   ],
   "note": "any scalar type for the structural claim, real arithmetic for unit normals; poles and constrained sides are refuted"
  },
  {
   "property": "C87",
   "status": "proved",
   "theorems": [
    "C87_control_points_unique",
    "C87_points_determine_curve",
    "C87_refine_in_steps",
    "C87_refine_any_order",
    "C87_add_knot_is_refine",
    "C87_add_knots_any_order",
    "C87_refine_invert",
    "C87_refine_transform",
    "C87_points_determine_curve_refuted",
    "C87_rational_points_refuted"
   ],
   "note": "real arithmetic; knots of multiplicity above degree + 1 and rational curves are refuted"
  },
  {
   "property": "C88",
   "status": "proved",
   "theorems": [
    "C88_surf_refine_flip",
    "C88_net_unique",
    "C88_points_determine_surface",
    "C88_surf_refine_any_order",
    "C88_surf_refine_commute",
    "C88_surf_refine_transform"
   ],
   "note": "real arithmetic; surfaces whose interior knots have multiplicity at most degree + 1"
  },
  {
   "property": "C89",
   "status": "proved",
   "theorems": [
    "C89_cut_order",
    "C89_surf_cut_order"
   ],
   "note": "real arithmetic; cuts at least eps away from the knots and from each other"
  },
  {
   "property": "C90",
   "status": "proved",
   "theorems": [
    "C90_refine_rounded",
    "C90_refine_point_rounded",
    "C90_split_point_rounded",
    "C90_refine_point_double",
    "C90_split_point_double"
   ],
   "note": "rounded arithmetic without overflow and underflow, comparisons exact; knots and new knots are machine numbers and at least eps/(1-u) apart or equal"
  },
  {
   "property": "C91",
   "status": "proved",
   "theorems": [
    "C91_compound_new_cycle",
    "C91_compound_new_shuffled",
    "C91_cycle_reverse"
   ],
   "note": "real arithmetic; joints coincide exactly and are at least 1e-4 apart from each other"
  },
  {
   "property": "C92",
   "status": "proved",
   "theorems": [
    "C92_trim_inside_fine",
    "C92_trim_outside_fine",
    "C92_clip_boundary",
    "C92_clip_boundary_sets",
    "C92_trim_arc_inside",
    "C92_trim_arc_outside",
    "C92_clip_boundary_any",
    "C92_clip_boundary_any_sets",
    "C92_boolean_trace",
    "C92_boolean_methods",
    "C92_boolean_cover",
    "C92_boolean_start"
   ],
   "note": "real arithmetic; crossings exact, at least 1e-4 apart, their parameters at least epsilon from knots and from each other (for compound curves: strictly inside a span, span domains in ascending order, span starts 1e-4 apart); crossings toggle containment (transversal), stated as a hypothesis relating parameters to the two regions; intersection finder is an oracle"
  },
  {
   "property": "C93",
   "status": "proved",
   "theorems": [
    "C93_adaptive_divides",
    "C93_adaptive_default"
   ],
   "note": "for every scalar type; normals as stored in the nodes (C86 relates them to the surface)"
  },
  {
   "property": "C94",
   "status": "proved",
   "theorems": [
    "C94_closest_degree_zero_refuted",
    "C94_polyline_coincident_refuted",
    "C94_polyline_coincident_point_refuted",
    "C94_normalize_empty_domain_refuted",
    "C94_degree_zero_closest_refuted",
    "C94_interpolate_coincident_refuted",
    "C94_polyline_never_errs",
    "C94_normalize_never_errs",
    "C94_closest_panics_iff",
    "C94_polyline_valid_iff"
   ],
   "note": "the natural claim is refuted (general refutation for degree zero over every scalar type, five double precision witnesses); what is accepted is characterised for polylines, knot normalisation and, on open curves, the closest point search; other functions are covered by their own claims"
  },
  {
   "property": "C95",
   "status": "proved",
   "theorems": [
    "C95_regular_polyline_near",
    "C95_mesh_near",
    "C95_regular_mesh_near",
    "C95_adaptive_mesh_near"
   ],
   "note": "real arithmetic; distances per coordinate; the rate is any bound on the scaled control point differences of rational_rate and surf_rate; adaptive meshes without boundary constraints ; directions of degree one need distinct interior knots (simple1)"
  },
  {
   "property": "C96",
   "status": "proved",
   "theorems": [
    "C96_boolean_swap",
    "C96_boolean_swap_mixed",
    "C96_boolean_swap_disjoint"
   ],
   "note": "real arithmetic and the conditions of C92 for boundaries that cross (crossing_case); equality as sets of boundary points; intersection finder and containment test are oracles; curve with curve and compound with compound: the finder must report the same crossings both ways round"
  },
  {
   "property": "C97",
   "status": "proved",
   "theorems": [
    "C97_solver_swap",
    "C97_refine_swap",
    "C97_bfgs_refine_swap",
    "C97_intersections_symmetric_refuted"
   ],
   "note": "real arithmetic for the two positive statements, from the candidate pairs on (that both orders visit the same candidate pairs is a hypothesis: the traversal draws random numbers); runs that end with an answer; unconditional symmetry refuted in binary64"
  },
  {
   "property": "C98",
   "status": "proved",
   "theorems": [
    "C98_cast_round_trip",
    "C98_cast_curve_ok",
    "C98_cast_surf_ok",
    "C98_cast_box_contains",
    "C98_span_kept",
    "C98_cast_near",
    "C98_cast_surf_near",
    "C98_cast_mesh_near",
    "C98_cast_clamped",
    "C98_cast_ends_near",
    "C98_cast_collapse_refuted"
   ],
   "note": "conversions without overflow and underflow; the distance bound assumes that the knots are representable in the target type"
  }
 ]
}