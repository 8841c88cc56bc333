{
 "claims": [
  {
   "property": "C01",
   "status": "proved",
   "theorems": [
    "C01_box_iterator_enumerates_once"
   ],
   "note": ""
  },
  {
   "property": "C02",
   "status": "proved",
   "theorems": [
    "C02_box_iterator_lexicographic"
   ],
   "note": ""
  },
  {
   "property": "C03",
   "status": "partial",
   "theorems": [
    "C03_inverted_box_refuted",
    "C03_empty_box_element_refuted",
    "C03_empty_box_count_partial"
   ],
   "note": "The stated property is false for the code: witnesses for inverted and empty boxes. The count of an empty box is right."
  },
  {
   "property": "C04",
   "status": "proved",
   "theorems": [
    "C04_side_iterator_enumerates_once"
   ],
   "note": ""
  },
  {
   "property": "C05",
   "status": "proved",
   "theorems": [
    "C05_square_solve",
    "C05_dgels_exists",
    "C05_solve_history_independent",
    "C05_reachable_shape"
   ],
   "note": "Exact arithmetic and a dgels meeting its documentation (one exists for all sizes); history independence for any arithmetic and any dgels."
  },
  {
   "property": "C06",
   "status": "partial",
   "theorems": [
    "C06_underdetermined_refuted",
    "C06_overdetermined_refuted",
    "C06_overdetermined_partial"
   ],
   "note": "False for the code: every system with fewer equations than unknowns is rejected and the array returned is the right-hand side; for more equations than unknowns a witness gets a wrong least squares solution with code 0. C06_overdetermined_partial says what is returned instead, for every such matrix of full rank."
  },
  {
   "property": "C07",
   "status": "proved",
   "theorems": [
    "C07_setGrid_defined",
    "C07_weights_partition_of_unity",
    "C07_weights_ieee"
   ],
   "note": "Exact real arithmetic; and rounded IEEE arithmetic with explicit error bounds."
  },
  {
   "property": "C08",
   "status": "proved",
   "theorems": [
    "C08_interp_exact",
    "C08_nodes_ieee",
    "C08_affine_ieee",
    "C08_multilinear_ieee"
   ],
   "note": "Exact real arithmetic; in rounded IEEE arithmetic node values are exact and affine and general fields right up to an explicit error, every dimension."
  },
  {
   "property": "C09",
   "status": "proved",
   "theorems": [
    "C09_indices_stay_in_grid",
    "C09_indices_ieee"
   ],
   "note": "Exact real arithmetic, any linear solver; rounded IEEE arithmetic for any solver whose steps are finite (the example C09_ieee_nan_undefined shows that this is needed)."
  },
  {
   "property": "C10",
   "status": "proved",
   "theorems": [
    "C10_search_terminates",
    "C10_search_delivers",
    "C10_search_ieee"
   ],
   "note": "First theorem for any arithmetic; delivery of a code in exact arithmetic and, for finite solver steps, in IEEE arithmetic."
  },
  {
   "property": "C11",
   "status": "proved",
   "theorems": [
    "C11_converged_below_tolerance",
    "C11_error_is_distance"
   ],
   "note": "First theorem for any arithmetic; the distance formula in exact arithmetic."
  },
  {
   "property": "C12",
   "status": "proved",
   "theorems": [
    "C12_history_independent"
   ],
   "note": "Any arithmetic."
  },
  {
   "property": "C13",
   "status": "proved",
   "theorems": [
    "C13_affine_one_step",
    "C13_ieee"
   ],
   "note": "Exact arithmetic, any dgels meeting its documentation; IEEE double arithmetic in two dimensions for any solver with a stated forward error, which Cramer's rule in doubles is shown to meet (L_CramerF.v)."
  },
  {
   "property": "C14",
   "status": "partial",
   "theorems": [
    "C14_stale_box_refuted",
    "C14_stale_period_refuted",
    "C14_regrid_partial"
   ],
   "note": "False for the code. Holds when the old box lies inside the new one and no axis stops being periodic."
  },
  {
   "property": "C15",
   "status": "proved",
   "theorems": [
    "C15_outside_box_rejected",
    "C15_rejection_unchanged",
    "C15_nan_rejected"
   ],
   "note": ""
  },
  {
   "property": "C16",
   "status": "partial",
   "theorems": [
    "C16_wrap_refuted",
    "C16_closed_axis_refuted",
    "C16_wrap_partial"
   ],
   "note": "False for the code for both conventions of periodic axes; equivalence modulo the number of nodes holds for indices equivalent to a position of the grid."
  },
  {
   "property": "C17",
   "status": "proved",
   "theorems": [
    "C17_weights_locate_target",
    "C17_destination_stored",
    "C17_apply_writes_weighted_sums",
    "C17_distance",
    "C17_distance_ieee"
   ],
   "note": "Any arithmetic and any linear solver; the Euclidean reading in exact arithmetic, and in IEEE arithmetic as the real distance of the exact weighted point with an explicit rounding term (coordinates up to 2^400, solver returning doubles)."
  },
  {
   "property": "C18",
   "status": "proved",
   "theorems": [
    "C18_weights_convex",
    "C18_no_new_extrema",
    "C18_apply_linear",
    "C18_weights_ieee",
    "C18_no_new_extrema_ieee",
    "C18_defined_ieee"
   ],
   "note": "Exact arithmetic, any linear solver, any history of calls; in IEEE arithmetic weights in [0,1] with sum within 2^-51 of one and values within 2^-48 of the range of the data (C18_constant_rounded_case: a rounding term is needed). computeWeights is defined for every solver that gives back finite doubles, whatever the coordinates."
  },
  {
   "property": "C19",
   "status": "proved",
   "theorems": [
    "C19_recompute_same",
    "C19_history_independent"
   ],
   "note": "Any arithmetic; histories that set the source grid once (see C14 for why)."
  },
  {
   "property": "C20",
   "status": "partial",
   "theorems": [
    "C20_retry_result_dropped_refuted",
    "C20_weights_exactly_partial",
    "C20_first_search_partial"
   ],
   "note": "False for the code: witness in IEEE double arithmetic. C20_weights_exactly_partial says for every node, any arithmetic and solver, where its search starts and that it gets weights exactly when that first search succeeds."
  },
  {
   "property": "C21",
   "status": "proved",
   "theorems": [
    "C21_hull_area",
    "C21_hull_area_ieee",
    "C21_hull_area_ieee_strict",
    "C21_hull_area_ieee_any"
   ],
   "note": "Exact arithmetic, any coordinates; IEEE arithmetic for doubles with whole values up to 2^25, where the result has no rounding error (the doubled area up to 2^53, which follows when no three vertices are on a line); and IEEE arithmetic for any finite doubles up to M when no three vertices are on a line and the separation exceeds the tolerance by 100 u M^2: n points give an error of at most n/2 times 100 u M^2 (u = 2^-53). The points are those of a weakly convex polygon, in any order, with exact repetitions; different points and non-flat triangles exceed the code's tolerance 1e-12. std::sort is any function that permutes. The old values left behind in the vector's memory block are part of the model."
  },
  {
   "property": "C22",
   "status": "partial",
   "theorems": [
    "C22_arbitrary_points_refuted",
    "C22_five_points_refuted",
    "C22_lower_bound_partial",
    "C22_four_points_partial",
    "C22_four_points_ieee_partial",
    "C21_hull_area",
    "C21_hull_area_ieee"
   ],
   "note": "False as stated: IEEE runs give 221 for six points with a hull of area 126.5, and 55 for five points with a hull of area 45. For different points no three of which are on a line, any sort, exact arithmetic: the result is never less than the area of the hull, and is that area for up to four points; for up to four points also in IEEE arithmetic with whole coordinates up to 2^25. Points in convex position, any number: C21."
  },
  {
   "property": "C23",
   "status": "partial",
   "theorems": [
    "C23_reads_own_points_refuted",
    "C23_reads_own_points_partial",
    "C23_reads_own_points_ieee_partial",
    "C23_general_position_partial",
    "C23_general_position_ieee_partial",
    "C23_general_position_ieee_any_partial"
   ],
   "note": "False as stated (repeated points, points on a line). Proved for different points in convex position, and for different points no three of which are on a line; in exact arithmetic, in IEEE arithmetic for whole coordinates up to 2^25, and in IEEE arithmetic for any finite doubles with no three points near one line."
  },
  {
   "property": "C24",
   "status": "partial",
   "theorems": [
    "C24_area_nonnegative_refuted",
    "C24_ieee_refuted",
    "C24_area_nonnegative_partial",
    "C24_area_nonnegative_ieee_partial"
   ],
   "note": "False for a first triangle whose doubled area is exactly minus the tolerance; everything else is proved for any points, sort and memory, in exact arithmetic. In IEEE arithmetic false also for whole points when one is about 10^16 away (rounding); proved for whole coordinates up to 2^25 when the run reads its own points only."
  },
  {
   "property": "C25",
   "status": "proved",
   "theorems": [
    "C25_box_rejection",
    "C25_box_rejection_ieee"
   ],
   "note": "Exact arithmetic and IEEE doubles with finite coordinates."
  },
  {
   "property": "C26",
   "status": "partial",
   "theorems": [
    "C26_points_in_both",
    "C26_points_in_both_ieee",
    "C26_points_in_both_refuted"
   ],
   "note": "Proved, in exact arithmetic for any dgels meeting its documentation and in IEEE double arithmetic for any solver with small residuals (no condition on the conditioning), for all quads whose nodes 0, 1, 3 and nodes 1, 2, 3 do not coincide; false without that condition (a zero matrix counts as solved)."
  },
  {
   "property": "C27",
   "status": "proved",
   "theorems": [
    "C27_points_span_overlap"
   ],
   "note": "Exact arithmetic, any dgels meeting its documentation."
  },
  {
   "property": "C28",
   "status": "partial",
   "theorems": [
    "C28_reuse_refuted",
    "C28_reuse_partial"
   ],
   "note": "False for the code; what is returned is the old points followed by those of the new pair."
  },
  {
   "property": "C29",
   "status": "proved",
   "theorems": [
    "C29_sorted_on_line",
    "C29_sorted_exact",
    "C29_sorted_ieee"
   ],
   "note": "First theorem for any arithmetic, solver and sort; order in exact arithmetic and in IEEE doubles (NaN included)."
  },
  {
   "property": "C30",
   "status": "proved",
   "theorems": [
    "C30_brackets",
    "C30_points_in_quad_ieee"
   ],
   "note": "Exact arithmetic, any dgels meeting its documentation; where the returned points are also in IEEE double arithmetic for any solver with small residuals."
  },
  {
   "property": "C31",
   "status": "proved",
   "theorems": [
    "C31_projections_exact",
    "C31_trapezoid_found",
    "C31_parallelogram",
    "C31_projections_ieee"
   ],
   "note": "Exact arithmetic; the first theorem for any linear solver, the other two for any dgels meeting its documentation. The last in IEEE double arithmetic with a bound on the rounding, for solvers that give back finite doubles."
  },
  {
   "property": "C32",
   "status": "proved",
   "theorems": [
    "C32_reversed",
    "C32_bounded",
    "C32_additive",
    "C32_reversed_ieee",
    "C32_bounded_ieee"
   ],
   "note": "The first three in exact arithmetic, reversal and bounds for any segment and any solver, additivity for parallelograms. Reversal and bounds also in IEEE double arithmetic for solvers that give back finite doubles."
  },
  {
   "property": "C33",
   "status": "proved",
   "theorems": [
    "C33_flux_parallelograms",
    "C33_total",
    "C33_flux_trapezoids",
    "C33_flux_convex",
    "C33_rectilinear"
   ],
   "note": "Exact arithmetic, any dgels meeting its documentation, any std::sort, any displacement factors."
  },
  {
   "property": "C34",
   "status": "proved",
   "theorems": [
    "C34_edges",
    "C34_defined",
    "C34_defined_ieee"
   ],
   "note": "First theorem for any arithmetic, solver and sort; that computeWeights returns in exact arithmetic for any solver, and in IEEE double arithmetic for solvers that give back finite doubles."
  },
  {
   "property": "C35",
   "status": "partial",
   "theorems": [
    "C35_recompute_refuted",
    "C33_flux_parallelograms"
   ],
   "note": "False for the code: m calls give m times the flux. One call is right (C33)."
  },
  {
   "property": "C36",
   "status": "partial",
   "theorems": [
    "C36_shared_edge_refuted",
    "C33_flux_parallelograms"
   ],
   "note": "False for the code: IEEE run with coordinates near 1024. Lines not along an edge: C33."
  },
  {
   "property": "C37",
   "status": "proved",
   "theorems": [
    "C37_valid_rows"
   ],
   "note": "Any arithmetic, solver, sort and old contents of the point vectors; grids with at most 2^31-1 nodes."
  },
  {
   "property": "C38",
   "status": "partial",
   "theorems": [
    "C38_area_fractions_partial",
    "C38_rectilinear",
    "C38_rectilinear_ieee",
    "C38_touching_refuted"
   ],
   "note": "IEEE doubles: rectilinear grids without common lines, any solver that is accurate on axis-aligned systems (axis2), weights within a stated error (C38_rectilinear_ieee). Exact arithmetic, any dgels meeting its documentation. Proved for grids of convex quads whose crossings and triangles stay clear of the code's tolerances, with the class of rectilinear grids worked out in full (C38_rectilinear). False when the cells of the two grids share a side in the way of the witness: IEEE run."
  },
  {
   "property": "C39",
   "status": "partial",
   "theorems": [
    "C39_conservation_partial",
    "C39_rectilinear",
    "C39_rectilinear_ieee",
    "C39_touching_refuted"
   ],
   "note": "IEEE doubles: rectilinear grids as in C38, integral conserved up to a stated error (C39_rectilinear_ieee). Exact arithmetic, same classes of grids as C38. False when cells share part of a side in the way of the witness: IEEE run."
  },
  {
   "property": "C40",
   "status": "partial",
   "theorems": [
    "C40_transparent_partial",
    "C40_exact_partial",
    "C40_some_direction_partial",
    "C40_refuted"
   ],
   "note": "Any arithmetic, solver and grids: the weights are those of pairwise tests with each crossing computed along some direction of its two edges (C40_some_direction_partial). Equality with the direction of the pair itself holds when the crossing of two edges does not depend on the direction in which they are followed (always in exact arithmetic unless a crossing lies exactly at the tolerance). False in IEEE arithmetic: the last bits differ."
  },
  {
   "property": "C41",
   "status": "partial",
   "theorems": [
    "C41_visits_partial",
    "C41_end_refuted",
    "C41_new_refuted"
   ],
   "note": "Every stored entry is visited once in order; the end is never reported: the last next, and reset or construction without weights, read past the end of a map."
  },
  {
   "property": "C42",
   "status": "partial",
   "theorems": [
    "C42_same_grids_partial",
    "C42_other_grids_partial",
    "C42_stale_refuted"
   ],
   "note": "False for the code: rows present are kept. What is computed instead is proved."
  },
  {
   "property": "C43",
   "status": "proved",
   "theorems": [
    "C43_apply",
    "C43_linear"
   ],
   "note": "First theorem for any arithmetic."
  },
  {
   "property": "C44",
   "status": "partial",
   "theorems": [
    "C44_cells",
    "C44_cells_ieee",
    "C44_own_cells_ieee",
    "C44_defined_ieee",
    "C44_no_points_refuted",
    "C44_high_side_refuted"
   ],
   "note": "At least one point: proved in full in exact arithmetic for any solver, and in IEEE double arithmetic for any solver that gives back doubles, whenever the search is defined, which it is when the solver gives back finite doubles. Refuted for polygons without points (numbers that are not cells) and for reading the result when no cell was found."
  },
  {
   "property": "C45",
   "status": "partial",
   "theorems": [
    "C45_numbering_refuted",
    "C45_numbering_partial"
   ],
   "note": "False in the code: strides are node counts. Proved: the number of cell (a,b) is a*d1+b, which agrees with row-major over cells only for a = 0, and still identifies the cell."
  },
  {
   "property": "C46",
   "status": "proved",
   "theorems": [
    "C46_octree_keys"
   ],
   "note": "Any arithmetic. C80 adds that in IEEE arithmetic building never fails."
  },
  {
   "property": "C47",
   "status": "proved",
   "theorems": [
    "C47_octree_point_in_box",
    "C47_octree_stored_keys"
   ],
   "note": "Exact real arithmetic; C81 is the IEEE version."
  },
  {
   "property": "C48",
   "status": "proved",
   "theorems": [
    "C48_octree_children_tile"
   ],
   "note": "Exact real arithmetic; C81 is the IEEE version."
  },
  {
   "property": "C49",
   "status": "proved",
   "theorems": [
    "C49_parse_rejects_unknown"
   ],
   "note": ""
  },
  {
   "property": "C50",
   "status": "proved",
   "theorems": [
    "C50_last_occurrence_wins"
   ],
   "note": "atof and atoi are parameters."
  },
  {
   "property": "C51",
   "status": "proved",
   "theorems": [
    "C51_bool_flips"
   ],
   "note": ""
  },
  {
   "property": "C52",
   "status": "partial",
   "theorems": [
    "C52_negative_fraction_refuted",
    "C52_numeric_values_partial"
   ],
   "note": "False as stated: -.5 is taken for an option. Holds for literals whose dash is followed by a digit."
  },
  {
   "property": "C53",
   "status": "partial",
   "theorems": [
    "C53_double_vector_fields",
    "C53_int_vector_refuted",
    "C53_int_vector_partial"
   ],
   "note": "Proved for vectors of doubles. False for vectors of integers, whose last field goes through atof; holds when both conversions of the last field agree."
  },
  {
   "property": "C54",
   "status": "proved",
   "theorems": [
    "C54_rectangular",
    "C54_points_found",
    "C54_last_node_refuted"
   ],
   "note": "Exact arithmetic; the second theorem for any dgels meeting its documentation. C54_last_node_refuted: in IEEE arithmetic the last node of a 50 x 2 grid on the unit square is below 1."
  },
  {
   "property": "C55",
   "status": "proved",
   "theorems": [
    "C55_rotated",
    "C55_distances",
    "C55_no_displacement",
    "C55_pole"
   ],
   "note": "Exact arithmetic, with the sin, cos, asin, atan2 of the reals."
  },
  {
   "property": "C56",
   "status": "proved",
   "theorems": [
    "C56_all_written"
   ],
   "note": "Any arithmetic and any mathematical functions. Examples C56_cap_too_large and C56_cap_negative show the out of bounds accesses outside the range."
  },
  {
   "property": "C57",
   "status": "partial",
   "theorems": [
    "C57_triangle",
    "C57_line",
    "C57_tetrahedron_refuted",
    "C57_face_sides_refuted",
    "C57_tetrahedron_partial"
   ],
   "note": "False for tetrahedra: face 2 is oriented the other way; everything else is proved."
  },
  {
   "property": "C58",
   "status": "partial",
   "theorems": [
    "C58_line_reuse_refuted",
    "C58_line_reuse_partial"
   ],
   "note": "False for the code; true after reset, which only C++ callers can use."
  },
  {
   "property": "C59",
   "status": "partial",
   "theorems": [
    "C59_near_edge_refuted",
    "C33_flux_parallelograms"
   ],
   "note": "False for the code: IEEE run. Lines missing no cell by less than the tolerance: C33."
  },
  {
   "property": "C60",
   "status": "partial",
   "theorems": [
    "C60_outside_refuted",
    "C60_curved_refuted",
    "C60_affine_partial"
   ],
   "note": "False for the code: polygons with points outside the grid (C60_outside_refuted), and a grid with a bend, where a side of a triangle found inside the grid runs through a cell that is not returned (C60_curved_refuted, IEEE run). Proved for affine grids, points in the grid, at least 3 nodes on the second axis, exact arithmetic."
  },
  {
   "property": "C61",
   "status": "partial",
   "theorems": [
    "C61_centre_refuted",
    "C61_polar_partial"
   ],
   "note": "False for the code unless the centre is the origin; proved for the origin."
  },
  {
   "property": "C62",
   "status": "proved",
   "theorems": [
    "C62_cap"
   ],
   "note": "Exact arithmetic. The longitudes of the first row of the cap are not claimed at its ends and its middle, where the code evaluates the tangent at a right angle."
  },
  {
   "property": "C63",
   "status": "partial",
   "theorems": [
    "C63_finite_refuted",
    "C56_all_written"
   ],
   "note": "False for the code: cap index = latitudes - 1, every size, any mathematical functions that keep NaN."
  },
  {
   "property": "C64",
   "status": "partial",
   "theorems": [
    "C64_order_refuted",
    "C64_order_partial"
   ],
   "note": "False for the code; the order the code uses is proved."
  },
  {
   "property": "C65",
   "status": "proved",
   "theorems": [
    "C65_fold"
   ],
   "note": "Exact arithmetic. Longitudes are not claimed at the end of the row, where the code evaluates the tangent at a right angle."
  },
  {
   "property": "C66",
   "status": "proved",
   "theorems": [
    "C66_no_bad_free",
    "C66_no_dangling"
   ],
   "note": "For all programs over all classes. Blocks of std containers are not modelled."
  },
  {
   "property": "C67",
   "status": "partial",
   "theorems": [
    "C67_blocks",
    "C67_no_leak_partial",
    "C67_leak_refuted"
   ],
   "note": "The claim is false for the code: C67_leak_refuted shows that the conservative interpolation loses a block in every computation of weights, the flow interpolation one per computation and crossed cell plus one iterator, and a cell finder one for every grid after the first. C67_blocks gives the exact number of blocks left for every program; C67_no_leak_partial the programs for which the claim holds."
  },
  {
   "property": "C68",
   "status": "partial",
   "theorems": [
    "C68_order",
    "C68_safe_partial",
    "C68_smaller_grid_refuted"
   ],
   "note": "The order of calls is proved. Safety is proved when the grids keep their sizes and false otherwise: a smaller destination grid after computeWeights makes apply write past the end of the new array."
  },
  {
   "property": "C69",
   "status": "partial",
   "theorems": [
    "C69_value",
    "C69_kept_partial",
    "C69_alias_refuted"
   ],
   "note": "The value is proved (exact arithmetic). That arrays stay as they are is false: two calls of apply return the same array, so the second overwrites the first result. Proved: nothing but apply changes an array, and only the array of the present destination grid."
  },
  {
   "property": "C70",
   "status": "partial",
   "theorems": [
    "C70_carries_partial",
    "C70_uniform_partial",
    "C70_grids_partial",
    "C70_skewed_refuted"
   ],
   "note": "Exactly the cells whose midlines are perpendicular have the property; cells of the rectilinear and polar grids of the scripts do. False for all other parallelograms (C70_skewed_refuted)."
  },
  {
   "property": "C71",
   "status": "partial",
   "theorems": [
    "C71_uniform_partial",
    "C71_rectilinear_partial",
    "C71_skewed_refuted"
   ],
   "note": "Exactly the cells whose opposite edges have slopes that cancel have the property (cells where the code divides by zero are excluded); rectilinear grids do. False for parallelograms not along the axes."
  },
  {
   "property": "C72",
   "status": "partial",
   "theorems": [
    "C72_opposite_refuted"
   ],
   "note": "False for the code: on every rectilinear grid, for every stream function, the two velocities are opposite."
  },
  {
   "property": "C73",
   "status": "partial",
   "theorems": [
    "C73_flow_partial",
    "C73_stream_partial",
    "C73_line_partial",
    "C73_bases_refuted"
   ],
   "note": "Proved for the three files of sgutils.py. False for the file of cellFaceBasis.py, which has no ends of lines between vectors: too few words for every grid."
  },
  {
   "property": "C74",
   "status": "partial",
   "theorems": [
    "C74_derivs_partial",
    "C74_dydeta_refuted"
   ],
   "note": "Three derivatives are exact; the derivative of y in the second coordinate is exact only when y has no mixed term."
  },
  {
   "property": "C75",
   "status": "partial",
   "theorems": [
    "C75_flux_partial",
    "C75_sign_refuted"
   ],
   "note": "Proved up to the sign, which differs between the sides along the first and along the second coordinate."
  },
  {
   "property": "C76",
   "status": "proved",
   "theorems": [
    "C76_circulation"
   ],
   "note": "Exact arithmetic, any dgels meeting its documentation, any std::sort. The case beside the theorem is a line round the hole of a ring of four cells."
  },
  {
   "property": "C77",
   "status": "partial",
   "theorems": [
    "C77_error_partial",
    "C77_bilinear_partial",
    "C77_default_line_refuted"
   ],
   "note": "Proved for lines inside the grid (line_inside). False for lines that leave it: the default line of the program does, and the two numbers are then far apart (C77_default_line_refuted, IEEE arithmetic)."
  },
  {
   "property": "C78",
   "status": "partial",
   "theorems": [
    "C78_segment_partial",
    "C78_defined_partial",
    "C78_boundary_refuted",
    "C78_hole_refuted"
   ],
   "note": "Proved for mid points that are found, not in the last row or column of nodes; the program raises an exception exactly for indices there. False on the outer boundary and in the hole (IEEE runs)."
  },
  {
   "property": "C79",
   "status": "proved",
   "theorems": [
    "C79_turns",
    "C79_winding"
   ],
   "note": "Exact arithmetic, any dgels meeting its documentation, any std::sort. The case beside the theorems is a square round the centre of a grid of four triangles."
  },
  {
   "property": "C80",
   "status": "proved",
   "theorems": [
    "C80_octree_defined",
    "C80_no_dimension_refuted"
   ],
   "note": "IEEE arithmetic, all doubles."
  },
  {
   "property": "C81",
   "status": "proved",
   "theorems": [
    "C81_point_in_box_ieee",
    "C81_stored_keys_ieee",
    "C81_point_in_box_exact_ieee",
    "C81_exact_containment_refuted",
    "C81_children_tile_ieee"
   ],
   "note": "IEEE arithmetic. The statement names the tolerance; C81_exact_containment_refuted shows why one is needed: the points -1 and 2^-60."
  },
  {
   "property": "C82",
   "status": "proved",
   "theorems": [
    "C82_rectangular_ieee",
    "C82_exact_ieee"
   ],
   "note": "IEEE arithmetic. That the last node can miss its bound is C54_last_node_refuted."
  },
  {
   "property": "C83",
   "status": "partial",
   "theorems": [
    "C83_twice_refuted",
    "C83_later_nodes_partial",
    "C83_alone_partial"
   ],
   "note": "False for the code: the same node listed twice gets weights only the second time (IEEE double arithmetic). The nodes after a node never matter; the nodes before it do not matter while none of them needs a retry."
  },
  {
   "property": "C84",
   "status": "proved",
   "theorems": [
    "C84_integral",
    "C84_integral_ieee"
   ],
   "note": "C84_integral: exact arithmetic, parallelograms. C84_integral_ieee: IEEE doubles on rectilinear grids of moderate size, up to a stated error, any solver meeting flow2. The integral is Coquelicot's is_RInt; the value is determined by the specification (cell_flux_unique)."
  },
  {
   "property": "C85",
   "status": "proved",
   "theorems": [
    "C85_reversed",
    "C85_split",
    "C85_reversed_ieee",
    "C85_split_ieee"
   ],
   "note": "Exact arithmetic: reversal for convex cells, cutting for parallelograms. The last two: IEEE doubles on rectilinear grids of moderate size, up to a stated error, any solver meeting flow2."
  },
  {
   "property": "C86",
   "status": "partial",
   "theorems": [
    "C86_alone_refuted",
    "C86_box_partial",
    "C86_convex_partial"
   ],
   "note": "False for the code: a segment that ends 2^-44 beyond an edge has flux -1/8 alone and 3/8 as the second segment of a line (IEEE double arithmetic). True in exact arithmetic when the points reported for the segment are in the boxes of the cells, in particular for convex cells none of which is missed by less than the tolerance."
  },
  {
   "property": "C87",
   "status": "proved",
   "theorems": [
    "C87_flow_ieee",
    "C87_conserve_ieee"
   ],
   "note": "IEEE double arithmetic, round to nearest. For conservative weights finiteness is a hypothesis (a cell of area zero gives infinite weights)."
  },
  {
   "property": "C88",
   "status": "partial",
   "theorems": [
    "C88_extrema_partial",
    "C88_rectilinear",
    "C88_rectilinear_ieee",
    "C88_extrema_refuted"
   ],
   "note": "IEEE doubles on rectilinear grids without common lines: C88_rectilinear_ieee, up to a stated error, any solver accurate on axis-aligned systems. False for the code: a destination cell covered by six source cells, one of which touches its side, gets 4/3 from a field that is 1 (IEEE double arithmetic). True in exact arithmetic for the grids of C38, in particular for rectilinear grids."
  },
  {
   "property": "C89",
   "status": "proved",
   "theorems": [
    "C89_affine",
    "C89_ieee"
   ],
   "note": "Exact arithmetic with any dgels meeting its documentation; IEEE double arithmetic for non-periodic grids and any solver with a stated forward error."
  },
  {
   "property": "C90",
   "status": "partial",
   "theorems": [
    "C90_no_gain_partial",
    "C90_rectilinear",
    "C90_rectilinear_ieee",
    "C90_no_gain_refuted"
   ],
   "note": "IEEE doubles on rectilinear grids without common lines: C90_rectilinear_ieee. Grids of the class of C38 (every pair of cells regular), no covering assumed; for rectilinear grids only conditions on the lines. Missing: cells that touch along part of a side, where it is false (C90_no_gain_refuted: the integral doubles)."
  },
  {
   "property": "C91",
   "status": "partial",
   "theorems": [
    "C91_crossing_refuted",
    "C91_moderate_partial",
    "C91_total_partial",
    "C91_path_partial"
   ],
   "note": "False for the code in IEEE doubles: a line from (-89.3, 3) to (177.8, 2) over two cells has flux 1.42 instead of 1.92, with Cramer's rule and with correctly rounded solutions. In exact arithmetic the property is C33. In doubles the flux is within about 1e-7 of the size of the edge values, per cell, of the increment of the stream function on rectilinear grids with coordinates up to 4 and cells of at least 1/8 by 1/8, for segments whose ends and crossings are 1/1024 from the grid lines and nodes (C91_moderate_partial); whole lines, closed lines and two lines between the same ends add up with the errors of their segments (C91_total_partial, C91_path_partial); not shown: larger grids (false there), distorted cells, segments parallel to a grid line, and a bound of a few units in the last place."
  }
 ]
}