# Formal model of sigrid in Rocq: design

Source: `/repo` (pletzer/sigrid, C++ headers in `cpp/`, helpers in `utils/`).
The code is read as text only; nothing is built or run.

## 1. Approach

The model is a set of total, computable Gallina functions, one per C++ function,
each carrying a comment with the file and lines it follows.

**Numbers.** `double` arithmetic is abstracted by the record `Num T` (file
`Num.v`): `+ - * / neg fabs sqrt floor fmod < <= == (int)`, literals. Model
functions are written once over any `Num T`. Three kinds of theorem follow.

* T1 *any arithmetic*: no hypothesis about the `Num` operations. Such a theorem
  holds in particular for IEEE doubles with NaN and infinities.
* T2 *exact real arithmetic*: `T = R`. Semantic statements (areas, partitions of
  unity, exactness) live here. Rounding is out of scope of T2.
* T3 *IEEE binary64*: `T = spec_float` with the standard library's `SpecFloat`
  operations (precision 53, emax 1024, round to nearest even). Computable by
  `vm_compute`; used for concrete counterexamples and examples, and with Flocq for
  a few rounding bounds.

**Undefined behaviour** is a distinct outcome: model functions return
`exec A := Ret a | Undef reason`. Out-of-bounds vector access, integer division by
zero, signed overflow (where lengths of loops depend on it), dereferencing an end
iterator and converting NaN or out-of-range doubles to `int` give `Undef`.
Exception: `SgTriangulate`, where the code reads past the end of a vector in
ordinary runs. There the memory is modelled as libstdc++ keeps it (stale data
below the capacity, an arbitrary `junk` oracle beyond it), and a flag records the
out-of-bounds read.

**External code** is a parameter (oracle) with a written specification:
LAPACK `dgels`, `std::sort` (only: the result is a permutation; sorted when the
order matters), `cos`, `sin`, `atof`/`atoi` (`strtod`). T1 theorems hold for every
oracle. T2 theorems name the specification they assume, and an instance is shown
to meet it so that the hypothesis is not empty.

**Containers.** `std::map`/`std::set` are key-sorted association lists; only
insert-if-absent, lookup and in-order iteration are used by the code.

**Refuted claims.** Where the code violates the natural claim, the property
stays in `properties.jsonl` as stated, the theorem named `*_refuted` proves that
a concrete input violates it, and the strongest positive statement found is
proved beside it.

## 2. Layout of `rocq/theories`

* `Base.v`, `Num.v`, `NumR.v`, `NumF.v`: monad, number record, instances.
* `M_*.v`: models, one per C++ class.
* `S_*.v`: specifications written without model helpers.
* `L_*.v`: proofs.
* `P_*.v`: property theorems with `Print Assumptions` and non-vacuity examples.
* `TrigR.v`: the trigonometric functions of the reals as an instance of `Trig`.

## 3. Properties and theorems

The statement of each property is in `properties.jsonl`, remarks on partial results are in the notes of
`MANIFEST.json`. The last column gives the file and, for each theorem, the set of axioms (section 4).

| Id | Title | Status | Theorems |
|----|-------|--------|----------|
| C01 | Box iterator enumerates the box exactly once | proved | `P_Iterators`: `C01_box_iterator_enumerates_once` (A0) |
| C02 | Box iterator order is lexicographic (last index fastest) | proved | `P_Iterators`: `C02_box_iterator_lexicographic` (A0) |
| C03 | Box iterator is defined on degenerate boxes | partial | `P_Iterators`: `C03_inverted_box_refuted` (A0), `C03_empty_box_element_refuted` (A0), `C03_empty_box_count_partial` (A0) |
| C04 | Side iterator visits each of the 3^n sides once | proved | `P_Iterators`: `C04_side_iterator_enumerates_once` (A0) |
| C05 | Square linear solve honours its arguments | proved | `P_LinearSolve`: `C05_square_solve` (A3), `C05_dgels_exists` (A1), `C05_solve_history_independent` (A0), `C05_reachable_shape` (A0) |
| C06 | Rectangular linear solve gives the least squares or minimum norm solution | partial | `P_LinearSolve`: `C06_underdetermined_refuted` (A2), `C06_overdetermined_refuted` (A2), `C06_overdetermined_partial` (A2) |
| C07 | Interpolation weights are a partition of unity | proved | `P_FindPoint`, `P_FindPointF`: `C07_setGrid_defined` (A0), `C07_weights_partition_of_unity` (A2), `C07_weights_ieee` (A3) |
| C08 | Interpolation is exact at nodes and reproduces affine fields | proved | `P_FindPoint`, `P_FindPointF`, `P_NodeInterpF`: `C08_interp_exact` (A2), `C08_nodes_ieee` (A3), `C08_affine_ieee` (A3), `C08_multilinear_ieee` (A3) |
| C09 | Index position never leaves the grid | proved | `P_FindPoint`, `P_FindPointF`: `C09_indices_stay_in_grid` (A2), `C09_indices_ieee` (A3) |
| C10 | Point search always terminates within the iteration budget | proved | `P_FindPoint`, `P_FindPointF`: `C10_search_terminates` (A0), `C10_search_delivers` (A2), `C10_search_ieee` (A3) |
| C11 | A converged search is within tolerance | proved | `P_FindPoint`: `C11_converged_below_tolerance` (A0), `C11_error_is_distance` (A2) |
| C12 | Point searches are independent of history | proved | `P_FindPoint`: `C12_history_independent` (A0) |
| C13 | Point search on an affine grid converges in one step | proved | `P_AffineF`, `P_FindPoint`: `C13_affine_one_step` (A3), `C13_ieee` (A3) |
| C14 | Re-setting the grid forgets the previous grid | partial | `P_FindPoint`: `C14_stale_box_refuted` (A2), `C14_stale_period_refuted` (A0), `C14_regrid_partial` (A2) |
| C15 | Points outside the grid's bounding box are rejected without side effects | proved | `P_FindPoint`: `C15_outside_box_rejected` (A2), `C15_rejection_unchanged` (A0), `C15_nan_rejected` (A0) |
| C16 | Periodic wrap preserves position | partial | `P_FindPoint`: `C16_wrap_refuted` (A2), `C16_closed_axis_refuted` (A2), `C16_wrap_partial` (A2) |
| C17 | Node interpolation weights locate the target node | proved | `P_NodeInterp`, `P_NodeInterpF`: `C17_weights_locate_target` (A0), `C17_destination_stored` (A0), `C17_apply_writes_weighted_sums` (A0), `C17_distance` (A2), `C17_distance_ieee` (A3) |
| C18 | Node interpolation is linear, preserves constants and creates no new extrema | proved | `P_Defined`, `P_NodeInterp`, `P_NodeInterpF`: `C18_weights_convex` (A2), `C18_no_new_extrema` (A2), `C18_apply_linear` (A2), `C18_weights_ieee` (A3), `C18_no_new_extrema_ieee` (A3), `C18_defined_ieee` (A3) |
| C19 | Recomputing node weights is idempotent | proved | `P_NodeInterp`: `C19_recompute_same` (A0), `C19_history_independent` (A0) |
| C20 | A node found by the retry strategy gets weights | partial | `P_NodeExact`, `P_NodeInterp`: `C20_retry_result_dropped_refuted` (A0), `C20_weights_exactly_partial` (A0), `C20_first_search_partial` (A0) |
| C21 | Convex hull area of points in convex position | proved | `P_TriNear`, `P_Triangulate`: `C21_hull_area` (A2), `C21_hull_area_ieee` (A3), `C21_hull_area_ieee_strict` (A3), `C21_hull_area_ieee_any` (A3) |
| C22 | Convex hull area for arbitrary points | partial | `P_Triangulate`: `C22_arbitrary_points_refuted` (A1), `C22_five_points_refuted` (A1), `C22_lower_bound_partial` (A2), `C22_four_points_partial` (A2), `C22_four_points_ieee_partial` (A3), `C21_hull_area` (A2), `C21_hull_area_ieee` (A3) |
| C23 | Triangulation reads only its own points | partial | `P_TriNear`, `P_Triangulate`: `C23_reads_own_points_refuted` (A0), `C23_reads_own_points_partial` (A2), `C23_reads_own_points_ieee_partial` (A3), `C23_general_position_partial` (A2), `C23_general_position_ieee_partial` (A3), `C23_general_position_ieee_any_partial` (A3) |
| C24 | Hull area is never negative and all triangles are counter-clockwise | partial | `P_Triangulate`: `C24_area_nonnegative_refuted` (A0), `C24_ieee_refuted` (A0), `C24_area_nonnegative_partial` (A2), `C24_area_nonnegative_ieee_partial` (A3) |
| C25 | Bounding box rejection never loses an overlap | proved | `P_QuadIntersect`: `C25_box_rejection` (A2), `C25_box_rejection_ieee` (A3) |
| C26 | Every reported intersection point is in both quads | partial | `P_QuadF`, `P_QuadIntersect`: `C26_points_in_both` (A3), `C26_points_in_both_ieee` (A3), `C26_points_in_both_refuted` (A3) |
| C27 | Intersection points span the whole overlap | proved | `P_QuadIntersect`: `C27_points_span_overlap` (A3) |
| C28 | An intersection object can be used for a second pair of quads | partial | `P_QuadIntersect`: `C28_reuse_refuted` (A0), `C28_reuse_partial` (A0) |
| C29 | Quad-line parameters are sorted and points lie on the line | proved | `P_QuadLine`: `C29_sorted_on_line` (A0), `C29_sorted_exact` (A2), `C29_sorted_ieee` (A0) |
| C30 | Quad-line intersection brackets the part of the line inside the quad | proved | `P_QuadF`, `P_QuadLine`: `C30_brackets` (A3), `C30_points_in_quad_ieee` (A3) |
| C31 | Edge projections integrate stream functions exactly | proved | `P_FlowF`, `P_QuadLineFlows`: `C31_projections_exact` (A2), `C31_trapezoid_found` (A3), `C31_parallelogram` (A3), `C31_projections_ieee` (A3) |
| C32 | Projections are antisymmetric, additive and bounded | proved | `P_FlowF`, `P_QuadLineFlows`: `C32_reversed` (A2), `C32_bounded` (A2), `C32_additive` (A3), `C32_reversed_ieee` (A3), `C32_bounded_ieee` (A3) |
| C33 | Flux of a stream function through a polyline is the end point difference | proved | `P_Flow`, `P_FlowLines`: `C33_flux_parallelograms` (A3), `C33_total` (A3), `C33_flux_trapezoids` (A3), `C33_flux_convex` (A3), `C33_rectilinear` (A3) |
| C34 | Flow interpolation reads the right edge values and only valid ones | proved | `P_Flow`, `P_FlowF`: `C34_edges` (A0), `C34_defined` (A2), `C34_defined_ieee` (A3) |
| C35 | Recomputing flow weights is idempotent | partial | `P_Flow`: `C35_recompute_refuted` (A3), `C33_flux_parallelograms` (A3) |
| C36 | Flow through a line lying on a shared cell edge is counted once | partial | `P_Flow`: `C36_shared_edge_refuted` (A0), `C33_flux_parallelograms` (A3) |
| C37 | Conservative weights refer to valid cells, once each | proved | `P_Conserve`: `C37_valid_rows` (A0) |
| C38 | Conservative weights are area fractions that sum to one | partial | `P_Conserve`, `P_RectF`: `C38_area_fractions_partial` (A3), `C38_rectilinear` (A3), `C38_rectilinear_ieee` (A3), `C38_touching_refuted` (A0) |
| C39 | Global conservation | partial | `P_Conserve`, `P_RectF`: `C39_conservation_partial` (A3), `C39_rectilinear` (A3), `C39_rectilinear_ieee` (A3), `C39_touching_refuted` (A0) |
| C40 | Intersection caches are transparent | partial | `P_Conserve`, `P_ConserveRel`: `C40_transparent_partial` (A0), `C40_exact_partial` (A3), `C40_some_direction_partial` (A0), `C40_refuted` (A0) |
| C41 | Iterating over the weights visits each weight once, then stops | partial | `P_Conserve`: `C41_visits_partial` (A0), `C41_end_refuted` (A0), `C41_new_refuted` (A0) |
| C42 | Recomputing conservative weights after changing a grid uses the new grid | partial | `P_Conserve`: `C42_same_grids_partial` (A0), `C42_other_grids_partial` (A0), `C42_stale_refuted` (A0) |
| C43 | Conservative apply is linear and touches only rows with weights | proved | `P_Conserve`: `C43_apply` (A0), `C43_linear` (A2) |
| C44 | Overlap search returns valid, distinct cells covering the polygon's index box | partial | `P_Defined`, `P_FindOverlap`, `P_FindOverlapF`: `C44_cells` (A2), `C44_cells_ieee` (A3), `C44_own_cells_ieee` (A3), `C44_defined_ieee` (A3), `C44_no_points_refuted` (A0), `C44_high_side_refuted` (A0) |
| C45 | Overlap cell numbers use the same numbering as the conservative interpolation | partial | `P_FindOverlap`: `C45_numbering_refuted` (A0), `C45_numbering_partial` (A2) |
| C46 | Octree holds exactly the keys of every level | proved | `P_Octree`: `C46_octree_keys` (A0) |
| C47 | A point lies in the box of its key at every level | proved | `P_Octree`: `C47_octree_point_in_box` (A2), `C47_octree_stored_keys` (A2) |
| C48 | Octree children tile their parent | proved | `P_Octree`: `C48_octree_children_tile` (A2) |
| C49 | Parser rejects exactly unknown options and then changes nothing | proved | `P_CmdLine`: `C49_parse_rejects_unknown` (A0) |
| C50 | Last occurrence of an option wins | proved | `P_CmdLine`: `C50_last_occurrence_wins` (A0) |
| C51 | Boolean options | proved | `P_CmdLine`: `C51_bool_flips` (A0) |
| C52 | Negative numbers can be passed as option values | partial | `P_CmdLine`: `C52_negative_fraction_refuted` (A0), `C52_numeric_values_partial` (A0) |
| C53 | Vector options return every comma separated element | partial | `P_CmdLine`: `C53_double_vector_fields` (A0), `C53_int_vector_refuted` (A0), `C53_int_vector_partial` (A0) |
| C54 | Rectangular test grids have the requested corners and uniform spacing | proved | `P_Grids`: `C54_rectangular` (A2), `C54_points_found` (A3), `C54_last_node_refuted` (A0) |
| C55 | Rotated pole grids are ordinary grids turned rigidly | proved | `P_RotatedPole`: `C55_rotated` (A3), `C55_distances` (A3), `C55_no_displacement` (A3), `C55_pole` (A3) |
| C56 | Tripolar grid construction writes every node, in bounds | proved | `P_Tripolar`: `C56_all_written` (A0) |
| C57 | Simplex faces and edges are consistently oriented | partial | `P_Simplex`: `C57_triangle` (A0), `C57_line` (A0), `C57_tetrahedron_refuted` (A0), `C57_face_sides_refuted` (A1), `C57_tetrahedron_partial` (A0) |
| C58 | A quad-line intersection object can be used for a second segment | partial | `P_QuadLine`: `C58_line_reuse_refuted` (A0), `C58_line_reuse_partial` (A0) |
| C59 | The flux through a line does not jump at cell edges | partial | `P_Flow`: `C59_near_edge_refuted` (A0), `C33_flux_parallelograms` (A3) |
| C60 | Overlap search returns every source cell that meets the polygon | partial | `P_FindOverlap`: `C60_outside_refuted` (A0), `C60_curved_refuted` (A1), `C60_affine_partial` (A3) |
| C61 | Polar grids are centred at the requested centre | partial | `P_Grids`: `C61_centre_refuted` (A3), `C61_polar_partial` (A3) |
| C62 | The cap of a tripolar grid joins the ordinary rows | proved | `P_Tripolar`: `C62_cap` (A3) |
| C63 | Tripolar grids have finite coordinates | partial | `P_Tripolar`: `C63_finite_refuted` (A0), `C56_all_written` (A0) |
| C64 | Tripolar grids follow the index convention of the other classes | partial | `P_Tripolar`: `C64_order_refuted` (A3), `C64_order_partial` (A3) |
| C65 | The last row of a tripolar grid is folded | proved | `P_Tripolar`: `C65_fold` (A3) |
| C66 | No block is freed twice | proved | `P_Heap`: `C66_no_bad_free` (A0), `C66_no_dangling` (A0) |
| C67 | Deleting the objects gives back all memory | partial | `P_Heap`: `C67_blocks` (A0), `C67_no_leak_partial` (A0), `C67_leak_refuted` (A0) |
| C68 | The Python interpolator refuses calls in the wrong order, and calls in the right order are safe | partial | `P_PyConserve`: `C68_order` (A0), `C68_safe_partial` (A0), `C68_smaller_grid_refuted` (A0) |
| C69 | apply of the Python interpolator returns the interpolated field, and the array returned stays as it is | partial | `P_PyConserve`: `C69_value` (A2), `C69_kept_partial` (A0), `C69_alias_refuted` (A0) |
| C70 | The velocity in the flow file carries the given fluxes | partial | `P_PyUtils`: `C70_carries_partial` (A2), `C70_uniform_partial` (A2), `C70_grids_partial` (A3), `C70_skewed_refuted` (A2) |
| C71 | The velocity in the streamline file is that of the stream function | partial | `P_PyUtils`: `C71_uniform_partial` (A2), `C71_rectilinear_partial` (A2), `C71_skewed_refuted` (A2) |
| C72 | The flow file and the streamline file show the same velocity | partial | `P_PyUtils`: `C72_opposite_refuted` (A2) |
| C73 | The files of the scripts contain the numbers announced in them | partial | `P_PyFiles`: `C73_flow_partial` (A0), `C73_stream_partial` (A0), `C73_line_partial` (A0), `C73_bases_refuted` (A0) |
| C74 | The derivatives of the face basis script are exact for bilinear maps | partial | `P_PyUtils`: `C74_derivs_partial` (A2), `C74_dydeta_refuted` (A2) |
| C75 | The basis functions of the face basis script have flux across their side only | partial | `P_PyUtils`: `C75_flux_partial` (A2), `C75_sign_refuted` (A2) |
| C76 | Flow round a hole: the total flux of a closed line is the circulation | proved | `P_FlowLines`: `C76_circulation` (A3) |
| C77 | The program streamFlow prints the flux of the stream function | partial | `P_Examples`: `C77_error_partial` (A3), `C77_bilinear_partial` (A3), `C77_default_line_refuted` (A0) |
| C78 | The program polarFlowApprox interpolates the flow at the mid points | partial | `P_Polar`: `C78_segment_partial` (A3), `C78_defined_partial` (A3), `C78_boundary_refuted` (A0), `C78_hole_refuted` (A0) |
| C79 | The program polarFlow prints the winding number | proved | `P_PolarFlow`: `C79_turns` (A3), `C79_winding` (A3) |
| C80 | Octree is defined for all doubles | proved | `P_OctreeF`: `C80_octree_defined` (A3), `C80_no_dimension_refuted` (A0) |
| C81 | Octree boxes in double arithmetic | proved | `P_OctreeF`: `C81_point_in_box_ieee` (A3), `C81_stored_keys_ieee` (A3), `C81_point_in_box_exact_ieee` (A3), `C81_exact_containment_refuted` (A1), `C81_children_tile_ieee` (A3) |
| C82 | Rectangular test grids in double arithmetic | proved | `P_GridsF`: `C82_rectangular_ieee` (A3), `C82_exact_ieee` (A3) |
| C83 | The weights of a destination node do not depend on the other destination nodes | partial | `P_NodeExact`: `C83_twice_refuted` (A0), `C83_later_nodes_partial` (A0), `C83_alone_partial` (A0) |
| C84 | The flux of arbitrary edge values is the line integral of the field interpolated from the edges | proved | `P_FlowIntegralF`, `P_FlowLocal`: `C84_integral` (A3), `C84_integral_ieee` (A3) |
| C85 | The flux changes sign when a segment is reversed and adds up when it is cut | proved | `P_FlowIntegralF`, `P_FlowLocal`: `C85_reversed` (A3), `C85_split` (A3), `C85_reversed_ieee` (A3), `C85_split_ieee` (A3) |
| C86 | The flux through a segment does not depend on the other segments of the line | partial | `P_FlowLocal`: `C86_alone_refuted` (A0), `C86_box_partial` (A2), `C86_convex_partial` (A3) |
| C87 | Applying weights in double arithmetic loses only rounding | proved | `P_ApplyF`: `C87_flow_ieee` (A3), `C87_conserve_ieee` (A3) |
| C88 | Conservative interpolation creates no new extrema | partial | `P_ConserveMax`, `P_ExtremaF`: `C88_extrema_partial` (A3), `C88_rectilinear` (A3), `C88_rectilinear_ieee` (A3), `C88_extrema_refuted` (A0) |
| C89 | Node interpolation on affine grids covers every node inside and reproduces linear fields | proved | `P_NodeAffine`: `C89_affine` (A3), `C89_ieee` (A3) |
| C90 | Partly covered cells and no creation of mass | partial | `P_ExtremaF`, `P_Packing`: `C90_no_gain_partial` (A3), `C90_rectilinear` (A3), `C90_rectilinear_ieee` (A3), `C90_no_gain_refuted` (A0) |
| C91 | Flux through a line that crosses cells at an angle, in doubles | partial | `P_FlowCross`, `P_FlowRectF`, `P_FlowTotalF`: `C91_crossing_refuted` (A1), `C91_moderate_partial` (A3), `C91_total_partial` (A3), `C91_path_partial` (A3) |

Theorems whose name ends in `_refuted` prove that the code violates the claim; those ending in `_partial` prove
the part of it that holds or could be proved. The methods, by component:

* iterators (C01-C04): mixed radix and base 3 digits, induction on the dimensions and on the calls;
* solver (C05, C06): an oracle for `dgels` with a specification for square systems;
* point search (C07-C16), node interpolation (C17-C20): induction on the number of dimensions, invariants over
  call sequences; algebra over the reals; witnesses computed in binary64;
* triangulation, quad intersections, projections (C21-C32, C58, C60): convex hull invariant, order reasoning, linear
  algebra over the reals, witnesses in binary64;
* flow and conservative interpolation (C33-C43, C59): loop invariants, telescoping sums, additivity of areas;
* overlap search (C44, C45), octree (C46-C48), parser (C49-C53), grids (C54-C56, C61-C65), simplices (C57):
  induction on the loops, dyadic intervals, trigonometry, finite tables;
* heap (C66, C67): a simulation between the heap and a ledger of the calls.

## 4. Trusted base

1. The kernel of Coq 8.16.1, including `vm_compute` (used for the witnesses in binary64).
2. The axioms listed by `Print Assumptions`. All are axioms of the standard library. No axiom is added by this
   development. The sets that occur:

   * A0: none, "Closed under the global context" (92 theorems)
   * A1: `ClassicalDedekindReals.sig_forall_dec`, `FunctionalExtensionality.functional_extensionality_dep` (7 theorems)
   * A2: `ClassicalDedekindReals.sig_forall_dec`, `ClassicalDedekindReals.sig_not_dec`, `FunctionalExtensionality.functional_extensionality_dep` (50 theorems)
   * A3: `ClassicalDedekindReals.sig_forall_dec`, `ClassicalDedekindReals.sig_not_dec`, `Classical_Prop.classic`, `FunctionalExtensionality.functional_extensionality_dep` (98 theorems)
3. The faithfulness of the models to the C++ code. It rests on reading: the code is not compiled and no
   tool derives the models from it. Every definition in an `M_*.v` file cites the lines it follows. As a check,
   `T_RepoTests.v` runs the inputs of the repository's tests on the models in binary64 (with Cramer's rule for `dgels`)
   and finds the results that the tests ask of the code; these are tests, not proofs.
4. The specifications of external code that are hypotheses of theorems or arguments of models: LAPACK `dgels`
   (`gels_spec` in `S_LinAlg.v`: argument checks, the solution of least norm for matrices of full rank, the
   reply for other matrices; `gels2` is an instance that meets it for sizes up to 2), and for the theorems in
   double arithmetic a stated error of the solver: `accurate2` (forward error, `L_AffineF.v`; met by Cramer's rule in doubles) or
   `residual2` (residual, `L_ResidualF.v`; met by `exact2`) or `axis2` (`L_RectF.v`: forward error on systems with one unknown in each
   equation, and a positive return code for a matrix with a zero row, which is a zero column for `dgels`; met by `exact2`) or
   all of these with finite results and success on well-conditioned systems (`flow2`, `L_FlowRectF.v`; met by `clip2`);
   that a given LAPACK build meets them is not proved,
   `std::sort` (a permutation, sorted where needed), `sin`, `cos`, `atan2` and others (`Class Trig`, with the functions of
   the real numbers as the instance for the theorems), `atof` and `atoi` (functions given to the parser), the memory
   beyond the end of the vectors in `SgTriangulate` (an arbitrary oracle).

### Modelled

| Code | Model |
|------|-------|
| `cpp/SgBoxIterator.h` | `M_BoxIterator.v` |
| `cpp/SgSideIterator.h` | `M_SideIterator.v` |
| `cpp/SgLinearSolve.h` | `M_LinearSolve.v` |
| `cpp/SgFindPointInCell.h` | `M_FindPoint.v` |
| `cpp/SgNodeInterp2D.h` | `M_NodeInterp.v` |
| `cpp/SgTriangulate.h` | `M_Triangulate.v` |
| `cpp/SgQuadIntersect.h`, `cpp/SgQuadLineIntersect.h`, `cpp/SgQuadLineFlows.h` | `M_Quad.v`, `M_QuadIntersect.v`, `M_QuadLine.v` |
| `cpp/SgFlowInterp2D.h` | `M_FlowInterp.v` |
| `cpp/SgConserveInterp2D.h` | `M_ConserveInterp.v` |
| `cpp/SgFindOverlappingCells2D.h` | `M_FindOverlap.v` |
| `cpp/SgOctreePoints.h` | `M_Octree.v` |
| `cpp/SgTetrahedron.h`, `cpp/SgTriangle.h`, `cpp/SgLine.h` | `M_Simplex.v` |
| `cpp/SgTripolarGrid.h`, `utils/createGrids2D.cpp` | `M_Grids.v` |
| `utils/CmdLineArgParser.cpp` | `M_CmdLine.v` |
| `py/conserveInterp2D.py` | `M_PyConserve.v` |
| `examples/sgutils.py`, `scripts/cellFaceBasis.py` | `M_PyUtils.v` |
| `examples/streamFlow.py.in`, `examples/polarFlow.py.in`, `examples/polarFlowApprox.py.in` | `M_Examples.v` |
| `new` and `delete` in all classes, the `_new` and `_del` functions of the C interface | `M_Heap.v` |

The other functions of the C interface (`cpp/*.cpp`) pass their arguments on to the classes and are identified with the
methods they call.

### Not modelled

* `py/__init__.py`, `profiling/`, `tests/` (but see `T_RepoTests.v`), the build system, `cpp/SgConserveInterp2D.h_bk`.
* Output: everything printed to `std::cout` and `std::cerr`.
* Running out of memory, exceptions of the standard library, threads, the cost of the computations.
* The memory of the containers of the standard library; their values are modelled as lists and association
  lists.
* Rounding errors in the theorems over the reals. Theorems about any arithmetic (`Num T` without hypotheses) and those
  about `spec_float` hold for binary64 with round to nearest even. Extended precision, contraction to fused
  multiply-add and other rounding modes are not covered by the latter.
* Overflow of `int` where a comment beside the definition says so; it is modelled where lengths and indices are
  computed (`chk`, `wrap64`, `to_int32`).
* Aliasing: the arrays given by the caller (coordinates, data) are taken at the time of the call, or kept
  as values where the code keeps the pointer; a caller that changes or frees them later is not modelled.
