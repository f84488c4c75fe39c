{
 "claims": [
  {
   "property": "C01",
   "status": "partial",
   "theorems": [
    "C01_no_query_lost_or_repeated",
    "C01_exact_iff",
    "C01_exact_when",
    "C01_crash_iff",
    "C01_exactness_refuted"
   ],
   "note": "Full statement is false of the code: index overrun when rounded-up chunks do not fit (5 queries, 4 threads) and division by zero for 0 queries. Proved: no query lost or repeated for all inputs, exact iff-condition for no overrun, exact crash condition."
  },
  {
   "property": "C02",
   "status": "partial",
   "theorems": [
    "C02_strided_exact",
    "C02_nonpositive_diverges"
   ],
   "note": "Proved for every item count and every nthreads >= 1; for nthreads <= 0 the loop is proved not to terminate, so the full statement fails there."
  },
  {
   "property": "C03",
   "status": "proved",
   "theorems": [
    "C03_schedule_independent_chunks",
    "C03_schedule_independent_strided",
    "C03_race_free"
   ],
   "note": "All interleavings of individual cell writes; the evaluator is an oracle that writes only inside its block and does not read the result buffer."
  },
  {
   "property": "C04",
   "status": "partial",
   "theorems": [
    "C04_extract_first_patches",
    "C04_complete_refuted",
    "C04_out_of_range_refuted"
   ],
   "note": "Full statement refuted: only the first n_threads patches are processed. Proved exactly which faces are returned for every table and n_threads."
  },
  {
   "property": "C05",
   "status": "proved",
   "theorems": [
    "C05_sample_order",
    "C05_fill_agrees",
    "C05_size",
    "C05_rejects_iff",
    "C05_cartesian_product_order"
   ],
   "note": "All dimensions and resolutions; doubles as rationals."
  },
  {
   "property": "C06",
   "status": "proved",
   "theorems": [
    "C06_inside_bounds",
    "C06_hits_both_ends",
    "C06_monotone"
   ],
   "note": "Exact arithmetic (rationals); floating point rounding of the last entry not modelled."
  },
  {
   "property": "C07",
   "status": "proved",
   "theorems": [
    "C07_hyper_plane_ids"
   ],
   "note": "All dimensions, axes, planes."
  },
  {
   "property": "C08",
   "status": "proved",
   "theorems": [
    "C08_boundary_traces",
    "C08_all_boundaries",
    "C08_requested_boundaries",
    "C08_invalid_request",
    "C08_curve_boundary_empty"
   ],
   "note": "All dimensions, all four spline families, every boundary id, para_dim >= 2 (for curves the code returns an empty spline with a warning, proved). Evaluation kernel represented by its mathematical definition."
  },
  {
   "property": "C09",
   "status": "proved",
   "theorems": [
    "C09_multi_index_value",
    "C09_multi_index_out_of_range",
    "C09_numbering_is_bijective",
    "C09_multi_index_slices"
   ],
   "note": "numpy reshape/getitem/ravel modelled in M_Numpy.v; ellipsis, newaxis, boolean and integer-array subscripts not covered."
  },
  {
   "property": "C10",
   "status": "proved",
   "theorems": [
    "C10_permutation_relabels",
    "C10_inverse_restores",
    "C10_invalid_raises"
   ],
   "note": "All dimensions and all four spline families. In-place and copying variants hand the same data to the constructor and are not distinguished."
  },
  {
   "property": "C11",
   "status": "partial",
   "theorems": [
    "C11_flip_partial",
    "C11_out_of_range_raises",
    "C11_discontinuity_refuted",
    "C11_repeated_axis_refuted"
   ],
   "note": "Full statement refuted at interior knots whose multiplicity exceeds the degree (the other one-sided limit is taken) and for axes listed twice. Proved for distinct axes (python indices) at every parameter where the flipped axes are continuous: mirrored values, and flipping twice restores the record for all knot vectors."
  },
  {
   "property": "C12",
   "status": "partial",
   "theorems": [
    "C12_geometry_preserved_partial",
    "C12_unclamped_refuted",
    "C12_degenerate_end_refuted",
    "C12_tolerance_refuted",
    "C12_degree_zero_refuted"
   ],
   "note": "Full statement (every non-decreasing knot vector) is refuted: unclamped lower end, p+2 equal knots at the upper end, or a new knot within tolerance of the bound make the code index outside its row. Proved for clamped, separated input: success, equal values at every parameter, convex rows."
  },
  {
   "property": "C13",
   "status": "partial",
   "theorems": [
    "C13_caller_array_refuted",
    "C13_read_past_end_refuted",
    "C13_argument_partial"
   ],
   "note": "Refuted: a contiguous float64 array is sorted in place, and one element past its end is read in every successful call. Proved: values are kept up to order, unchanged for other argument kinds or sorted arrays."
  },
  {
   "property": "C14",
   "status": "partial",
   "theorems": [
    "C14_axis_refinement_partial",
    "C14_axis_list_partial",
    "C14_narrow_span_refuted"
   ],
   "note": "Proved for every span at least as wide as the two comparison tolerances allow and distinct axes; refuted for narrower spans (new knots closer than machine epsilon are merged into one multiple knot). BSplineLib insertion is an oracle with the contract inserts_new."
  },
  {
   "property": "C15",
   "status": "proved",
   "theorems": [
    "C15_normalized_knots",
    "C15_geometry"
   ],
   "note": "KnotVector::Scale is in BSplineLib, modelled as the affine map onto [0,1]."
  },
  {
   "property": "C16",
   "status": "partial",
   "theorems": [
    "C16_unique_knots",
    "C16_unique_knots_exact_partial",
    "C16_decomposition_partial",
    "C16_upper_bound_refuted",
    "C16_unclamped_refuted"
   ],
   "note": "Spacing and coverage for every knot vector; exact set and decomposition when different knots are at least eps apart (decomposition: clamped). Refuted otherwise: the upper bound can be missing for every tolerance, and for unclamped knot vectors the lists have different lengths."
  },
  {
   "property": "C17",
   "status": "proved",
   "theorems": [
    "C17_values",
    "C17_ordered_inside",
    "C17_bezier",
    "C17_unclamped_outside"
   ],
   "note": "Degree >= 1 as in the statement; the bounds need clamped knot vectors (counterexample given)."
  },
  {
   "property": "C18",
   "status": "partial",
   "theorems": [
    "C18_grouping_partial",
    "C18_order_independent_partial",
    "C18_flags_partial",
    "C18_near_requests_refuted"
   ],
   "note": "For requests whose different values are at least eps apart; refuted for closer requests. RemoveKnots is in C90."
  },
  {
   "property": "C19",
   "status": "proved",
   "theorems": [
    "C19_split_pieces",
    "C19_casteljau",
    "C19_split_closed",
    "C19_split_raises",
    "C19_end_twice_refuted"
   ],
   "note": "Single split of bezman is a parameter with a contract; de Casteljau is proved to satisfy it. Outside the stated domain: a repeated location 1 passes the range check and divides by zero (C19_end_twice_refuted)."
  },
  {
   "property": "C20",
   "status": "proved",
   "theorems": [
    "C20_knots",
    "C20_basis",
    "C20_bspline_value",
    "C20_nurbs_value",
    "C20_unit_weights"
   ],
   "note": "All degrees and parameters."
  },
  {
   "property": "C21",
   "status": "proved",
   "theorems": [
    "C21_sum",
    "C21_positive_weights",
    "C21_scaling",
    "C21_value",
    "C21_value_polynomial"
   ],
   "note": "BSplineLib's span search and basis values are given mathematically; the loop with weights and the support numbering are modelled."
  },
  {
   "property": "C22",
   "status": "proved",
   "theorems": [
    "C22_quotient_rule"
   ],
   "note": "Derivatives of the polynomial functions are arbitrary inputs; exact rationals; no overflow of the int binomial product."
  },
  {
   "property": "C23",
   "status": "proved",
   "theorems": [
    "C23_solve",
    "C23_regular"
   ],
   "note": "All matrix sizes, all right-hand sides, any row order left in the object; division by zero is characterised exactly (iff the matrix is singular). Exact arithmetic; the residual test of debug builds is not modelled."
  },
  {
   "property": "C24",
   "status": "partial",
   "theorems": [
    "C24_clip",
    "C24_update",
    "C24_nan_refuted",
    "C24_non_zeros_refuted"
   ],
   "note": "Proved for all numbers and infinities with ordered bounds. The full statement is refuted for NaN coordinates, which pass unflagged. NonZeros, used to look at the flags, always answers 0."
  },
  {
   "property": "C25",
   "status": "partial",
   "theorems": [
    "C25_inside",
    "C25_outputs_partial",
    "C25_consistent_partial",
    "C25_consistent_refuted",
    "C25_never_worse_refuted"
   ],
   "note": "Bounds hold for every history. Self-consistency and 'never worse than the initial guess' are refuted by concrete curves; consistency is proved for the Newton and SLSQP exits."
  },
  {
   "property": "C26",
   "status": "partial",
   "theorems": [
    "C26_core",
    "C26_knots_partial",
    "C26_degrees_size_partial",
    "C26_cps_size_partial",
    "C26_ws_size_partial",
    "C26_degrees_refuted",
    "C26_control_points_refuted"
   ],
   "note": "Refuted as stated: rejected degrees and control points stay readable in the cached properties, and a rejected control point assignment drops the array the BSpline core works on. Proved: the core never changes; rejected knot vectors and wrong sizes change nothing that can be read."
  },
  {
   "property": "C27",
   "status": "partial",
   "theorems": [
    "C27_reads",
    "C27_knots_partial",
    "C27_index_partial",
    "C27_knots_refuted",
    "C27_index_refuted"
   ],
   "note": "Refuted as stated for knot vectors edited in place after another assignment (stale parameter space) and for multi_index after assigning degrees. Proved for all histories for degrees, control points and weights; for knot vectors and multi_index for all histories without these two patterns."
  },
  {
   "property": "C28",
   "status": "partial",
   "theorems": [
    "C28_edit_partial",
    "C28_invalid",
    "C28_inplace",
    "C28_reversed_refuted",
    "C28_past_end_refuted",
    "C28_early_start_refuted",
    "C28_empty_list_refuted"
   ],
   "note": "The full statement is refuted: a[::-1]=v is not mirrored to the core, a[0:m] with m past the end writes outside the core's arrays, a[-m::2] with m past the start misses rows, a[[]]=v raises. Proved for every other index (ints, negative ints, integer arrays, non-empty lists, masks, Ellipsis, and slices whose bounds lie in the ranges of good_slice): the array is edited as numpy does, the core holds exactly that array with unchanged weights and evaluates like the spline to which that array was assigned; invalid indices change nothing; in-place operators mirror the whole array."
  },
  {
   "property": "C29",
   "status": "proved",
   "theorems": [
    "C29_weights",
    "C29_set_row",
    "C29_history"
   ],
   "note": "For rational splines with non-zero weights (a zero weight makes the unweighted control point undefined): every numpy index on weights changes these weights only and the reported control points stay; every history of weight and control point edits acts like numpy on two independent arrays. Control point edits in a history use the indices for which C28 holds."
  },
  {
   "property": "C30",
   "status": "partial",
   "theorems": [
    "C30_accept_partial",
    "C30_reject_partial",
    "C30_incomplete",
    "C30_refuted"
   ],
   "note": "Refuted as stated: knots below -1 are rejected although consistent. Proved: accepted iff consistent and within the limits of the implementation (compiled dimensions, knots >= -1), otherwise an error; missing properties give no core."
  },
  {
   "property": "C31",
   "status": "partial",
   "theorems": [
    "C31_matching_partial",
    "C31_conflict_partial",
    "C31_sound",
    "C31_symmetry_refuted",
    "C31_missed_refuted"
   ],
   "note": "The full statement is refuted: with three faces of which two pairs are closer than the tolerance but the third is not, the table may be asymmetric (C31_symmetry_refuted) or miss a coinciding face (C31_missed_refuted). Proved for all point sets, dimensions and tolerances, for every square root with the contract root_bound: without three mutually coinciding faces the table is exactly the matching of coinciding faces; if the tolerance separates positions an exception is raised iff three faces coincide; every connection ever reported joins coinciding faces."
  },
  {
   "property": "C32",
   "status": "partial",
   "theorems": [
    "C32_uncached",
    "C32_lists_partial",
    "C32_first_partial",
    "C32_sub_refuted",
    "C32_boundary_refuted",
    "C32_ids_refuted",
    "C32_orientations_refuted",
    "C32_zero_refuted",
    "C32_orientations_partial"
   ],
   "note": "Proved for every history: interfaces and the faces/boundary multipatch of one id follow every assignment; ids and orientations follow an assignment of patches; a multipatch whose data is assigned before the first cached read answers every read correctly. Refuted: sub_multipatch and boundary_multipatch stay those of the old patches, boundary_patch_ids stays after interfaces are assigned or recomputed, orientations stay after in-place edits and ignore the tolerance, id 0 returns the neighbour of face 0."
  },
  {
   "property": "C33",
   "status": "partial",
   "theorems": [
    "C33_lists",
    "C33_edits_partial",
    "C33_set",
    "C33_function",
    "C33_combine",
    "C33_fresh",
    "C33_zero_id_refuted",
    "C33_zero_mask_refuted",
    "C33_combine_refuted"
   ],
   "note": "boundaries lists every boundary face once (full). Edits leave inner interfaces alone for all sequences of calls that avoid id 0 and combine negative ids. The unrestricted claim is refuted: id 0, a mask with 0, and positive ids in combine_boundaries create or destroy interfaces."
  },
  {
   "property": "C34",
   "status": "partial",
   "theorems": [
    "C34_classes_partial",
    "C34_lost",
    "C34_threads_partial",
    "C34_count_refuted",
    "C34_open_refuted",
    "C34_race_refuted"
   ],
   "note": "Same id iff chained by smooth faces, ids 1..m, for every mutual table whose first patch has no open face and symmetric smoothness relation; also for every distribution and order of independent bit writes. Refuted: the reported number is m + 1, an open face of boundary patch 0 is accessed out of bounds, and packed bits lose writes under a schedule of two threads."
  },
  {
   "property": "C35",
   "status": "partial",
   "theorems": [
    "C35_request",
    "C35_pairs",
    "C35_patches_partial",
    "C35_threads_partial",
    "C35_overrun",
    "C35_fields_partial",
    "C35_threads_refuted",
    "C35_empty_refuted",
    "C35_terminate_refuted",
    "C35_resolutions_refuted"
   ],
   "note": "Proved: the verdict is a mismatch exactly if some patch differs, the reported ids are exactly these, independent of nthreads, when the list is not empty and the threads' chunks stay inside it. The full statement is refuted: five equal patches with four threads read behind the list, an empty list reads the first patch, a faulty field raises with one thread and terminates the process with two, a request of resolutions alone is always refused (not reachable from the two callers)."
  },
  {
   "property": "C36",
   "status": "partial",
   "theorems": [
    "C36_offsets",
    "C36_control_points",
    "C36_overrun_refuted"
   ],
   "note": "Offsets are the prefix sums for all patches; for every order of the threads' writes the array is the concatenation and each slice is its patch, provided the threads' chunks stay inside the list; otherwise (e.g. five patches, four threads) a thread runs past the end."
  },
  {
   "property": "C37",
   "status": "partial",
   "theorems": [
    "C37_labeled_partial",
    "C37_unlabeled_partial",
    "C37_unlabeled_refuted"
   ],
   "note": "Proved for labelled boundaries, which is the default of export: every valid table of n patches, any boundary ids (also with unused ids), any orientation columns. With labeled_boundaries=False the full statement is refuted: all boundary ids come back as -1 (gismo.py 354-402 writes one boundary element, 658-674 numbers the elements); what comes back then is proved."
  },
  {
   "property": "C38",
   "status": "partial",
   "theorems": [
    "C38_dof_mapping",
    "C38_load",
    "C38_nurbs_form",
    "C38_solution_partial",
    "C38_solution_refuted"
   ],
   "note": "The full statement is refuted: read_solution moves the weights of the reference by the second list although they are in order already (C38_solution_refuted). Proved for every resolution (2 or 3 axes, at least two points each): the degree of freedom map lists every control point once and the second list undoes it; load inverts export for all control points and weights (the spline as NURBS); read_solution puts the solution's values and the reference's knots at their places, weights when they do not depend on the position."
  },
  {
   "property": "C39",
   "status": "proved",
   "theorems": [
    "C39_boundary"
   ],
   "note": "For every resolution, every table and every face, 2D and 3D. The corner numbering of gustaf's close_rows is an arbitrary list. The vertices are also shown to be listed around the face."
  },
  {
   "property": "C40",
   "status": "partial",
   "theorems": [
    "C40_npz",
    "C40_npz_identity_partial",
    "C40_json_partial",
    "C40_storable",
    "C40_generic_refuted",
    "C40_low_knots_refuted"
   ],
   "note": "Every list of splines made by the constructors of the four classes is restored exactly by npz and by json (with and without base64). Refuted as stated: objects of the generic class Spline change class (npz) or cannot be read back or written (json); splines whose knots were moved below -1 in place are written but cannot be read."
  },
  {
   "property": "C41",
   "status": "partial",
   "theorems": [
    "C41_roundtrip_partial",
    "C41_dimension_refuted",
    "C41_generic_refuted",
    "C41_low_knots_refuted"
   ],
   "note": "Proved for every list of splines of the four classes in at most nine dimensions with non-zero weights and knots not below -1 (numbers are rationals, so without rounding). Refuted beyond: the reader takes one digit of the dimension, so a spline in ten dimensions cannot be loaded; objects of the generic class are lost; knots moved below -1 cannot be loaded."
  },
  {
   "property": "C42",
   "status": "proved",
   "theorems": [
    "C42_matrix",
    "C42_refused",
    "C42_columns"
   ],
   "note": "Rows, counters, the exact conditions under which the export is refused, and the order of the fields in the coefficients of a patch. Not modelled: weights of fields (gismo.py 141-144 subscripts a Multipatch, which raises for rational patches)."
  },
  {
   "property": "C43",
   "status": "partial",
   "theorems": [
    "C43_span_wise",
    "C43_global_partial",
    "C43_even",
    "C43_misaligned_refuted",
    "C43_no_knots_refuted",
    "C43_overwritten_refuted"
   ],
   "note": "knot_span_wise=True proved in full (spans wide enough for the knot tolerances, positive tiling). knot_span_wise=False: proved when the axes that need knots come first, with the greedy distribution shown optimal; the full statement is false: axes needing no knots are skipped in the list so later knots go to wrong axes, creation raises if no axis needs knots, and the requested tiling is overwritten."
  },
  {
   "property": "C44",
   "status": "partial",
   "theorems": [
    "C44_closure_partial",
    "C44_request",
    "C44_single_refuted",
    "C44_name_refuted"
   ],
   "note": "Proved for at least two elements along the closing axis, with the patch enumeration of C45/C60. With one element the patch lies on both faces and gets only the min closing tile (refuted); an unknown name raises TypeError."
  },
  {
   "property": "C45",
   "status": "proved",
   "theorems": [
    "C45_ids"
   ],
   "note": "Model of ExtractBezierPatchIDs (running offsets, counters, mixed radix loop). For every number of axes, multiplicities and degrees: number of patches, and the ids of patch c are the mixed radix ids of offset + local index."
  },
  {
   "property": "C46",
   "status": "proved",
   "theorems": [
    "C46_value",
    "C46_raises",
    "C46_embedded"
   ],
   "note": "Splines of the four classes with positive weights; sizes limited by the compiled dimensions."
  },
  {
   "property": "C47",
   "status": "proved",
   "theorems": [
    "C47_extruded",
    "C47_revolved",
    "C47_revolved_raises",
    "C47_line",
    "C47_box",
    "C63_bounds_partial"
   ],
   "note": "All sizes match for every number of segments asked for; C47_revolved_raises says when revolved raises before the constructor is called."
  },
  {
   "property": "C48",
   "status": "partial",
   "theorems": [
    "C48_computed",
    "C48_unit_partial",
    "C48_bezier",
    "C48_constant",
    "C48_refine_refuted"
   ],
   "note": "Refuted as stated: parametric_function of a spline with knot vectors sums the rule of the unit cube over the elements without their sizes (C48_computed), so a constant over an affine geometry gives the number of elements in place of the size of the domain (C48_constant) and inserting a knot changes the integral (C48_refine_refuted, for all libraries that meet the contract). Right without knot vectors (C48_bezier) and if all elements have size one (C48_unit_partial). Knot insertion, leggauss, sqrt and the cut into Bezier patches are oracles with contracts; a joint implementation is given (int_example_ok in C67_example)."
  },
  {
   "property": "C49",
   "status": "partial",
   "theorems": [
    "C49_knots",
    "C49_parameters",
    "C49_curve",
    "C49_length_partial",
    "C49_request_refuted",
    "C49_constant_refuted",
    "C49_still_refuted"
   ],
   "note": "Computed knot vectors, parameters and fitted curves proved for all inputs. The statement as written is refuted: the values of a requested knot vector are ignored (only its length counts, C49_length_partial), curves of degree 0 through all points are refused, equal points give NaN parameters."
  },
  {
   "property": "C50",
   "status": "partial",
   "theorems": [
    "C50_unit",
    "C50_dims",
    "C50_domain",
    "C50_default",
    "C50_padding",
    "C50_replace_partial",
    "C50_replace_refuted",
    "C50_get_refuted",
    "C50_stale_refuted",
    "C50_unclamped_refuted"
   ],
   "note": "Proved for every history of assignments: vertices in the open unit cube (exact affine map of the padded box), spline and mesh dimensions agree, assigned splines whose domain is their knot range get all vertices in their domain, the default spline gives the mesh up to the padding (also after changing the padding), padding accepted iff at least the tolerance. Refuted: replacing the mesh by one of another dimension raises and loses the spline (C50_replace_refuted; C50_replace_partial says exactly when assignments work), the mesh cannot be read without spline, the default spline of a first mesh is kept for a second one, unclamped splines get vertices outside their domain."
  },
  {
   "property": "C51",
   "status": "proved",
   "theorems": [
    "C51_clamped_insertion_exact",
    "C51_order_irrelevant"
   ],
   "note": "Same model as C12, stated with the conditions under which it holds."
  },
  {
   "property": "C52",
   "status": "partial",
   "theorems": [
    "C52_degrees",
    "C52_knot_vectors",
    "C52_control_points_partial",
    "C52_weights_partial",
    "C52_refuted",
    "C52_weights_refuted"
   ],
   "note": "Refuted as stated: on a rational spline whose cached properties were cleared (after insert_knots, elevate_degrees, ...) assigning control points or weights is silently ignored. Proved for degrees and knot vectors in all states, for control points and weights when the coupled property is cached."
  },
  {
   "property": "C53",
   "status": "partial",
   "theorems": [
    "C53_writable_partial",
    "C53_refuted"
   ],
   "note": "Refuted as stated: reading weights of a non-rational spline after its control points makes them read-only. Proved for rational splines and for histories that do not touch the weights."
  },
  {
   "property": "C54",
   "status": "partial",
   "theorems": [
    "C54_elevate",
    "C54_invalid",
    "C54_negative_partial",
    "C54_refuted",
    "C54_empty_refuted"
   ],
   "note": "Refuted as stated: an axis that is too large raises after smaller axes were elevated, with stale degrees; an empty request writes out of bounds. Proved: valid non-empty requests raise every degree by its number of requests; invalid ones raise; a negative one changes nothing."
  },
  {
   "property": "C55",
   "status": "proved",
   "theorems": [
    "C55_pairs"
   ],
   "note": "For every interface table; the count of pairs is half the count of connected faces for symmetric tables."
  },
  {
   "property": "C56",
   "status": "partial",
   "theorems": [
    "C56_orientation_partial",
    "C56_uninitialised_refuted"
   ],
   "note": "Refuted as stated: without a parallel tangent the entries of the returned array are never written (C56_uninitialised_refuted). Proved when each tangential axis has exactly one parallel partner axis, the others being separated by more than the tolerance, for every root satisfying root_bound and root_exact (C56_example: such a root exists)."
  },
  {
   "property": "C57",
   "status": "partial",
   "theorems": [
    "C57_extract_partial",
    "C57_refuted"
   ],
   "note": "Refuted as stated: the threads share [0, nthreads) instead of the patches, so with the default of one thread only the boundaries of patch 0 are returned. Proved: for nthreads <= number of patches the result are the boundaries of the first nthreads patches, in order."
  },
  {
   "property": "C58",
   "status": "partial",
   "theorems": [
    "C58_evaluate",
    "C58_sample",
    "C58_centers",
    "C58_empty_refuted"
   ],
   "note": "Proved for all sizes, thread counts and write orders with at least one query; with no query and several threads the work is divided by zero (refuted). Sampling with per-patch bounds needs the chunks of the threads inside the list of patches."
  },
  {
   "property": "C59",
   "status": "proved",
   "theorems": [
    "C59_patches",
    "C59_values",
    "C59_generic_refuted"
   ],
   "note": "C59_generic_refuted records that objects of the generic class Spline, which are outside the statement, cannot be written although their cores are fine."
  },
  {
   "property": "C60",
   "status": "proved",
   "theorems": [
    "C60_values"
   ],
   "note": "Model of ExtractBezierPatches for splines already in Bezier form (end knots p+1, inner knots at least p times, knots further apart than the tolerance, nonzero weights). The saturating knot insertion itself is BSplineLib code and covered by C12/C51."
  },
  {
   "property": "C61",
   "status": "proved",
   "theorems": [
    "C61_revolution"
   ],
   "note": "cos, sin, pi, norm and gustaf's rotation matrix are oracles with a contract (S_Create.circular, rotates, measures); turn_oracles meets it."
  },
  {
   "property": "C62",
   "status": "proved",
   "theorems": [
    "C62_line",
    "C62_short"
   ],
   "note": "Exact linspace."
  },
  {
   "property": "C63",
   "status": "partial",
   "theorems": [
    "C63_box",
    "C63_bounds_partial",
    "C63_low_refuted"
   ],
   "note": "Full statement refuted: parametric bounds below -1 are rejected by the constructor. Proved for all other bounds."
  },
  {
   "property": "C64",
   "status": "partial",
   "theorems": [
    "C64_arc_partial",
    "C64_gap_refuted"
   ],
   "note": "Full statement refuted: an angle below pi by less than the tolerance raises. Proved for all other angles."
  },
  {
   "property": "C65",
   "status": "proved",
   "theorems": [
    "C65_best",
    "C65_ends",
    "C65_reproduces",
    "C65_default",
    "C65_repeated_refuted"
   ],
   "note": "Least squares optimality, interpolation and residual for every given spline with independent basis functions at the queries. C65_default: for computed parameters and knots the independence follows from consecutive points being different (Schoenberg-Whitney); C65_repeated_refuted shows a singular system for a repeated point, which is outside the quantifier. scipy / numpy solvers are oracles with a contract, instantiated by exact elimination."
  },
  {
   "property": "C66",
   "status": "partial",
   "theorems": [
    "C66_reproduces",
    "C66_interpolates",
    "C66_default",
    "C66_default_reproduces",
    "C66_weights_refuted"
   ],
   "note": "Proved for surfaces whose weights are products (all non-rational ones), with given queries and spaces and with computed parameters and knots; refuted for other weights: only weights of the first row and column are used."
  },
  {
   "property": "C67",
   "status": "proved",
   "theorems": [
    "C67_volume",
    "C67_derivatives",
    "C67_affine"
   ],
   "note": "For knots clamped at the ends and further apart than the tolerance of the library. The knots BSplineLib adds before Bezier patches are cut out are an oracle with the contract bezier_refinement; leggauss and sqrt are oracles (gaussian, rooting)."
  },
  {
   "property": "C68",
   "status": "proved",
   "theorems": [
    "C68_exact",
    "C68_default",
    "C68_unique",
    "C68_degree",
    "C68_representation"
   ],
   "note": "Assumes that leggauss(n) integrates polynomials of degree 2n-1 exactly (rule of rational points; a rule with this property is constructed) and that the Bezier patches of splines with knots are right (C67)."
  },
  {
   "property": "C69",
   "status": "partial",
   "theorems": [
    "C69_nonnegative_partial",
    "C69_embedded",
    "C69_orientation_refuted"
   ],
   "note": "Refuted for dim = para_dim: the determinant is used with its sign, a square with one axis reversed has volume -1. Proved: not negative if the measure is not negative inside the elements, and always for dim > para_dim."
  },
  {
   "property": "C70",
   "status": "partial",
   "theorems": [
    "C70_exact_partial",
    "C70_derivatives_partial",
    "C70_degree_zero_refuted",
    "C70_unclamped_refuted",
    "C70_jump_refuted"
   ],
   "note": "Proved for clamped axes with continuous functions whenever the determinant has at least degree one along each axis (knots at least -1 and separated by more than the tolerances). Refuted outside: a determinant of degree 0 divides by zero, knot vectors that are not clamped raise, a knot of multiplicity p + 1 inside makes the system singular."
  },
  {
   "property": "C71",
   "status": "proved",
   "theorems": [
    "C71_bound",
    "C71_undecided"
   ],
   "note": "Every bound on the control points holds for the determinant on the whole domain; two curves with control points 1, -1/2, 1 and 1, -2, 1 show that the converse fails."
  },
  {
   "property": "C72",
   "status": "proved",
   "theorems": [
    "C72_gradient",
    "C72_divergence",
    "C72_hessian",
    "C72_laplacian",
    "C72_hessian_of_gradient",
    "C72_basis",
    "C72_refused",
    "C72_answered"
   ],
   "note": "The parametric derivatives (support, basis_derivative, derivative, jacobian) and numpy.linalg.inv are oracles with contracts in terms of total derivatives (S_Mapper); C72_answered gives a back end meeting them for all polynomial splines with knot vectors or Bezier axes. Derivatives with respect to x are stated as: f(w) - f(u) - G (x(w) - x(u)) is small against x(w) - x(u), and G is the only such vector. One query at a time."
  },
  {
   "property": "C73",
   "status": "proved",
   "theorems": [
    "C73_cross2d",
    "C73_cross3d",
    "C73_cross3d_linear",
    "C73_double_lattice",
    "C73_hollow_octagon",
    "C73_hollow_octagon_extrude",
    "C73_snappy_above",
    "C73_snappy_right",
    "C73_chi",
    "C73_hollow_cube",
    "C73_cube_void",
    "C73_ellips_void",
    "C73_inverse_cross3d"
   ],
   "note": "For Cross3D, Cross3DLinear and InverseCross3D with thicknesses below (not at) the largest accepted one, for InverseCross3D with equal separator distances below 1/2, for Snappy with a, b > 0 and b < 1/2, and for the void tiles with a void inside the cell: otherwise inner facets lie in the common plane. Armadillo is not modelled."
  },
  {
   "property": "C74",
   "status": "partial",
   "theorems": [
    "C74_cross2d",
    "C74_cross3d",
    "C74_cross3d_linear",
    "C74_double_lattice",
    "C74_hollow_octagon",
    "C74_hollow_octagon_extrude",
    "C74_snappy_partial",
    "C74_snappy_refuted",
    "C74_chi",
    "C74_hollow_cube",
    "C74_cube_void_partial",
    "C74_cube_void_refuted",
    "C74_ellips_void_partial",
    "C74_ellips_void_refuted",
    "C74_inverse_cross3d_partial",
    "C74_inverse_cross3d_refuted"
   ],
   "note": "Refuted for Snappy with b > 1/2, for InverseCross3D with a separator distance above 1/2, and for CubeVoid and EllipsVoid, which check no parameter; proved for all others and for these with b <= 1/2, a separator distance of at most 1/2, or a void that fits."
  },
  {
   "property": "C75",
   "status": "partial",
   "theorems": [
    "C75_cross2d",
    "C75_cross3d",
    "C75_cross3d_linear",
    "C75_double_lattice",
    "C75_hollow_cube",
    "C75_cube_void_partial",
    "C75_cube_void_refuted",
    "C75_ellips_void_partial",
    "C75_ellips_void_refuted",
    "C75_chi_refuted",
    "C75_cube_void_turned_partial",
    "C75_ellips_void_turned_partial"
   ],
   "note": "Refuted for Chi, which takes the sine and cosine of the sensitivity, and for CubeVoid and EllipsVoid when rot_y varies, whose rotation rate has a one in the middle. Proved for the others that return derivatives, and for the voids' sizes and angle about the x axis. InverseCross3D returns none (NotImplementedError)."
  },
  {
   "property": "C76",
   "status": "partial",
   "theorems": [
    "C76_cross2d",
    "C76_cross3d_partial",
    "C76_cross3d_refuted",
    "C76_cross3d_linear_partial",
    "C76_cross3d_linear_refuted",
    "C76_double_lattice",
    "C76_hollow_octagon",
    "C76_hollow_octagon_extrude",
    "C76_snappy_partial",
    "C76_snappy_refuted",
    "C76_hollow_cube_refuted",
    "C76_cube_void_partial",
    "C76_cube_void_refuted",
    "C76_inverse_cross3d_refuted"
   ],
   "note": "Refuted for HollowCube (four patches are left-handed), for the largest accepted thickness of Cross3D and Cross3DLinear and a = 0 or b = 0 of Snappy, which give degenerate patches, and for CubeVoid with a void wider than the cell. CubeVoid is proved for voids inside the cell that are not turned; turned voids and EllipsVoid are not treated; InverseCross3D with all thicknesses 1/4 and the default separator has corner patches that are partly turned inside out, and nothing positive is proved for it; Chi consists of curves."
  },
  {
   "property": "C77",
   "status": "partial",
   "theorems": [
    "C77_cross2d",
    "C77_hollow_octagon",
    "C77_cross3d_partial",
    "C77_cross3d_refuted",
    "C77_cross3d_linear_partial",
    "C77_cross3d_linear_refuted"
   ],
   "note": "Cross3D and Cross3DLinear fill the side if and only if boundary_width <= 1/3."
  },
  {
   "property": "C78",
   "status": "partial",
   "theorems": [
    "C78_values",
    "C78_rational",
    "C78_unclamped_refuted",
    "C78_degree_zero_refuted"
   ],
   "note": "Proved for all clamped knot vectors of degree at least 1 whose inner multiplicities are at most the degree, all dimensions. Refuted otherwise: for knot vectors that are not clamped and for degree 0 the code writes behind the end of return_kv."
  },
  {
   "property": "C79",
   "status": "proved",
   "theorems": [
    "C79_revolution"
   ],
   "note": "nearly_unit has explicit bounds low and high, both 1 for exact sines and cosines."
  },
  {
   "property": "C80",
   "status": "partial",
   "theorems": [
    "C80_disk",
    "C80_sphere",
    "C80_torus_partial",
    "C80_full_torus_partial",
    "C80_degree_refuted",
    "C80_part_refuted"
   ],
   "note": "Disk and sphere are proved. The full statement is refuted for torus: with only one of torus_angle and section_angle given, degrees are taken for radians; a full section turned by less than pi raises with the default segment number. The other cases are proved; full sections have the radius outer/sqrt(2) of plate (C81)."
  },
  {
   "property": "C81",
   "status": "partial",
   "theorems": [
    "C81_surface_circle",
    "C81_plate_refuted"
   ],
   "note": "Proved for surface_circle. Refuted for plate: its circle has the radius r/sqrt(2), for every r."
  },
  {
   "property": "C82",
   "status": "partial",
   "theorems": [
    "C82_cone_partial",
    "C82_cone_surface_partial",
    "C82_flat_refuted",
    "C82_pyramid"
   ],
   "note": "Pyramid is proved; volumetric cones and cones over a circle for heights np.isclose tells from 0. Refuted for smaller heights: all points collapse to the apex."
  },
  {
   "property": "C83",
   "status": "partial",
   "theorems": [
    "C83_interval",
    "C83_bezier",
    "C83_slice",
    "C83_outside",
    "C83_curve_refuted"
   ],
   "note": "Full statement is false for one value of a curve: the call raises (C83_curve_refuted). Everything else is proved, for any knot insertion (BSplineLib, an oracle with a proved witness) that adds one knot and keeps values. Values must be separated from other knots by the tolerance."
  },
  {
   "property": "C84",
   "status": "proved",
   "theorems": [
    "C84_values",
    "C84_order"
   ],
   "note": "For all dictionaries that leave at least one axis (otherwise the call raises, see C83). Knot insertion is the oracle of C83."
  },
  {
   "property": "C85",
   "status": "partial",
   "theorems": [
    "C85_accepted",
    "C85_above",
    "C85_below_partial",
    "C85_reported",
    "C85_below_refuted"
   ],
   "note": "Acceptance and reports of queries above the bounds proved in full. Refuted for queries below the bounds: error_dim is computed with the upper bounds (line 37), so a dimension without offending query can be named; proved instead that some query is below the bounds, the reported one for curves."
  },
  {
   "property": "C86",
   "status": "proved",
   "theorems": [
    "C86_clamped",
    "C86_corners"
   ],
   "note": "Tolerance positive; end knots equal to or at least the tolerance away from other knots."
  },
  {
   "property": "C87",
   "status": "proved",
   "theorems": [
    "C87_edges_are_lines",
    "C87_curve",
    "C87_multipatch"
   ],
   "note": "The evaluation is an arbitrary function of the query, so the theorems say which queries are evaluated and how they are connected. gustaf's range_to_edges and Edges.concat are modelled as documented there."
  },
  {
   "property": "C88",
   "status": "partial",
   "theorems": [
    "C88_bases",
    "C88_view_partial",
    "C88_rational_refuted",
    "C88_unclamped_refuted"
   ],
   "note": "Full statement proved without the view for all splines and ids. With the view proved for non-rational splines of degree >= 1 with clamped knot vectors (inner multiplicities at most the degree); refuted for rational splines (the view is no longer the identity) and for unclamped knot vectors (another basis is shown). Missing: degree 0 with view."
  },
  {
   "property": "C89",
   "status": "partial",
   "theorems": [
    "C89_surface",
    "C89_volume",
    "C89_volume_faces",
    "C89_closed",
    "C89_multipatch",
    "C89_control_mesh",
    "C89_orientation_refuted"
   ],
   "note": "All parts proved but the orientation, which is refuted for every clamped volume: two neighbouring faces run along their common edge in the same direction (C89_orientation_refuted). watertight=False; merge_vertices and the connectivity of gustaf are external, the latter modelled as documented."
  },
  {
   "property": "C90",
   "status": "partial",
   "theorems": [
    "C90_removal",
    "C90_removal_refused",
    "C90_negative_axis_refuted",
    "C90_reduction",
    "C90_reduction_raises",
    "C90_partly_refuted"
   ],
   "note": "Refuted as stated: remove_knots hands a negative axis to the library; reduce_degrees raises at an invalid axis after earlier axes were reduced, with stale degrees. Proved for valid axes, for any library that removes one copy / lowers by one or does nothing; the bound is the tolerance times the number of flags."
  },
  {
   "property": "C91",
   "status": "partial",
   "theorems": [
    "C91_roundtrip_partial",
    "C91_same_map",
    "C91_counts",
    "C91_closed",
    "C91_variables",
    "C91_generic_refuted",
    "C91_low_knots_refuted"
   ],
   "note": "Proved for all lists of objects of the four classes with consistent properties the library supports; C91_same_map needs well-formed splines. Refuted for objects of the generic class Spline (export raises) and for splines whose knots were moved below -1 in place (load raises). ElementTree is modelled as giving back the tree without comments; texts are cut at white space."
  },
  {
   "property": "C92",
   "status": "partial",
   "theorems": [
    "C92_fill_partial",
    "C92_thick_refuted",
    "C92_wall_refuted"
   ],
   "note": "The full statement is refuted: InverseCross3D takes the minimum of branch and center thickness half way along a branch while Cross3D takes the branch thickness, so a branch thicker than the center does not fit (C92_thick_refuted); with boundary_width > 1/3 the closing tile of Cross3D is itself wrong (see C77, C92_wall_refuted). Proved for all other accepted parameters, any separator distance and both closings."
  }
 ]
}