{
 "claims": [
  {
   "property": "C01",
   "status": "proved",
   "theorems": [
    "treevec_is_a_vector",
    "treevec_from_iter"
   ],
   "note": ""
  },
  {
   "property": "C02",
   "status": "proved",
   "theorems": [
    "treevec_balanced"
   ],
   "note": ""
  },
  {
   "property": "C03",
   "status": "proved",
   "theorems": [
    "treevec_iteration",
    "treevec_is_a_vector"
   ],
   "note": ""
  },
  {
   "property": "C04",
   "status": "proved",
   "theorems": [
    "treevec_partition_point_old_std",
    "treevec_partition_point_new_std"
   ],
   "note": "both implementations of slice::partition_point in std (before/after 1.82) are modelled"
  },
  {
   "property": "C05",
   "status": "proved",
   "theorems": [
    "treevec_b3_refuted"
   ],
   "note": "witness history for B = 3"
  },
  {
   "property": "C06",
   "status": "proved",
   "theorems": [
    "ordered_float_total",
    "point_order_total",
    "point_order_lexicographic",
    "min_max_agree"
   ],
   "note": ""
  },
  {
   "property": "C07",
   "status": "proved",
   "theorems": [
    "push_sequence_invariants",
    "pushed_table_wf"
   ],
   "note": ""
  },
  {
   "property": "C08",
   "status": "proved",
   "theorems": [
    "flip_involution",
    "flip_wf"
   ],
   "note": ""
  },
  {
   "property": "C09",
   "status": "proved",
   "theorems": [
    "with_y_slop_weakens",
    "with_y_slop_weakens_at_start_refuted"
   ],
   "note": "proved for every height strictly above the table's start, as an exact characterisation; at the start height itself the claim is false for tables beginning with a zero-height close interval, shown by the refuted theorem"
  },
  {
   "property": "C10",
   "status": "proved",
   "theorems": [
    "next_touch_after_spec",
    "touch_height",
    "next_touch_complete",
    "next_cross_complete",
    "touches_skipped_from_close_interval",
    "next_touch_is_next_touch_refuted"
   ],
   "note": "the doc's 'next height at which they touch' is refuted from inside a close interval"
  },
  {
   "property": "C11",
   "status": "proved",
   "theorems": [
    "lookups_bracket",
    "order_after_next_strict"
   ],
   "note": ""
  },
  {
   "property": "C12",
   "status": "proved",
   "theorems": [
    "opposite_push_close_interval",
    "opposite_push_keeps_order_refuted"
   ],
   "note": ""
  },
  {
   "property": "C13",
   "status": "proved",
   "theorems": [
    "order_at_outside"
   ],
   "note": ""
  },
  {
   "property": "C14",
   "status": "proved",
   "theorems": [
    "comparisons_stable_antisymmetric",
    "comparisons_come_from_intersection"
   ],
   "note": "intersect_cubics is an arbitrary function of the two segment indices"
  },
  {
   "property": "C15",
   "status": "proved",
   "theorems": [
    "contour_links_inverse",
    "contour_links_meet"
   ],
   "note": "histories of successful additions without open bezier paths; meeting of curves assumes that evaluating a curve at 0 and 1 gives its end points (op_exact)"
  },
  {
   "property": "C16",
   "status": "proved",
   "theorems": [
    "segments_read_back",
    "polyline_read_back",
    "closed_polyline_read_back",
    "polylines_never_panic"
   ],
   "note": "no NaN hypothesis needed"
  },
  {
   "property": "C17",
   "status": "proved",
   "theorems": [
    "open_polyline_ends",
    "closed_contour_cycles"
   ],
   "note": ""
  },
  {
   "property": "C18",
   "status": "proved",
   "theorems": [
    "open_bez_dangling_links",
    "open_path_has_no_neighbours_refuted"
   ],
   "note": "characterisation for every open subpath, and the documented behaviour refuted by a concrete history"
  },
  {
   "property": "C19",
   "status": "proved",
   "theorems": [
    "events_enumerate",
    "events_sorted_by_height"
   ],
   "note": "sort_by is any function meeting the documented contract of slice::sort_by (sort_spec); sortedness assumes non-NaN heights"
  },
  {
   "property": "C20",
   "status": "proved",
   "theorems": [
    "failed_addition_not_rolled_back"
   ],
   "note": ""
  },
  {
   "property": "C45",
   "status": "proved",
   "theorems": [
    "monotonic_pieces_tile"
   ],
   "note": ""
  },
  {
   "property": "C46",
   "status": "proved",
   "theorems": [
    "subpaths_partition"
   ],
   "note": ""
  },
  {
   "property": "C47",
   "status": "proved",
   "theorems": [
    "bez_path_panics_only_on_bad_input",
    "polylines_never_panic"
   ],
   "note": ""
  },
  {
   "property": "C21",
   "status": "proved",
   "theorems": [
    "sweep_heights_increase"
   ],
   "note": "for arbitrary comparison routines, searches and sorts"
  },
  {
   "property": "C22",
   "status": "proved",
   "theorems": [
    "segments_enter_once",
    "segments_exit_once",
    "reachable_sweepable"
   ],
   "note": "sweeps that complete; reachable_sweepable shows that every arena built by successful additions (no open bezier path) with finite coordinates satisfies the arena hypotheses"
  },
  {
   "property": "C23",
   "status": "proved",
   "theorems": [
    "line_holds_active_segments",
    "sweep_never_panics"
   ],
   "note": ""
  },
  {
   "property": "C24",
   "status": "proved",
   "theorems": [
    "crossing_handled",
    "crossing_permutes"
   ],
   "note": ""
  },
  {
   "property": "C25",
   "status": "proved",
   "theorems": [
    "merging_loses_nothing"
   ],
   "note": ""
  },
  {
   "property": "C26",
   "status": "proved",
   "theorems": [
    "changed_intervals_closed"
   ],
   "note": ""
  },
  {
   "property": "C48",
   "status": "proved",
   "theorems": [
    "sweep_never_panics",
    "reachable_sweepable"
   ],
   "note": "the model's event loop has a fuel bound; running out of it is not a panic of the code"
  },
  {
   "property": "C49",
   "status": "proved",
   "theorems": [
    "treevec_search_function"
   ],
   "note": ""
  },
  {
   "property": "C50",
   "status": "proved",
   "theorems": [
    "lines_continue"
   ],
   "note": ""
  },
  {
   "property": "C51",
   "status": "proved",
   "theorems": [
    "sweep_terminates_refuted"
   ],
   "note": "the property is negative: non-termination on a concrete sound input is what is proved"
  },
  {
   "property": "C44",
   "status": "proved",
   "theorems": [
    "insertion_keeps_order"
   ],
   "note": ""
  },
  {
   "property": "C27",
   "status": "proved",
   "theorems": [
    "range_positions"
   ],
   "note": "order of the emitted lines up to twice the tolerance is a hypothesis; weak order only for the claim about bands; the band and position routines are quantified over (they return numbers; positions_sound only for bands)"
  },
  {
   "property": "C28",
   "status": "proved",
   "theorems": [
    "range_batches",
    "range_views"
   ],
   "note": ""
  },
  {
   "property": "C29",
   "status": "proved",
   "theorems": [
    "mixed_range_use_panics",
    "mixed_range_use_loses"
   ],
   "note": "a defect of the documented usage: the theorems say exactly when it panics and what is lost otherwise"
  },
  {
   "property": "C30",
   "status": "proved",
   "theorems": [
    "topology_rings",
    "attach_keeps_rings",
    "delete_keeps_rings"
   ],
   "note": "rings: one circular doubly linked list per vertex, together all half-segments"
  },
  {
   "property": "C31",
   "status": "proved",
   "theorems": [
    "topology_rings"
   ],
   "note": "order of the emitted lines up to twice the tolerance is a hypothesis (see C62)"
  },
  {
   "property": "C37",
   "status": "proved",
   "theorems": [
    "boolean_operations",
    "boolean_identities",
    "winding_overflow"
   ],
   "note": "the Boolean predicate handed to contours(); overflow of the 32-bit counters included"
  },
  {
   "property": "C38",
   "status": "proved",
   "theorems": [
    "accuracy_choice",
    "accuracy_covers",
    "nan_slips_through"
   ],
   "note": "the bounding box comes from kurbo and is quantified over; nan_slips_through is a defect: NaN in one axis only is accepted, contrary to the comment in the code"
  },
  {
   "property": "C39",
   "status": "proved",
   "theorems": [
    "winding_arithmetic"
   ],
   "note": ""
  },
  {
   "property": "C34",
   "status": "proved",
   "theorems": [
    "contours_partition"
   ],
   "note": "contours are given by their output segments; the curve fitted to them (segs_to_path) is not modelled"
  },
  {
   "property": "C35",
   "status": "proved",
   "theorems": [
    "contours_nest"
   ],
   "note": ""
  },
  {
   "property": "C36",
   "status": "proved",
   "theorems": [
    "grouping",
    "grouping_contours"
   ],
   "note": ""
  },
  {
   "property": "C52",
   "status": "proved",
   "theorems": [
    "contours_simple"
   ],
   "note": ""
  },
  {
   "property": "C53",
   "status": "proved",
   "theorems": [
    "pinched_hole_outer"
   ],
   "note": "a defect: existence of a concrete input is what is proved"
  },
  {
   "property": "C32",
   "status": "proved",
   "theorems": [
    "winding_consistent"
   ],
   "note": "order of the emitted lines up to twice the tolerance is a hypothesis (see C62); the winding number group is abstract (instances in PropsBinOp)"
  },
  {
   "property": "C54",
   "status": "proved",
   "theorems": [
    "corners_stay_together"
   ],
   "note": ""
  },
  {
   "property": "C55",
   "status": "proved",
   "theorems": [
    "from_paths_collects"
   ],
   "note": ""
  },
  {
   "property": "C33",
   "status": "proved",
   "theorems": [
    "merging_sound"
   ],
   "note": "order of the emitted lines up to twice the tolerance is a hypothesis (as for C32); the closeness test is an oracle with a soundness contract at the heights of the sweep"
  },
  {
   "property": "C56",
   "status": "proved",
   "theorems": [
    "coincident_left"
   ],
   "note": "a defect: existence of a concrete input is what is proved"
  },
  {
   "property": "C57",
   "status": "proved",
   "theorems": [
    "from_segments_sound"
   ],
   "note": "the finished sweep (see C51 for termination) and order of the emitted lines up to twice the tolerance are hypotheses"
  },
  {
   "property": "C43",
   "status": "proved",
   "theorems": [
    "scan_orders_exact"
   ],
   "note": "order of the emitted lines up to twice the tolerance is a hypothesis (as for C32)"
  },
  {
   "property": "C40",
   "status": "proved",
   "theorems": [
    "paths_keep_ends",
    "positions_laid_out"
   ],
   "note": "paths_keep_ends holds whatever the numeric helpers do"
  },
  {
   "property": "C41",
   "status": "proved",
   "theorems": [
    "negative_heights_copied",
    "layout_depends_on_height"
   ],
   "note": "a defect: universal form for negative heights and a concrete pair of translated figures"
  },
  {
   "property": "C42",
   "status": "proved",
   "theorems": [
    "positions_laid_out"
   ],
   "note": "BinaryHeap::pop is a parameter with the contract that it takes out a greatest entry in the order of HeapEntry"
  },
  {
   "property": "C58",
   "status": "proved",
   "theorems": [
    "positions_laid_out",
    "chosen_accuracy_suffices"
   ],
   "note": "order of the emitted lines up to twice the tolerance is a hypothesis (as for C32); debug assertions off; heights up to 2^1022"
  },
  {
   "property": "C59",
   "status": "proved",
   "theorems": [
    "groups_side_by_side"
   ],
   "note": "the order at the start of the group is a hypothesis"
  },
  {
   "property": "C60",
   "status": "proved",
   "theorems": [
    "straight_members_run_past",
    "line_can_run_back",
    "curves_can_run_back"
   ],
   "note": "a defect: the cause is proved for all inputs, reachability by concrete figures"
  },
  {
   "property": "C61",
   "status": "proved",
   "theorems": [
    "positions_laid_out"
   ],
   "note": "the clauses about groups"
  },
  {
   "property": "C62",
   "status": "proved",
   "theorems": [
    "order_until_next_line"
   ],
   "note": "the condition on the heights at which segments leave is necessary (C63); the bound for the code's own tolerances is three times eps"
  },
  {
   "property": "C63",
   "status": "proved",
   "theorems": [
    "order_until_next_line_needs_condition"
   ],
   "note": "a defect: reachability by a concrete figure with exact straight segments"
  },
  {
   "property": "C64",
   "status": "proved",
   "theorems": [
    "comparison_table",
    "comparison_table_release",
    "debug_agrees_with_release",
    "comparisons_fit_the_sweep",
    "comparisons_fit_the_sweep_release"
   ],
   "note": "kurbo's numerics and the estimating parabola are arbitrary parameters; assertions inside solve_t_for_y are not modelled"
  },
  {
   "property": "C65",
   "status": "proved",
   "theorems": [
    "comparison_returns",
    "accuracy_resolved"
   ],
   "note": "the hypothesis on accuracy is needed: halving an interval of two neighbouring floats does not shrink it"
  },
  {
   "property": "C66",
   "status": "proved",
   "theorems": [
    "near_curves_are_close",
    "curve_close_to_itself",
    "touching_curves_ordered",
    "control_points_near"
   ],
   "note": ""
  },
  {
   "property": "C67",
   "status": "proved",
   "theorems": [
    "contour_paths",
    "uncut_contour_paths",
    "contours_from_segments_drawn",
    "reachable_tables_full",
    "polylines_never_cut"
   ],
   "note": "the only failure, a panic when every segment of a contour starts at a cut, is kept as an explicit case; that the part of the input starts where the replaced pieces do is false (C68)"
  },
  {
   "property": "C68",
   "status": "proved",
   "theorems": [
    "rejoining_can_leave_the_input"
   ],
   "note": "a defect: reachability by a concrete figure, with kurbo's formulas for evaluating and cutting curves"
  },
  {
   "property": "C69",
   "status": "proved",
   "theorems": [
    "transversal_after_sound",
    "transversal_before_sound"
   ],
   "note": "exact arithmetic; the rounding of the f64 evaluation is not modelled here"
  },
  {
   "property": "C70",
   "status": "proved",
   "theorems": [
    "quadratic_signs_sound"
   ],
   "note": "exact arithmetic; C64 has the float version of the structural part"
  },
  {
   "property": "C71",
   "status": "proved",
   "theorems": [
    "parabola_approximates",
    "parabola_bounds_even"
   ],
   "note": "exact arithmetic; the root finder is a parameter that misses no root; that the documented bound also holds without the slack for uneven curves was only searched numerically, no violation found"
  },
  {
   "property": "C72",
   "status": "proved",
   "theorems": [
    "comparison_sound",
    "approximation_meets_contract"
   ],
   "note": "exact arithmetic; flat pieces, which the code rotates, are excluded: the model gives no answer for them"
  },
  {
   "property": "C73",
   "status": "proved",
   "theorems": [
    "comparison_answers"
   ],
   "note": "exact arithmetic; C65 is the float version"
  },
  {
   "property": "C74",
   "status": "proved",
   "theorems": [
    "segment_ranges_patch",
    "segment_ranges_members"
   ],
   "note": ""
  },
  {
   "property": "C75",
   "status": "proved",
   "theorems": [
    "line_positions",
    "horizontal_band"
   ],
   "note": "straight segments; positions on cubics come from kurbo's root finders and stay parameters"
  },
  {
   "property": "C76",
   "status": "proved",
   "theorems": [
    "line_bands",
    "straight_positions",
    "straight_default"
   ],
   "note": "discharges positions_sound and starts_in_box for straight input"
  },
  {
   "property": "C77",
   "status": "proved",
   "theorems": [
    "signs_total",
    "signs_right",
    "shift_moves"
   ],
   "note": "shift in exact arithmetic"
  },
  {
   "property": "C78",
   "status": "proved",
   "theorems": [
    "monic_roots_right"
   ],
   "note": ""
  },
  {
   "property": "C79",
   "status": "proved",
   "theorems": [
    "signs_degenerate",
    "signs_linear",
    "signs_linear_wrong"
   ],
   "note": "a defect, for all functions of these kinds"
  },
  {
   "property": "C80",
   "status": "proved",
   "theorems": [
    "sweep_reports"
   ],
   "note": ""
  },
  {
   "property": "C81",
   "status": "proved",
   "theorems": [
    "cubic_positions"
   ],
   "note": "kurbo's evaluation as published; the root finder is a parameter, its accuracy part of the statement"
  },
  {
   "property": "C82",
   "status": "proved",
   "theorems": [
    "cubic_bands",
    "mixed_positions"
   ],
   "note": "kurbo's bounding box as published, its quadratic solver a parameter"
  },
  {
   "property": "C83",
   "status": "proved",
   "theorems": [
    "cubic_parts"
   ],
   "note": "kurbo's subsegment as published; the root finder is a parameter"
  },
  {
   "property": "C84",
   "status": "proved",
   "theorems": [
    "curve_band_covers",
    "mixed_positions_sound"
   ],
   "note": "discharges positions_sound and starts_in_box for lines and rising curves, given accurate root finders"
  },
  {
   "property": "C85",
   "status": "proved",
   "theorems": [
    "pieces_monotone",
    "pieces_flat"
   ],
   "note": "exact arithmetic; an infinite or NaN root is left out, as the loop ignores it; the structure in floating point is C15"
  },
  {
   "property": "C86",
   "status": "proved",
   "theorems": [
    "bounding_box_covers",
    "bounding_box_tight"
   ],
   "note": "kurbo's bounding box as published; the candidates for extremal points are a parameter"
  },
  {
   "property": "C87",
   "status": "proved",
   "theorems": [
    "contours_stay_connected"
   ],
   "note": ""
  },
  {
   "property": "C88",
   "status": "proved",
   "theorems": [
    "scan_tables_name_crossing_segments"
   ],
   "note": "order of the emitted lines up to twice the tolerance is a hypothesis (as for C32)"
  },
  {
   "property": "C89",
   "status": "proved",
   "theorems": [
    "close_heights_complete",
    "close_neighbour_not_reported"
   ],
   "note": "the second theorem refutes the documentation; order of the emitted lines up to twice the tolerance is a hypothesis (as for C32)"
  },
  {
   "property": "C90",
   "status": "proved",
   "theorems": [
    "boolean_operation",
    "open_paths_reported",
    "boolean_operation_accuracy"
   ],
   "note": "composition of C55, C39, C32, C33, C34-C36, C58, C67; hypotheses: numerics_fit (contracts of the numerical parts), sweep_fits (the sweep ends, lines weakly ordered, coincidence sound), roomy"
  }
 ]
}