c("C01", "proved", ["treevec_is_a_vector", "treevec_from_iter"])
c("C02", "proved", ["treevec_balanced"])
c("C03", "proved", ["treevec_iteration", "treevec_is_a_vector"])
c("C04", "proved", ["treevec_partition_point_old_std", "treevec_partition_point_new_std"], "both implementations of slice::partition_point in std (before/after 1.82) are modelled")
c("C05", "proved", ["treevec_b3_refuted"], "witness history for B = 3")
c("C06", "proved", ["ordered_float_total", "point_order_total", "point_order_lexicographic", "min_max_agree"])
c("C07", "proved", ["push_sequence_invariants", "pushed_table_wf"])
c("C08", "proved", ["flip_involution", "flip_wf"])
c("C09", "proved", ["with_y_slop_weakens", "with_y_slop_weakens_at_start_refuted"], "proved for every height strictly above the table's start, as an exact characterisation; at the start height itself the claim is false for tables beginning with a zero-height close interval, shown by the refuted theorem")
c("C10", "proved", ["next_touch_after_spec", "touch_height", "next_touch_complete", "next_cross_complete", "touches_skipped_from_close_interval", "next_touch_is_next_touch_refuted"], "the doc's 'next height at which they touch' is refuted from inside a close interval")
c("C11", "proved", ["lookups_bracket", "order_after_next_strict"])
c("C12", "proved", ["opposite_push_close_interval", "opposite_push_keeps_order_refuted"])
c("C13", "proved", ["order_at_outside"])
c("C14", "proved", ["comparisons_stable_antisymmetric", "comparisons_come_from_intersection"], "intersect_cubics is an arbitrary function of the two segment indices")
c("C15", "proved", ["contour_links_inverse", "contour_links_meet"], "histories of successful additions without open bezier paths; meeting of curves assumes that evaluating a curve at 0 and 1 gives its end points (op_exact)")
c("C16", "proved", ["segments_read_back", "polyline_read_back", "closed_polyline_read_back", "polylines_never_panic"], "no NaN hypothesis needed")
c("C17", "proved", ["open_polyline_ends", "closed_contour_cycles"])
c("C18", "proved", ["open_bez_dangling_links", "open_path_has_no_neighbours_refuted"], "characterisation for every open subpath, and the documented behaviour refuted by a concrete history")
c("C19", "proved", ["events_enumerate", "events_sorted_by_height"], "sort_by is any function meeting the documented contract of slice::sort_by (sort_spec); sortedness assumes non-NaN heights")
c("C20", "proved", ["failed_addition_not_rolled_back"])
c("C45", "proved", ["monotonic_pieces_tile"])
c("C46", "proved", ["subpaths_partition"])
c("C47", "proved", ["bez_path_panics_only_on_bad_input", "polylines_never_panic"])
c("C21", "proved", ["sweep_heights_increase"], "for arbitrary comparison routines, searches and sorts")
c("C22", "proved", ["segments_enter_once", "segments_exit_once", "reachable_sweepable"], "sweeps that complete; reachable_sweepable shows that every arena built by successful additions (no open bezier path) with finite coordinates satisfies the arena hypotheses")
c("C23", "proved", ["line_holds_active_segments", "sweep_never_panics"])
c("C24", "proved", ["crossing_handled", "crossing_permutes"])
c("C25", "proved", ["merging_loses_nothing"])
c("C26", "proved", ["changed_intervals_closed"])
c("C48", "proved", ["sweep_never_panics", "reachable_sweepable"], "the model's event loop has a fuel bound; running out of it is not a panic of the code")
c("C49", "proved", ["treevec_search_function"])
c("C50", "proved", ["lines_continue"])
c("C51", "proved", ["sweep_terminates_refuted"], "the property is negative: non-termination on a concrete sound input is what is proved")
c("C44", "proved", ["insertion_keeps_order"])
c("C27", "proved", ["range_positions"], "order of the emitted lines up to twice the tolerance is a hypothesis; weak order only for the claim about bands; the band and position routines are quantified over (they return numbers; positions_sound only for bands)")
c("C28", "proved", ["range_batches", "range_views"])
c("C29", "proved", ["mixed_range_use_panics", "mixed_range_use_loses"], "a defect of the documented usage: the theorems say exactly when it panics and what is lost otherwise")
c("C30", "proved", ["topology_rings", "attach_keeps_rings", "delete_keeps_rings"], "rings: one circular doubly linked list per vertex, together all half-segments")
c("C31", "proved", ["topology_rings"], "order of the emitted lines up to twice the tolerance is a hypothesis (see C62)")

c("C37", "proved", ["boolean_operations", "boolean_identities", "winding_overflow"], "the Boolean predicate handed to contours(); overflow of the 32-bit counters included")
c("C38", "proved", ["accuracy_choice", "accuracy_covers", "nan_slips_through"], "the bounding box comes from kurbo and is quantified over; nan_slips_through is a defect: NaN in one axis only is accepted, contrary to the comment in the code")
c("C39", "proved", ["winding_arithmetic"])

c("C34", "proved", ["contours_partition"], "contours are given by their output segments; the curve fitted to them (segs_to_path) is not modelled")
c("C35", "proved", ["contours_nest"])
c("C36", "proved", ["grouping", "grouping_contours"])
c("C52", "proved", ["contours_simple"])
c("C53", "proved", ["pinched_hole_outer"], "a defect: existence of a concrete input is what is proved")

c("C32", "proved", ["winding_consistent"], "order of the emitted lines up to twice the tolerance is a hypothesis (see C62); the winding number group is abstract (instances in PropsBinOp)")
c("C54", "proved", ["corners_stay_together"])

c("C55", "proved", ["from_paths_collects"])

c("C33", "proved", ["merging_sound"], "order of the emitted lines up to twice the tolerance is a hypothesis (as for C32); the closeness test is an oracle with a soundness contract at the heights of the sweep")
c("C56", "proved", ["coincident_left"], "a defect: existence of a concrete input is what is proved")
c("C57", "proved", ["from_segments_sound"], "the finished sweep (see C51 for termination) and order of the emitted lines up to twice the tolerance are hypotheses")
c("C43", "proved", ["scan_orders_exact"], "order of the emitted lines up to twice the tolerance is a hypothesis (as for C32)")
c("C40", "proved", ["paths_keep_ends", "positions_laid_out"], "paths_keep_ends holds whatever the numeric helpers do")
c("C41", "proved", ["negative_heights_copied", "layout_depends_on_height"], "a defect: universal form for negative heights and a concrete pair of translated figures")
c("C42", "proved", ["positions_laid_out"], "BinaryHeap::pop is a parameter with the contract that it takes out a greatest entry in the order of HeapEntry")
c("C58", "proved", ["positions_laid_out", "chosen_accuracy_suffices"], "order of the emitted lines up to twice the tolerance is a hypothesis (as for C32); debug assertions off; heights up to 2^1022")
c("C59", "proved", ["groups_side_by_side"], "the order at the start of the group is a hypothesis")
c("C60", "proved", ["straight_members_run_past", "line_can_run_back", "curves_can_run_back"], "a defect: the cause is proved for all inputs, reachability by concrete figures")
c("C61", "proved", ["positions_laid_out"], "the clauses about groups")
c("C62", "proved", ["order_until_next_line"], "the condition on the heights at which segments leave is necessary (C63); the bound for the code's own tolerances is three times eps")
c("C63", "proved", ["order_until_next_line_needs_condition"], "a defect: reachability by a concrete figure with exact straight segments")
c("C64", "proved", ["comparison_table", "comparison_table_release", "debug_agrees_with_release", "comparisons_fit_the_sweep", "comparisons_fit_the_sweep_release"], "kurbo's numerics and the estimating parabola are arbitrary parameters; assertions inside solve_t_for_y are not modelled")
c("C65", "proved", ["comparison_returns", "accuracy_resolved"], "the hypothesis on accuracy is needed: halving an interval of two neighbouring floats does not shrink it")
c("C66", "proved", ["near_curves_are_close", "curve_close_to_itself", "touching_curves_ordered", "control_points_near"], "")
c("C67", "proved", ["contour_paths", "uncut_contour_paths", "contours_from_segments_drawn", "reachable_tables_full", "polylines_never_cut"], "the only failure, a panic when every segment of a contour starts at a cut, is kept as an explicit case; that the part of the input starts where the replaced pieces do is false (C68)")
c("C68", "proved", ["rejoining_can_leave_the_input"], "a defect: reachability by a concrete figure, with kurbo's formulas for evaluating and cutting curves")
c("C69", "proved", ["transversal_after_sound", "transversal_before_sound"], "exact arithmetic; the rounding of the f64 evaluation is not modelled here")
c("C70", "proved", ["quadratic_signs_sound"], "exact arithmetic; C64 has the float version of the structural part")
c("C71", "proved", ["parabola_approximates", "parabola_bounds_even"], "exact arithmetic; the root finder is a parameter that misses no root; that the documented bound also holds without the slack for uneven curves was only searched numerically, no violation found")
c("C72", "proved", ["comparison_sound", "approximation_meets_contract"], "exact arithmetic; flat pieces, which the code rotates, are excluded: the model gives no answer for them")
c("C73", "proved", ["comparison_answers"], "exact arithmetic; C65 is the float version")
c("C74", "proved", ["segment_ranges_patch", "segment_ranges_members"], "")
c("C75", "proved", ["line_positions", "horizontal_band"], "straight segments; positions on cubics come from kurbo's root finders and stay parameters")
c("C76", "proved", ["line_bands", "straight_positions", "straight_default"], "discharges positions_sound and starts_in_box for straight input")
c("C77", "proved", ["signs_total", "signs_right", "shift_moves"], "shift in exact arithmetic")
c("C78", "proved", ["monic_roots_right"], "")
c("C79", "proved", ["signs_degenerate", "signs_linear", "signs_linear_wrong"], "a defect, for all functions of these kinds")
c("C80", "proved", ["sweep_reports"], "")
c("C81", "proved", ["cubic_positions"], "kurbo's evaluation as published; the root finder is a parameter, its accuracy part of the statement")
c("C82", "proved", ["cubic_bands", "mixed_positions"], "kurbo's bounding box as published, its quadratic solver a parameter")
c("C83", "proved", ["cubic_parts"], "kurbo's subsegment as published; the root finder is a parameter")
c("C84", "proved", ["curve_band_covers", "mixed_positions_sound"], "discharges positions_sound and starts_in_box for lines and rising curves, given accurate root finders")
c("C85", "proved", ["pieces_monotone", "pieces_flat"], "exact arithmetic; an infinite or NaN root is left out, as the loop ignores it; the structure in floating point is C15")
c("C86", "proved", ["bounding_box_covers", "bounding_box_tight"], "kurbo's bounding box as published; the candidates for extremal points are a parameter")
c("C87", "proved", ["contours_stay_connected"], "")
c("C88", "proved", ["scan_tables_name_crossing_segments"], "order of the emitted lines up to twice the tolerance is a hypothesis (as for C32)")
c("C89", "proved", ["close_heights_complete", "close_neighbour_not_reported"], "the second theorem refutes the documentation; order of the emitted lines up to twice the tolerance is a hypothesis (as for C32)")
c("C90", "proved", ["boolean_operation", "open_paths_reported", "boolean_operation_accuracy"], "composition of C55, C39, C32, C33, C34-C36, C58, C67; hypotheses: numerics_fit (contracts of the numerical parts), sweep_fits (the sweep ends, lines weakly ordered, coincidence sound), roomy")
