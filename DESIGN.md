# Formal model of jneem/linesweeper in Rocq (Coq 8.16.1)

## 1. Layout

* `rocq/theories/*Model.v`: the executable model, function by function.  Every definition cites the file and lines of
  `/repo/src` it models and says where it simplifies.
* `rocq/theories/*Spec.v`: the vocabulary of the property statements (what a reader has to read beside the theorems).
* `rocq/theories/*Proofs*.v`, `*Mono.v`, `*Refine.v`, `*Reach.v`, `*Check.v`, `*Abs.v`, `*Scan.v`: lemmas.
* `rocq/theories/Props*.v`: the property theorems, each followed by `Print Assumptions`, and `Example`s showing that
  concrete, non-trivial inputs meet the hypotheses (`PolyExample.v`, `MixExample.v` hold the shared figures).
* `properties.jsonl` (from `tools/gen_properties.py`), `MANIFEST.json` (from `tools/gen_manifest.py` and
  `tools/claims.py`), `seeded/LOG.jsonl` (mutation tests, run by `tools/mutate.py`).

## 2. Modelling conventions

* `usize` indices are `nat` (no wrap-around at 2^64; lists that long do not fit in memory).  `&mut self` returns the new
  value.  A Rust panic (index out of bounds, `unwrap` on `None`, `unreachable!`, `ArrayVec` overflow, failed `assert!`)
  is an explicit `None`/`Err` value, never a default.  `debug_assert!`s are modelled as panics wherever they guard
  something the model can express; `PosModel` has a switch for those of `y_subsegment`.
* `f64` is Flocq's `binary_float 53 1024` (IEEE-754 binary64, one NaN) with the IEEE comparisons and the arithmetic
  `Bplus/Bminus/Bmult/Bdiv/Bsqrt` in round-to-nearest-even.  `ExactModel.v` is a second model of the numerical functions on curves in which
  an `f64` is a real number; its theorems (C69-C73) say that the formulas are right, not that their rounding is harmless.  `f64::min/max` of -0.0 and 0.0 return one fixed choice (Rust leaves it
  open); nothing proved depends on the sign of a zero.
* Code outside the repository, and numerical routines on curves, are *universally quantified parameters* of the theorems:
  kurbo (root finding, evaluation, subsegments, bounding boxes, `BezPath::segments`), `slice::sort_by`,
  `slice::partition_point` (both std implementations are also modelled, C04), `BinaryHeap::pop`.  Where a theorem needs a fact about such a parameter, the fact is a visible hypothesis stating its
  documented contract (section 5).
* Loops whose termination is not structural run on fuel and return a distinguished out-of-fuel value.  Theorems exclude it
  by hypothesis ("the sweep finishes") or prove it impossible (contour walks, layout).  C51 shows why the sweep theorems
  need the hypothesis.
* `TreeVec` inside the sweep is a list, justified by C01; one sweep step's `partition_point` calls are one search function of
  predicate and elements, justified by C49; comparison caches are pure functions of the pair of indices, justified by C14.
* Winding numbers are an abstract commutative group in the topology theorems; `BinOpModel` instantiates it with wrapping
  32-bit arithmetic.

## 3. Trusted base

* Coq 8.16.1's kernel (including `vm_compute`), and Flocq's definitions of binary64 as a description of `f64`.
* The model itself: that each `*Model.v` definition says what the cited lines do.
* Axioms.  The development adds none.  `Print Assumptions` lists, for every theorem of the manifest, one of four sets:
  * *Closed under the global context*: treevec_is_a_vector, treevec_from_iter, treevec_balanced, treevec_iteration,
    treevec_partition_point_old_std, treevec_partition_point_new_std, treevec_b3_refuted, treevec_search_function,
    ordered_float_total, point_order_total, point_order_lexicographic, min_max_agree, push_sequence_invariants,
    pushed_table_wf, flip_involution, flip_wf, lookups_bracket, order_after_next_strict, opposite_push_close_interval,
    order_at_outside, subpaths_partition, merging_loses_nothing, range_batches, range_views, mixed_range_use_panics,
    mixed_range_use_loses, attach_keeps_rings, delete_keeps_rings, boolean_operations, boolean_identities,
    winding_overflow, winding_arithmetic, contours_partition, contours_nest, grouping, grouping_contours, contours_simple.
  * `ClassicalDedekindReals.sig_forall_dec`, `FunctionalExtensionality.functional_extensionality_dep`:
    insertion_keeps_order.
  * the same and `ClassicalDedekindReals.sig_not_dec`: quadratic_signs_sound, comparison_sound, comparison_answers, pieces_flat.
  * `ClassicalDedekindReals.sig_forall_dec`, `ClassicalDedekindReals.sig_not_dec`,
    `FunctionalExtensionality.functional_extensionality_dep`, `Classical_Prop.classic`: every other theorem.  They come from
    the standard library's real numbers, through Flocq's proofs that its float operations are well defined and correctly rounded.

## 4. What is modelled and what is not

| file | modelled | not modelled |
|------|----------|--------------|
| treevec.rs | all of `TreeVec` and `Node`: insert, remove with rebalancing, get/get_mut/index, len, iter/range, iter_mut/range_mut, partition_point, from_iter, check_invariants | `Debug` |
| geom.rs | `Point` and its order, `Segment` constructors and accessors, `force_monotonic`, `monotonic_pieces` (loop and capacity), `is_horizontal`; `at_y`, `local_bbox`, `lower`, `upper` of straight segments (`LineModel.v`) and of cubics (`CubicModel.v`); in exact arithmetic `monotonic_pieces` and `force_monotonic` (`PieceModel.v`) | kurbo's `eval`, `subsegment`, `bounding_box` are modelled as published (in the sweep `lower`/`upper`/`at_y` are parameters); `affine`, `Debug`, test strategies |
| num.rs | the order of `CheapOrderedFloat` | its arithmetic wrappers, test strategies |
| curve/mod.rs | `CurveOrder`: push, iter, flip, next_touch_after, with_y_slop, check_invariants, order_at, entry_at, order_after; comparing curves: `intersect_cubics`, `intersect_cubics_rec`, `with_rotation`, `push_quadratic_signs`, `monic_quadratic_roots`, `max_distance`, `y_subsegment` ; `solve_t_for_y`, `solve_x_for_y`, `y_subsegment` in floating point (`CubicModel.v`) ; `Quadratic::signs`, `max_coeff`, `eval` ; in exact arithmetic also `Quadratic::shift`, `EstParab::from_cubic` (`ExactModel.v`) | `solve_cubic_in_unit_interval`, kurbo's `Affine`, polycool's `roots_between` (parameters); when comparing also `solve_t_for_y` and kurbo's `subsegment`, `bounding_box` |
| curve/transverse.rs | `quad_max_between`, `quad_min_between`, `transversal_after`, `transversal_before`, in exact arithmetic (`ExactModel.v`); parameters in `PosModel.v` | their rounding, debug assertions |
| curve/split_quad.rs | nothing (dead code ending in `todo!()`) | |
| order.rs | `ComparisonCache` | |
| segments.rs | the arena: all `add_*` functions, subpath splitting, contour links, enter/exit lists, read-back accessors, check_invariants | `Debug`/`Display` |
| sweep/sweep_line.rs | `SegmentOrderEntry`, `EventQueue`, `Sweeper::{new, next_line, advance, scans, handle_*, insert, compute_*_changed_intervals}`, `merge_adjacent`, `insertion_idx`, `position`, `feasible_horizontal_positions`, `next_range_single_seg`, `next_range` | `check_invariants` and `check_changed_interval_closeness` under the slow-asserts feature, `find_invalid_order` (tests), buffer reuse |
| sweep/range.rs, sweep/output_event.rs | `HFrag`, `SweepLineRange` and its iteration (`x`, `events`, `increase_x`, `update_segments_at_x`, horizontals), `OutputEvent` and its order, `old_segment_range`, `segment_range` | `check_invariants` |
| sweep/mod.rs | all (`CallbackModel.v`, C80); the same composition of lines, ranges and events is in `TopoModel.from_segments` | - |
| topology.rs | `WindingNumber` instances, `from_paths`, `from_segments`, ring surgery, `process_sweep_line_range`, `merge_coincident`, winding accessors, `contours`, `grouped`, scan-line orders, the call of `compute_positions`, `segs_to_path` with `can_merge`, `bounding_box` (`BoundsModel.v`) | `dump_svg` |
| position.rs | all of `compute_positions`, `ordered_curves_all_close`, `approximate`, `next_subsegment`, the heap order | |
| lib.rs | `binary_op` and `binary_op_with_eps` as a whole (`BinaryModel`), the accuracy and the `inside` predicate (`BinOpModel`) | error formatting; debug assertions of the layout are off |
| typed_vec.rs | vectors are lists | |
| arbitrary.rs, generators.rs, perturbation.rs | not modelled (test support) | |

`contours` yields lists of half-segments (`ContoursModel.v`), drawn by `segs_to_path` (`PathModel.v`); the final `ClosePath` is left out.  kurbo's `PathSeg::subsegment` and
the root finding inside `solve_t_for_y` are parameters there, without assumptions.

## 5. Contracts of the parameters

* `sort_spec`: `sort_by` returns a stable sorted permutation when the comparison is a total preorder on the input.
* `search_ok`/`search_mono`: `partition_point` returns a boundary, and is monotone in the predicate (proved for `TreeVec`:
  C04, C49).
* `comparer_ok` (`SweepSpec.v`): a comparison of two overlapping, non-horizontal segments is a well-formed table (C07) that ends where the
  shorter one ends, with finite heights, and without zero-height strict intervals after its beginning.  Nothing is assumed about the
  orders reported.  C09 and C12 are why the last clause holds after `with_y_slop`.
* `answers_from` (`CompareSpec.v`): the cache is filled by the modelled comparison; C64 derives `comparer_ok` from it.  `steady`, `calm`: rotated
  curves keep the order of heights and rotations nest finitely often; `resolved`: the accuracy exceeds the spacing of the floats.
* `consistent`: the comparisons are antisymmetric (C14) and "strictly left of" is transitive.  Needed by C43, C44, C62.
* `sees` (C62): a table tells left from right up to a tolerance, as documented for `intersect_cubics`.  For the code's
  own numbers (tolerance and accuracy per cache, y slop) the bound of C62 becomes three times eps; pairs of almost horizontal segments are
  where the documented guarantee itself is weakest.
* `close_sound`, `starts_in_box`, `op_exact`, `positions_sound`, `est`: see the comments beside them in `*Spec.v`.  For straight input C76 proves
  `positions_sound` and `starts_in_box` of the modelled `at_y`, `lower` and `upper`; for lines and curves C82 proves
  `positions_numbers` and `starts_in_box`, and C84 `positions_sound` if the curves rise and the tolerance exceeds the accuracy of the root finders.
* `looks_inside`, `finds_crossings`, `finds_extremes` (`CubicSpec.v`, C81-C83), `finds_bounds` (`BoundsSpec.v`, C86): the root finder returns numbers between 0 and 1, its accuracy, and that of
  the extremal points.  `CubicGrid.v` has root finders with these properties and an accuracy of 2^-43 of the coordinates.
* `solves`, `boxes`, `finds_roots`, `estimates` (`ExactSpec.v`, C69-C73): parameters of heights, boxes and roots are exact, and no root is missed; such
  solvers exist (`ideal_t`, `ideal_box`, `ideal_roots` in the examples).  `solve_cubic_in_unit_interval` drops small leading coefficients and is only
  approximately of that kind.
* `boxes_ordered` (in `topo_input`, hypothesis of C27, C31-C33, C43, C54, C57, C58, C67, C74, C87-C90): of two entries of an emitted line the earlier one's lower
  bound minus eps is at most the later one's upper bound plus eps.  C62 proves, for exact geometry, that lines stay in order between events; C63 shows
  a figure where they do not.  `old_weakly_ordered`, `new_weakly_ordered` (the same without the extra eps) are needed only for the claim of C27 that
  positions stay in the bands: that reported positions follow the order needs neither, and the topology needs of `lower`, `upper` and `at_y` only that they
  return numbers (`positions_numbers`).

## 6. Properties

All 90 are stated as theorems and proved; negative properties (defects, refuted documentation) are proved by exhibiting the
history or figure *inside the model of the full code path*.  Plan and method:

| id | what is modelled | how it is proved |
|----|------------------|------------------|
| C01-C05, C49 | `TreeVec` as a tree with exact capacities | refinement to lists by induction over histories; C05 by a witness history |
| C06 | IEEE floats | embedding of the non-NaN floats in Z (`key`) |
| C07-C13 | interval tables | induction over tables; refutations by witness |
| C14 | cache as an association list over an arbitrary comparison | invariant over query histories |
| C15-C20, C45-C47, C55 | arena and path ingestion | invariants over histories of additions; C18, C20 exact characterisations and witnesses |
| C21-C26, C48, C50 | the sweep as a state machine over arbitrary comparisons | invariants by induction over handled events and lines (`SweepProofs*.v`) |
| C44 | `insertion_idx` | loop invariants |
| C51 | the same | an invariant showing that the state repeats: no fuel suffices |
| C62, C63 | the same, with segments as exact functions of height | abstraction (`OrderAbs.v`) of scans and events, invariant over lines; C63 by computation on a figure |
| C64-C66 | comparing curves: recursion on intervals, estimate, rotation, over IEEE floats with kurbo's numerics as parameters | invariants of the table under construction; monotonicity of rounding (Flocq); induction on the height of the interval |
| C67, C68 | drawing contours (`segs_to_path`) | specification of runs of joined segments; induction over the segments of a contour; C68 by computation on a figure |
| C69-C73 | the formulas of transverse.rs, `EstParab::from_cubic`, `push_quadratic_signs` and the comparison, over the real numbers (`ExactModel.v`) | derivatives, extrema and intermediate values from the standard library's reals; invariants of the table under construction |
| C74 | `old_segment_range`, `segment_range` | the lists of two consecutive lines as concatenations over the ranges of the second |
| C75, C76 | `at_y`, `lower`, `upper` of straight segments over IEEE floats (`LineModel.v`) | monotonicity of rounding; error bounds from Flocq; the contracts of the sweep by cases on contour neighbours |
| C77-C79 | `Quadratic::signs` and `monic_quadratic_roots` over IEEE floats (`QuadModel.v`) | calculus of relative errors (`NearArith.v`) on Flocq's rounding; backward error of the discriminant |
| C80 | `sweep` with a callback, as the list of calls (`CallbackModel.v`) | induction on the batches of a range (C28), the ranges of a line (each segment in at most one), and the lines (C21-C23, C26) |
| C81-C83 | `solve_t_for_y`, `solve_x_for_y`, `y_subsegment`, `local_bbox`, `lower`, `upper` of cubics over IEEE floats (`CubicModel.v`), root finders as parameters | calculus of absolute errors in units of the size of the coordinates (`CubicProofs.v`), convexity, the exact curve as specification (`ExactSpec.v`) |
| C84 | the same | the curve rises, so a height well inside the window is solved between the parameters of its ends; `box_covers` |
| C85 | `geom.rs` splitting over the reals | between two consecutive roots the derivative has one sign, so a piece is monotone and its control points already satisfy what is forced; sign of a quadratic from its roots, the same lemmas as C69 |
| C86 | `Topology::bounding_box` over floats | minima and maxima of lists; the rounding of an evaluated point (C81); a straight segment's third points are within 8.5 roundings of the straight line; heights by exchanging the coordinates |
| C87 | the topology builder's run over all lines (C30, C31) | invariant of the run: each point is labelled with the range that made it; each registered segment is not begun, open with a trail ending in its open output segment, or closed with a trail ending at its end; inside a range the views give the horizontal pieces in order (C28); corners meet because a range contains both segments of a corner (C54), a segment is in one range per height (C80), and a range has one point per position |
| C88 | the scan-line tables (C43) and the input segments | the invariant of C43 extended: rows of segments that still cross only have entries from their top to the line, entries of closed ones are above the lower end; an entry's neighbour is the answer to a query at its height, hence next to the row's segment in the order of the line |
| C89 | `close_neighbor_height_after` on the tables of C43 | a row's entries are periods, each ending before later ones start; the loop stops at the first period with a close interval starting in time, and intervals are sorted; C88 gives that comparisons of neighbours are between overlapping segments |
| C90 | `binary_op`, `binary_op_with_eps` (`BinaryModel`): all models put together, the numerical parts in one record of functions | composition: C55 gives an arena that can be swept, C32 and C33 its topology, C58/C59 the layout, C34-C36 the contours, C67 their paths; straight input has no cuts (`lines_never_cut`), so nothing panics; two copies of a triangle meet all hypotheses (`bi_meets`) |
| C27-C29 | positions and range iteration | induction over entries and events |
| C30-C33, C54, C56, C57 | half-edge topology, merging | ring invariants over attach/delete; winding invariant along lines; C56 by computation |
| C34-C36, C52, C53 | contours | walk invariants, termination measure; C53 by computation |
| C37-C39 | `binary_op` | arithmetic on Z and floats |
| C40-C42, C58-C61 | layout of the output | invariants of the queue loop; C41, C60 also by computation on figures |
| C43 | scan-line neighbour tables | induction over the lines |

## 7. Findings (behaviour of the pinned commit that a user would not expect)

* C05: `TreeVec` with B = 3 panics on in-bounds use.  C09/C13/C10: corner cases where `CurveOrder`'s doc comments are false.
* C18: open Bezier paths leave contour links that dangle.  C20: a rejected path leaves its segments in the arena.
* C29: alternating `increase_x` and `events` as documented panics or loses events.
* C38: NaN in one coordinate axis only passes the check of `binary_op`.
* C41: the layout of close curves is skipped for negative heights, so the result depends on vertical translation.
* C51: with comparisons that satisfy every structural guarantee the event loop at one height may run forever.
* C53: a hole touching its outer boundary at a point (bow tie) is reported as an outer contour.
* C56: three coincident segments are not always merged.
* C60: redrawn paths may run back up; closeness that begins late is not noticed for straight lines.
* C63: where a segment ends exactly at a crossing's height, the crossing of its neighbours can be missed.
* C68: joining the monotone pieces of a curve again replaces only the copied piece at the extremum, by a part of the curve that extends to the far end of
  the output segment; if the rest of that segment was redrawn, the path jumps.  Joining also does not check that both pieces come from the same input curve.
* Comparing curves halves intervals until they are shorter than the accuracy; if that is finer than the floats the halves stop shrinking and the
  recursion does not end (C65 assumes more).  In a debug build an estimate with a close interval of height zero fails an assertion.
* C72: pieces of a height of exactly the accuracy are neither compared by their boxes (`<`) nor refined (`<=`), so "close" says nothing for them.
* C74: `old_segment_range` takes a missing old index as an index within the range and then subtracts the start of the range (it would underflow; no weakly ordered line
  has such an entry).  C75: `lower` of a long horizontal segment is not a lower bound (`at_y` reports the right end); the sweep never asks.
* C79: `Quadratic::signs` reports multiples of x^2 and constants as zero everywhere, and the wrong sign for linear functions whose leading zero has the wrong sign.
* C89: the documentation of `close_west_neighbor_height_after` promises the next height with a close neighbour; a neighbour close since before the given height is not found.
* `solve_cubic_in_unit_interval` compares the leading coefficient with `c2` twice and never with `c0` (a typo by the symmetry of the code).
* `approximate` does not terminate for accuracies below an ulp of the heights (C58 assumes more; C58's second theorem shows that
  `binary_op` chooses enough).

## 8. Mutation tests

`tools/mutate.py spec.json` copies the built tree to `/tmp/mut`, applies one textual edit to a model file, rebuilds what depends on it,
and records the lemmas and theorems that fail in `seeded/LOG.jsonl`; a survivor leads to a tightened theorem, noted in the same line.
