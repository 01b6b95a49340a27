#!/usr/bin/env python3
# Generates /verif/properties.jsonl (kept as source so that edits stay reviewable).
import json, os
P = []
def p(title, statement, quantifier, why, anchors):
    P.append(dict(id="C%02d" % (len(P)+1), title=title, statement=statement, quantifier=quantifier,
                  why_tests_cant=why, anchors=anchors))

p("TreeVec behaves exactly like a plain vector",
  "Starting from TreeVec::new() (or from_iter), after any sequence of insert, remove, get, get_mut/IndexMut writes, loops over iter_mut/range_mut, len and is_empty calls, every call returns what the same call on a plain growable vector would return: insert panics exactly when index > len, remove and Index panic exactly when index >= len, get returns None exactly when index >= len, and no internal fixed-capacity node ever overflows.",
  "all element types, all node widths B >= 4, all finite operation sequences and all indices",
  "split, merge and rebalance interact at every tree shape; a test only visits a handful of shapes and widths",
  ["src/treevec.rs: TreeVec::{new,insert,remove,get,get_mut,len,is_empty,from_iter}, Node::{insert,remove,merge_from_right,merge_from_left,get}, child_idx"])
p("TreeVec stays balanced with correct size bookkeeping",
  "After any operation sequence every node other than the root holds between B/2 and B entries, every recorded subtree size is the true number of elements below it, all leaves are at the same depth, an internal root has at least two children, and therefore the depth is logarithmic in the length: 2*(B/2)^h <= len for a tree with h >= 1 internal levels.",
  "all B >= 4, all finite operation sequences",
  "the invariant must survive every interleaving of splits, absorbs and rebalances",
  ["src/treevec.rs: Node, TreeVec::check_invariants, merge_from_left, merge_from_right"])
p("TreeVec iteration visits exactly the stored elements in order",
  "iter() yields precisely the elements of the container in index order and then None, and range(a..b) yields exactly elements a..b in order, panicking exactly when the range is out of bounds. A loop writing through the references of iter_mut or range_mut changes exactly the elements of the range, each once and in order, and nothing else.",
  "all reachable trees, all B >= 4, all ranges",
  "the iterator is a hand-written explicit-stack machine with a remaining counter; off-by-one stack unwinding shows up only at certain depths and boundaries",
  ["src/treevec.rs: TreeIter::{descend,descend_to,next}, TreeVec::{iter,range,iter_mut,range_mut,normalize_bounds}, TreeIterMut"])
p("TreeVec::partition_point finds a true/false boundary",
  "For every predicate, partition_point returns an offset o <= len such that the predicate is false at o (or o = len) and true at o-1 (or o = 0); for a predicate that is true on a prefix and false afterwards it returns exactly the length of that prefix.",
  "all reachable trees, all B >= 4, all pure predicates including non-monotone ones",
  "the documented guarantee for unsorted data quantifies over every predicate",
  ["src/treevec.rs: TreeVec::partition_point, Node::partition_point"])
p("TreeVec needs B >= 4",
  "The width bound is necessary: with B = 3 there is a sequence of insertions and a removal, all in bounds, that hits a panic instead of behaving like a vector.",
  "existence of a history for B = 3",
  "the source only carries a comment asking whether B >= 4 should be enforced",
  ["src/treevec.rs: Node::remove lines 360-366"])
p("Points and ordered floats are totally ordered, y first",
  "Comparing points (and CheapOrderedFloat values) gives a total preorder on non-NaN coordinates that compares y first and x second, and -0.0 and 0.0 compare equal; min/max agree with it.",
  "all finite and infinite f64 values",
  "2^128 coordinate pairs; the order drives every sort in the sweep",
  ["src/geom.rs: impl Ord for Point", "src/num.rs: CheapOrderedFloat"])
p("Curve comparison tables keep their invariants",
  "Any table built by pushing (end, order) entries with non-decreasing ends has non-decreasing interval ends, never two adjacent intervals with the same order, and two adjacent intervals always include one 'close' (Ish) interval, so the orders alternate strict/close.",
  "all push sequences with non-decreasing ends",
  "the push coalescing logic has several cases whose interaction is only visible over whole histories",
  ["src/curve/mod.rs: CurveOrder::{new,push,check_invariants}"])
p("Flipping a curve comparison is an involution that swaps left and right",
  "flip() applied twice gives the original table back, preserves all heights, and the order at any height of the flipped table is the mirrored order at that height of the original.",
  "all tables and all heights",
  "must hold for every table and height",
  ["src/curve/mod.rs: CurveOrder::flip, Order::flip, order_at"])
p("Adding vertical slop only ever weakens a comparison",
  "with_y_slop(slop) keeps the y range and the table invariants, and at each height the resulting order is either the original order there or 'close'; it never turns a Left into a Right, and never produces a strict order at a height where the original was close.",
  "all invariant-satisfying tables and all non-negative slops (no overflow)",
  "float rounding in the expanded interval ends must be monotone for every value",
  ["src/curve/mod.rs: CurveOrder::with_y_slop"])
p("next_touch_after terminates and reports the first close interval correctly",
  "On every table with ordered non-NaN heights and alternating orders, next_touch_after(y) terminates without panicking. It reports nothing only if no Right interval of positive height ends after y; a reported touch is the middle of a close interval starting after y and followed by Left, with no Right interval before it; a reported cross precedes the first Right interval ending after y and is y itself inside that interval or the middle of the close interval before it. The first close interval is reported when it starts after y; when y itself lies in a close interval all later touches are skipped, so the documented 'next height at which they touch' is not what is returned.",
  "all invariant-satisfying tables and heights",
  "the function walks a cursor through unboundedly many intervals and contains an unreachable! branch",
  ["src/curve/mod.rs: CurveOrder::next_touch_after, NextTouch"])
p("order_at / entry_at / order_after return the interval that contains the height",
  "For a height inside a table's range, order_at returns the order of the first interval whose end is at or beyond the height, entry_at the first interval ending strictly beyond it, and order_after the first strict order among the intervals ending beyond it; the start and end attached to an iterated entry bracket the height.",
  "all tables and heights in range",
  "all tables",
  ["src/curve/mod.rs: CurveOrder::{order_at,entry_at,order_after,iter}"])
p("Opposite strict orders are separated by an explicit close entry",
  "Pushing a Right interval directly after a Left interval (or vice versa) records a close interval between them; the documentation calls this a zero-height close interval, but the code makes the close interval extend over the whole pushed range, leaving the pushed strict interval with zero height.",
  "all push sequences",
  "discrepancy between comment and code that no test exercises",
  ["src/curve/mod.rs: CurveOrder::push"])
p("order_at outside the table's range",
  "The documentation says order_at panics for a height outside the range; the code panics exactly for heights beyond the last end and silently answers with the first interval's order for heights below the start.",
  "all tables and heights",
  "documentation claim over all inputs",
  ["src/curve/mod.rs: CurveOrder::order_at"])
p("Comparisons of the same two curves are stable and antisymmetric",
  "For any sequence of queries against one ComparisonCache, asking for the same ordered pair always gives the same table and asking for the reversed pair gives exactly the flipped table, whatever was asked in between and whichever direction was asked first.",
  "all query histories, all curve-intersection routines",
  "quantifies over all interleavings of cache hits and misses",
  ["src/order.rs: ComparisonCache::{compare_segments,new,new_without_y_slop}"])
p("Contour links in a segment arena are consistent",
  "After any sequence of successful additions of polylines and closed contours, following contour_next and then contour_prev returns to the same segment (and vice versa), and the oriented end point of a segment equals the oriented start point of its contour successor.",
  "all sequences of additions of arbitrary point lists",
  "the link arithmetic (saturating_sub, patch-up of first/last) must hold for every batch size including 0 and 1",
  ["src/segments.rs: Segments::{add_points,add_closed_polyline,add_closed_polylines,contour_next,contour_prev,check_invariants}"])
p("Stored segments point upwards in sweep order and remember their orientation",
  "Every stored segment's start is <= its end in the point order, and reading it back with its orientation flag recovers the input edge's endpoints in input order; no input edge is lost or duplicated.",
  "all point lists without NaN",
  "all inputs",
  ["src/segments.rs: add_points, oriented_start, oriented_end", "src/geom.rs: Segment::straight"])
p("Open polylines have no neighbour at their ends, closed contours always do",
  "For an open polyline the first segment has no predecessor and the last no successor; in a closed contour every segment has both and successor iteration cycles through exactly the segments of that contour.",
  "all batch sequences",
  "depends on index arithmetic over whole histories",
  ["src/segments.rs: add_points"])
p("Open bezier paths leave dangling contour links",
  "Documented contour_prev/contour_next = None at the ends of an open path is violated by add_non_closed_bez_path: for every subpath that does not return to its start, the first segment claims the arena index before it as predecessor (itself when it is segment 0) and the last claims the arena index after it as successor, whether or not that segment exists or belongs to the contour.",
  "existence of an input; characterisation for all inputs",
  "the doc comment promises None for every open path",
  ["src/segments.rs: add_non_closed_bez_path, add_bez_path"])
p("The enter and exit lists enumerate every segment exactly once in sweep order",
  "After any additions, the entrance list contains every segment exactly once sorted by start height, and the exit list contains exactly the non-horizontal segments, each once, sorted by end height.",
  "all histories of successful additions",
  "must be a permutation for every input",
  ["src/segments.rs: Segments::update_enter_exit, entrances, exits"])
p("A failed path addition is not rolled back",
  "add_bez_path returning an error leaves already-added segments in the arena without entrance/exit entries; later sweeps over the arena silently ignore them.",
  "existence of an input",
  "error paths are not exercised",
  ["src/segments.rs: add_bez_path"])
p("Sweep heights strictly increase",
  "Successive calls of next_line return sweep lines whose y strictly increases, whatever the curve comparison routine answers.",
  "all segment sets, all comparison oracles, all numbers of calls",
  "unbounded executions; depends on every event inserted during handling being not earlier than the current height",
  ["src/sweep/sweep_line.rs: Sweeper::next_line, EventQueue, IntersectionEvent"])
p("Every segment enters and exits the sweep exactly once",
  "In a complete sweep every segment is entered exactly once at its start height, and every non-horizontal one is exited exactly once at its end height, in all cases (including contour continuations replacing a predecessor in place).",
  "all segment sets, all comparison oracles",
  "whole-execution property",
  ["src/sweep/sweep_line.rs: EventQueue::{next_enter,next_exit}, handle_enter, handle_exit, handle_contour_continuation"])
p("The sweep line holds exactly the active segments, without duplicates, and exits never fail to find their segment",
  "Between sweep heights the line contains precisely the segments with start.y <= y and end.y > y, each exactly once; consequently looking up a segment that is about to exit never panics.",
  "all executions of the sweeper over well-formed segments",
  "invariant over unbounded event histories",
  ["src/sweep/sweep_line.rs: Sweeper::{advance,handle_enter,handle_exit,handle_intersection}, SegmentOrder"])
p("Intersection handling only permutes the sweep line",
  "Handling an intersection event never loses, duplicates or invents a segment, leaves every entry outside the event's index range unchanged, and afterwards the right segment precedes the left one, unless some segment lies strictly between the two, in which case nothing moves and the event is postponed to a strictly larger height.",
  "all sweep-line states and both event kinds",
  "all states",
  ["src/sweep/sweep_line.rs: Sweeper::handle_intersection"])
p("Merging changed intervals loses nothing",
  "merge_adjacent turns a list of index ranges sorted by start into pairwise non-overlapping, non-touching ranges that cover exactly the same indices.",
  "all sorted range lists",
  "all lists",
  ["src/sweep/sweep_line.rs: merge_adjacent"])
p("Changed intervals are in bounds, disjoint and closed under reordering",
  "The intervals reported for a sweep height are sorted, disjoint, inside the line, cover every segment that entered, exited or moved, and each moved segment's old and new index lie in the same interval, so the old order inside an interval is a permutation of the interval.",
  "all executions",
  "invariant across enter/exit/intersection index shifting",
  ["src/sweep/sweep_line.rs: compute_changed_intervals, next_range"])
p("Horizontal positions respect the sweep order and tolerance bands",
  "Every changed interval of a sweep line whose entries are in order up to twice the tolerance is reported by next_range without panic: exactly one event per segment of the interval, connected above/below exactly if the segment starts above/ends below the line, with its old and new index, and with its true end where it is not connected. The x positions above (below) are non-decreasing in the old (new) order; if the segments just above (below) are weakly ordered (each lower bound is at most every later upper bound), each position lies within the segment's own tolerance band.",
  "all sweeps, all lines and intervals, all contents of the reused buffers, all band functions",
  "running max/min scans over unbounded lists of floats",
  ["src/sweep/sweep_line.rs: feasible_horizontal_positions, next_range"])
p("Enumerating a sweep-line range visits x positions in strictly increasing order and tiles horizontals",
  "Calling events() until exhaustion, or x()/update_segments_at_x()/active_horizontals()/increase_x() until exhaustion, terminates and visits exactly the end points of the events in strictly increasing order; each point event is reported once at its x, and each horizontal event is cut at every visited position into consecutive pieces, marked connected above/below only at its true ends; the segments connected up and down at each position are listed in old and new sweep-line order.",
  "all sorted event lists",
  "whole-iteration property over unbounded event lists",
  ["src/sweep/range.rs: SweepLineRange::{events,increase_x,update_segments_at_x}"])
p("Documented alternation of increase_x and events panics or loses events",
  "Calling increase_x() and then events(), as the documentation of events() suggests, panics exactly if some event with two different end points begins at the first position; otherwise the events at the first position are never reported.",
  "all sorted event lists",
  "the claim is about every range, and about what never is reported in any later call",
  ["src/sweep/range.rs: SweepLineRange::{increase_x,events}"])
p("Half-edge rings around output vertices are circular doubly linked lists",
  "After any sequence of attaching half-segments around points and deleting half-segments, clockwise and counter-clockwise neighbour maps are mutually inverse permutations of the live half-segments, and each vertex's live half-segments form one cycle.",
  "all attach/delete histories",
  "pointer surgery over unbounded histories",
  ["src/topology.rs: add_segs_clockwise, add_segs_counter_clockwise, delete_half, delete_segment"])
p("Every output segment gets exactly one start and one end, and runs down",
  "Building a topology never panics; when it is done no output segment is open: each has exactly one start and one end point, the end is later in sweep order (lower, or at the same height and further right), it comes from one input segment and stays within that segment's heights.",
  "all sweeps of sound arenas whose lines are in order up to twice the tolerance",
  "whole-execution property",
  ["src/topology.rs: Topology::{new_half_seg,second_half_segs}"])
p("Winding numbers are consistent around every vertex",
  "Walking round a vertex, the winding number on the counter-clockwise side of each half-segment equals that on the clockwise side of the next one; crossing an output segment changes the winding number by exactly the signed contribution of the input segments merged into it.",
  "all executions of the topology builder",
  "global consistency over all vertices",
  ["src/topology.rs: process_sweep_line_range, HalfSegmentWindingNumbers"])
p("Merging coincident segments preserves total winding",
  "Merging coincident output segments keeps the winding numbers on the outer sides, deletes segments whose two sides agree, and leaves the rings consistent.",
  "all topologies",
  "all inputs",
  ["src/topology.rs: merge_coincident, is_trivial"])
p("Contours partition the boundary",
  "contours(inside) puts every output segment that has the inside set on exactly one of its sides into exactly one contour, and no other segment in any contour; each contour is a closed walk (each half-segment starts where the previous ended).",
  "all well-formed topologies, all inside predicates",
  "graph traversal over arbitrary topologies",
  ["src/topology.rs: Topology::contours"])
p("Contour nesting is a forest with alternating orientation",
  "A contour without parent is an outer contour, a contour with a parent is outer exactly when its parent is not, and a parent always precedes its children, so following parents terminates.",
  "all topologies, all inside predicates",
  "recursive property over whole output",
  ["src/topology.rs: Topology::contours, Contours"])
p("Grouping contours is a partition headed by outer contours",
  "grouped() lists every contour exactly once; each group begins with a parentless contour and contains exactly its descendants.",
  "all contour forests",
  "all forests",
  ["src/topology.rs: Contours::grouped"])
p("Boolean operations implement set algebra on the winding rule",
  "For every operation and fill rule, a region with winding numbers (a, b) is inside the result exactly when the Boolean combination of 'a is inside shape A' and 'b is inside shape B' holds, with non-zero meaning != 0 and even-odd meaning odd, for negative windings too; difference and xor relate to union and intersection by the set identities.",
  "all i32 winding numbers, all operations and fill rules",
  "2^64 winding pairs",
  ["src/lib.rs: binary_op (inside closure)", "src/topology.rs: BinaryWindingNumber"])
p("binary_op rejects infinite input before doing any work, and picks an accuracy in proportion to the coordinates",
  "If the input's bounding box has no NaN, binary_op returns the Infinity error exactly when some coordinate of it is infinite, and otherwise works with the accuracy max(1e-6, 64*EPSILON*max|coordinate|), exactly; the accuracy is never below 2^-46 of any coordinate covered by the box. The NaN check is weaker than documented: NaN coordinates are noticed only if both axes have them.",
  "all bounding boxes",
  "all f64 values",
  ["src/lib.rs: binary_op"])
p("Winding number arithmetic is a commutative group with one generator per input set",
  "Winding number addition/negation used to propagate regions is associative, commutative and invertible, and single(shape, orientation) contributes +1/-1 to exactly that shape's coordinate.",
  "all winding numbers",
  "all i32 values (absent overflow)",
  ["src/topology.rs: WindingNumber for i32 and BinaryWindingNumber"])
p("Positioned output curves start and end at their computed endpoints",
  "Every output segment's path returned by compute_positions starts exactly at the start position and ends exactly at the end position of that output segment; horizontal segments become straight lines.",
  "all topologies",
  "all inputs",
  ["src/position.rs: compute_positions"])
p("Close-curve ordering is skipped for negative heights",
  "compute_positions treats 0.0 as 'already processed up to here' for every segment, so queue entries starting at a negative y are skipped: translating an input vertically changes which close neighbours are kept in order.",
  "existence of an input; for all segments entirely below y=0",
  "translation invariance is a relation between pairs of inputs",
  ["src/position.rs: compute_positions"])
p("The position queue pops lowest start height first",
  "Entries are popped from the position queue in non-decreasing y order, whatever insertion order.",
  "all queues",
  "ordering law on all entries",
  ["src/position.rs: HeapEntry Ord"])
p("Close-neighbour tables answer neighbour queries by height",
  "build_scan_line_orders never fails on the topology of a finished sweep, before or after merging; each segment's table is sorted by strictly increasing height; and at every height h the west and east neighbours it reports for an output segment crossing h are exactly the previous and the next of all output segments crossing h, in the order the sweep line has just below h (none at the ends).",
  "all inputs whose sweep finishes with lines in order up to twice the tolerance, all heights below infinity",
  "the tables are filled from three sources (own neighbours, others' neighbours, closed ranges) whose interplay depends on the whole history of the sweep",
  ["src/topology.rs: HalfScanLineOrder, ScanLineOrder, build_scan_line_orders"])
p("Inserting by comparison keeps a weakly ordered line weakly ordered",
  "If the line is weakly ordered at y and insertion_idx returns i for a segment, then every segment before i is not strictly right of it and every segment after is not strictly left of it, so the new line is weakly ordered.",
  "all lines, all comparison oracles satisfying the documented consistency",
  "paper lemma lem-insert-preserving-order",
  ["src/sweep/sweep_line.rs: SegmentOrder::insertion_idx", "docs/sweep.typ"])
p("Splitting a cubic at its vertical extrema never overflows and tiles the curve",
  "monotonic_pieces never overflows its 3-element buffer, whatever the root finder answers; the pieces are exactly the sub-curves between consecutive cut parameters 0 = t0, ..., tk = 1 (all inner cuts strictly between 0 and 1) whose two end points differ, with the end points of the original curve, and inner control points pulled to the right side of the nearer end point.",
  "all cubics, all root finders, all curve evaluators",
  "2^512 control polygons; the buffer overflow is a panic",
  ["src/geom.rs: monotonic_pieces, force_monotonic"])
p("Splitting a path into subpaths loses nothing",
  "The subpaths of a path, put together, are the path; each subpath is non-empty and contains a MoveTo only as its first element, and every subpath but the first starts with a MoveTo.",
  "all element sequences, including ones not starting with MoveTo",
  "a hand-written peeking iterator shared between two iterators",
  ["src/segments.rs: Subpaths, SubpathIter"])
p("Adding a path panics only on malformed or non-finite input",
  "add_bez_path / add_non_closed_bez_path never panic (no failed assertion about horizontality or orientation, no index out of range, no buffer overflow) unless the path starts with ClosePath or some coordinate of a line or of a computed monotone piece is not finite; adding polylines never panics at all.",
  "all histories of additions, all numerical routines",
  "debug assertions (cubic with equal heights, start <= end, finiteness) must hold for every input",
  ["src/segments.rs: add_path_without_updating_enter_exit, update_enter_exit", "src/geom.rs: Segment::{straight,monotonic_cubic,is_horizontal}"])
p("A sweep never panics",
  "Driving the sweeper over any arena built through the public constructors (open Bezier paths excepted) never panics: no failed lookup of an exiting or crossing segment, no index out of range, no failed assertion, no unreachable comparison state, no missing interval; provided comparisons are antisymmetric and 'strictly left of' is transitive at each height. Without that proviso the only possible panic is the unwrap of CurveOrder::entry_at.",
  "all arenas, all comparison routines producing well-formed tables, all search and sort implementations meeting their contract, any number of steps",
  "a panic needs a particular combination of simultaneous events",
  ["src/sweep/sweep_line.rs: Sweeper::next_line and everything it calls", "src/curve/mod.rs: CurveOrder::{order_at,entry_at,order_after,next_touch_after}"])
p("Searching a TreeVec is monotone in the predicate",
  "As long as only elements are overwritten, TreeVec::partition_point is one function of the predicate and the elements: it always returns a true/false boundary, and never a smaller index when more elements satisfy the predicate, even if the elements are not partitioned.",
  "all histories of container calls, all predicates, both std implementations of the slice search",
  "unpartitioned inputs are where binary searches differ; needs all tree shapes",
  ["src/treevec.rs: TreeVec::partition_point", "src/sweep/sweep_line.rs: compute_horizontal_changed_intervals"])
p("Consecutive sweep lines fit together",
  "Listed in the order before the crossings at its height, each sweep line has coming from above exactly the segments, in exactly the order, that the previous sweep line has going down.",
  "all pairs of consecutive lines of all sweeps",
  "a relation between consecutive states of unbounded executions",
  ["src/sweep/sweep_line.rs: Sweeper::{next_line,advance}, SegmentOrderEntry::old_idx"])
p("The event loop at one height is not guaranteed to terminate",
  "Even for an arena built through the public constructors and comparison tables that are exact for continuous curves (hence antisymmetric, and 'strictly left of' is transitive), next_line may never return: there are three segments and a tolerance for which handling crossings at one height repeats forever. (A negative result: the termination a user relies on needs more than the sweeper's documented preconditions.)",
  "all fuel bounds (numbers of handled events)",
  "non-termination cannot be observed by a finite test",
  ["src/sweep/sweep_line.rs: Sweeper::{next_line,handle_intersection,scan_left,scan_right}"])
p("A contour has no repeated points",
  "Every contour returned by contours() visits each vertex at most once, as documented, although the table of visited vertices is not cleaned up when a loop is split off or a contour finished.",
  "all well-formed topologies, all inside predicates",
  "the table accumulates stale entries over the whole history of the traversal",
  ["src/topology.rs: Topology::contours, Contour"])
p("A hole pinched at a vertex is reported as an outer contour",
  "When a hole touches itself at a vertex, contours() splits it in two contours, marks one of them as a child of the other and as outer, although both are boundaries of holes, wind the same way, and neither is inside the other. (A negative result: the documented meaning of parent and outer fails.)",
  "existence of an input",
  "needs a configuration that the traversal reaches only from the inner side; stated against the orientation, not an expected output",
  ["src/topology.rs: Topology::contours, Contour"])
p("The two segments of a corner are never handled apart",
  "When a sweep line reaches a corner of a closed contour, the two segments that meet there fall in the same processed range of the line (or both in none), although the sweeper finds them through different events and the tolerance may merge or split neighbourhoods.",
  "all closed-contour inputs, all comparison/position/search routines meeting their contracts, all lines and ranges",
  "ranges are unions of neighbourhoods computed from approximate comparisons; a split would leave a dangling winding number only for special near-degenerate inputs",
  ["src/sweep/sweep_line.rs: SweepLine::changed_intervals, Sweeper::{compute_changed_intervals,compute_horizontal_changed_intervals}", "src/topology.rs: Topology::process_sweep_line_range"])
p("from_paths collects closed, tagged contours",
  "Topology::from_paths hands the sweep exactly the edges of the given paths, in order, each carrying the tag of its path, arranged in closed contours of one tag each and all registered; it fails exactly when some subpath does not return to its start, and then reports the two ends of the first such subpath. The invariant checks it runs never fail.",
  "all lists of tagged paths, all numeric helper functions keeping end points exact",
  "ranges over all lists of paths and failure positions; the links and the tags are maintained by separate code",
  ["src/topology.rs: Topology::from_paths", "src/segments.rs: Segments::{add_closed_path,add_path_without_updating_enter_exit,update_enter_exit,check_invariants}"])
p("Merging of coincident segments is not complete",
  "When three or more coincident non-horizontal edges lie side by side, the topology may keep two output segments that join the same two points and are within the tolerance of each other all along: each segment is compared only with the segment that was its western neighbour before merging, even if that one has been deleted. (A negative result: the output may contain coincident boundaries.)",
  "existence of an input meeting all hypotheses of the positive theorems",
  "an unmerged pair is only visible in the internal arrangement; stated against the geometric meaning, not an expected output",
  ["src/topology.rs: Topology::merge_coincident"])
p("From segments to contours without panics",
  "Once the sweep has finished, building the topology and asking for the contours of any set of winding numbers neither fails nor panics, and yields closed, nested curves, without repeated vertices, along exactly the segments whose two sides differ in membership; no remaining segment has the same winding number on both sides.",
  "all closed-contour inputs, all numeric routines meeting their contracts, all winding number types, all inside predicates",
  "composition of the whole pipeline for all inputs",
  ["src/topology.rs: Topology::{from_segments,process_sweep_line,merge_coincident,contours}"])
p("Laying out the output curves terminates and leaves no gap",
  "After a finished sweep, compute_positions never panics and never loops forever, before or after merging; every height of every output segment that starts at height zero or below is treated together with its close neighbours exactly where it is reached; no path leaves the heights of its segment at its joints; and the accuracy chosen by binary_op is always coarse enough for this.",
  "all closed-contour inputs, all numeric routines meeting their contracts, all comparison tables meeting their contract, all queue implementations",
  "termination and coverage for all inputs, with floating-point midpoints",
  ["src/position.rs: compute_positions, approximate, ordered_curves_all_close", "src/topology.rs: Topology::compute_positions", "src/lib.rs: binary_op"])
p("Close curves are drawn side by side",
  "Where a group of close curves is redrawn, the curves are cut at the same heights and every point of a western curve lies west of, or on, the point of each eastern curve at the same height, provided they start in that order; curves outside the group are not touched.",
  "all groups, all accuracies, all parabola estimates, all real points of the pieces",
  "an order between infinitely many points, for all inputs",
  ["src/position.rs: ordered_curves_all_close, approximate"])
p("Redrawn paths may turn back",
  "A straight segment that joins a group of close curves after its start is drawn to its end point and then goes back up to follow the group; two close curves that were drawn to some height go back up when a third segment becomes close to them before that height. (A negative result: the paths need not descend.)",
  "universal for straight members of a redrawn group; existence of inputs meeting all hypotheses of the positive theorems",
  "needs a configuration of close curves with late neighbours; stated against the descent of real curve points, not an expected output",
  ["src/position.rs: ordered_curves_all_close, compute_positions"])
p("Groups are whole runs of close neighbours",
  "Each group that is redrawn from one height to another is, in the west-to-east order at the upper height, a maximal run of neighbours that the comparison does not see in order there; that verdict holds, and none of them ends, before the lower height.",
  "all closed-contour inputs, all numeric routines and tables meeting their contracts, all steps of the layout",
  "a maximality claim about each step of all layouts",
  ["src/position.rs: compute_positions", "src/topology.rs: ScanLineOrder::{west_neighbor_after,east_neighbor_after,close_west_neighbor_height_after,close_east_neighbor_height_after}"])
p("Sweep lines stay in order between events",
  "On every sweep line that is emitted, if one segment comes before another, then at every height from that line to the next one it is to the left of it, or to the right by at most twice the tolerance of the comparisons: no crossing is missed. This is proved for runs in which no segment leaves the line at a height at which crossings are handled.",
  "all inputs, all comparison routines with a tolerance, all horizontal positions they are consistent with, all lines of the sweep and all real heights in between",
  "no finite set of figures shows that no crossing is ever missed",
  ["src/sweep/sweep_line.rs: Sweeper::{next_line,intersection_scan_right,intersection_scan_left,scan_for_removal,handle_enter,handle_exit,handle_intersection}"])
p("A crossing can be missed where a segment ends",
  "If a segment ends exactly at a height at which crossings are handled, the sweep can miss a later crossing of the segments on its two sides and emit lines on which two segments are out of order by much more than the tolerance (in the proved case, fifteen times). (A negative result.)",
  "existence of an input meeting all the other hypotheses of the property before; also an input of four triangles",
  "found by the attempt to prove the previous property; needs an end point at the height of an unrelated crossing",
  ["src/sweep/sweep_line.rs: Sweeper::{scan_for_removal,handle_intersection,handle_exit}"])
p("A comparison covers exactly the common heights",
  "Whatever its numerical helpers compute, a comparison of two curves that returns in a debug build gives a table that starts and ends exactly at the heights the curves have in common, with sorted heights, different adjacent orders and a close interval wherever left turns into right; a release build returns the same table, and in release builds alone the same holds as long as rotating curves keeps the order of heights. A comparison cache over segments therefore meets the contract on which the sweep relies.",
  "all pairs of curves whose heights can be doubled without overflow, all numerical helpers, all recursion depths, all arenas and caches",
  "the recursion, the rotation and the estimates interact in unboundedly many ways",
  ["src/curve/mod.rs: intersect_cubics, intersect_cubics_rec, with_rotation, push_quadratic_signs, CurveOrder::push", "src/order.rs: ComparisonCache"])
p("Comparing two curves always finishes",
  "In a release build the comparison of two curves returns, without panicking, if the accuracy is not finer than about sixteen times the spacing of the floats at the heights of the curves and rotations do not nest for ever.",
  "all pairs of curves, all numerical helpers, all accuracies of that kind, all recursion depths",
  "termination of a recursion whose depth depends on float rounding",
  ["src/curve/mod.rs: intersect_cubics, intersect_cubics_rec, with_rotation"])
p("Near curves are close and touching curves are ordered by their points",
  "If the control points of two curves, restricted to their common heights, differ by at most the tolerance in each coordinate, the comparison reports them close all the way; in particular a curve is close to itself. If one curve starts at the height at which the other one ends, the comparison is decided by the horizontal positions of these two points, in either order of the arguments.",
  "all pairs of curves of that kind, all numerical helpers, all tolerances and accuracies, debug and release builds",
  "a claim about all pairs of float coordinates",
  ["src/curve/mod.rs: intersect_cubics, intersect_cubics_rec, max_distance"])
p("Contour paths go round once",
  "The path of every contour starts at one of its points and goes round it once: it consists of the laid-out output segments of the contour, each once, in their order and in the direction of the contour, except that where monotone pieces of an input curve meet and nothing else does, the two pieces that end there are replaced by a part of that curve. If no input curve was cut along the contour, in particular for polygons, nothing is replaced, drawing cannot fail, and the path ends where it starts.",
  "all closed-contour inputs, all numeric routines and tables meeting their contracts, all selections of the inside, debug and release builds",
  "a claim about every contour of every input and every way its segments can be joined",
  ["src/topology.rs: segs_to_path, can_merge, input_seg_t, is_simple_point", "src/curve/mod.rs: solve_t_for_y"])
p("Joining the pieces of a curve again can draw far away from the input",
  "Where a curve with an extremal height is close to something else further down one of its flanks, the path of its contour can leave the input by far more than the requested accuracy: with accuracy 2 and an input without points above height 0, a contour's path goes 100 above it. (A negative result.)",
  "existence of an input meeting all hypotheses of the positive theorems",
  "found by the attempt to prove that joined pieces start where the pieces they replace start; needs a partly redrawn flank",
  ["src/topology.rs: segs_to_path, can_merge"])
p("Curves found transversal do not cross",
  "If two rising curves leave a common height, the first not to the right of the second, and the test for transversality says yes up to some height, then the first curve is strictly to the left of the second at every height after the start up to that one; the same holds for curves that arrive at a common height. (In exact arithmetic.)",
  "all pairs of cubic curves that rise, all heights, all exact solvers for the parameter of a height",
  "the test compares extreme slopes; that this suffices is a statement about all heights of all curves",
  ["src/curve/transverse.rs: transversal_after, transversal_before, quad_max_between, quad_min_between"])
p("Sign analysis of quadratic functions",
  "Classifying a quadratic function against two thresholds on an interval cuts the interval into parts that cover it; on each part the function is above the upper threshold, below the lower one, or between them, as reported. (In exact arithmetic.)",
  "all quadratic functions, including linear and constant ones, all pairs of thresholds, all intervals",
  "many cases of missing, outlying and coinciding roots; a statement about all real coefficients",
  ["src/curve/mod.rs: push_quadratic_signs, monic_quadratic_roots, CurveOrder::push"])
p("Approximating parabolas",
  "The parabola computed for a curve passes through both ends of the curve and encloses the same area; its reported error bounds have the documented signs, bound the error on the side to which the parabola is curved, and on the other side up to a sixteenth of the curvature times the square of the unevenness of the control heights; for evenly spaced control heights the documented bounds hold. (In exact arithmetic.)",
  "all cubic curves whose ends are at different heights, all points of the curve, all root finders that miss no root",
  "an inequality between polynomials over all real control points and parameters",
  ["src/curve/mod.rs: EstParab::from_cubic, quad_parameters"])
p("Comparisons of curves are right",
  "The answer of a comparison covers the heights that the curves have in common. Where it says left or right, the curves are apart by at least the tolerance at every height (less twice what the approximation leaves unaccounted for, which is nothing for evenly spaced control heights). Where it says close, then within the tolerance or accuracy of that height there are points of the two curves whose horizontal distance is at most tolerance plus accuracy -- unless the height is in a piece whose height is exactly the accuracy. (In exact arithmetic, for curves that are not so flat that the code rotates them.)",
  "all pairs of rising cubic curves, all tolerances and accuracies, all exact solvers, all recursion depths, all heights",
  "a statement about every height of every pair of curves",
  ["src/curve/mod.rs: intersect_cubics, intersect_cubics_rec, y_subsegment, max_distance, push_quadratic_signs"])
p("Comparisons of curves finish in exact arithmetic",
  "If one of two curves has a slope of more than one sixteenth everywhere, comparing them ends with an answer. (In exact arithmetic.)",
  "all pairs of rising cubic curves of that kind, all tolerances and accuracies",
  "termination of a recursion of unbounded depth",
  ["src/curve/mod.rs: intersect_cubics, intersect_cubics_rec, with_rotation"])
p("Old and new segments of a range",
  "For every range of a scan line that is in order up to twice the tolerance, asking for the segments just above and just below the range never panics; replacing, in the previous line, the first sequence by the second for every range, gives exactly the segments of the new line in order; each sequence contains exactly the segments of the range that exist above, resp. below, the line.",
  "all runs of the sweep on all inputs, all lines, all ranges",
  "the sequences of one line must fit the previous line, for every history of the sweep",
  ["src/sweep/range.rs: old_segment_range, segment_range", "src/sweep/sweep_line.rs: SweepLineEntry"])
p("Positions on straight segments",
  "The horizontal position of a straight segment at one of its heights is finite, exact at the start, within a relative error of 2^-48 of the true position, and monotone in the height. A horizontal segment reports its right end.",
  "all straight segments with coordinates below 2^1020, all floating-point heights between their ends",
  "a statement about every rounding of every floating-point input",
  ["src/geom.rs: Segment::at_y"])
p("Tolerance bands of straight segments",
  "The lower and upper bounds of a straight segment near a height bracket its computed positions at all heights within the tolerance, extend the true segment by the tolerance, and by no more, up to a relative error of 2^-47. So for straight input, and an accuracy of at least 2^-51 of the coordinates (as binary_op chooses), everything the sweep needs to know about positions holds.",
  "all straight segments with coordinates below 2^1020, all heights, all tolerances; all arenas of straight segments",
  "a statement about every rounding of every floating-point input",
  ["src/geom.rs: Segment::lower, Segment::upper, local_bbox", "src/lib.rs: binary_op"])
p("Roots and signs of quadratic functions in floating point",
  "Analysing a quadratic function with finite coefficients always returns, without failing an assertion and after rescaling at most once, with roots that are numbers in order. For coefficients of moderate size (zero or between 2^-500 and 2^500) with a non-zero leading coefficient, other than a multiple of x^2, the answer is right: the initial sign is that of the leading coefficient, and either no root is reported and the function has that sign everywhere, or the reported roots are, up to a relative error of 2^-50, the roots of a function whose coefficients differ by at most that relative error. Shifting a function moves its graph (in exact arithmetic).",
  "all finite floating-point coefficients, debug and release builds",
  "a statement about every rounding of every floating-point input; cancellation in the discriminant",
  ["src/curve/mod.rs: Quadratic::signs, Quadratic::shift"])
p("Roots for comparing curves in floating point",
  "For coefficients of moderate size that are not both zero, the roots of x^2 + bx + c used in comparing curves are either reported missing, and then the function is nowhere below zero by more than 2^-54 b^2, or they are, up to a relative error of 2^-50, the roots of a function whose coefficients differ by at most that relative error.",
  "all floating-point coefficients of moderate size",
  "a statement about every rounding of every floating-point input; cancellation in the discriminant",
  ["src/curve/mod.rs: monic_quadratic_roots"])
p("Degenerate quadratic functions are misreported",
  "The multiples of x^2 and all constants, also non-zero ones, are reported to be zero everywhere. For a linear function the reported sign is right if the zero leading coefficient has the sign of the slope, and wrong if it has the other sign. (A negative result: the documentation says that a zero sign means a function approximately zero everywhere.)",
  "all functions of these kinds with finite (linear: moderate) coefficients",
  "depends on the sign of a floating-point zero; holds for all values of the other coefficients",
  ["src/curve/mod.rs: Quadratic::signs, QuadraticSigns"])
p("The callback hears each segment's whole way",
  "The function sweep calls its callback without panic at heights that never go down, and only about segments taking part. The calls about any one segment make up its visits, each at a height of its own, one at the height of its start, one at that of its end, any number between. A visit is an unbroken way along its height, cut where other segments meet it, connected to the segment's part above and below exactly where there is one, and from its true start or to its true end.",
  "all sweepable arenas, comparison, search, sorting and position routines satisfying the stated contracts, whose sweep ends with weakly ordered lines",
  "a statement about every line of every sweep and the whole history of calls",
  ["src/sweep/mod.rs: sweep", "src/sweep/range.rs: SweepLineRange::events", "src/sweep/sweep_line.rs: SweepLine::next_range"])
p("Positions on curves in floating point",
  "At every height between the ends of a curve that goes down, with coordinates of usual size, the computed position is finite; at the ends it is exactly the end; it is within the extent of the control points, up to 2^-47 of the size of the coordinates; and it is, to that precision, the position of a point of the curve whose height is the height asked for, up to 2^-46 of the size and the accuracy of the root finder. A debug build can fail only the assertion about the signs at the ends.",
  "all curves with coordinates up to any bound between 2^-900 and 2^999, all heights, all root finders that return numbers between 0 and 1",
  "a statement about every rounding of every floating-point input, and about every answer of an external root finder",
  ["src/curve/mod.rs: solve_t_for_y, solve_x_for_y", "src/geom.rs: Segment::at_y"])
p("Tolerance bands of curves in floating point",
  "The ends of the tolerance band of a curve near a height are, up to 2^-45 of the size of the coordinates, positions of the curve within the tolerance of this height, extended by the tolerance; the band contains the computed positions at both ends of that part, and, up to the accuracy with which extremal points are found, all of the part and the tolerance around it. So for input of lines and curves of usual size, and an accuracy of at least 2^-51 of the coordinates, positions and bounds are always numbers, each segment starts in its band, and also in that of the segment it continues.",
  "all curves with coordinates up to any bound between 2^-900 and 2^999, all heights and tolerances; all arenas of lines and such curves; all root finders that return numbers between 0 and 1",
  "a statement about every rounding of every floating-point input, and about every answer of an external root finder",
  ["src/geom.rs: Segment::lower, Segment::upper, local_bbox", "src/curve/mod.rs: solve_t_for_y"])
p("Parts of curves in floating point",
  "The part of a curve between two heights is found, has exactly these heights at its ends, and starts and ends at the positions computed for them. Its control points are finite, at most twice as large as those of the curve. Each of its points is horizontally within 2^-45 of the size of the coordinates of the corresponding point of the curve, and vertically up to the accuracy of the root finder.",
  "all curves with coordinates up to any bound between 2^-900 and 2^999, all pairs of heights in order, all root finders that return numbers between 0 and 1",
  "a statement about every rounding of every floating-point input, and about every answer of an external root finder",
  ["src/curve/mod.rs: y_subsegment, solve_t_for_y"])
p("Tolerance bands contain computed positions on curves",
  "The tolerance band of a rising curve at a height contains the computed positions at all heights closer than the tolerance less twice the accuracy of the root finder and 2^-44 of the size of the coordinates. So for lines and rising curves of usual size, and a tolerance above these accuracies, everything the sweep and the topology need to know about positions holds of the computed ones.",
  "all rising curves with coordinates up to any bound between 2^-900 and 2^999, all pairs of heights, all tolerances; all arenas of lines and such curves; all root finders of the stated accuracies",
  "a statement about every rounding of every floating-point input, and about every answer of an external root finder",
  ["src/geom.rs: Segment::at_y, Segment::lower, Segment::upper, local_bbox", "src/curve/mod.rs: solve_x_for_y"])
p("Curves are split into monotone pieces",
  "In exact arithmetic, a curve whose control points are not all at one height is split into at most three pieces that follow each other from parameter 0 to 1 without gaps. Each piece is that part of the curve, point by point, so the step that forces it to be monotone changes nothing, and its heights rise when it is run in one of the two directions. Of a level curve only the straight line between its ends is kept, and nothing if the ends are the same.",
  "all cubic curves with real control points, including those whose derivative has a double root, is linear, constant or zero",
  "a statement about all curves, whose degenerate cases (a vanishing leading coefficient, a double root, a root at an end) tests do not exhaust",
  ["src/geom.rs: monotonic_pieces, force_monotonic, MonotonicPiece", "src/curve/mod.rs: monic_quadratic_roots"])
p("The bounding box of a topology",
  "The bounding box contains the ends of all segments exactly, and all points of all segments up to rounding (2^-46 of the size of the coordinates) and the accuracy of the extremal points. It is not too large: each side is within rounding of a point of a segment, whatever the extremal points are. The box of no segments is the empty one with infinite sides.",
  "all lists of segments, straight or curved, with coordinates up to any bound between 2^-900 and 2^998; all ways to find candidates for extremal points, and all accuracies",
  "a statement about every rounding of every curve; tests compare a few boxes",
  ["src/topology.rs: Topology::bounding_box", "src/geom.rs: Segment::to_kurbo_cubic"])
p("Contours stay connected",
  "In the topology that is built, the pieces of each input segment form one unbroken way, each piece traversed once, from a point at the height where the segment starts to a point at the height where it ends; each piece is marked with whether it runs in the direction of the contour, and the way follows these marks. If the input contours are closed, the ways of consecutive segments meet in one point of the topology: perturbing the input never tears a contour apart.",
  "all sweeps of all segment arenas with any number of tags and any winding numbers; all closed contours for the second half; all curve comparisons, positions and bounds that are numbers",
  "the slow-asserts build checks it on the inputs it is given; horizontal runs in both directions, shared corners and multiple crossings at one height combine without bound",
  ["src/topology.rs: Topology::from_segments, process_sweep_line_range, check_invariants", "src/sweep/sweep_line.rs: SweepLineRange"])
p("Scan-line tables only name segments that are there",
  "Building the scan-line orders of a sweep, before or after merging coincident segments, succeeds, and every entry of its tables is at a height where the output segment it is listed for, the neighbour it names, and the input segments both of them come from, all reach from that height or above to strictly below it; and no segment is named as its own neighbour.",
  "all sweeps of all segment arenas with any number of tags and any winding numbers, before and after merging with any closeness; all entries of both tables",
  "the slow-asserts build checks it on the inputs it is given; segments may start, end, swap and run horizontally at one height in any combination",
  ["src/topology.rs: build_scan_line_orders, ScanLineOrder::check_invariants"])
p("The next height at which a neighbour becomes close",
  "Asking the scan-line orders of a sweep for the next height from y on at which a segment has a close neighbour never panics, and misses no height at or below y at which the neighbour the segment has there begins to be close. An answer is at or below y, and a segment that is its neighbour then or further down begins to be close there. The documentation claims more: a neighbour that has been close since before y is not reported (refuted).",
  "all sweeps of all segment arenas, before and after merging; all comparisons that satisfy the comparison contract, all output segments, both sides and all heights; a figure for the refuted claim",
  "depends on the order of neighbours and the intervals of their comparisons at all heights below y; neighbours change without bound",
  ["src/topology.rs: ScanLineOrder::close_west_neighbor_height_after, close_east_neighbor_height_after, HalfScanLineOrder"])
p("Boolean operations from the input paths to the drawn contours",
  "For any two closed paths with finite coordinates, any fill rule and any of the four operations: if the sweep ends, and if the numerical parts keep their contracts, the operation returns contours that are exactly the boundary of the set operation on the two shapes: every output segment that has the result on exactly one side is used exactly once and no other is, each contour is a closed walk with the result on its left that visits no point twice, outer and inner contours are nested, and each comes with a path that goes round it; crossing an output segment changes the winding number of the shape its input segments belong to. If the paths consist of straight lines nothing else can happen, and each path ends where it starts; with curves the only other outcome is the panic for a contour all of whose segments begin at cuts of curves. An open path is reported as such, and only then; infinite coordinates are reported; and the accuracy chosen automatically is coarse enough for the layout to end.",
  "all pairs of Bezier paths, fill rules, operations, accuracies that make a difference at the heights of the input, and numerical parts that keep their contracts, over all lengths of the sweep",
  "composes all phases; unit tests compare snapshots of a few pictures",
  ["src/lib.rs: binary_op, binary_op_with_eps, Error", "src/topology.rs: Topology::from_paths_binary, from_paths, contours"])
out = os.path.join(os.path.dirname(os.path.abspath(__file__)), "..", "properties.jsonl")
with open(out, "w") as f:
    for q in P: f.write(json.dumps(q) + "\n")
print(len(P))
