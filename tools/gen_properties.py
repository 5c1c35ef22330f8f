#!/usr/bin/env python3
# Generates properties.jsonl (one JSON object per line) from the table below.
import json,os
P=[]
def p(id,title,statement,quantifier,why,*anchors):
    P.append(dict(id=id,title=title,statement=statement,quantifier=quantifier,why_tests_cant=why,anchors=list(anchors)))
S="iOverlay/src/"
p("C01","Boolean result: which edges belong to the answer","For every overlay rule (Subject, Clip, Intersect, Union, Difference, InverseDifference, Xor) an edge of the arrangement is part of the result iff the boolean combination of (inside subject, inside clip) differs between the two sides of the edge; and the side reported as filled is the side on which the combination is true.","every overlay rule, every combination of side fills an edge can have","tests exercise a handful of shapes, not every rule/fill combination, and never compare with the set-theoretic definition",S+"core/filter.rs::FillFilter",S+"core/overlay_rule.rs::OverlayRule::is_fill_top",S+"core/filter.rs::MaskFilter::filter_by_rule")
p("C02","Fill rule: both sides of every edge get the right inside/outside flags","For every planar arrangement of closed contours, the two side flags that the overlay attaches to an edge are exactly the fill rule (EvenOdd, NonZero, Positive, Negative) applied to the subject and clip winding numbers of the points immediately above and below (for a vertical edge: left and right of) that edge, at every point of the edge.","every planar balanced arrangement of any size, every fill rule, every edge, every interior point of the edge","a sweep-line invariant: tests can only sample arrangements",S+"fill/solver.rs::FillSolver::solve",S+"core/link.rs::EvenOddStrategy",S+"geom/v_segment.rs::VSegment")
p("C03","Adding a contour keeps its winding function","Adding any closed contour (any points, including repeated points, collinear runs, spikes and degenerate contours) contributes, at every point of the plane, exactly the winding number of that contour, to the chosen operand (subject or clip) and nothing to the other; the stored segments are never degenerate, and form a closed chain.","every contour (any length, any integer points), both shape types, every rational query point","winding equality must hold at every point for every polygon, including all degenerate ones",S+"segm/build.rs::private_append_iter",S+"core/overlay.rs::Overlay::add_contour")
p("C04","Coincident edges are merged without changing the geometry","Merging coincident edges yields strictly sorted, pairwise distinct edges, none with zero count, while the winding number of subject and clip at every point and the balance at every vertex is unchanged.","every list of segments of any length, every query point","must hold for any multiplicity and cancellation pattern",S+"segm/merge.rs::merge_if_needed",S+"split/solver.rs::split_segments")
p("C05","The result does not depend on the order in which contours are added","Adding the same contours in a different order (or shapes versus their contours, or several calls versus one) yields the same arrangement and hence the same result.","every permutation of every list of contours","factorially many orders",S+"core/overlay.rs::Overlay::add_contours",S+"core/overlay.rs::Overlay::add_shapes",S+"split/solver.rs::split_segments")
p("C06","Contour direction matters only as documented","Reversing every contour negates all winding numbers: EvenOdd and NonZero classify every point as before, and Positive and Negative exchange roles.","every set of contours, every query point, every fill rule","quantifies over all polygons and points",S+"segm/winding_count.rs::WindingCount::invert",S+"core/fill_rule.rs::FillRule",S+"core/link.rs::PositiveStrategy")
p("C07","Subject/clip symmetry of the operations","Swapping subject and clip leaves Union, Intersect and Xor unchanged, exchanges Subject with Clip and Difference with InverseDifference, edge by edge.","every edge fill, every rule","needs all fill combinations",S+"core/filter.rs::FillFilter",S+"core/overlay.rs::Overlay::with_contours")
p("C08","Intersection test is exact","Two edges are reported as crossing iff they share a point that is not an end of both of them (they properly cross, an end of one lies strictly inside the other, or they overlap along a line), and touching only in common end points is never reported; if exactly one end lies inside the other edge that very end is reported.","every pair of non-degenerate integer segments","infinitely many configurations including collinear ones",S+"split/cross_solver.rs::CrossSolver::cross",S+"split/cross_solver.rs::CrossSolver::collinear")
p("C09","Intersection point accuracy","The integer point computed for a proper crossing lies in the bounding boxes of both edges and deviates by less than one unit in each coordinate from the exact intersection; if the exact intersection is an integer point it is returned exactly.","every pair of properly crossing integer segments with coordinates below 2^30","wide-integer arithmetic with hand written 128-bit division",S+"split/cross_solver.rs::CrossSolver::cross_point",S+"split/cross_solver.rs::RoundDivide::divide_with_rounding")
p("C10","No arithmetic overflow in the crossing computation","For all coordinates with absolute value below 2^30, every intermediate value of the crossing computation fits its machine type (i64, u64, u128, i32).","all inputs within the documented coordinate range","overflow shows only for extreme coordinates",S+"split/cross_solver.rs::CrossSolver::cross_point",S+"split/cross_solver.rs::RoundDivide::divide_with_rounding")
p("C11","Splitting never creates degenerate edges","Every split point chosen for an edge differs from both ends of the edge, consecutive split points of an edge differ, so splitting produces only non-degenerate edges.","every segment list, every snapping radius >= 1","depends on rounding and snapping of arbitrary coordinates",S+"split/solver.rs::SplitSolver::cross",S+"split/solver.rs::SplitSolver::apply",S+"split/solver.rs::SplitSolver::sort_and_filter_marks")
p("C12","Splitting keeps contours closed","Whatever split points are chosen (exact, rounded or snapped), for every vertex the total incoming and outgoing subject (and clip) counts stay balanced, so the contours remain closed.","every segment list, every set of split points, every number of rounds","every rounding/snapping history",S+"split/solver.rs::SplitSolver::apply",S+"split/solver.rs::SplitSolver::one_bin_merge",S+"split/solver_list.rs::list_split")
p("C13","Splitting without rounding does not change the geometry","If all split points lie on their edges, the winding numbers of subject and clip at every point of the plane are unchanged by splitting.","every segment list, every query point","quantifies over all points of the plane",S+"split/solver.rs::SplitSolver::apply",S+"split/solver_list.rs::list_split")
p("C14","After splitting the arrangement is planar","When the splitting stage finishes, any two different edges meet only in common end points.","every input and strategy for which the stage returns","pairwise property over arbitrarily many segments and rounds, including a last round that is not re-checked",S+"split/solver_list.rs::list_split",S+"split/solver.rs::SplitSolver::apply")
p("C15","Splitting terminates","The splitting loop finishes after finitely many rounds.","every input, every precision setting","non-termination is invisible to tests that pass",S+"split/solver_list.rs::list_split",S+"split/snap_radius.rs::SnapRadius")
p("C16","Graph: vertices and incidences are exact","The graph has exactly one node per distinct end point of the kept edges, every edge is registered at exactly the nodes of its two ends, and nowhere else.","every sorted list of edges","counting/merge loops over unchecked indices",S+"core/graph.rs::build_nodes_and_connect_links",S+"core/node.rs::OverlayNode::new")
p("C17","Result edges meet evenly in every vertex","In every vertex the number of result edges is even, for every overlay rule and fill rule.","every planar balanced arrangement, every rule","global topological invariant",S+"core/link.rs::build_links",S+"core/filter.rs")
p("C18","Contour extraction terminates and uses every result edge exactly once","Extraction of contours terminates; every contour is a closed walk along result edges; no edge is used twice, and (when no contour is discarded as too small) every result edge is used.","every graph with even degrees, every rule and direction","traversal over arbitrary graphs with unchecked indices",S+"core/extract.rs::OverlayGraph::extract",S+"core/extract.rs::OverlayGraph::get_contour")
p("C19","At a junction the extraction takes the tightest turn","At a vertex with several unused result edges the next edge is the first one met when rotating from the current edge in the configured rotation direction.","every set of candidate edges in every order","all angular configurations, including 180 degree cases",S+"core/nearest_vector.rs::NearestVector",S+"core/extract.rs::find_nearest_link_to")
p("C20","End-to-end region correctness","For every subject and clip contours, every overlay rule and fill rule: the region enclosed (even-odd) by all output edges is exactly the boolean combination of the regions defined by the fill rule on the (split) input contours, at every point off the edges; if no rounding occurred, on the original input contours.","all inputs, all rules, every point of the plane","this is the defining property of the library; tests compare a few literals",S+"core/overlay.rs::Overlay::overlay_custom",S+"core/extract.rs::OverlayGraph::extract_shapes_custom")
p("C21","min_area and minimal size of output contours","Every contour of the output has at least three points and, when min_area > 0, an absolute area of at least min_area.","every graph, every min_area","arises only through filtering of arbitrary results",S+"core/extract.rs::Validate::validate",S+"core/overlay.rs::Overlay::overlay_custom")
p("C22","Holes are neither lost nor duplicated","When there is at least one outer contour, every hole is attached to exactly one outer contour, holes keep their shape, and outer contours stay first in their shapes.","every set of outer contours and holes","any number and arrangement of holes",S+"bind/solver.rs::JoinHoles::join_sorted_holes",S+"bind/solver.rs::JoinHoles::scan_join",S+"bind/solver.rs::ShapeBinder::private_solve")
p("C23","Small-contour filtering only removes contours below min_area","Raising min_area only removes contours that are smaller than min_area; the other contours of the result are unaffected.","every input and every min_area","interaction between skipping and traversal order",S+"core/extract.rs::OverlayGraph::extract",S+"mesh/boolean.rs")
p("C24","Graph reuse: into_graph + extract_shapes equals the direct overlay","Building the graph once and extracting with an overlay rule keeps precisely the edges that the direct overlay with this rule keeps; the graph loses no edge any rule needs. With a min_area of 0 (for float coordinates: one that is 0 on the grid), or any min_area if no contours of the result touch, the extraction returns exactly the answer of the direct overlay: the same shapes, contours, starting points and order, whichever way equal segment ends are sorted in the two calls.","every input whose coordinates are in range and whose solver does not use the fragment grid, every fill rule, every overlay rule, both directions, with and without contour simplification","the graph with all edges and the graph with only the kept edges have different nodes and link numbers; all inputs times all rules",S+"core/filter.rs::FillerFilter",S+"core/overlay.rs::Overlay::into_graph_with_solver",S+"core/overlay.rs::Overlay::overlay_custom")
p("C25","String clipping: inside and outside are complementary","For a fixed boundary flag, each piece of a clipped line is returned by exactly one of clip(invert=false) and clip(invert=true); without boundary the interior pieces are those with both sides filled, with boundary those with at least one side filled.","every fill value, both boundary flags","all fill combinations",S+"core/filter.rs::StringClipInsideBoundaryExcludedFilter",S+"string/clip.rs::ClipRule")
p("C26","String clipping emits each kept piece once per traversal direction","Every kept piece of an input line is part of the output lines exactly once in every direction in which it was traversed by the input, in that direction; no other edges appear in the output.","every string graph","walk over arbitrary graphs consuming two direction bits per edge",S+"string/clip.rs",S+"string/overlay.rs::StringOverlay::clip_string_lines")
p("C27","String overlay: the line never changes the inside/outside classification","Adding open lines never changes the fill flags of the subject arrangement: the winding of the subject is computed as if the lines were absent.","every arrangement and set of lines","all configurations",S+"core/link.rs::EvenOddStrategyString",S+"string/overlay.rs::StringOverlay::add_string_line")
p("C28","Separate vectors reproduce the arrangement","into_separate_vectors returns each edge of the arrangement once with its end points ordered and its fill flags; into_shape_vectors returns the same boundary as shapes, each edge once, with the fill flags matching the direction of travel.","every arrangement","all graphs",S+"vector/extract_vectors.rs",S+"vector/edge.rs")
p("C29","Loop splitting of string contours","Splitting a closed path in its repeated vertices yields simple loops that together contain every edge of the path exactly once, excluding only loops smaller than min_area.","every path","arbitrary repetition patterns",S+"string/split.rs::Split::split_loops")
p("C30","Contour decomposition at repeated points","decompose_contours splits a contour whenever a point is visited twice and preserves the edges.","every contour","arbitrary repetition patterns",S+"core/divide.rs::ContourDecomposition::decompose_contours")
p("C31","Strategy independence","The answer is the same for Solver::LIST, TREE, FRAG and AUTO; the choice only affects performance.","every input, every strategy","all inputs times all strategies",S+"split/solver.rs::SplitSolver::split",S+"split/solver_tree.rs",S+"split/solver_fragment.rs",S+"core/solver.rs::Solver")
p("C32","Snapping radius follows the documented precision","In round k the squared snapping radius is 2^min(60, start + k*progression): it never decreases, never exceeds 2^60 and never overflows, for every start <= 60.","every precision and number of rounds","all settings",S+"split/snap_radius.rs::SnapRadius",S+"core/solver.rs::Precision")
p("C33","Outline offset produces closed chains","The segments generated for outline offsets form closed chains (balanced in every vertex) for every contour, join style and offset, whatever the floating point rounding does.","every contour of any length, every join, every rounding of points to integers","depends on floating point behaviour",S+"mesh/outline/builder.rs",S+"mesh/outline/builder_join.rs")
p("C34","Stroke offset produces closed chains","The segments generated for strokes (open or closed paths, every cap and join) form closed chains, whatever the floating point rounding does.","every path, cap and join style, every rounding","depends on floating point behaviour",S+"mesh/stroke/builder.rs",S+"mesh/stroke/builder_join.rs",S+"mesh/stroke/builder_cap.rs")
p("C35","Bin based splitting equals direct splitting","The bucketed fast path used for more than 16 segments writes every output slot exactly once, in bounds, and returns the same edges as the simple path.","every segment list and mark list, every monotone bucket layout","unsafe unchecked writes, any layout",S+"split/solver.rs::SplitSolver::apply",S+"split/solver.rs::SplitSolver::init_bins")
p("C36","Grid fragmentation covers every segment and finds every crossing","The fragments into which a segment is cut for the grid based strategy cover the segment: each point of the segment lies in the bounding box of a fragment of the column that contains it. If no two edges overlap along a line and no edge ends inside a vertical edge, one pass over the grid reports exactly the split points that comparing every two edges reports.","every segment and grid power, every list of edges and the grid built for it","all segments",S+"split/grid_layout.rs::GridLayout",S+"split/fragment.rs")
p("C37","Output contours have the requested direction","With main_direction = CounterClockwise outer contours run counter-clockwise and holes clockwise (and vice versa for Clockwise).","all inputs","global geometric property",S+"core/extract.rs::StartPathData::new",S+"core/overlay.rs::ContourDirection")
p("C38","Simplify keeps the region","simplify of a path, contours, shape or shapes returns the region that the fill rule defines on the input contours (at every point off the edges, when no rounding occurs), for every fill rule.","all inputs","all inputs",S+"core/simplify.rs")
p("C39","No panic","Overlay operations with the LIST and AUTO strategies never panic, for every input within the coordinate range, including inputs whose edges cancel completely.","every set of contours, every rule, every number of rounds","panics hide in unusual degenerate inputs and in unchecked index arithmetic",S+"split/solver.rs::SplitSolver::apply",S+"split/solver_list.rs::list_split",S+"core/link.rs::OverlayLinkBuilder")
p("C40","Shapes nest and tile the result","Every hole of a returned shape lies inside the outer contour of that shape, holes of a shape do not overlap, different shapes do not overlap, and the shapes together are exactly the result region.","all inputs, every rule, both directions, every arrangement of nested shapes","global geometric property of the hole binding sweep over arbitrarily many contours",S+"bind/solver.rs::ShapeBinder::bind",S+"bind/segment.rs::IdSegments",S+"core/extract.rs::OverlayGraph::extract")
p("C41","Strokes and offsets are the area their segments wind around","The contours that stroke and outline return for the generated segments (no minimal area) are exactly the boundary of the points around which the segments wind a positive number of times: outer contours run in the requested direction, holes against it and inside an outer contour, and every point of the area is wound around once in total, every other point not at all.","every path, cap and join style, both directions, every rounding of the floating point operations","global geometric property of arbitrarily many, arbitrarily crossing offset segments",S+"mesh/boolean.rs::OverlayGraph::offset_graph_with_solver",S+"mesh/boolean.rs::OverlayGraph::extract_offset",S+"mesh/stroke/offset.rs::StrokeOffset::stroke_custom",S+"mesh/outline/offset.rs::OutlineOffset::outline_custom")
p("C42","Strokes and offsets stay near the path and on the grid","Every point that stroke or outline draws lies within the reach of its style of a vertex of the path (half the width, or the offset, for bevel and round joins and butt and round caps; that divided by the sine of half the smallest angle for miters; sqrt 2 times that for square caps; the longest vector of a custom cap times that), and within the rectangle that fixes the scale of the integer grid, so that no drawn point leaves the grid.","every path, width, offset, join and cap","real-valued geometry: every angle and every length",S+"mesh/stroke/offset.rs::StrokeSolver",S+"mesh/outline/offset.rs::OutlineSolver",S+"mesh/stroke/builder.rs::StrokeBuilder::additional_offset",S+"mesh/outline/builder.rs::OutlineBuilder::additional_offset")
p("C43","Round joins follow the circle","A stroke or offset with round joins consists of the sides of the path moved by half the width (by the offset), of chords between two moved sides at the inner side of a bend, and of arcs around the vertices, whose points lie on the circle of half the width (the offset) and whose chords stay outside of the circle shrunk by the cosine of three quarters of the angle of the style.","every path, width, offset, angle","real-valued geometry: every angle and every length",S+"mesh/stroke/builder_join.rs::RoundJoinBuilder",S+"mesh/outline/builder_join.rs::RoundJoinBuilder",S+"mesh/rotator.rs::Rotator")
p("C44","Miters and caps have their documented shape","At the outer side of a bend a miter prolongs the two moved sides to the point where they meet if the sides form at least the angle of the style (clamped to 1/100 .. 99/100 of PI), and otherwise cuts both off at half the width (the offset) divided by the tangent of half that angle. A cap, drawn for a path that comes from the left and ends in the origin with half width 1, runs from (0,-1) to (0,1) through the points of its style, turned into the direction of the path and scaled by half the width: none for butt, (1,-1) and (1,1) for square, the given points for custom, points of the half circle at equal angles of the style angle up to 4/3 of it for round.","every path, width, offset, angle, cap","real-valued geometry: every angle and every length",S+"mesh/miter.rs::Miter::sharp",S+"mesh/stroke/builder_join.rs::MiterJoinBuilder",S+"mesh/outline/builder_join.rs::MiterJoinBuilder",S+"mesh/stroke/builder_cap.rs::CapBuilder")
p("C45","Outlines of whole shapes and strokes of several paths","outline moves every outer contour by the outer offset and every hole by the inner offset, and returns shapes (an outer contour in the requested direction followed by its holes against it) that cover exactly the points that lie in more moved outer contours than moved holes; a contour of at most one unit of doubled area is ignored, a single contour that is not an outer contour yields nothing. stroke returns such shapes for the union of the strokes of all its paths, and nothing if half the width is at most one unit of the grid.","every list of paths, offset, width, join and cap, both directions, every rounding of the floating point operations","composition of two overlays over arbitrarily many contours",S+"mesh/outline/offset.rs::OutlineOffset::outline_custom",S+"mesh/stroke/offset.rs::StrokeOffset::stroke_custom",S+"mesh/boolean.rs::OverlayGraph::extract_offset")
p("C46","Slicing cuts the region into its pieces","slice_by (string overlay, graph, extract_shapes) returns shapes that tile the region which the fill rule defines on the contours: each is an outer contour in the requested direction with its holes, no two overlap, together they are exactly the region. Inside the region they are cut along the lines (and contour edges), and exactly where the cut closes: a stretch with the region on both sides separates two different shapes if and only if it lies on a closed polygon of such stretches and region boundary; loose ends and bridges cut off nothing. The extraction never panics and always ends.","every set of contours and lines, every fill rule, both directions","walks along both sides of arbitrary lines, split into loops, and a sweep to attach holes whose contours share whole edges",S+"string/extract.rs::StringGraph::extract_shapes_custom",S+"string/extract.rs::StringGraph::get_paths",S+"string/slice.rs::IntSlice::slice_by",S+"string/split.rs::Split::split_loops",S+"bind/solver.rs::JoinHoles::join_unsorted_holes")
p("C47","Rounding error bound","However many crossings have to be rounded and snapped, the result is exactly the Boolean operation of the contours that were given at every point farther than a known distance from all their edges, and no edge of the result is farther than that distance from them. The distance is the sum over the passes of splitting (the last excluded) of 1 plus the snap radius of the pass: 2 for two passes and 4 for three with the default precision.","every set of contours, every rule, precision and number of passes","depends on the accumulated rounding of arbitrarily many crossings",S+"split/cross_solver.rs::CrossSolver",S+"split/solver.rs::SplitSolver::apply",S+"split/snap_radius.rs::SnapRadius",S+"core/overlay.rs::Overlay::overlay_custom")
p("C48","The floating point interface","A Boolean operation on floating point contours (FloatOverlay, SingleFloatOverlay, the float graph, SimplifyShape) returns contours that run exactly once, in the requested direction, around every point of the requested region of the contours as given, and around no other point, except for points closer to an edge than a known distance: half a grid cell (plus the conversion errors) plus the rounding distance of C47 in cells. Every contour of a resource (one contour, a list, shapes, with empty ones among them) takes part exactly once. No returned edge is farther than that distance from the edges given.","every resource, rule, fill rule, direction, filter with min_area 0, precision, number of passes, and every adapter within its conversion error","ranges over all coordinates and over the accumulated effect of two conversions and all roundings between them",S+"float/overlay.rs::FloatOverlay::with_subj_and_clip",S+"float/overlay.rs::FloatOverlay::overlay_custom",S+"float/single.rs::SingleFloatOverlay::overlay",S+"float/simplify.rs::SimplifyShape",S+"float/graph.rs::FloatOverlayGraph::extract_shapes_custom",S+"float/source/triple.rs",S+"float/source/double.rs",S+"float/source/single.rs")
p("C49","Clipping lines and slicing shapes under rounding","However many crossings have to be rounded and snapped: every piece of line that clipping returns runs within a known distance (that of C47) of a line given; away from the contours it lies inside the shapes (outside if inverted); and every point of a line that should be kept, away from the contours, has a point of the output within that distance. Slicing returns shapes that do not overlap and that cover a point farther than the distance from all contours exactly if it lies inside the shapes given; every point of every line has a cut candidate within the distance, and cuts are made along those (C46).","every set of contours and lines, fill rule, clip rule, precision and number of passes","depends on the accumulated rounding of arbitrarily many crossings",S+"string/overlay.rs::StringOverlay::clip_string_lines_with_solver",S+"string/clip.rs::ClipRule",S+"string/slice.rs",S+"string/extract.rs::StringGraph::extract_shapes_custom",S+"split/solver.rs::SplitSolver::apply")
p("C50","Clipping and slicing with floating point coordinates","clip_by on floating point paths returns paths that run within a known distance (half a grid cell, the rounding distance of C49 in cells, the conversion errors) of the lines given, lie where the clip rule wants them away from the edges of the shapes, and miss nothing the rule wants, up to that distance. slice_by returns contours that run exactly once around every point inside the shapes, and around no other, except near edges and lines; without clean-up the shapes do not overlap and their edges lie near edges and lines given.","every resource for shapes and lines, fill rule, clip rule, direction, filter with min_area 0, precision, number of passes, every adapter within its conversion error","ranges over all coordinates and over the accumulated effect of two conversions and all roundings between them",S+"float/clip.rs::FloatClip::clip_by_with_solver",S+"float/slice.rs::FloatSlice::slice_custom_by",S+"float/string_overlay.rs::FloatStringOverlay",S+"float/string_graph.rs::FloatStringGraph::extract_shapes_custom")
p("C51","A stroke is the union of the rectangles around its sides, its joins and its caps","stroke returns shapes that contain no point (farther from the drawn segments than a known distance, at least two grid units) outside of the pieces of the stroke: the rectangle of half the width around every side, the join at the outer side of every bend, the caps of open paths; in particular nothing farther from the path than the reach of the style. If at every bend both sides are at least as long as half the width times the sine of the angle, the shapes contain all of the pieces (for closed paths: at every point that is farther than half the width from some vertex). With round joins and caps all points closer to the path than half the width times the cosine of three quarters of the style angle are contained.","every list of open or closed paths, width, join and cap style (custom caps that go around the end of the path), direction, rounding to the grid by at most one unit, precision and number of passes","real-valued geometry of arbitrarily many overlapping pieces: every angle and every length",S+"mesh/stroke/offset.rs::StrokeOffset::stroke_custom",S+"mesh/stroke/builder.rs::StrokeBuilder::build",S+"mesh/stroke/section.rs::Section",S+"mesh/stroke/builder_join.rs",S+"mesh/stroke/builder_cap.rs")
p("C52","Offsetting a contour adds the strip along it, or takes it away","outline with one counterclockwise contour: for a positive offset the returned shapes contain no point (farther from the drawn segments than a known distance, at least two grid units) outside of the contour and of the strip along it: between a side and the side moved by the offset, or in the join at a corner where the moved sides come apart; in particular nothing farther from the contour than the reach of the join. For a negative offset they contain every such point inside the contour that is not in the strip, in particular all that are farther from the contour than the reach. If at every corner where the moved sides run into each other both sides are at least as long as the offset times the sine of the angle, a positive offset keeps all of the inside and a negative one leaves nothing outside; if the contour is simple and turns there by no more than a right angle (or is convex, for a negative offset) the strip is added, or taken away, completely.","every contour, offset, join style, direction, rounding to the grid by at most one unit, precision and number of passes; the last part: every simple contour with such corners and every point with a vertex that is farther than the offset, or of a contour with a corner that bends the other way","real-valued geometry of arbitrarily many overlapping pieces, with negative contributions at every corner where the moved sides cross",S+"mesh/outline/offset.rs::OutlineOffset::outline_custom",S+"mesh/outline/builder.rs::OutlineBuilder::build",S+"mesh/outline/section.rs::OffsetSection",S+"mesh/outline/builder_join.rs")
p("C53","Strokes and outlines in the caller's coordinates","stroke and outline, whole calls: around every point (farther from the drawn segments than a known distance: the splitting, the way back to floating point and the clean-up) the contours returned, in floating point coordinates, wind once in the requested direction, or not at all. A stroke winds around the points of its pieces and around no others (pieces and conditions of C51), so not around points farther from the paths than its reach, and with round joins and caps around all that are near. An outline of one contour winds around what C52 says. An outline of several contours winds around the points that are in more offset outer contours than offset holes; outer contours grow by the outer offset, holes shrink by the inner offset. If the clean-up is off, no returned edge is farther than that distance from the drawn segments.","every paths, style, direction, filter, way of converting points within the stated errors, precision and number of passes; conditions of C51 and C52 for the parts that say what is filled","the distance of all error sources together, for every input and every intermediate rounding, over the real plane",S+"mesh/stroke/offset.rs::StrokeOffset::stroke_custom",S+"mesh/outline/offset.rs::OutlineOffset::outline_custom")
p("C54","Answers can be given to the library again","Contours that the library returned for one input (whatever rules and options each call used, directly or from the graph, and however much was rounded in finding them) can be used again as subject and clip of another call without any further error: no crossing is rounded, one round of splitting is enough, the result winds exactly as the Boolean operation of the contours given prescribes, at every point of the plane, and its edges run along edges of theirs. So the answers obey the laws of sets: if an operation of the answers for two rules is, as an operation on sets, a third rule, then the result is the answer for the third rule, with the same winding numbers and the same boundary (union of difference and intersection is the subject; difference of union and intersection is the xor); and an answer given again comes back with the same winding numbers and the same boundary.","every input within the coordinate range, every combination of overlay rules, fill rules, directions and options, every number of rounds and every solver without the grid","laws between calls quantify over all pairs of calls; a rounded crossing in the second call would only show for particular coordinates","iOverlay/src/core/overlay.rs::Overlay::overlay_custom","iOverlay/src/core/graph.rs::OverlayGraph::extract_shapes","iOverlay/src/split/solver_list.rs::list_split","iOverlay/src/core/extract.rs")
p("C55","Moving the input moves the answer; nothing hidden decides about it","Moving all contours by a whole-number vector (within the coordinate range) moves the answer by the same vector, point for point: the same shapes in the same order, each with the same contours in the same order and with the same first point, and the same number of rounds of splitting, however much was rounded. And the answer is a function of the contours, the rules and the options alone: neither the order in which contours were added, nor the strategy of the solver, nor the size of the bins, nor what a range query returns too much, nor the order in which the (unstable) sort leaves edges that end in the same point has any influence on it.","every input and every vector that stay within the coordinate range, every overlay rule, fill rule and option, every number of rounds, any two strategies without the grid, any two implementations of bins, tree and sort that meet their contracts","a dependence on absolute coordinates or on the order of equal keys shows only for particular coordinates and particular library versions","iOverlay/src/core/overlay.rs::Overlay::overlay_custom","iOverlay/src/core/extract.rs","iOverlay/src/core/graph.rs::OverlayGraph::new","iOverlay/src/split/solver.rs","iOverlay/src/segm/build.rs")
p("C56","Other ways to write the same input give the same answer","Adding the contours in another order, starting a contour at another of its points, or adding or leaving out points in the middle of its edges does not change the answer in any way (the same contours, from the same starting points, in the same order). Drawing all contours in the opposite direction and exchanging the fill rules Positive and Negative (EvenOdd and NonZero stay) does not change it either. Nor does exchanging subject and clip contours together with the corresponding rules (Subject with Clip, Difference with InverseDifference; the others stay).","all inputs with coordinates in range whose contours have corners that are no spikes or straight points, all overlay and fill rules, all ways of drawing a contour with the same corners, all strategies other than the fragment grid with the same precision, any bins, trees and orders of equal link ends on the two sides; min_area 0, or any if no contours of the result touch; runs that do not panic (LIST and AUTO never do)","infinitely many ways to write the same contours","iOverlay/src/segm/build.rs: BuildSegments","iOverlay/src/core/overlay.rs: Overlay::add_contour, Overlay::add_contours, Overlay::overlay","iOverlay/src/core/extract.rs: extract_shapes")
p("C57","Clipped lines and slices move with the drawing","Moving shapes and lines together by a whole-number vector (within the coordinate range) moves every piece of line left by clipping, and every shape made by slicing, by the same vector, point for point and in the same order, however much was rounded. And neither the order in which shapes, lines, paths and closed paths were added, nor the strategy of the solver, nor the size of the bins, nor what a range query returns too much has any influence on the answer.","all shapes and lines and every vector that stay within the coordinate range, every fill rule and clip rule, both directions, every minimal area, every number of rounds, debug and release, all strategies other than the fragment grid with the same precision, as long as neither run panics or stops at exactly two edges with TREE or FRAG (LIST never does); the sort of the ends of edges is a function of their points","moves and orders are infinitely many, and the property compares whole runs","iOverlay/src/string/overlay.rs: StringOverlay, StringOverlay::clip_string_lines, StringOverlay::into_graph","iOverlay/src/string/clip.rs: StringGraph::into_clip_string_lines","iOverlay/src/string/slice.rs: IntSlice","iOverlay/src/string/extract.rs: extract_shapes")
out=os.path.join(os.path.dirname(__file__),"..","properties.jsonl")
with open(out,"w") as f:
    for x in P: f.write(json.dumps(x)+"\n")
print(len(P))
