# Working notes (author's scratch, kept in repo so nothing is lost)

## Findings from reading /repo/iOverlay/src (candidates for *_refuted theorems)
F1  string/split.rs:47 validate_area: keeps loop iff `abs_area < min_area` (inverted), and final path pushed with no area check.
    Doc (string/extract.rs): "Shapes smaller than this will be excluded".
F2  string/split.rs: `map` keeps stale positions after split_off/truncate: A,B,C,B,C -> len 2 - pos 3 underflow (panic);
    A,B,C,D,B,E,C loses vertex C.  For laminar (non-interleaved) sequences it is fine.
F3  core/divide.rs decompose_contours: last group (lexicographically greatest repeated point) never flushed to anchors -> returns None
    although a vertex repeats; interleaved repeats (A B A B) lose points.
F4  split/cross_solver.rs:308 divide_with_rounding: when high!=0 the remainder is `norm_high << (64-dn)` = 0 mod 2^64 -> never rounds up (floor).
    (dn=0 would be shift overflow; excluded for |coord|<2^30.)
F5  split/solver_tree.rs ver_range: self[0] on empty vec -> panic. split_segments merges first; if everything cancels
    (square + reversed square as subject) Solver TREE / FRAG panic, LIST/AUTO return empty. (GridLayout::new returns None on empty -> tree_split.)
F6  solver_tree.rs / solver_fragment.rs loop `segments.len() > 2` vs list `> 1`: two crossing string lines only: list splits, tree does not.
F7  solver_fragment.rs cross_fragments Overlay: tests fi.x_segment.a in fi.rect or fj.rect; if fj starts in a later bin than fi.a,
    collinear overlap is never marked. (Usually saved by neighbouring non-collinear edges, not if those cancelled / string lines.)
    also `radius as i32` truncates.
F8  vector/extract_vectors.rs: link_index += 1 after every contour although left_top_link may belong to another contour through same node.
    3 triangles sharing leftmost vertex P: T1 lowest with smallest b's: both T1 links at P are skipped, T1 is later started at node Q and
    classified as hole.   T1: P(0,0) Q(1,-300) R(2,-300); T2: P (5,0) (5,1); T3: P (6,5) (6,6).
F9  core/extract.rs: same skip when contour invalid (`!is_valid { link_index += 1; continue }`): with min_area=10 in the example above T2,T3 are
    dropped and T1 (area 150) becomes "hole", shapes empty -> T1 lost from result.  (mesh/boolean.rs extract_offset_shapes same, plus !bold.)
F10 bind: ContourIndex::EMPTY = usize::MAX is_hole()=true -> parent_for_child[MAX>>1] panics if no segment under anchor.
F11 precision.start > 63 -> 1<<start overflow. increment caps at 60.
F12 cross(): "clean point" branches in middle_cross are dead (s==0 means no endpoint on other line).
F13 build_nodes loop would spin forever if b's exhausted before a's; impossible because a<b for each link.
F14 (proved, C33_degenerate_refuted) mesh outline/stroke add_section pushes zero-length segment when a_top==b_top after rounding.
F15 (proved, C34_panic_refuted) stroke of an open path with fewer than two points panics (path[1]); only empty paths: capacity underflows.
F16 (proved, C03_*_refuted) contours that repeat their first point at the end are corrupted by append.
F17 (proved, C14) FRAG on_border_split puts a fragment in the wrong column.
F22 (proved, C40_simplify_refuted) with the default options, a hole touching the straight side of another hole at a dropped collinear point is attached to an island inside that hole.
F18 (proved, C40_clockwise_refuted) hole anchor path[1],path[2] is wrong for clockwise output when the second point is visited twice.
F20 (proved, C28_panic_refuted, C28_wrong_shape_refuted) vector hole binding uses top edges only.
F21 (proved, C34_degenerate_refuted) stroke caps push zero-length segments (custom cap whose end points lie on the sides).
F25 (proved, C42_custom_cap_refuted) the offset of a custom cap is the width plus the height of the rectangle of its points, not their distance from the origin: a tip (5, 0) alone gives 0, and the drawn point lies outside of the rectangle that fixes the scale of the grid.
F26 (proved, C46_min_area_refuted, C46_only_lines_refuted) slicing with min_area > 0 loses large holes/pieces; contour edges hidden inside the region (overlapping contours) cut it like lines.
F27 (proved, C48_closing_point_refuted) floating point contours: if the last point equals the first one, or lands on the same grid point, the first vertex is lost (through F16); a large part of the shape can be missing.
F28 (proved, C51_short_side_refuted) strokes: at a bend with a side shorter than half the width (times the sine of the angle) the chord drawn at the inner side cuts a triangle off the neighbouring side's rectangle; that part of the stroke is missing from the result.
F29 (example C15_absolute_example) Precision::ABSOLUTE (no growing snap radius): three nearly parallel edges such as (69,2)-(371,3), (71,2)-(355,3), (112,1)-(343,3) need more than 40 rounds of splitting, where HIGH needs at most 8; the number of rounds grows with the coordinates (simulated: more than 1000 rounds for four edges with coordinates below 100000). No input without an end is known.
F30 (proved, C24_min_area_refuted) with min_area > 0 the answer depends on the order in which the unstable sort leaves links with equal ends: the walk that starts in a rejected contour skips links (F8), and which links it skips depends on that order; one order gives no shape, the other a shape with a hole.
F31 (proved, C31_frag_overlap_refuted, C14_frag_overlap_refuted) grid strategy: an overlap of two edges along a line is reported only in a column that holds the start of the first edge and a part of the second; if the second one starts in a later column the overlap stays, the arrangement is not planar, and the walk panics where LIST returns seven shapes. (Also: the squared radius is cut to i32 in cross_fragments, so from round 31 on the grid may miss crossings.)

## Key positive theorems to aim at
P1 append_path_iter preserves winding number of every generic point (collinear removal), closed chain, no zero length segs; rotation.
P2 merge: sums counts, sorted distinct, no empty counts; preserves winding.
P3 cross classification; mark never equals endpoint of marked segment; cross point in both bboxes; error bound <1; no i64 overflow |c|<2^30.
P4 apply/split preserves boundary (1-cycle) -> every vertex balanced; exact marks preserve winding.
P5 fill correctness (sweep): fill bits = fill rule of true winding just above/below each segment (planar input).
P6 filters = boolean ops: link included iff op(inside top) <> op(inside bottom); is_fill_top = op(top) for included.
P7 graph nodes <-> endpoints; incidence exact; even degree.
P8 extraction: terminates, closed contours, each included link used exactly once.
P9 NearestVector picks min rotation.
P10 string clip: ClipRule complement; direction preserved, each clip link bit emitted exactly once.
P11 bind: partition of holes.
Dependencies (i_float,i_shape,i_tree,i_key_sort,rayon) absent: contracts. KeyExp collection: expired iff b.x <= time.
