s('C01','proved','every arrangement, rule, fill rule, edge, interior point')
s('C02','proved','sweep of fill/solver.rs; i_tree collection by contract')
s('C03','partial','The full claim is false for contours that repeat their first point at the end (see _refuted theorem); proved for all others. Closedness and non-degeneracy hold for every contour.')
s('C04','proved','')
s('C05','proved','')
s('C06','proved','')
s('C07','proved','')
s('C08','proved','')
s('C09','proved','')
s('C10','proved','checked arithmetic model of the crossing point; products of orientation tests bounded')
s('C17','proved','')
s('C24','proved','C24_graph_reuse and C24_graph_pipeline: the kept edges; C24_shapes and C24_float_shapes: the whole answer (shapes, contours, start points, order) for min_area 0 on the grid, through the modelled pipeline with the list and tree solvers. C24_shapes_area: for every min_area if no two contours of the result touch and none touches itself; otherwise with min_area > 0 the answer depends on the unstable order of equal ends (C24_min_area_refuted), which the statement excludes.')
s('C25','proved','')
s('C11','proved','all strategies including the grid')
s('C12','proved','any split points (any layout contract), and the whole splitting stage')
s('C13','proved','')
s('C14','partial','Proved for LIST, TREE, AUTO up to 16000 edges for every input, and for every strategy and any number of edges (C14_any_strategy_partial) when in each round no edges overlap along a line, no edge ends inside a vertical edge and the radius is below 2^31. In the two excluded situations the grid strategy is refuted by concrete inputs (C14_frag_not_planar_refuted, C14_frag_overlap_refuted).')
s('C15','partial','One round suffices for integer crossings; answers do not depend on the fuel. No bound on rounds in the presence of rounding.')
s('C20','proved','for the list/tree strategies; contours in, contours out: total winding number of the returned contours, relative to the input contours when crossings are integer points, and to the split contours otherwise; also for the edges alone')
s('C31','partial','LIST/TREE/AUTO (no grid) agree unless one panics; with the grid (FRAG, or more than 16000 edges) the splitting and the whole answer equal those of LIST when each round is clear of overlaps along a line and of edges ending inside a vertical edge (C31_as_list_partial, C31_answer_as_list_partial; C31_exact_any_strategy: only the input has to be clear when crossings are integer points). Refuted in those two situations and for fully cancelling input with TREE/FRAG.')
s('C32','proved','start <= 60; refuted above')
s('C35','proved','')
s('C36','proved','C36_fragments_cover: the fragments cover; C36_grid_finds: a pass over the grid is complete.')
s('C38','proved','links of the simplified shape; integer crossings')
s('C39','proved','')
s('C16','proved','every sorted order of the end points (unstable sort)')
s('C18','proved','direct overlay and reused graph')
s('C19','proved','the chosen edge lies strictly inside the swept sector up to every other unused edge')
s('C21','proved','')
s('C23','partial','Proved for every minimal area when no two contours of the result touch and none touches itself: raising it removes exactly the contours below it, the others come out unchanged, in the same order and role (C23_apart_partial, C23_apart_graph_partial). Otherwise true if no contour is too small (C23_nothing_small_partial) and refuted in general: after a discarded contour the scan skips an edge and a large contour is misread as a hole (C23_large_contour_lost_refuted; three of its contours share a vertex).')
s('C37','proved','min_area = 0, or no contour discarded; refuted otherwise (consequence of the C23 defect). Contract on the i_shape cleaning functions: winding numbers unchanged.')
s('C22','proved','For everything extract returns, and for the public join functions on single-contour shapes.')
s('C40','partial','Proved without a condition on the options (either direction, simplified or not) when no two contours of the result touch and none touches itself (C40_shapes_apart_partial, C40_overlay_apart_*); there also for every minimal area: the contours that are large enough are grouped into shapes that make up exactly the region they bound (C40_min_area_partial, C40_min_area_graph_partial, C40_overlay_min_area_partial; with rounding C40_min_area_split_partial). With touching contours: for counter-clockwise output with simplify_contour off without conditions (C40_shapes_plain_partial, C40_overlay_*); with the default options if the sides left after simplification meet only in common ends (C40_shapes_simplified_partial); clockwise if no hole visits its second point twice. The full claim is false: C40_clockwise_refuted, C40_min_area_refuted and, for the default options, C40_simplify_refuted; each of the three needs touching contours. simplify_contour of i_shape is a contract: it drops only points lying between their neighbours.')
s('C29','partial','Proved for min_area 0 and paths whose repeated visits nest (which all walks of slicing do: C46 rests on it); false otherwise: the area test is inverted, and alternating visits panic (refuted theorems). What happens with a minimal area is stated exactly in C29_min_area_exact.')
s('C30','partial','Proved when visits nest, the greatest vertex is not repeated, and only the first repeated vertex is visited more than twice; false otherwise (refuted theorems).')
s('C26','proved','C26_walk: every graph, every set of links. C26_clip_lines: the whole pipeline for any rounding, relative to the split arrangement. C26_clip_exact: relative to the input shapes and lines when crossings are integer points. C26_no_panic. TREE/FRAG with exactly two edges excluded (their loop then does not run).')
s('C27','proved','clip flags orientation of each split edge; the shapes part of a string overlay equals the links of the plain overlay; removal of lines')
s('C28','partial','Separate vectors: proved for every arrangement and whole runs. Shape vectors: closed paths, every edge once, true flags, directions and region proved if at most four edges of the result meet in any vertex; grouping proved for whatever is returned, and that the call returns with at most one shape or without holes. The full claim is false: C28_panic_refuted, C28_wrong_shape_refuted, C28_misread_hole_refuted.')
s('C33','proved','For every floating point semantics and rounding (FloatOps has no laws). Closed walk along the shifted sides, balanced, corners. Refuted: a side can collapse to a segment of length zero (C33_degenerate_refuted).')
s('C34','proved','For every floating point semantics and rounding; open paths need two points each. Refuted: caps can push segments of length zero, short or empty paths panic.')
s('C41','partial','Strokes: unconditional on boldness (every segment is bold); one-contour outlines: if every contour found has a bold link (weak-only contours are dropped by design, and then C41_weak_refuted). With all crossings exact the answer is exact; otherwise (C41_offset_near, C41_stroke_near, C41_outline_near) it is exact at every point farther than the rounding distance of C47 from the drawn segments. Segments of length zero excluded: with one, extraction runs forever (C41_endless_refuted). When the contours of the answer do not touch, the shapes do not overlap and cover the area (C41_shapes_apart, C41_offset_apart, C41_offset_apart_exact; with a minimal area C41_min_area_apart, C41_offset_min_area). The conversion back to floating point and the final simplify_contour: C53. Whole calls, with several contours: C45.')
s('C42','partial','Exact real arithmetic for the floating point operations, any rounding to the grid (closed paths: points equal on the grid are equal). False for custom caps: C42_custom_cap_refuted. Missing: the rounding of the floating point operations.')
s('C43','proved','Exact real arithmetic for the floating point operations, any rounding to the grid; caps of open strokes are only bounded by their reach.')
s('C44','proved','Exact real arithmetic for the floating point operations, any rounding to the grid.')
s('C46','proved','min_area 0 (the default). C46_slice: for every input for which the graph is built, rounded or not (relative to the rounded arrangement); C46_slice_exact: relative to the input when no crossing is rounded. With min_area > 0 it is false (C46_min_area_refuted, from C29); contour edges inside the region cut like lines (C46_only_lines_refuted). Contract: is_clockwise_ordered of i_shape is the sign of the area.')
s('C45','partial','Whatever the crossings: exact at every point farther than the rounding distance of C47 from the drawn segments (C45_stroke_near, C45_single_near), twice that distance for several contours, which are split twice (C45_several_near); no edge of the answer is farther than that distance from the drawn segments, whatever contours are dropped (C45_stroke_edges, C45_single_edges, C45_several_edges). With exact crossings in both stages: exact everywhere (C45_stroke, C45_single, C45_several). When the contours of the answer do not touch, the shapes themselves: no two overlap, each hole is in its shape, and together they cover the area (C45_stroke_apart, C45_stroke_apart_exact, C45_single_apart, C45_several_apart); with a minimal area the contours that are large enough are grouped the same way (C45_single_min_area, C45_several_min_area). Outlines: the region theorems assume that every contour found has a bold link and none is too small (others are dropped by design, C41_weak_refuted); the area of a contour on the grid is an arbitrary function. The conversion back to floating point and clean_result: C53.')
s('C47','proved','C47_split, C47_region, C47_contours, C47_shapes (counter-clockwise, simplify off, as C40), C47_shapes_apart (either direction, simplified or not, when the contours of the result do not touch), C47_min_area (the same with a minimal area), C47_edges; relative to the number of passes the run took (termination itself is C15). Grid strategy excluded (no_grid); contours that repeat their first point at the end excluded (NOTES F16).')
s('C48','proved','C48_paths, C48_overlay, C48_single, C48_simplify, C48_graph, C48_shapes (counter-clockwise, simplify and clean off), C48_shapes_apart (either direction, simplified or not, when the contours of the result do not touch), C48_edges. Contracts for the crates: adapter_ok (i_float FloatPointAdapter: each point goes to a grid point within kappa cells, the way back is exact up to delta), float_clean_ok (clean-up of float shapes), clean_ok, clean_edges. Excluded and refuted (C48_closing_point_refuted, NOTES F27): contours whose first and last points land in the same cell.')
s('C49','proved','C49_clip, C49_slice; relative to the number of passes the run took. Grid strategy excluded (no_grid), contours that repeat their first point at the end excluded (NOTES F16), and arrangements that end with exactly two segments under a strategy other than List (NOTES F6). Slicing with min_area 0.')
s('C50','proved','C50_clip, C50_slice, C50_slice_shapes; contracts and exclusions of C48 and C49. A line whose two ends land in the same grid cell is not covered by the completeness clause.')
s('C51','proved','C51_only, C51_within, C51_stroke, C51_round for the drawn segments, C51_result_* for the returned shapes (integer contours, before the conversion back, which C53 adds). Exact real arithmetic as in C42-C44, rounding to the grid by at most one unit. C51_bevel spells the pieces out. Without the condition on short sides parts of a rectangle are missing: C51_short_side_refuted (F28).')
s('C52','proved','C52_grow_only, C52_grow_within, C52_grow_inside, C52_grow and C52_shrink_keeps, C52_shrink_far, C52_shrink_inside, C52_shrink for the drawn segments, C52_result_* for the returned shapes of a single contour (integer contours, before the conversion back, which C53 adds; no contour dropped for its area or because all of its segments are joins). Exact real arithmetic as in C42-C44, rounding to the grid by at most one unit. C52_bevel spells the pieces out.')
s('C53','proved','stroke_call and outline_call are the public functions from the bounding rectangle to the contours in floating point coordinates. C53_stroke_only, C53_stroke_within, C53_stroke, C53_stroke_round, C53_stroke_edges; C53_outline_within, C53_outline_keeps, C53_outline_inside, C53_outline, C53_outline_edges for one contour; C53_several, C53_several_edges for several (each contour as C52 says). Exact real arithmetic in the geometry as in C42-C44; the adapter and the clean-up of float contours (other crates) by contract: scaling with at most one unit of error on the way in and delta on the way back, winding numbers changed at most eta units away from the contours. Outlines, region theorems: no contour dropped for its area or because all of its segments are joins. Shapes of strokes (C53_shapes_once, C53_shapes_only) and of the offset of one contour (C53_outline_shapes and its companions) and of several (C53_several_shapes): when the contours of the answer do not touch and without the clean-up, each point of the region is covered by exactly one shape, other points by none.')
s('C54','proved','C54_one_round, C54_combine: any answers for one input as subject and clip (any rules, fill rules, min_area). C54_laws, C54_again, C54_boundary: min_area 0. Solvers without the grid. Contracts on the clean-up functions of i_shape: no winding number changes, edges of the cleaned contour lie on edges of the contour, the first point is not repeated at the end.')
s('C55','proved','C55_edges_move: the edges; C55_move: whole answers, any two sorts of the link ends, min_area 0; C55_move_min_area: any min_area, for a sort that treats moved ends alike; C55_deterministic, C55_list_auto: the same input twice; C55_move_area, C55_deterministic_area: any min_area and any two sorts if contours of the result do not touch. Solvers without the grid; strategies TREE and FRAG may panic (F-list), then nothing is claimed. Contract on the clean-up functions of i_shape: they commute with the move.')
s('C56','proved','C56_same_drawing: order, starting points, extra points on edges; C56_reversed: the opposite direction; C56_exchange: subject and clip exchanged; C56_list_auto: all three for LIST and AUTO with no hypothesis about the run; C56_*_area: for every min_area if contours of the result do not touch. Whole answers, point by point.')
s('C57','proved','C57_clip_moves, C57_slice_moves: moves, order of the items and strategy at once; C57_list: no further condition with LIST. The (unstable) sort of the link ends is assumed to be a function of the points (an order of equal ends that depends on the run could change which of several pieces of line is followed first); runs of TREE or FRAG that end with exactly two edges excluded (NOTES F6).')
