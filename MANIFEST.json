{
 "claims": [
  {
   "property": "C01",
   "status": "proved",
   "theorems": [
    "C01_result_edges",
    "C01_result_is_subset"
   ],
   "note": "every arrangement, rule, fill rule, edge, interior point"
  },
  {
   "property": "C02",
   "status": "proved",
   "theorems": [
    "C02_fill_flags",
    "C02_fill_all_edges"
   ],
   "note": "sweep of fill/solver.rs; i_tree collection by contract"
  },
  {
   "property": "C03",
   "status": "partial",
   "theorems": [
    "C03_add_contour_partial",
    "C03_closed_nondegenerate",
    "C03_repeated_first_point_refuted",
    "C03_all_inputs_partial"
   ],
   "note": "The full claim is false for contours that repeat their first point at the end (see _refuted theorem); proved for all others. Closedness and non-degeneracy hold for every contour."
  },
  {
   "property": "C04",
   "status": "proved",
   "theorems": [
    "C04_merge"
   ],
   "note": ""
  },
  {
   "property": "C05",
   "status": "proved",
   "theorems": [
    "C05_order_of_contours",
    "C05_any_sort"
   ],
   "note": ""
  },
  {
   "property": "C06",
   "status": "proved",
   "theorems": [
    "C06_reverse_contour",
    "C06_reverse_fill"
   ],
   "note": ""
  },
  {
   "property": "C07",
   "status": "proved",
   "theorems": [
    "C07_swap"
   ],
   "note": ""
  },
  {
   "property": "C08",
   "status": "proved",
   "theorems": [
    "C08_intersection_test",
    "C08_end_inside"
   ],
   "note": ""
  },
  {
   "property": "C09",
   "status": "proved",
   "theorems": [
    "C09_crossing_point"
   ],
   "note": ""
  },
  {
   "property": "C10",
   "status": "proved",
   "theorems": [
    "C10_cross_point_no_overflow",
    "C10_products_fit"
   ],
   "note": "checked arithmetic model of the crossing point; products of orientation tests bounded"
  },
  {
   "property": "C11",
   "status": "proved",
   "theorems": [
    "C11_nondegenerate",
    "C11_split_points"
   ],
   "note": "all strategies including the grid"
  },
  {
   "property": "C12",
   "status": "proved",
   "theorems": [
    "C12_any_split_points",
    "C12_closed_after_split"
   ],
   "note": "any split points (any layout contract), and the whole splitting stage"
  },
  {
   "property": "C13",
   "status": "proved",
   "theorems": [
    "C13_exact_split"
   ],
   "note": ""
  },
  {
   "property": "C14",
   "status": "partial",
   "theorems": [
    "C14_planar_partial",
    "C14_frag_not_planar_refuted",
    "C14_any_strategy_partial",
    "C14_frag_overlap_refuted"
   ],
   "note": "Proved for LIST, TREE, AUTO up to 16000 edges for every input, and for every strategy and any number of edges (C14_any_strategy_partial) when in each round no edges overlap along a line, no edge ends inside a vertical edge and the radius is below 2^31. In the two excluded situations the grid strategy is refuted by concrete inputs (C14_frag_not_planar_refuted, C14_frag_overlap_refuted)."
  },
  {
   "property": "C15",
   "status": "partial",
   "theorems": [
    "C15_exact_terminates_partial",
    "C15_fuel_monotone"
   ],
   "note": "One round suffices for integer crossings; answers do not depend on the fuel. No bound on rounds in the presence of rounding."
  },
  {
   "property": "C16",
   "status": "proved",
   "theorems": [
    "C16_graph_exact"
   ],
   "note": "every sorted order of the end points (unstable sort)"
  },
  {
   "property": "C17",
   "status": "proved",
   "theorems": [
    "C17_even_degree"
   ],
   "note": ""
  },
  {
   "property": "C18",
   "status": "proved",
   "theorems": [
    "C18_extraction",
    "C18_extraction_graph"
   ],
   "note": "direct overlay and reused graph"
  },
  {
   "property": "C19",
   "status": "proved",
   "theorems": [
    "C19_tightest_turn"
   ],
   "note": "the chosen edge lies strictly inside the swept sector up to every other unused edge"
  },
  {
   "property": "C20",
   "status": "proved",
   "theorems": [
    "C20_region_split",
    "C20_region_exact",
    "C20_winding_one",
    "C20_contours_exact",
    "C20_contours_split"
   ],
   "note": "for the list/tree strategies; contours in, contours out: total winding number of the returned contours, relative to the input contours when crossings are integer points, and to the split contours otherwise; also for the edges alone"
  },
  {
   "property": "C21",
   "status": "proved",
   "theorems": [
    "C21_min_area"
   ],
   "note": ""
  },
  {
   "property": "C22",
   "status": "proved",
   "theorems": [
    "C22_holes_once",
    "C22_join_unsorted",
    "C22_join_sorted"
   ],
   "note": "For everything extract returns, and for the public join functions on single-contour shapes."
  },
  {
   "property": "C23",
   "status": "partial",
   "theorems": [
    "C23_nothing_small_partial",
    "C23_large_contour_lost_refuted",
    "C23_apart_partial",
    "C23_apart_graph_partial"
   ],
   "note": "Proved for every minimal area when no two contours of the result touch and none touches itself: raising it removes exactly the contours below it, the others come out unchanged, in the same order and role (C23_apart_partial, C23_apart_graph_partial). Otherwise true if no contour is too small (C23_nothing_small_partial) and refuted in general: after a discarded contour the scan skips an edge and a large contour is misread as a hole (C23_large_contour_lost_refuted; three of its contours share a vertex)."
  },
  {
   "property": "C24",
   "status": "proved",
   "theorems": [
    "C24_graph_reuse",
    "C24_graph_pipeline",
    "C24_shapes_area",
    "C24_shapes",
    "C24_float_shapes",
    "C24_min_area_refuted"
   ],
   "note": "C24_graph_reuse and C24_graph_pipeline: the kept edges; C24_shapes and C24_float_shapes: the whole answer (shapes, contours, start points, order) for min_area 0 on the grid, through the modelled pipeline with the list and tree solvers. C24_shapes_area: for every min_area if no two contours of the result touch and none touches itself; otherwise with min_area > 0 the answer depends on the unstable order of equal ends (C24_min_area_refuted), which the statement excludes."
  },
  {
   "property": "C25",
   "status": "proved",
   "theorems": [
    "C25_clip_complement",
    "C25_fill_values"
   ],
   "note": ""
  },
  {
   "property": "C26",
   "status": "proved",
   "theorems": [
    "C26_walk",
    "C26_clip_lines",
    "C26_clip_exact",
    "C26_no_panic"
   ],
   "note": "C26_walk: every graph, every set of links. C26_clip_lines: the whole pipeline for any rounding, relative to the split arrangement. C26_clip_exact: relative to the input shapes and lines when crossings are integer points. C26_no_panic. TREE/FRAG with exactly two edges excluded (their loop then does not run)."
  },
  {
   "property": "C27",
   "status": "proved",
   "theorems": [
    "C27_flags",
    "C27_flags_exact",
    "C27_same_shapes",
    "C27_lines_removed"
   ],
   "note": "clip flags orientation of each split edge; the shapes part of a string overlay equals the links of the plain overlay; removal of lines"
  },
  {
   "property": "C28",
   "status": "partial",
   "theorems": [
    "C28_separate",
    "C28_shape_vectors_partial",
    "C28_into_separate_vectors",
    "C28_into_separate_vectors_exact",
    "C28_into_shape_vectors_partial",
    "C28_panic_refuted",
    "C28_wrong_shape_refuted",
    "C28_misread_hole_refuted"
   ],
   "note": "Separate vectors: proved for every arrangement and whole runs. Shape vectors: closed paths, every edge once, true flags, directions and region proved if at most four edges of the result meet in any vertex; grouping proved for whatever is returned, and that the call returns with at most one shape or without holes. The full claim is false: C28_panic_refuted, C28_wrong_shape_refuted, C28_misread_hole_refuted."
  },
  {
   "property": "C29",
   "status": "partial",
   "theorems": [
    "C29_split_loops_partial",
    "C29_min_area_exact",
    "C29_min_area_refuted",
    "C29_min_area_keeps_small_refuted",
    "C29_alternating_refuted"
   ],
   "note": "Proved for min_area 0 and paths whose repeated visits nest (which all walks of slicing do: C46 rests on it); false otherwise: the area test is inverted, and alternating visits panic (refuted theorems). What happens with a minimal area is stated exactly in C29_min_area_exact."
  },
  {
   "property": "C30",
   "status": "partial",
   "theorems": [
    "C30_decompose_partial",
    "C30_greatest_vertex_refuted",
    "C30_third_visit_refuted",
    "C30_alternating_refuted"
   ],
   "note": "Proved when visits nest, the greatest vertex is not repeated, and only the first repeated vertex is visited more than twice; false otherwise (refuted theorems)."
  },
  {
   "property": "C31",
   "status": "partial",
   "theorems": [
    "C31_strategies_partial",
    "C31_links_partial",
    "C31_frag_differs_refuted",
    "C31_tree_panics_refuted",
    "C31_as_list_partial",
    "C31_answer_as_list_partial",
    "C31_exact_any_strategy",
    "C31_frag_overlap_refuted"
   ],
   "note": "LIST/TREE/AUTO (no grid) agree unless one panics; with the grid (FRAG, or more than 16000 edges) the splitting and the whole answer equal those of LIST when each round is clear of overlaps along a line and of edges ending inside a vertical edge (C31_as_list_partial, C31_answer_as_list_partial; C31_exact_any_strategy: only the input has to be clear when crossings are integer points). Refuted in those two situations and for fully cancelling input with TREE/FRAG."
  },
  {
   "property": "C32",
   "status": "proved",
   "theorems": [
    "C32_radius",
    "C32_start_61_refuted"
   ],
   "note": "start <= 60; refuted above"
  },
  {
   "property": "C33",
   "status": "proved",
   "theorems": [
    "C33_outline",
    "C33_corners",
    "C33_degenerate_refuted"
   ],
   "note": "For every floating point semantics and rounding (FloatOps has no laws). Closed walk along the shifted sides, balanced, corners. Refuted: a side can collapse to a segment of length zero (C33_degenerate_refuted)."
  },
  {
   "property": "C34",
   "status": "proved",
   "theorems": [
    "C34_open",
    "C34_closed",
    "C34_stroke",
    "C34_degenerate_refuted",
    "C34_panic_refuted"
   ],
   "note": "For every floating point semantics and rounding; open paths need two points each. Refuted: caps can push segments of length zero, short or empty paths panic."
  },
  {
   "property": "C35",
   "status": "proved",
   "theorems": [
    "C35_bins_equal_direct",
    "C35_layout_irrelevant"
   ],
   "note": ""
  },
  {
   "property": "C36",
   "status": "proved",
   "theorems": [
    "C36_fragments_cover",
    "C36_grid_finds"
   ],
   "note": "C36_fragments_cover: the fragments cover; C36_grid_finds: a pass over the grid is complete."
  },
  {
   "property": "C37",
   "status": "proved",
   "theorems": [
    "C37_direction",
    "C37_direction_graph",
    "C37_hole_without_outer_refuted"
   ],
   "note": "min_area = 0, or no contour discarded; refuted otherwise (consequence of the C23 defect). Contract on the i_shape cleaning functions: winding numbers unchanged."
  },
  {
   "property": "C38",
   "status": "proved",
   "theorems": [
    "C38_simplify_region"
   ],
   "note": "links of the simplified shape; integer crossings"
  },
  {
   "property": "C39",
   "status": "proved",
   "theorems": [
    "C39_no_panic"
   ],
   "note": ""
  },
  {
   "property": "C40",
   "status": "partial",
   "theorems": [
    "C40_shapes_partial",
    "C40_shapes_graph_partial",
    "C40_shapes_plain_partial",
    "C40_overlay_exact_partial",
    "C40_overlay_split_partial",
    "C40_clockwise_refuted",
    "C40_min_area_refuted",
    "C40_simplify_refuted",
    "C40_shapes_simplified_partial",
    "C40_shapes_apart_partial",
    "C40_shapes_apart_graph_partial",
    "C40_overlay_apart_partial",
    "C40_overlay_apart_split_partial",
    "C40_min_area_partial",
    "C40_min_area_graph_partial",
    "C40_overlay_min_area_partial",
    "C40_min_area_split_partial"
   ],
   "note": "Proved without a condition on the options (either direction, simplified or not) when no two contours of the result touch and none touches itself (C40_shapes_apart_partial, C40_overlay_apart_*); there also for every minimal area: the contours that are large enough are grouped into shapes that make up exactly the region they bound (C40_min_area_partial, C40_min_area_graph_partial, C40_overlay_min_area_partial; with rounding C40_min_area_split_partial). With touching contours: for counter-clockwise output with simplify_contour off without conditions (C40_shapes_plain_partial, C40_overlay_*); with the default options if the sides left after simplification meet only in common ends (C40_shapes_simplified_partial); clockwise if no hole visits its second point twice. The full claim is false: C40_clockwise_refuted, C40_min_area_refuted and, for the default options, C40_simplify_refuted; each of the three needs touching contours. simplify_contour of i_shape is a contract: it drops only points lying between their neighbours."
  },
  {
   "property": "C41",
   "status": "partial",
   "theorems": [
    "C41_extract",
    "C41_offset_exact",
    "C41_offset_split",
    "C41_stroke_exact",
    "C41_stroke_split",
    "C41_outline_exact",
    "C41_endless_refuted",
    "C41_weak_refuted",
    "C41_offset_near",
    "C41_stroke_near",
    "C41_outline_near",
    "C41_shapes_apart",
    "C41_min_area_apart",
    "C41_offset_apart",
    "C41_offset_apart_exact",
    "C41_offset_min_area"
   ],
   "note": "Strokes: unconditional on boldness (every segment is bold); one-contour outlines: if every contour found has a bold link (weak-only contours are dropped by design, and then C41_weak_refuted). With all crossings exact the answer is exact; otherwise (C41_offset_near, C41_stroke_near, C41_outline_near) it is exact at every point farther than the rounding distance of C47 from the drawn segments. Segments of length zero excluded: with one, extraction runs forever (C41_endless_refuted). When the contours of the answer do not touch, the shapes do not overlap and cover the area (C41_shapes_apart, C41_offset_apart, C41_offset_apart_exact; with a minimal area C41_min_area_apart, C41_offset_min_area). The conversion back to floating point and the final simplify_contour: C53. Whole calls, with several contours: C45."
  },
  {
   "property": "C42",
   "status": "partial",
   "theorems": [
    "C42_stroke_reach",
    "C42_outline_reach",
    "C42_stroke_rect",
    "C42_outline_rect",
    "C42_custom_cap_refuted"
   ],
   "note": "Exact real arithmetic for the floating point operations, any rounding to the grid (closed paths: points equal on the grid are equal). False for custom caps: C42_custom_cap_refuted. Missing: the rounding of the floating point operations."
  },
  {
   "property": "C43",
   "status": "proved",
   "theorems": [
    "C43_closed_stroke",
    "C43_open_stroke",
    "C43_outline"
   ],
   "note": "Exact real arithmetic for the floating point operations, any rounding to the grid; caps of open strokes are only bounded by their reach."
  },
  {
   "property": "C44",
   "status": "proved",
   "theorems": [
    "C44_closed_stroke",
    "C44_outline",
    "C44_caps",
    "C44_open_stroke",
    "C44_round_cap"
   ],
   "note": "Exact real arithmetic for the floating point operations, any rounding to the grid."
  },
  {
   "property": "C45",
   "status": "partial",
   "theorems": [
    "C45_single",
    "C45_several",
    "C45_stroke",
    "C45_stroke_near",
    "C45_single_near",
    "C45_stroke_edges",
    "C45_single_edges",
    "C45_several_near",
    "C45_several_edges",
    "C45_stroke_apart",
    "C45_stroke_apart_exact",
    "C45_single_apart",
    "C45_several_apart",
    "C45_single_min_area",
    "C45_several_min_area"
   ],
   "note": "Whatever the crossings: exact at every point farther than the rounding distance of C47 from the drawn segments (C45_stroke_near, C45_single_near), twice that distance for several contours, which are split twice (C45_several_near); no edge of the answer is farther than that distance from the drawn segments, whatever contours are dropped (C45_stroke_edges, C45_single_edges, C45_several_edges). With exact crossings in both stages: exact everywhere (C45_stroke, C45_single, C45_several). When the contours of the answer do not touch, the shapes themselves: no two overlap, each hole is in its shape, and together they cover the area (C45_stroke_apart, C45_stroke_apart_exact, C45_single_apart, C45_several_apart); with a minimal area the contours that are large enough are grouped the same way (C45_single_min_area, C45_several_min_area). Outlines: the region theorems assume that every contour found has a bold link and none is too small (others are dropped by design, C41_weak_refuted); the area of a contour on the grid is an arbitrary function. The conversion back to floating point and clean_result: C53."
  },
  {
   "property": "C46",
   "status": "proved",
   "theorems": [
    "C46_slice",
    "C46_slice_exact",
    "C46_min_area_refuted",
    "C46_only_lines_refuted"
   ],
   "note": "min_area 0 (the default). C46_slice: for every input for which the graph is built, rounded or not (relative to the rounded arrangement); C46_slice_exact: relative to the input when no crossing is rounded. With min_area > 0 it is false (C46_min_area_refuted, from C29); contour edges inside the region cut like lines (C46_only_lines_refuted). Contract: is_clockwise_ordered of i_shape is the sign of the area."
  },
  {
   "property": "C47",
   "status": "proved",
   "theorems": [
    "C47_split",
    "C47_region",
    "C47_contours",
    "C47_shapes",
    "C47_edges",
    "C47_shapes_apart",
    "C47_min_area"
   ],
   "note": "C47_split, C47_region, C47_contours, C47_shapes (counter-clockwise, simplify off, as C40), C47_shapes_apart (either direction, simplified or not, when the contours of the result do not touch), C47_min_area (the same with a minimal area), C47_edges; relative to the number of passes the run took (termination itself is C15). Grid strategy excluded (no_grid); contours that repeat their first point at the end excluded (NOTES F16)."
  },
  {
   "property": "C48",
   "status": "proved",
   "theorems": [
    "C48_paths",
    "C48_overlay",
    "C48_single",
    "C48_simplify",
    "C48_graph",
    "C48_shapes",
    "C48_edges",
    "C48_closing_point_refuted",
    "C48_shapes_apart"
   ],
   "note": "C48_paths, C48_overlay, C48_single, C48_simplify, C48_graph, C48_shapes (counter-clockwise, simplify and clean off), C48_shapes_apart (either direction, simplified or not, when the contours of the result do not touch), C48_edges. Contracts for the crates: adapter_ok (i_float FloatPointAdapter: each point goes to a grid point within kappa cells, the way back is exact up to delta), float_clean_ok (clean-up of float shapes), clean_ok, clean_edges. Excluded and refuted (C48_closing_point_refuted, NOTES F27): contours whose first and last points land in the same cell."
  },
  {
   "property": "C49",
   "status": "proved",
   "theorems": [
    "C49_clip",
    "C49_slice"
   ],
   "note": "C49_clip, C49_slice; relative to the number of passes the run took. Grid strategy excluded (no_grid), contours that repeat their first point at the end excluded (NOTES F16), and arrangements that end with exactly two segments under a strategy other than List (NOTES F6). Slicing with min_area 0."
  },
  {
   "property": "C50",
   "status": "proved",
   "theorems": [
    "C50_clip",
    "C50_slice",
    "C50_slice_shapes"
   ],
   "note": "C50_clip, C50_slice, C50_slice_shapes; contracts and exclusions of C48 and C49. A line whose two ends land in the same grid cell is not covered by the completeness clause."
  },
  {
   "property": "C51",
   "status": "proved",
   "theorems": [
    "C51_only",
    "C51_within",
    "C51_stroke",
    "C51_round",
    "C51_result_only",
    "C51_result_within",
    "C51_result",
    "C51_result_round",
    "C51_bevel",
    "C51_short_side_refuted"
   ],
   "note": "C51_only, C51_within, C51_stroke, C51_round for the drawn segments, C51_result_* for the returned shapes (integer contours, before the conversion back, which C53 adds). Exact real arithmetic as in C42-C44, rounding to the grid by at most one unit. C51_bevel spells the pieces out. Without the condition on short sides parts of a rectangle are missing: C51_short_side_refuted (F28)."
  },
  {
   "property": "C52",
   "status": "proved",
   "theorems": [
    "C52_grow_only",
    "C52_grow_within",
    "C52_grow_inside",
    "C52_grow",
    "C52_shrink_keeps",
    "C52_shrink_far",
    "C52_shrink_inside",
    "C52_shrink",
    "C52_result_within",
    "C52_result_keeps",
    "C52_result_inside",
    "C52_result",
    "C52_bevel"
   ],
   "note": "C52_grow_only, C52_grow_within, C52_grow_inside, C52_grow and C52_shrink_keeps, C52_shrink_far, C52_shrink_inside, C52_shrink for the drawn segments, C52_result_* for the returned shapes of a single contour (integer contours, before the conversion back, which C53 adds; no contour dropped for its area or because all of its segments are joins). Exact real arithmetic as in C42-C44, rounding to the grid by at most one unit. C52_bevel spells the pieces out."
  },
  {
   "property": "C53",
   "status": "proved",
   "theorems": [
    "C53_stroke_only",
    "C53_stroke_within",
    "C53_stroke_edges",
    "C53_stroke",
    "C53_stroke_round",
    "C53_outline_edges",
    "C53_outline_within",
    "C53_outline_keeps",
    "C53_outline_inside",
    "C53_outline",
    "C53_several_edges",
    "C53_several",
    "C53_shapes_only",
    "C53_shapes_once",
    "C53_outline_shapes_within",
    "C53_outline_shapes_keeps",
    "C53_outline_shapes_inside",
    "C53_outline_shapes",
    "C53_several_shapes"
   ],
   "note": "stroke_call and outline_call are the public functions from the bounding rectangle to the contours in floating point coordinates. C53_stroke_only, C53_stroke_within, C53_stroke, C53_stroke_round, C53_stroke_edges; C53_outline_within, C53_outline_keeps, C53_outline_inside, C53_outline, C53_outline_edges for one contour; C53_several, C53_several_edges for several (each contour as C52 says). Exact real arithmetic in the geometry as in C42-C44; the adapter and the clean-up of float contours (other crates) by contract: scaling with at most one unit of error on the way in and delta on the way back, winding numbers changed at most eta units away from the contours. Outlines, region theorems: no contour dropped for its area or because all of its segments are joins. Shapes of strokes (C53_shapes_once, C53_shapes_only) and of the offset of one contour (C53_outline_shapes and its companions) and of several (C53_several_shapes): when the contours of the answer do not touch and without the clean-up, each point of the region is covered by exactly one shape, other points by none."
  },
  {
   "property": "C54",
   "status": "proved",
   "theorems": [
    "C54_one_round",
    "C54_combine",
    "C54_boundary",
    "C54_laws",
    "C54_again"
   ],
   "note": "C54_one_round, C54_combine: any answers for one input as subject and clip (any rules, fill rules, min_area). C54_laws, C54_again, C54_boundary: min_area 0. Solvers without the grid. Contracts on the clean-up functions of i_shape: no winding number changes, edges of the cleaned contour lie on edges of the contour, the first point is not repeated at the end."
  },
  {
   "property": "C55",
   "status": "proved",
   "theorems": [
    "C55_edges_move",
    "C55_move_min_area",
    "C55_move_area",
    "C55_move",
    "C55_deterministic_area",
    "C55_deterministic",
    "C55_list_auto"
   ],
   "note": "C55_edges_move: the edges; C55_move: whole answers, any two sorts of the link ends, min_area 0; C55_move_min_area: any min_area, for a sort that treats moved ends alike; C55_deterministic, C55_list_auto: the same input twice; C55_move_area, C55_deterministic_area: any min_area and any two sorts if contours of the result do not touch. Solvers without the grid; strategies TREE and FRAG may panic (F-list), then nothing is claimed. Contract on the clean-up functions of i_shape: they commute with the move."
  },
  {
   "property": "C56",
   "status": "proved",
   "theorems": [
    "C56_same_drawing_area",
    "C56_same_drawing",
    "C56_reversed_area",
    "C56_reversed",
    "C56_exchange_area",
    "C56_exchange",
    "C56_list_auto"
   ],
   "note": "C56_same_drawing: order, starting points, extra points on edges; C56_reversed: the opposite direction; C56_exchange: subject and clip exchanged; C56_list_auto: all three for LIST and AUTO with no hypothesis about the run; C56_*_area: for every min_area if contours of the result do not touch. Whole answers, point by point."
  },
  {
   "property": "C57",
   "status": "proved",
   "theorems": [
    "C57_clip_moves",
    "C57_slice_moves",
    "C57_list"
   ],
   "note": "C57_clip_moves, C57_slice_moves: moves, order of the items and strategy at once; C57_list: no further condition with LIST. The (unstable) sort of the link ends is assumed to be a function of the points (an order of equal ends that depends on the run could change which of several pieces of line is followed first); runs of TREE or FRAG that end with exactly two edges excluded (NOTES F6)."
  }
 ]
}