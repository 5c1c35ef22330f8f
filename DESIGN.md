# Formal model of iOverlay in Rocq (Coq 8.16.1)

## 1. Scope and method

`rocq/theories/` holds an executable Gallina model of the integer core of
iOverlay (`/repo/iOverlay/src`), function by function; every definition cites the
file and lines it models.  Mutation becomes returning the new value, loops become
structural recursion, folds or fuelled recursion (fuel exhaustion is `None`, never
a normal looking value), index errors / panics are explicit `None`.

Layers:

| file | content |
|---|---|
| `Base.v` | points, lexicographic order, cross product (contract of `i_float::Triangle`), insertion sort with its laws |
| `Spec.v` | the independent specification: rational points, height of a segment, winding number, boundary/balance, planarity, fill rule, boolean operations |
| `Model*.v` | the code: winding counts, segment building, merging, crossing, splitting, fill sweep, filters, graph, extraction, binding, strings, vectors, loops, offsets |
| `*Proofs.v` | lemmas |
| `Properties*.v` | only the property theorems (`exact lemma`), with `Print Assumptions` and non-vacuity examples |

Specification objects (`Spec.v`), independent of the code:

* a point of the plane is a pair of rationals (`Q`);
* `wind w segs (x,y)` = sum of the counts of the segments crossed by the downward
  vertical ray from `(x,y)` (half open rule `a.x <= x < b.x`), i.e. the winding number;
* `contour_wind path q` = the winding number of a closed polygon given as vertex list;
* `balanced` = at every vertex the in and out counts agree (closed chain);
* `planar` = two distinct segments meet only in a point that is an end of both;
* `fill_rule`, `bool_op` = textbook definitions.

## 2. Properties: what is modelled, how it is proved

* C01, C07, C24, C25 — `filter.rs`, `overlay_rule.rs`, finite domain of fills (16 values), all rules; statement over the decoded bits, proof by exhaustion lifted to all fills.
* C24 whole answers (`Reuse.v`, `Properties27.v`) — the graph built from the kept links of one rule is embedded in the graph with all links (`Em`: an increasing map of link numbers, same points). Simulation: the first free link, the top link of its node, the next link at a node and the whole walk of the big graph with the other links marked excluded are the images of those of the small graph (`top_starts`, `next_sub`, `walk_sub`, `extract_sub`). With min_area 0 no contour is rejected by size, so the known skip after a rejected contour (F8/F9) cannot tell the two apart. Not covered: min_area > 0 and the fragment grid. A minimal area (C24, C55, C56, `Apart`): if contours do not touch, the pieces found do not depend on it (`Fewer`), so what holds for 0 holds for every one.
* C02 — `fill/solver.rs` with the i_tree collection modelled as an ordered list; sweep invariant: stored value of an active segment = winding above it; proof by induction over the event points, using planarity and balance.
* C03, C06 — `segm/build.rs`; winding contributions of collinear runs telescope; induction over the point list.
* C04, C05 — `segm/merge.rs`, sort; permutation invariance: sorted merge is canonical.
* C08, C09, C10, C11 — `cross_solver.rs`; exact integer geometry over `Z`, machine arithmetic (`mod 2^64`, u128 division loop) modelled explicitly for C10.
* C12, C13, C35 — `split/solver.rs` `apply`, both paths; chain telescoping per segment.
* C14 — `solver_list.rs` loop; invariant of the last round.
* C15 — measure argument on the split rounds (partial: see theorem).
* C16 — `graph.rs` merge loop.
* C17 — from C02 by walking around a vertex.
* C18 — trail argument on even degree graphs with the code's visited vector.
* C19 — `nearest_vector.rs`.
* C20 — composition C03+C04+C13+C14+C02+C01+C17+C18.
* C21, C23 — `Validate`, `extract`. C23 is expected to be refuted (finding F9). C23 is refuted in general (finding F9: a rejected contour may hide a large one); proved when contours do not touch: every link of a walk is then met by the search itself, so a rejected contour hides nothing (`Fewer`, `Properties30`).
* C22 — `bind/solver.rs`: bookkeeping (partition of holes).
* C26, C27 — `string/*.rs` (`ModelString`: `ShapeCountString`, `line_segment`, `ClipRule` filters, `string_contour`/clip extraction with the visit bits; `StringProofs`, `StringResults`, `StringMain`). C26: every link kept by the clip rule is walked exactly once in each direction it was drawn in, and by nothing else; with the sweep theorem (C02) and the splitting theorems (C13/C14, generic in the winding count) this becomes: the returned polylines run along the input lines exactly where the clip rule asks for. C27: the two clip bits of a split edge are the OR of the directions of the lines over it, and the shape counts are those of the overlay without lines. Slicing (`string/extract.rs`): C46.
* C28 — `vector/edge.rs`, `vector/extract_vectors.rs` in `ModelVector.v`. Separate vectors are the graph's links; their flags
  are true by C02. For shapes, the vector loop is shown to run in step with the contour extraction of C18 (clockwise, no
  cleaning) as long as at most four edges meet in a vertex (`vector_sync`), so C18/C37 carry over; beyond four edges the
  loop can pass over a start (refuted by an example). The search for the shape around a hole (`vscan_join`) is modelled with an
  arbitrary sort; it is wrong as soon as there are two shapes and a hole (refuted: panic, wrong shape).
* C29, C30 — `string/split.rs`, `core/divide.rs`; general claim refuted by witnesses (F1,F2,F3), positive theorem for the laminar case.
* C31 — refuted by witnesses (F5, F6, F17, F31); positive: LIST/TREE/AUTO always (`OverlayProofs`), the grid when every round is clear of collinear overlaps and of ends inside vertical edges (`GridFind` one pass, `GridLoop` all rounds, `Properties28`).
* C32 — `snap_radius.rs`.
* C33, C34 — `mesh/outline/{builder,builder_join,section}.rs`, `mesh/stroke/{builder,builder_join,builder_cap,section}.rs`, `mesh/{math,miter,rotator,style,subject}.rs`: every builder over a record of floating point operations without any laws (`FloatOps`) and an arbitrary map from points to integer points; so the theorems hold for every rounding, for NaN, for every point type. Not modelled: `max_offset`/`additional_offset`/`capacity` of the builders (they only choose the adapter's rectangle and a Vec capacity; the underflow of the stroke capacity is modelled), the early return of `stroke` for a radius of at most one grid unit.
* C36 — `grid_layout.rs`: fragments cover the segment (`GridCover`), and a pass over the columns finds every crossing (`GridFind.frag_pass_complete`).
* C37 — orientation and nesting of the extracted contours: sector argument (the two sides of an edge seen from an end point), invariant of the walk (region side constant), sum over the contours (`SectorLemma`, `Sides`, `WalkSides`, `Orient`).
* C40 — hole binding (`bind/solver.rs`, `bind/segment.rs`): the sweep finds, below the anchor of a hole, the contour directly underneath; with the winding sums of C37 this contour (or the parent of that hole) contains it (`BindSweep`, `Nest`). Conditions in the theorem, and refuted outside them: no contour discarded (`C40_min_area_refuted`), second point of a hole visited once when clockwise (`C40_clockwise_refuted`), and, when cleaning drops points, the sides that are left meet only in common ends (`C40_simplify_refuted`; `Thin` relates a side to the links it covers, `Nest.bind_thinned` redoes the sweep with the longer sides, `Properties29` states the theorems). If no contours touch (`apart`), all of these hold by themselves and no condition on direction or simplification is left. The condition on sides is needed because the merged straight edges may touch other contours inside an edge, where `VSegment::cmp` gives `Equal` and the outcome depends on the tie rule of i_tree, which is not in /repo. With a minimal area and untouched contours the kept contours are the same as those of an extraction in which the links of discarded contours are masked (`Masked`); a discarded contour is never the parent of a kept one because the enclosing contour has the larger area (`AreaMono`, `Kept`), so the kept contours are again bound correctly (`KeptShapes`, `Properties31`).
* C41 — `mesh/boolean.rs`: `offset_links`, `offset_pieces` (the extraction with its bold test). Splitting commutes with forgetting the bold bit (`Natural.split_smap`), fills and graph agree with those of a Subject overlay with the Positive rule up to the bold bit, and as long as every contour found is bold so does the extraction (`OffsetProofs`); then C37 applies. Strokes only produce bold segments. Refuted outside: a segment of length zero makes the walk go on forever (`C41_endless_refuted`: for every number of steps it is still walking), a dropped weak contour can turn the next one into a hole (`C41_weak_refuted`). With rounding (`OffsetNear`, `Properties19`): the split segments wind as the drawn ones at every point farther than the distance of C47 from all of them.
* C42, C43 — the builders of C33/C34 over the reals (`RealMesh.RF`, an instance of `FloatOps`: exact `sqrt`, `tan`, `acos`, `sin`, `cos`), the rounding to the grid stays an arbitrary function. `MeshStrip` writes the generated segments as sides and corners, `RealJoin` bounds each join (miter length `r / sin (angle / 2)`, arcs: rotation by equal angles), `RealReach` adds the caps, `ModelRect` is the rectangle of the adapter (`additional_offset`). Floating point rounding is not expressed (it would need bounds on the library functions `acos`, `tan`, `sincos` of the platform).
* C44 — the same, `RealMiter`: the tip of a miter as the point where two lines meet, caps as a polygon in their own coordinates.
* C45 — `ModelOutline`: `outline_custom` and `stroke_custom` as a whole, from the paths to the integer shapes; C41 for each contour, C37 for the final overlay, C22 for the grouping into shapes. With rounding: `OffsetNear`, `OffsetEdges`, `Properties22` (each contour of an offset runs near the drawn segments, so being far from twice the distance from them is enough for both splits). `Properties35`: the shapes of strokes and offsets are those the boolean overlay makes of the links without their bold flags, so the grouping of C40 (contours that do not touch) carries over: no overlap, holes in their shapes, the union is the area.
* C46 — `ModelSlice`: `extract_shapes_custom`, `get_paths`, `slice_by` of the string overlay. The walk keeps on its side of the lines a constant value of every closed chain of region links (`SliceWalk`, `SliceLoops`); hence its repeated visits nest, `split_loops` gives simple loops (C29), their direction tells outer contours from holes, and the sweep of `join_unsorted_holes` finds for each hole an outer contour on which every closed chain has the same value (`SliceNest`). From that: winding numbers of the shapes are 0 or 1 (`SliceFinal`), and a step walked in both directions by one walk lies on no polygon.
* C47 — how far rounding moves the result. `SplitNear`: one pass replaces each segment by pieces through marks that lie within `1 + sqrt radius` of it (rounded crossing: less than 1 from the exact one, `CrossPoint`; snapping: at most the radius), and a point farther than that from a segment is not enclosed by the triangle between the segment and a mark (`triangle_zero`), so its winding numbers do not change; induction over the passes sums the distances (`drift`). `InputCover`: the segments made of a contour lie on its edges. `Properties15` states it for the region, contours, shapes and edges of the result relative to the input contours; `Properties33` adds shapes for every direction, simplification and minimal area when the contours do not touch (and the same for the floating point interface, C48), by joining `overlay_near` with the `apart` theorems of C40.
* C48 — `ModelFloat`: `float/*.rs` (the three iterators over resources, `FloatOverlay`, `FloatOverlayGraph`, `SimplifyShape`, string clipping and slicing) over rational coordinates; the adapter of `i_float` and the clean-up of `i_shape` are arbitrary functions under contracts (`adapter_ok`, `float_clean_ok`, `clean_edges`). `FloatSpace.contour_move`: moving every vertex by at most d changes no winding number farther than d from the edges; `OverlayNear`: C47 for the shapes; `FloatMain`: both together.
* C49 — the splitting loop as a sequence of rounds, each of which moves every edge by a bounded distance (`Rounds.v`: winding numbers away from edges with a nonzero count, sources of flagged edges, and covers of flagged edges, for any winding count), instantiated for the string counts (`StringNear.v`) and combined with C26, C27 and C46 (`Properties17.v`). Specification: `near_contour`, `near_line`, `kept_at`, `reachable`.
* C50 — `float/clip.rs`, `float/slice.rs`, `float/string_overlay.rs`, `float/string_graph.rs` in `ModelFloat`; C49 transported through the adapter contract of C48 (`FloatString.v`, `Properties18.v`).
* C51 — strokes over the reals (`RF`), down to winding numbers: `RealWind` (winding of triangles and quadrangles with real corners), `RealMove` (moving the corners by at most one unit, and rounding them to the grid, does not change the winding around points farther than two units from the drawn segments), `RealCorner`, `RealPieces`, `RealStroke` (the chain drawn for a stroke = sum over the sides of the rectangle, over the bends of the outer join minus the inner triangle, plus the caps), `RealCount`, `RealCover` (with long sides every inner triangle is covered by both neighbouring rectangles, so the sum is positive exactly on the union), `RealPath`, `RealRound` (the union of the pieces and distances from the path), `Properties20`; the returned shapes by C45 with rounding (`OffsetNear`, `Properties19`). Without the length condition it is false: `C51_short_side_refuted`.
* C52 — as C51 for `outline` of one contour: `RealOuter` (what a join draws, as points over the reals), `RealShift` (rectangles between a side and the moved side, the fan of an outer corner, the triangle of an inner corner, halves of sides), `RealContour` (winding around a point of what is drawn = winding of the contour ± (rectangles + outer fans − inner triangles)), `RealOffset` (with long sides every inner triangle is paid for by the halves of its two rectangles, so that sum is not negative; with bends of at most a right angle, or inside a convex contour, it is positive on every piece), `RealAround` (the same for the points of the contour, `poly_wind`), `Properties21`; the returned shapes by `C45_single_near`.
* C53 — `stroke_call` and `outline_call` (`Properties23`) put the pieces together: the rectangle of `ModelRect`, any adapter, `stroke_custom`/`outline_custom` of `ModelOutline`, and `float_shapes` (`RealBack`) for `to_float` and `simplify_contour`. `RealBack`: winding numbers of contours with real coordinates, moving the vertices by at most delta does not change them away from the edges (as `RealMove` for segments), edges of the integer contours are near drawn segments (`OffsetEdges`, `Properties22`), and rational points are dense in an edge, so clear of the drawn segments means clear of the edges. Then C51, C52 and C45 say which points are filled; `C53_several` combines C45_several_near with C52 for every contour. `Properties36`: when the contours of the answer do not touch (and without the clean-up), the shapes returned by a stroke, the offset of one contour or of several (`C53_several_shapes`): a point of the region is covered by exactly one of them, any other point by none (from `C45_stroke_apart` of `Properties35`).
* C54 — second calls on answers. `Stable`: the edges of all answers for one input lie on the segments after splitting, which are planar; a segment covered by finitely many segments runs, in each of its points, along one of them (`covered_along`), so two edges that are not parallel cross in an end of two segments, a grid point (`drawn_exact`), and C20 for exact crossings applies. Boundaries: winding numbers are constant around a point off the edges (`MoveLemma`), and differ on the two sides of a result edge (C01), so equal winding numbers give equal boundaries (`change_on`). `Properties24` states it.
* C55 — `Shift`, `ShiftShapes`: every function of the model from `append_path` to `extract_shapes` commutes with adding a vector (list solver; the other strategies are reduced to it by `loop_strategy`). `Order`: two graphs of the same links that differ in the order of the ends within a node: the walk takes the same link, because the tightest turn is unique (`next_link_first`, `before_asym`); the left-top link is the same, because all links ending in the first unvisited node have been visited as long as no contour was rejected.
* C56 — `Drawn`: specification `draws corners path` (any starting point, any extra points on edges) and `append_draws`: the edges taken from any such path are those between the corners. `Relabel`: a map of the counts that respects sum, sign and emptiness commutes with sorting, merging, splitting; an answer depends on the links only through their ends and filled sides. With `reverse_fill` and `swap_links` (C06, C07) and `Order` (C55) the answers are equal.
* C57 — `StringShift`: every function of the string overlay (segments of lines, clipping, slicing, cutting in repeated vertices, joining holes) commutes with a translation; the splitting loop and the fill sweep do by `Shift` (C55), for any count. `Properties34`: for string counts TREE and FRAG agree with LIST unless they stop at two edges (`loop_strategy_any`).
* C38 — corollary of C20 for the Subject rule.

## 3. Trusted base

* Coq 8.16.1 kernel (incl. `vm_compute`).
* `Print Assumptions` for each property theorem is printed in the build; it is `Closed under the global context` for every theorem
  except C42, C43, C44, C51, C52 and C53 (other than `C42_custom_cap_refuted` and `C51_short_side_refuted`), which are about real numbers and rest on the four axioms of the standard library of real numbers:
  `ClassicalDedekindReals.sig_not_dec`, `ClassicalDedekindReals.sig_forall_dec`, `FunctionalExtensionality.functional_extensionality_dep`, `Classical_Prop.classic`.
  (A listing of the whole context with `coqchk` also names axioms of `Coq.ssr.ssrunder`, part of the standard library that is loaded but not used by any theorem.)
* Fidelity of the model reading (the code is not run).
* External crates that are not in /repo, modelled by contract: `i_float::Triangle`
  (sign of the cross product), `i_key_sort`/`sort_by` (sorting), `i_tree`
  (`KeyExpList/KeyExpTree` = ordered collection with expiration `b.x <= time`;
  the `debug_assert!(p != self.b)` in `v_segment.rs` confirms the non-strict
  expiration), `i_shape` (`simplify_contour`, `dedup_contour`, `unsafe_area`).
  Contracts as they appear in theorems: `layout_ok` (bins), `query_ok`/`first_less` (`i_tree`), `ends_ok` (sort of link ends), `clean_ok`, `clean_edges`, `dedup_ok` (`i_shape` on
  integer contours), `cw_ok` (orientation), `adapter_ok`, `float_clean_ok` (floats). Each has an instance proved to meet it, next to the theorems that use it.

## 4. Not modelled

Rayon parallel sort (a sort), `FloatPointAdapter` of `i_float` (contract `adapter_ok`), NaN and infinities, allocation
capacities, `unsafe` reads are modelled with bounds made explicit.
