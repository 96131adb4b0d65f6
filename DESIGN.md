# Formal model of rust-s2 in Rocq (Coq 8.16.1)

The code under study is `/repo` (yjh0502/rust-s2), read as text.  The model, the
specification and the proofs are in `rocq/theories`.  Property texts are in
`properties.jsonl`, the status of each in `MANIFEST.json`, seeded-bug
experiments in `seeded/LOG.jsonl`.

## Modelling conventions

* **Machine integers** (`Base.v`): `u64`/`i64`/`i32` values are `Z`.  Arithmetic
  that Rust checks in a debug build (`+ - *`, unary `-`, shift amounts) is
  modelled by functions returning `option`, `None` being the panic.  Operators
  that wrap by definition (`wrapping_add`, `<<` dropping high bits, `as` casts)
  wrap explicitly (`mod 2^64`).  A theorem concluding `f x = Some y` therefore
  says both "no panic in a debug build" and, since no overflow occurs, "same
  value in a release build".
* **Loops** are structural recursions, or recursions on explicit fuel that
  return `None` when the fuel runs out; theorems conclude `Some _`, so running
  out of fuel is excluded by proof.
* **Panics** (`assert!`, `debug_assert!`, index out of range) are `None`.
* **f64** is Flocq's `binary_float 53 1024` with one NaN
  (`IEEE754.BinarySingleNaN`), round to nearest even.  The code never inspects
  NaN payloads.  Transcendental functions (sin, atan2, ...) are not modelled;
  code that needs them takes them as section variables (oracles, universally
  quantified after the section closes) or is left out.
* **Collections**: `Vec<T>` is `list T`; `&mut` becomes a returned value.  The
  binary heap is an arbitrary choice of a maximal element (all tie-breaking
  orders are covered by quantifying over the choice).
* **Refuted properties**: where the code does not have a property of the list,
  the negation is proved of the model (`..._refuted`) together with the part
  that does hold; MANIFEST.json then says "partial" and "False of the code".

## Layout

`*Model.v` files contain only definitions that follow the Rust code, each with
the file and lines it models.  `Spec.v`, `IntervalSpec.v`, `NeighborSpec.v` and
the definitions at the top of the `Props*.v` files are the specification.
`Props*.v` state the properties: one theorem `Cnn_...` per claim, an `Example`
beside it that meets its hypotheses, and `Print Assumptions` below it.  All
other files are lemmas.

## Specification layer

`Spec.v` is small and independent of the model: a cell is a level `L` (0..30)
and an index `n` (0 <= n < 6*4^L) along the curve; its children are
`(L+1, 4n..4n+3)`; its leaves are the indices `m` at level 30 with
`m / 4^(30-L) = n`; its id is the bit pattern documented at cellid.rs:28-43,
`(2n+1) * 4^(30-L)`.  A union denotes the set of leaves covered by its members.
`NeighborSpec.v`: the surface of the cube as a lattice in Z^3; two cells are
neighbours when their closed squares share a segment or a point.
`CellSpec.v`: the coordinate along the axis of a face, the corners of a square.
`CapSpec.v`: exact chords of angles, the unit sphere of R^3, the points of the sphere
within a distance of a direction.
`RegionSpec.v`: what is assumed of asin, when a list of ids covers a point, exact coverings.
`IntervalSpec.v`: intervals denote sets of real numbers (angles).  Predicates on
points are compared with the exact real determinant.

## Plan per property

C01-C13, C18, C19, C57 (CellID algebra; `CellIdModel.v`, `PropsCellId.v`):
functions of cellid.rs modelled bit by bit (land, lor, shift, negation) over Z;
arithmetic characterisation lemmas reduce them to `(level,index)`; then
`lia`/`nia` and div/mod lemmas.  C57 is refuted at 2^63 and 0, and the exact set
of panicking ids is proved.
C14, C15: fuelled loops; fuel bound by level; invariant on the leaf range.
C16, C17, C59 (`TokenModel.v`): strings as lists of bytes; hex printer/parser;
induction on digits.
C20-C23, C60 (`HilbertModel.v`): the lookup tables are computed by a model of
init_lookup_cell and checked against the 1-step Hilbert tables by `vm_compute`
over their finite domain (1024 entries), lifted to all 30 levels by induction;
continuity by induction on the level over the 4 orientations, plus the 6 face
junctions.
C24-C26, C40 (`NeighborModel.v`, `StuvModel.v`): from_face_ij_wrap uses f64;
modelled with Flocq; its integer effect is proved (all intermediate values are
exact dyadics except the final division).
C27-C39, C46 (`CellUnionModel.v`): lists of ids, invariants over the stack used
by normalize, two-pointer intersection, recursive difference, binary search.
C41-C45, C58, C61 (`CovererModel.v`): the coverer as a state machine over
(result, heap) with the region as an oracle; measure for termination.
C47-C49, C56, C62 (`R1Model.v`, `S1Model.v`): interval algebra over Flocq
floats; comparisons turned into order on R.
C50, C51, C64-C67 (`PredicatesModel.v`): the computed determinants are related
by symmetry of rounding (`F64Neg.v`) and compared with the exact determinant by
a forward error analysis (`PredicatesError.v`, `PredicatesFloat.v`); false laws
are refuted by evaluation of the model on a witness.
C52, C68-C73 (`CellModel.v`, `StuvModel.v`): cells and points through the float
model.  Range by case analysis; error bounds and monotonicity of st_to_uv and
uv_to_st over R (`StuvError.v`); the (u,v) grid lines are strictly increasing by
more than the rounding errors (`CellLattice.v`), which makes bounds nest exactly.
C68 is refuted by evaluation on a witness.
C53, C63 (`ShapeModel.v`): lexicographic orders over ranks of floats.
C54 (`MetricModel.v`): ldexp/ilogb on floats; the level as an exponent
comparison.
C55, C74-C81 (`CapModel.v`): chord angles and caps.  Forward error analysis of
the sums against sines of half angles (`ChordProofs.v`); computed distances
against those of the exact directions, and the triangle inequality of the real
sphere from the Gram determinant (`CapError.v`); cells are convex combinations of
their corners (`CapCell.v`), the edge tests by the geometry of a cone over a rectangle
(`CapEdge.v`) and error bounds for each computed sign (`CapEdgeFloat.v`, `CapEdgeMain.v`).  False claims are refuted by evaluation.
C82-C84 (`VectorModel.v`): relative errors of norm, quotient and cross product
(`NormProofs.v`).
C85-C87 (`AngleModel.v`): IEEE remainder and fmod as integer remainders of the
ranks of doubles, exact by construction (`AngleProofs.v`); relative errors of the
unit conversions, then the distance to the nearest half-integer.
C88-C92 (`S1Model.v`, `AngleModel.v`): arcs are lifted to intervals of the line;
the code's rounding errors are bounded against the lifted ends, using that large
doubles lie on a grid and that 2*PI is even (`ExpandProofs.v`, `CircleProofs.v`).
Distances along the circle are defined in `CircleSpec.v`.
C93-C96 (`RectModel.v`): rectangles are products of the intervals of C47, C48 and
C88; the theorems combine those of the factors.  The denotation is in `RectSpec.v`.
C97, C98 (`RegionModel.v`, `RegionSpec.v`): caps as regions.  asin is a parameter, assumed
accurate in the statements.  The metric bound gives a level; a cell of that level away from
the four cells around the vertex nearest to the centre is separated from the centre by a
plane and a distance (`CoverGeom.v`, `CoverCell.v`), so the four cells cover the cap
(`CoverProofs.v`); then C41, C42, C45 and C79.
C99, C100: the bound of a cell is smallest at the corners by convexity, and an inner point of
each leaf is well inside it (`CellBound.v`); sums of centres lie on a grid, so they are zero
or can be normalised, and adding a cap leaves the room that the leaf had (`UnionBound.v`).
C101 (`RegionModel.v`): a leaf that is neither in a cell nor in a neighbour of it at level k
is off all corners of the grid squares of the cell, hence separated from them by a strip
whose width is the metric's (`RimGeom.v`); two expansions at level 0 reach every face.
C102-C105 (`TrigModel.v`, `TrigSpec.v`): sin, cos and atan2 are parameters, assumed accurate
in the statements; `TrigWitness.v` gives functions that meet the assumptions.  Positions are
compared as points of the real sphere, so the poles need no special case (`TrigProofs.v`); a
vector near the centre of a cell falls in the same column and row of leaves (`TrigCell.v`).
C106-C108 (`PropsCell2.v`): exact arithmetic on multiples of 2^-31; the edge normals in the
local frame of the face, with the errors of C79.  C109 (`PropsMetric2.v`): from C55's
min_level and the ratio 2 or 4 of neighbouring levels.  C110, C111 (`PropsFrame.v`): cases.
C112 (`PropsCorner.v`): the sets of C47, C48, C93.
C113-C117 (`PropsCap2.v`): sin as a parameter with a relative accuracy (`TrigSpec.v`); the sum
of chord angles of C74 and C78; halves and doubles are exact.
C118, C119 (`PropsDist.v`): atan2 of nearly proportional arguments gives a nearby angle; the
haversine as a length in the plane, so that its square root keeps an absolute error.
C120, C121 (`BoundModel.v`, `BoundSpec.v`): the latitudes and longitudes of a cell lie between
those of two opposite corners, which the sign of the centre picks out (`BoundCell.v`); the
margin covers what atan2 loses, and across the meridian the short arc is the one taken
(`BoundProofs.v`).  The faces have constant rectangles (`BoundFace.v`).  C122 (`PropsBound.v`):
from C103 and C93.
C123 (`PropsBound2.v`): the latitudes of a cap; three refutations by evaluation of the model.
C124 (`PropsBound3.v`): a sum A sin + B cos with B not negative is least at an end of an
interval of latitudes, so the corners are farthest from the centre; C113 for the pole.
C125, C126 (`PointModel.v`, `PropsArea.v`): Coquelicot's Riemann integral over longitude, then
latitude, with the surface element cos; its closed form against the code's formula with the
error terms of `Near.v`.
C127-C129 (`PointSpec.v`, `PropsPoint.v`): relative errors of cross products (`CrossProofs.v`),
normalisation as in C60, and the great circle through two points as cos d a + sin d t with t
the unit tangent.
C130-C132 (`PropsCap3.v`): the integral of C126 over a polar cap; C118 for the centres; C129
for the refutation of the union.
C133, C134 (`FrameSpec.v`, `PropsFrame2.v`): Gram-Schmidt gives the exact frame near the
columns; sums of three products with the errors of `Near.v`.
C135 (`SegProofs.v`, `SegFloat.v`, `PropsSeg.v`): the cosine of the angle from x along the edge
is u cos t + v sin t; its maximum is inside the edge or at an end according to the signs of the
slope at the ends; the code's tests are those signs up to 2^-42.
C136 (`BudgetProofs.v`, `BounderFloat.v`, `BounderLng.v`, `PropsBounder.v`): the latitude along an
edge rises above its ends by at most the budget the code computes from the chord and the highest
latitude of the great circle; the longitudes follow the shorter arc because the edge is a cone of
its ends; induction over the chain, with a new error for each edge.

C137 (`RectDistModel.v`, `RectDistProofs.v`, `PropsRectDist.v`): on the position's own meridians the
distance is a difference of latitudes; otherwise the side of the rectangle nearer in longitude is
nearer at every latitude, and the computed edge stays close to that side's meridian, so C135 applies.

C138-C141 (`MiscModel.v`, `PropsMisc.v`): the distance of intervals is a maximum of three
differences; average areas are the metric's value, exact powers of 4, times the count of C39; a point
is in a union if its leaf is (C30); planar centroids by the error of three sums and a product.

C142 (`HausModel.v`, `HausProofs.v`, `PropsHaus.v`): with c the cosine of the longitude difference, the
best cosine over the latitudes of b is, as a function of the latitude in a, lowest at an end or on
the equator (lemma `hills`), which are the candidates of the code; distances to the meridian arc as in
C137, the longitude difference from C91.
C143 (`ClipModel.v`, `ClipProofs.v`, `PropsClip.v`): for non-negative floats r >= p rounds the
difference exactly if p >= r/2 (Sterbenz), and if both p and q are below r/2 then each rounded difference
is above the other (lemmas `high_half`, `low_halves`), so that the pair of rounded tests is exact.
C144 (`LinProofs.v`, `PropsClip.v`): the relative error of the increment is at most 6 u; the branch that the code
takes has at most half (1 + u) of the way to go, which leaves room for the increment to stay inside.
C145 (`ClipReal.v`, `ClipBridge.v`, `PropsClipEdge.v`): edges that fall are mirrored into edges that rise. The lower left corner of
the bound is one of four kinds (predicate `low`), the upper right one is the lower left one of the negated
edge; each of the four cuts keeps the kinds (`B0_ok`, `B1_ok`), or no point is deep inside. That the cuts at both
sides come in order needs that the rounded interpolation is monotone for arguments that are 2^-48 apart (`lin_mono`).
C146 (`PropsEdgeRect.v`): the error of the rounded dot products against the normal, and the separating axis
theorem for a segment and a rectangle (`straddle`).
C147 (`FaceSegModel.v`, `PropsFaceSeg.v`): the loop invariant is that the plane of the normal meets the current face; C143 gives the
exact point where the line leaves it, that point is on the shared edge with the next face, or on the exact corner (`turn`).
That the plane meets the first face is assumed: it depends on the direction error of the cross product.
C148 (`FaceTurn.v`, `PropsFaceEnd.v`): each turn is decided by the signs of the coordinates of the normal and by each magnitude against
the sum of the other two (`turn_spec`, for all normals); of the 729 outcomes of these comparisons 98 are consistent, and in
each of them five turns lead from any face that is met to any other (`reaches_5`).
## What is modelled

| Rust file | modelled | not modelled |
|---|---|---|
| s2/cellid.rs | id algebra, levels, children, ranges, iteration, advance, tokens, common ancestor, max_tile, Hilbert lookup, face/i/j/orientation, centres in (si,ti), from_face_ij_wrap, edge/vertex/all neighbours, raw_point, bound_st, bound_uv, ij_level_to_bound_uv, From<Point>, conversions to and from LatLng | expanded_by_distance_uv |
| s2/cellunion.rs | normalize, from_range, contains/intersects (ids, unions), union, intersection, difference, denormalize, leaf_cells, expand_at_level, expand_by_radius, search helpers, cap_bound, rect_bound, contains_point, average_area | approximate and exact areas |
| s2/region.rs | RegionCoverer: covering, interior_covering, fast_covering, cell_union variants, level_mod, heap | the default rect_bound |
| s2/stuv.rs | siti/st/uv/xyz conversions, faces, unit norms, tables of axes | |
| s2/cell.rs | From conversions, accessors, vertex, edge, center, children, contains_point, contains_cell, intersects_cell, cap_bound, latitudes, longitudes, rect_bound, average_area | approximate and exact areas, distances |
| s2/metric.rs | all metrics, value, min/max/closest level | |
| s2/predicates.rs | sign, triage_sign, stable_sign, expensive_sign, exact_sign, robust_sign | |
| s2/point.rs | ordered_ccw, chordangle, distance, approx_eq, rect_bound, from_coords, cross, frame, from_frame, to_frame, regular_points, planar_centroid | areas |
| s2/edgeutil.rs | simple_crossing, interpolate, interpolate_at_distance, distance_from_segment, update_min_distance, interior_dist | update_max_distance (unused), closest point |
| s2/shape.rs | Edge and ShapeEdgeID orders, is_empty, is_full | |
| r1/interval.rs, r2/rect.rs, r2/point.rs, s1/interval.rs | set predicates and operations, directed_hausdorff_distance | |
| r3/vector.rs | add, sub, mul, dot, cross, norm, normalize, is_unit, order, ortho, largest and smallest components, angle | |
| s1/chordangle.rs | add, sub, sin2, sin, cos, tan, expanded, max, is_valid, error bounds, conversions from and to Angle (sin, asin are parameters) | |
| s2/cap.rs | constructors, empty, full, valid, height, area, equality, contains, intersects, points, complement, expanded, Add, contains_cell, intersects_cell, cell_union_bound, rect_bound, union, centroid, approx_eq | |
| s1/angle.rs | normalized, max, min, conversions among Angle, Deg, E5, E6, E7 | trigonometric methods, formatting |
| s2/latlng.rs | from_degrees, is_valid, normalized, conversion to and from Point, distance | |
| s2/rect.rs | constructors, predicates, vertex, center, size, expanded, polar_closure, union, intersection, Add, approx_eq, contains_point, contains_cell, cap_bound, area, centroid, distance_to_latlng, hausdorff_distance, directed_hausdorff_distance | intersects_cell, boundary_intersects |
| s2/rect_bounder.rs | new, add_point, get_bound | expand_for_subregions (private, not called) |
| s2/edge_clipping.rs | sum_equal, intersects_face, intersects_opposite_edges, exit_axis, exit_point, interpolate, update_endpoint, clip_bound_axis, clip_edge_bound, clip_edge, clipped_edge_bound, edge_intersects_rect, face_segments, move_origin_to_valid_face, next_face | clip_to_face, clip_to_padded_face, clip_destination |
| r3/precisevector.rs | | all |

## Trusted base

* Coq's kernel (and `vm_compute`).
* Axioms: only the standard library's.  `Print Assumptions` under each theorem lists:

**No axioms (closed under the global context)**:

* `PropsCellId`: C01_is_valid_exact, C02_accessors, C03_parent, C04_children, C04_children_of_leaf, C05_child_iteration, C06_contains, C07_intersects, C08_ranges, C09_next_prev, C10_wrap, C11_advance, C12_advance_wrap, C13_common_ancestor, C18_order, C19_constructors, C57_panics_exactly, C57_total_refuted
* `PropsCellUnion`: C14_max_tile, C15_from_range, C27_C28_normalize, C29_canonical, C30_contains_cellid, C31_intersects_cellid, C32_union_validity, C33_merge, C33_union, C34_intersection, C35_intersection_with_cell, C36_difference, C37_union_relations, C38_denormalize, C39_leaf_count, C46_search
* `PropsCoverer`: C41_covering_covers, C42_interior_inside, C43_levels, C44_terminates, C45_fast_covering, C61_cell_count, C58_level_mod_zero_refuted
* `PropsHilbert`: C20_leaf_ij_bijection, C21_cells_are_squares, C22_curve_continuous, C23_centre_exact, C60_orientation
* `PropsNeighbor`: C25_vertex_neighbors_level_30
* `PropsOrder`: C63_shape_edge_id_order
* `PropsRegion2`: C100_no_panic
* `PropsToken`: C16_token_round_trip, C17_from_token_total, C59_token_order

**`ClassicalDedekindReals.sig_forall_dec`, `ClassicalDedekindReals.sig_not_dec`, `Classical_Prop.classic`, `FunctionalExtensionality.functional_extensionality_dep`**:

* `PropsAngle`: C85_normalized_partial, C85_normalized_refuted, C86_from, C86_round_trip, C86_refine, C86_nearest, C87_is_valid, C87_normalized, C87_not_finite
* `PropsArea`: C125_rect_area_partial, C125_rect_area_refuted, C126_rect_centroid_partial, C126_rect_centroid_refuted
* `PropsBound`: C120_cell_rect_bound, C120_contains_cell, C121_union_rect_bound, C122_contains_point, C122_point_rect_bound_partial, C122_point_rect_bound_refuted
* `PropsBound2`: C123_cap_rect_bound_partial, C123_south_refuted, C123_both_refuted, C123_narrow_refuted
* `PropsBound3`: C124_rect_cap_bound
* `PropsBounder`: C136_chain_partial, C136_grows
* `PropsCap`: C55_add_point, C55_full_intersects_refuted, C55_empty_intersects_refuted, C55_intersects_partial, C74_add, C74_sub, C74_sin2_cos, C75_add_laws, C76_points, C77_add_cap, C78_contains_point, C78_contains, C78_not_contains, C78_intersects, C78_contains_laws, C80_complement_covers_refuted, C80_complement_partial, C81_max_point_error_refuted, C81_point_error_partial
* `PropsCap2`: C113_of_angle, C113_special, C113_round_trip, C114_from_angle, C114_extremes, C115_height, C115_height_points, C115_area, C115_from_area, C115_from_area_refuted, C116_sin, C116_tan, C116_valid, C117_interior_intersects, C117_interior_empty, C117_expanded, C117_expanded_empty, C117_equal_points, C117_equal
* `PropsCap3`: C130_centroid, C131_approx_eq_partial, C131_approx_eq_refuted, C132_union_partial, C132_union_refuted
* `PropsCapCell`: C79_answers, C79_intersects_cell, C79_contains_cell, C79_empty_cap
* `PropsCell`: C52_points_to_leaves, C52_column_range, C68_contains_own_point_refuted, C68_contains_own_point_partial, C69_centre_in_cell, C70_children, C71_bound, C71_nesting, C72_monotone, C72_round_trip, C72_face_uv_exact, C73_vertices_meet, C73_vertices_contained
* `PropsCell2`: C106_st, C107_edges, C107_inside, C108_cell_sets
* `PropsCircle`: C88_expanded_partial, C88_expanded_refuted, C88_shrunk_partial, C88_empty_full, C89_len_partial, C89_len_refuted, C90_center, C90_complement_center, C91_hausdorff, C91_hausdorff_empty, C92_s1_approx_partial, C92_s1_approx_empty_full, C92_s1_approx_refuted, C92_r1_approx
* `PropsClip`: C143_face, C143_opposite, C143_sum, C143_exit, C144_ends, C144_between, C144_accuracy, C144_small_refuted
* `PropsClipEdge`: C145_clipped, C145_missed, C145_bound
* `PropsCorner`: C112_corners, C112_inverted, C112_full, C112_r1_hausdorff
* `PropsDist`: C118_distance, C118_approx_eq, C118_reflexive, C118_symmetric, C119_chord, C119_distance
* `PropsEdgeRect`: C146_hit, C146_deep
* `PropsFaceEnd`: C148_ends
* `PropsFaceSeg`: C147_path, C147_ends
* `PropsFrame`: C110_frame, C110_uvw_face, C111_max_min
* `PropsFrame2`: C133_frame, C133_inverse, C134_regular_points
* `PropsHaus`: C142_directed_partial, C142_empty, C142_symmetric_partial
* `PropsInterval`: C47_r1_predicates, C47_r1_operations, C47_r1_expanded, C49_r2_predicates, C49_r2_operations, C49_from_points, C49_r2_expanded, C56_r2_mul_refuted, C48_s1_predicates, C48_is_valid, C48_s1_union, C48_s1_intersection, C48_s1_complement, C48_s1_construction, C62_s1_intersection_exact_refuted
* `PropsMetric`: C54_value, C54_max_level, C54_min_level_partial, C54_min_level_area_partial, C54_min_level_area_refuted, C54_min_level_zero_refuted
* `PropsMetric2`: C109_closest_partial, C109_closest_own_partial, C109_closest_area_refuted, C109_closest_area_partial
* `PropsMisc`: C138_hausdorff, C139_cell, C139_union, C140_contains_point, C141_planar
* `PropsNeighbor`: C24_edge_neighbors, C25_vertex_neighbors, C26_all_neighbors, C40_expand_at_level
* `PropsNorm`: C82_normalize_partial, C82_normalize_refuted, C84_components, C83_ortho, C83_ortho_opposite
* `PropsOrder`: C63_r2_point_order, C63_vector_order, C53_edge_order_refuted, C53_edge_order_partial
* `PropsPoint`: C127_cross_partial, C127_cross_refuted, C128_from_coords_partial, C128_from_coords_refuted, along_end, C129_at_distance_partial, C129_interpolate_partial, C129_interpolate_refuted
* `PropsPredicates`: C50_sign_antisymmetric, C50_sign_reversed, C67_triage_exchange, C67_robust_sign_laws_refuted, C51_resolves_distinct_refuted, C51_equal_points_partial, C66_ordered_ccw_laws_refuted, C64_crossing_reverse, C64_crossing_exchange_partial, C64_crossing_exchange_refuted
* `PropsRect`: C93_is_valid, C93_predicates, C93_corners, C94_union, C94_add, C94_from_point_pair, C94_polar_closure, C94_intersection_partial, C94_intersection_refuted
* `PropsRect2`: C95_expanded_sides, C95_expanded_partial, C95_center_size, C95_from_center_size, C96_from_latlng_partial, C96_from_latlng_refuted, C96_from_degrees_partial, C96_from_degrees_refuted
* `PropsRectDist`: C137_distance_partial
* `PropsRegion`: C97_cap_bound, C97_no_panic, C97_cap_covering, C98_cap_interior
* `PropsRegion2`: C99_cell_cap_bound, C99_union_cap_bound, C100_union_coverings, C100_cell_coverings
* `PropsRim`: C101_expand_by_radius, C101_expand_level, C101_limit_overflow
* `PropsSeg`: C135_distance_partial, C135_point_partial, C135_nan_refuted, C135_short_refuted
* `PropsSign`: C65_triage_sound, C65_robust_sound_partial, C65_robust_sound_refuted, C51_equal_points, C51_resolves_partial, C67_robust_sign_laws_partial
* `PropsTrig`: C102_point, C103_latlng, C104_latlng_round_trip, C104_point_round_trip, C105_cell_round_trip, C105_near_centre, C105_leaf

* The reading of the Rust code into the model; every definition cites its lines.
* `coqchk` accepts all compiled files.
