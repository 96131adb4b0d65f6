{
 "claims": [
  {
   "property": "C01",
   "status": "proved",
   "theorems": [
    "C01_is_valid_exact"
   ],
   "note": ""
  },
  {
   "property": "C02",
   "status": "proved",
   "theorems": [
    "C02_accessors"
   ],
   "note": ""
  },
  {
   "property": "C03",
   "status": "proved",
   "theorems": [
    "C03_parent"
   ],
   "note": ""
  },
  {
   "property": "C04",
   "status": "proved",
   "theorems": [
    "C04_children",
    "C04_children_of_leaf"
   ],
   "note": ""
  },
  {
   "property": "C05",
   "status": "proved",
   "theorems": [
    "C05_child_iteration"
   ],
   "note": ""
  },
  {
   "property": "C06",
   "status": "proved",
   "theorems": [
    "C06_contains"
   ],
   "note": ""
  },
  {
   "property": "C07",
   "status": "proved",
   "theorems": [
    "C07_intersects"
   ],
   "note": ""
  },
  {
   "property": "C08",
   "status": "proved",
   "theorems": [
    "C08_ranges"
   ],
   "note": ""
  },
  {
   "property": "C09",
   "status": "proved",
   "theorems": [
    "C09_next_prev"
   ],
   "note": ""
  },
  {
   "property": "C10",
   "status": "proved",
   "theorems": [
    "C10_wrap"
   ],
   "note": ""
  },
  {
   "property": "C11",
   "status": "proved",
   "theorems": [
    "C11_advance"
   ],
   "note": ""
  },
  {
   "property": "C12",
   "status": "proved",
   "theorems": [
    "C12_advance_wrap"
   ],
   "note": ""
  },
  {
   "property": "C13",
   "status": "proved",
   "theorems": [
    "C13_common_ancestor"
   ],
   "note": ""
  },
  {
   "property": "C14",
   "status": "proved",
   "theorems": [
    "C14_max_tile"
   ],
   "note": ""
  },
  {
   "property": "C15",
   "status": "proved",
   "theorems": [
    "C15_from_range"
   ],
   "note": ""
  },
  {
   "property": "C16",
   "status": "proved",
   "theorems": [
    "C16_token_round_trip"
   ],
   "note": ""
  },
  {
   "property": "C17",
   "status": "proved",
   "theorems": [
    "C17_from_token_total"
   ],
   "note": ""
  },
  {
   "property": "C18",
   "status": "proved",
   "theorems": [
    "C18_order"
   ],
   "note": ""
  },
  {
   "property": "C19",
   "status": "proved",
   "theorems": [
    "C19_constructors"
   ],
   "note": ""
  },
  {
   "property": "C20",
   "status": "proved",
   "theorems": [
    "C20_leaf_ij_bijection"
   ],
   "note": ""
  },
  {
   "property": "C21",
   "status": "proved",
   "theorems": [
    "C21_cells_are_squares"
   ],
   "note": ""
  },
  {
   "property": "C22",
   "status": "proved",
   "theorems": [
    "C22_curve_continuous"
   ],
   "note": ""
  },
  {
   "property": "C23",
   "status": "proved",
   "theorems": [
    "C23_centre_exact"
   ],
   "note": ""
  },
  {
   "property": "C24",
   "status": "proved",
   "theorems": [
    "C24_edge_neighbors"
   ],
   "note": "all valid ids, through the f64 arithmetic of from_face_ij_wrap; order, distinctness, exactness and symmetry"
  },
  {
   "property": "C25",
   "status": "proved",
   "theorems": [
    "C25_vertex_neighbors",
    "C25_vertex_neighbors_level_30"
   ],
   "note": "all valid ids and all k < level; the second theorem records that level 30 panics"
  },
  {
   "property": "C26",
   "status": "proved",
   "theorems": [
    "C26_all_neighbors"
   ],
   "note": "set equality; the documented repetition at cube vertices is shown in the example"
  },
  {
   "property": "C27",
   "status": "proved",
   "theorems": [
    "C27_C28_normalize"
   ],
   "note": ""
  },
  {
   "property": "C28",
   "status": "proved",
   "theorems": [
    "C27_C28_normalize"
   ],
   "note": ""
  },
  {
   "property": "C29",
   "status": "proved",
   "theorems": [
    "C29_canonical"
   ],
   "note": ""
  },
  {
   "property": "C30",
   "status": "proved",
   "theorems": [
    "C30_contains_cellid"
   ],
   "note": ""
  },
  {
   "property": "C31",
   "status": "proved",
   "theorems": [
    "C31_intersects_cellid"
   ],
   "note": ""
  },
  {
   "property": "C32",
   "status": "proved",
   "theorems": [
    "C32_union_validity"
   ],
   "note": ""
  },
  {
   "property": "C33",
   "status": "proved",
   "theorems": [
    "C33_merge",
    "C33_union"
   ],
   "note": ""
  },
  {
   "property": "C34",
   "status": "proved",
   "theorems": [
    "C34_intersection"
   ],
   "note": ""
  },
  {
   "property": "C35",
   "status": "proved",
   "theorems": [
    "C35_intersection_with_cell"
   ],
   "note": ""
  },
  {
   "property": "C36",
   "status": "proved",
   "theorems": [
    "C36_difference"
   ],
   "note": ""
  },
  {
   "property": "C37",
   "status": "proved",
   "theorems": [
    "C37_union_relations"
   ],
   "note": ""
  },
  {
   "property": "C38",
   "status": "proved",
   "theorems": [
    "C38_denormalize"
   ],
   "note": ""
  },
  {
   "property": "C39",
   "status": "proved",
   "theorems": [
    "C39_leaf_count"
   ],
   "note": ""
  },
  {
   "property": "C40",
   "status": "proved",
   "theorems": [
    "C40_expand_at_level"
   ],
   "note": "stronger than stated: every list of valid ids, exact covered set"
  },
  {
   "property": "C41",
   "status": "proved",
   "theorems": [
    "C41_covering_covers"
   ],
   "note": ""
  },
  {
   "property": "C42",
   "status": "proved",
   "theorems": [
    "C42_interior_inside"
   ],
   "note": ""
  },
  {
   "property": "C43",
   "status": "proved",
   "theorems": [
    "C43_levels"
   ],
   "note": "Stronger than stated: no level-30 exception is needed for coverings. If min_level > max_level, min_level wins."
  },
  {
   "property": "C44",
   "status": "proved",
   "theorems": [
    "C44_terminates"
   ],
   "note": ""
  },
  {
   "property": "C45",
   "status": "proved",
   "theorems": [
    "C45_fast_covering"
   ],
   "note": ""
  },
  {
   "property": "C46",
   "status": "proved",
   "theorems": [
    "C46_search"
   ],
   "note": ""
  },
  {
   "property": "C47",
   "status": "proved",
   "theorems": [
    "C47_r1_predicates",
    "C47_r1_operations",
    "C47_r1_expanded"
   ],
   "note": ""
  },
  {
   "property": "C48",
   "status": "proved",
   "theorems": [
    "C48_s1_predicates",
    "C48_is_valid",
    "C48_s1_union",
    "C48_s1_intersection",
    "C48_s1_complement",
    "C48_s1_construction"
   ],
   "note": "Sets of all real angles. The intersection contains all common points, and only those unless one argument contains both end points of the other (see C62)."
  },
  {
   "property": "C49",
   "status": "proved",
   "theorems": [
    "C49_r2_predicates",
    "C49_r2_operations",
    "C49_from_points",
    "C49_r2_expanded"
   ],
   "note": ""
  },
  {
   "property": "C50",
   "status": "proved",
   "theorems": [
    "C50_sign_antisymmetric",
    "C50_sign_reversed"
   ],
   "note": "all f64 including NaN and infinities; the second theorem states what holds of the reversed triple in general"
  },
  {
   "property": "C51",
   "status": "partial",
   "theorems": [
    "C51_resolves_distinct_refuted",
    "C51_equal_points",
    "C51_equal_points_partial",
    "C51_resolves_partial"
   ],
   "note": "False of the code: exact_sign always answers Indeterminate (predicates.rs), so three distinct collinear points are unresolved. The refutation is proved. Proved for unit points: two equal points give Indeterminate, and a determinant of at least 36*2^-53 is resolved with the right sign."
  },
  {
   "property": "C52",
   "status": "proved",
   "theorems": [
    "C52_points_to_leaves",
    "C52_column_range"
   ],
   "note": "all f64 points, NaN and infinities included; the face is that of a coordinate of largest magnitude"
  },
  {
   "property": "C53",
   "status": "partial",
   "theorems": [
    "C53_edge_order_refuted",
    "C53_edge_order_partial"
   ],
   "note": "False of the code: Edge::cmp (shape.rs) compares self.v1 with other.v0. The refutation is proved, and that edges with different v0 are ordered by it."
  },
  {
   "property": "C54",
   "status": "partial",
   "theorems": [
    "C54_value",
    "C54_max_level",
    "C54_min_level_partial",
    "C54_min_level_area_partial",
    "C54_min_level_area_refuted",
    "C54_min_level_zero_refuted"
   ],
   "note": "max_level is proved as stated. False of the code for min_level: it panics at 0 and, for areas, rounds odd exponents the wrong way; both refutations are proved. Proved: the statement for lengths and values < 0 or >= 2^-1072, and areas within a factor 2."
  },
  {
   "property": "C55",
   "status": "partial",
   "theorems": [
    "C55_add_point",
    "C55_full_intersects_refuted",
    "C55_empty_intersects_refuted",
    "C55_intersects_partial"
   ],
   "note": "Adding points is proved as stated. False of the code for intersects: a full cap meets nothing (cap.rs:194) and the empty cap as receiver meets caps of positive radius (NaN); both refutations are proved, and what holds otherwise."
  },
  {
   "property": "C56",
   "status": "partial",
   "theorems": [
    "C56_r2_mul_refuted"
   ],
   "note": "The property is false of the code: r2/point.rs:88-97 returns (self.x*self.x, other.y*other.y). The refutation is proved."
  },
  {
   "property": "C57",
   "status": "partial",
   "theorems": [
    "C57_panics_exactly",
    "C57_total_refuted"
   ],
   "note": "The property is false of the code: is_valid/lsb panic in a debug build exactly at 2^63 (i64 negation overflow, cellid.rs:236-238), level exactly at multiples of 2^62, range_min/range_max exactly at 0 and 2^63. The refutation and the exact panic sets are proved."
  },
  {
   "property": "C58",
   "status": "partial",
   "theorems": [
    "C58_level_mod_zero_refuted"
   ],
   "note": "The property is false of the code: level_mod is only clamped in the final denormalize (region.rs:406-415), the search itself uses 0 and returns cells below max_level. The refutation is proved."
  },
  {
   "property": "C59",
   "status": "proved",
   "theorems": [
    "C59_token_order"
   ],
   "note": ""
  },
  {
   "property": "C60",
   "status": "proved",
   "theorems": [
    "C60_orientation"
   ],
   "note": ""
  },
  {
   "property": "C61",
   "status": "proved",
   "theorems": [
    "C61_cell_count"
   ],
   "note": ""
  },
  {
   "property": "C62",
   "status": "partial",
   "theorems": [
    "C62_s1_intersection_exact_refuted",
    "C48_s1_intersection"
   ],
   "note": "False of the code: lengths are compared after rounding, so [-1,2^-70] and [-1,0] intersect to the longer one. The refutation is proved, and exactness in all cases where no lengths are compared."
  },
  {
   "property": "C63",
   "status": "proved",
   "theorems": [
    "C63_r2_point_order",
    "C63_vector_order",
    "C63_shape_edge_id_order"
   ],
   "note": ""
  },
  {
   "property": "C64",
   "status": "partial",
   "theorems": [
    "C64_crossing_reverse",
    "C64_crossing_exchange_partial",
    "C64_crossing_exchange_refuted"
   ],
   "note": "Reversal of the first edge is proved for all f64. Exchange of the edges and reversal of the second are false of the code by underflow (refutation proved) and proved when each of the four determinants is finite and 0 or of magnitude at least 2^-500."
  },
  {
   "property": "C65",
   "status": "partial",
   "theorems": [
    "C65_triage_sound",
    "C65_robust_sound_partial",
    "C65_robust_sound_refuted"
   ],
   "note": "triage_sign is proved sound for all unit points. robust_sign is proved sound when every coordinate is 0 or at least 2^-200; below that it is false of the code (underflow in stable_sign), refutation proved."
  },
  {
   "property": "C66",
   "status": "partial",
   "theorems": [
    "C66_ordered_ccw_laws_refuted"
   ],
   "note": "False of the code: the refutation is proved."
  },
  {
   "property": "C67",
   "status": "partial",
   "theorems": [
    "C67_triage_exchange",
    "C67_robust_sign_laws_refuted",
    "C67_robust_sign_laws_partial"
   ],
   "note": "False of the code: both refutations are proved. triage_sign obeys exchange of its first two arguments for all f64; the six orders of robust_sign never contradict each other (unit points, coordinates 0 or at least 2^-200)."
  },
  {
   "property": "C68",
   "status": "partial",
   "theorems": [
    "C68_contains_own_point_refuted",
    "C68_contains_own_point_partial"
   ],
   "note": "False of the code: contains_point widens the bound by one DBL_EPSILON, less than the error of the conversions; refutation proved on a unit point. Proved: the point is within four DBL_EPSILON of the bound."
  },
  {
   "property": "C69",
   "status": "proved",
   "theorems": [
    "C69_centre_in_cell"
   ],
   "note": "all valid ids, through the f64 arithmetic of raw_point, normalize and the conversions back"
  },
  {
   "property": "C70",
   "status": "proved",
   "theorems": [
    "C70_children"
   ],
   "note": ""
  },
  {
   "property": "C71",
   "status": "proved",
   "theorems": [
    "C71_bound",
    "C71_nesting"
   ],
   "note": ""
  },
  {
   "property": "C72",
   "status": "proved",
   "theorems": [
    "C72_monotone",
    "C72_round_trip",
    "C72_face_uv_exact"
   ],
   "note": ""
  },
  {
   "property": "C73",
   "status": "proved",
   "theorems": [
    "C73_vertices_meet",
    "C73_vertices_contained"
   ],
   "note": "equality is that of Rust's ==, so 0.0 and -0.0 coincide"
  },
  {
   "property": "C74",
   "status": "proved",
   "theorems": [
    "C74_add",
    "C74_sub",
    "C74_sin2_cos"
   ],
   "note": ""
  },
  {
   "property": "C75",
   "status": "proved",
   "theorems": [
    "C75_add_laws"
   ],
   "note": ""
  },
  {
   "property": "C76",
   "status": "proved",
   "theorems": [
    "C76_points"
   ],
   "note": ""
  },
  {
   "property": "C77",
   "status": "proved",
   "theorems": [
    "C77_add_cap"
   ],
   "note": ""
  },
  {
   "property": "C78",
   "status": "proved",
   "theorems": [
    "C78_contains_point",
    "C78_contains",
    "C78_not_contains",
    "C78_intersects",
    "C78_contains_laws"
   ],
   "note": "intersects for receivers that are neither full nor empty; for those see C55"
  },
  {
   "property": "C79",
   "status": "proved",
   "theorems": [
    "C79_answers",
    "C79_contains_cell",
    "C79_intersects_cell",
    "C79_empty_cap"
   ],
   "note": "For every valid id and every valid f64 cap; right about every point of the cell in both answers, up to a stated slack: distance 2^-38 for intersects_cell, squared distance 2^-36 for contains_cell, more for caps within 1/8 of the squared radius of a hemisphere on the side where the edge tests are used."
  },
  {
   "property": "C80",
   "status": "partial",
   "theorems": [
    "C80_complement_covers_refuted",
    "C80_complement_partial"
   ],
   "note": "False of the code: a unit point whose length is rounded up lies in neither; refutation proved. Proved: opposite centre, supplementary radius within 48*2^-53, and every real point of the sphere is in one of the two up to that."
  },
  {
   "property": "C81",
   "status": "partial",
   "theorems": [
    "C81_max_point_error_refuted",
    "C81_point_error_partial"
   ],
   "note": "False of the code: no term for the product of the two lengths; refutation proved. Proved: 9*DBL_EPSILON*d + 17*DBL_EPSILON^2 is a bound."
  },
  {
   "property": "C82",
   "status": "partial",
   "theorems": [
    "C82_normalize_partial",
    "C82_normalize_refuted"
   ],
   "note": "False of the code for tiny and huge vectors, whose squared length under- or overflows; refutation proved. Proved for squared lengths in [2^-900, 2^900]."
  },
  {
   "property": "C83",
   "status": "proved",
   "theorems": [
    "C83_ortho",
    "C83_ortho_opposite"
   ],
   "note": ""
  },
  {
   "property": "C84",
   "status": "proved",
   "theorems": [
    "C84_components"
   ],
   "note": ""
  },
  {
   "property": "C85",
   "status": "partial",
   "theorems": [
    "C85_normalized_partial",
    "C85_normalized_refuted"
   ],
   "note": "False of the code: a tiny negative angle is normalised to 2*PI itself; refutation proved. Proved: the result is in [0, 2*PI] and a whole number of turns away up to one rounding, exact and below 2*PI for non-negative angles."
  },
  {
   "property": "C86",
   "status": "proved",
   "theorems": [
    "C86_from",
    "C86_round_trip",
    "C86_refine",
    "C86_nearest"
   ],
   "note": ""
  },
  {
   "property": "C87",
   "status": "proved",
   "theorems": [
    "C87_is_valid",
    "C87_normalized",
    "C87_not_finite"
   ],
   "note": "remainder is modelled by the IEEE contract of libm::remquo."
  },
  {
   "property": "C88",
   "status": "partial",
   "theorems": [
    "C88_expanded_partial",
    "C88_expanded_refuted",
    "C88_shrunk_partial",
    "C88_empty_full"
   ],
   "note": "False of the code for one interval, from PI to the double after -PI, whose length is computed as -1: expanded by 3.25 it does not contain itself; refutation proved. Proved for all other intervals and non-negative margins; for negative margins except intervals across PI that the margin uses up to within 2^-50."
  },
  {
   "property": "C89",
   "status": "partial",
   "theorems": [
    "C89_len_partial",
    "C89_len_refuted"
   ],
   "note": "False of the code for one non-empty interval, whose length is -1; refutation proved. Proved for all others."
  },
  {
   "property": "C90",
   "status": "proved",
   "theorems": [
    "C90_center",
    "C90_complement_center"
   ],
   "note": ""
  },
  {
   "property": "C91",
   "status": "proved",
   "theorems": [
    "C91_hausdorff",
    "C91_hausdorff_empty"
   ],
   "note": ""
  },
  {
   "property": "C92",
   "status": "partial",
   "theorems": [
    "C92_s1_approx_partial",
    "C92_s1_approx_empty_full",
    "C92_s1_approx_refuted",
    "C92_r1_approx"
   ],
   "note": "False of the code on the circle: ends that are close across PI are not recognised, since the code takes % and not the remainder; refutation proved. Proved: a positive answer is right, and the answer is positive when the ends are close as numbers; on the line in full."
  },
  {
   "property": "C93",
   "status": "proved",
   "theorems": [
    "C93_is_valid",
    "C93_predicates",
    "C93_corners"
   ],
   "note": ""
  },
  {
   "property": "C94",
   "status": "partial",
   "theorems": [
    "C94_union",
    "C94_add",
    "C94_from_point_pair",
    "C94_polar_closure",
    "C94_intersection_partial",
    "C94_intersection_refuted"
   ],
   "note": "False of the code for intersection, which may keep longitudes that only one argument has (C62); refutation proved. The rest is proved as stated, and intersection unless the first rectangle holds both end longitudes of the second."
  },
  {
   "property": "C95",
   "status": "partial",
   "theorems": [
    "C95_expanded_sides",
    "C95_expanded_partial",
    "C95_center_size",
    "C95_from_center_size"
   ],
   "note": "Left out of expanded and size: the one interval of longitudes whose length is computed as -1 (C88, C89). Also proved for margins of any sign: the latitudes and longitudes are expanded separately."
  },
  {
   "property": "C96",
   "status": "partial",
   "theorems": [
    "C96_from_latlng_partial",
    "C96_from_latlng_refuted",
    "C96_from_degrees_partial",
    "C96_from_degrees_refuted"
   ],
   "note": "False of the code on the antimeridian: the rectangle of a position at longitude -PI is not valid and does not contain it, and from_degrees from 180 to -180 is not valid; refutations proved. Proved otherwise; for from_degrees when the width and the rest of the circle are 0 or at least 2^-40 degrees."
  },
  {
   "property": "C97",
   "status": "proved",
   "theorems": [
    "C97_cap_covering",
    "C97_cap_bound",
    "C97_no_panic"
   ],
   "note": "asin is a parameter assumed accurate to 2^-50. Distance from the boundary: 2^-44 for cell_union_bound and fast_covering; for the others also the slack of C79 (2^-38, or 2^-20 for squared radii between 15/8 and 2)."
  },
  {
   "property": "C98",
   "status": "proved",
   "theorems": [
    "C98_cap_interior"
   ],
   "note": "Slack as in C79_contains_cell, plus 2^-48."
  },
  {
   "property": "C99",
   "status": "proved",
   "theorems": [
    "C99_cell_cap_bound",
    "C99_union_cap_bound"
   ],
   "note": ""
  },
  {
   "property": "C100",
   "status": "proved",
   "theorems": [
    "C100_union_coverings",
    "C100_cell_coverings",
    "C100_no_panic"
   ],
   "note": "asin is a parameter assumed accurate to 2^-50."
  },
  {
   "property": "C101",
   "status": "proved",
   "theorems": [
    "C101_expand_by_radius",
    "C101_expand_level",
    "C101_limit_overflow"
   ],
   "note": ""
  },
  {
   "property": "C102",
   "status": "proved",
   "theorems": [
    "C102_point"
   ],
   "note": "sin and cos are parameters assumed accurate to 2^-50."
  },
  {
   "property": "C103",
   "status": "proved",
   "theorems": [
    "C103_latlng"
   ],
   "note": "atan2 is a parameter assumed accurate to 2^-50 and at most PI, or PI/2 on the right half plane."
  },
  {
   "property": "C104",
   "status": "proved",
   "theorems": [
    "C104_latlng_round_trip",
    "C104_point_round_trip"
   ],
   "note": "sin, cos, atan2 as in C102 and C103."
  },
  {
   "property": "C105",
   "status": "proved",
   "theorems": [
    "C105_cell_round_trip",
    "C105_near_centre",
    "C105_leaf"
   ],
   "note": "sin, cos, atan2 as in C102 and C103."
  },
  {
   "property": "C106",
   "status": "proved",
   "theorems": [
    "C106_st"
   ],
   "note": ""
  },
  {
   "property": "C107",
   "status": "proved",
   "theorems": [
    "C107_edges",
    "C107_inside"
   ],
   "note": ""
  },
  {
   "property": "C108",
   "status": "proved",
   "theorems": [
    "C108_cell_sets"
   ],
   "note": ""
  },
  {
   "property": "C109",
   "status": "partial",
   "theorems": [
    "C109_closest_partial",
    "C109_closest_own_partial",
    "C109_closest_area_partial",
    "C109_closest_area_refuted"
   ],
   "note": "False of the code for areas: the closest level to the average area at level 1 is 0 (the unary minus binds tighter than the shift); refutation proved. For lengths it is proved as stated, for values between 2^-900 and 2^900; for areas with the factor 4 on one side."
  },
  {
   "property": "C110",
   "status": "proved",
   "theorems": [
    "C110_frame",
    "C110_uvw_face"
   ],
   "note": ""
  },
  {
   "property": "C111",
   "status": "proved",
   "theorems": [
    "C111_max_min"
   ],
   "note": ""
  },
  {
   "property": "C112",
   "status": "proved",
   "theorems": [
    "C112_corners",
    "C112_inverted",
    "C112_full",
    "C112_r1_hausdorff"
   ],
   "note": ""
  },
  {
   "property": "C113",
   "status": "proved",
   "theorems": [
    "C113_of_angle",
    "C113_special",
    "C113_round_trip"
   ],
   "note": "sin and asin are parameters with an accuracy hypothesis."
  },
  {
   "property": "C114",
   "status": "proved",
   "theorems": [
    "C114_from_angle",
    "C114_extremes"
   ],
   "note": "Full for pi or more if the library's sin(pi/2) is 1."
  },
  {
   "property": "C115",
   "status": "partial",
   "theorems": [
    "C115_height",
    "C115_height_points",
    "C115_area",
    "C115_from_area",
    "C115_from_area_refuted"
   ],
   "note": "False of the code in one corner: the area -2^-1074 gives a cap of radius 0, not the empty cap (the quotient underflows); refutation proved. For areas of at most -2^-1000 or at least 0 it is proved as stated."
  },
  {
   "property": "C116",
   "status": "proved",
   "theorems": [
    "C116_sin",
    "C116_tan",
    "C116_valid"
   ],
   "note": ""
  },
  {
   "property": "C117",
   "status": "proved",
   "theorems": [
    "C117_interior_intersects",
    "C117_interior_empty",
    "C117_expanded",
    "C117_expanded_empty",
    "C117_equal_points",
    "C117_equal"
   ],
   "note": "The comparison of interior_intersects is proved up to 2^-40, the radius of expanded up to 2^-43."
  },
  {
   "property": "C118",
   "status": "proved",
   "theorems": [
    "C118_distance",
    "C118_approx_eq",
    "C118_reflexive",
    "C118_symmetric"
   ],
   "note": ""
  },
  {
   "property": "C119",
   "status": "proved",
   "theorems": [
    "C119_chord",
    "C119_distance"
   ],
   "note": ""
  },
  {
   "property": "C120",
   "status": "proved",
   "theorems": [
    "C120_cell_rect_bound",
    "C120_contains_cell"
   ],
   "note": ""
  },
  {
   "property": "C121",
   "status": "proved",
   "theorems": [
    "C121_union_rect_bound"
   ],
   "note": ""
  },
  {
   "property": "C122",
   "status": "partial",
   "theorems": [
    "C122_contains_point",
    "C122_point_rect_bound_partial",
    "C122_point_rect_bound_refuted"
   ],
   "note": "False of the code in one corner: the rect_bound of a point whose longitude comes out as -pi, as IEEE's atan2 gives for (-1, -0, z), is not valid and does not contain the point; refutation proved. Otherwise proved as stated."
  },
  {
   "property": "C123",
   "status": "partial",
   "theorems": [
    "C123_cap_rect_bound_partial",
    "C123_south_refuted",
    "C123_both_refuted",
    "C123_narrow_refuted"
   ],
   "note": "False of the code: for the south pole the code sets the low latitude to PI/2 instead of -PI/2, so a cap around the south pole gets a rectangle without points and a cap around both poles one with the north pole only; elsewhere the half-width in longitude is computed from the sine of the squared chord instead of the angle, so points of the cap are missing. All three refuted. Proved for caps around the north pole."
  },
  {
   "property": "C124",
   "status": "proved",
   "theorems": [
    "C124_rect_cap_bound"
   ],
   "note": "up to 2^-44 in straight-line distance"
  },
  {
   "property": "C125",
   "status": "partial",
   "theorems": [
    "C125_rect_area_partial",
    "C125_rect_area_refuted"
   ],
   "note": "False of the code in one corner: an interval of longitudes from pi to the double after -pi gets length -1, so the area is negative; refutation proved. Otherwise proved as stated."
  },
  {
   "property": "C126",
   "status": "partial",
   "theorems": [
    "C126_rect_centroid_partial",
    "C126_rect_centroid_refuted"
   ],
   "note": "False of the code in one corner: an interval of longitudes from pi to the double after -pi gets length -1, so the centroid is far off; refutation proved. Otherwise proved as stated."
  },
  {
   "property": "C127",
   "status": "partial",
   "theorems": [
    "C127_cross_partial",
    "C127_cross_refuted"
   ],
   "note": "False of the code in one corner: points that are parallel and not equal, such as (1,0,0) and (1+2^-52,0,0), get the same product in both orders and with the second point negated; refutation proved. The first three claims are proved for all unit points, exchange and negation of the second for |a x b| >= 2^-92, accuracy for >= 2^-40."
  },
  {
   "property": "C128",
   "status": "partial",
   "theorems": [
    "C128_from_coords_partial",
    "C128_from_coords_refuted"
   ],
   "note": "False of the code: if the squared length overflows the result is the zero vector, if it underflows it is not finite; refutation proved. Proved for squared lengths from 2^-900 to 2^900 and for the zero vector."
  },
  {
   "property": "C129",
   "status": "partial",
   "theorems": [
    "C129_at_distance_partial",
    "C129_interpolate_partial",
    "C129_interpolate_refuted"
   ],
   "note": "False of the code for points closer than 10^-160, where the result is NaN; refutation proved. Proved for |a x b| >= 2^-40."
  },
  {
   "property": "C130",
   "status": "proved",
   "theorems": [
    "C130_centroid"
   ],
   "note": ""
  },
  {
   "property": "C131",
   "status": "partial",
   "theorems": [
    "C131_approx_eq_partial",
    "C131_approx_eq_refuted"
   ],
   "note": "False of the code: a full cap is compared against 2 - 10^-14 instead of 4 - 10^-14, so a hemisphere is approximately equal to the whole sphere; refutation proved. Proved for all other pairs (centres up to 8 * 10^-15, squared radii up to 10^-15)."
  },
  {
   "property": "C132",
   "status": "partial",
   "theorems": [
    "C132_union_partial",
    "C132_union_refuted"
   ],
   "note": "False of the code: unless one cap contains the other, the angle of the union is stored as its squared chord, so points of both caps are left out; refutation proved. The other claims are proved (a cap inside the other with a margin of 2^-21)."
  },
  {
   "property": "C133",
   "status": "proved",
   "theorems": [
    "C133_frame",
    "C133_inverse"
   ],
   "note": ""
  },
  {
   "property": "C134",
   "status": "proved",
   "theorems": [
    "C134_regular_points"
   ],
   "note": ""
  },
  {
   "property": "C135",
   "status": "partial",
   "theorems": [
    "C135_distance_partial",
    "C135_point_partial",
    "C135_nan_refuted",
    "C135_short_refuted"
   ],
   "note": "False of the code in two cases, both refutations proved: with A = B and x opposite to A the squared chord can exceed 4, whose angle is NaN; and for an edge of a few units in the last place the point opposite to it gets the distance 0. Proved with the error 2^-18/sqrt(sin AB) if the sine of the angle of the edge is at least 2^-16, and with the error 2^-19 for A = B up to the angle 3.14."
  },
  {
   "property": "C136",
   "status": "partial",
   "theorems": [
    "C136_chain_partial",
    "C136_grows"
   ],
   "note": "The code's comments claim a bound that contains the chain. Proved: it comes within n / 2^15 of every point of the chain. Missing: the exact containment, and edges longer than 3.14 radians (for these only validity and growth are proved)."
  },
  {
   "property": "C137",
   "status": "partial",
   "theorems": [
    "C137_distance_partial"
   ],
   "note": "Proved with the error 2^-50 when the longitude of the position is in the rectangle, and with the error 2^-12 otherwise if the height of the rectangle is between 1/1000 and pi - 1/1000. Missing: flatter and taller rectangles beside the position."
  },
  {
   "property": "C138",
   "status": "proved",
   "theorems": [
    "C138_hausdorff"
   ],
   "note": ""
  },
  {
   "property": "C139",
   "status": "proved",
   "theorems": [
    "C139_cell",
    "C139_union"
   ],
   "note": ""
  },
  {
   "property": "C140",
   "status": "proved",
   "theorems": [
    "C140_contains_point"
   ],
   "note": ""
  },
  {
   "property": "C141",
   "status": "proved",
   "theorems": [
    "C141_planar"
   ],
   "note": ""
  },
  {
   "property": "C142",
   "status": "partial",
   "theorems": [
    "C142_directed_partial",
    "C142_empty",
    "C142_symmetric_partial"
   ],
   "note": "Proved with the error 2^-11 if every longitude of a is less than a quarter turn from one of b, and b covers the longitudes of a or has a height between 1/1000 and pi - 1/1000. Missing: rectangles farther apart in longitude (modelled, nothing proved), and flat or tall b beside a."
  },
  {
   "property": "C143",
   "status": "proved",
   "theorems": [
    "C143_face",
    "C143_opposite",
    "C143_sum",
    "C143_exit"
   ],
   "note": ""
  },
  {
   "property": "C144",
   "status": "proved",
   "theorems": [
    "C144_ends",
    "C144_between",
    "C144_accuracy",
    "C144_small_refuted"
   ],
   "note": "C144_small_refuted shows that the accuracy is false without the bound on the differences: products of smaller differences underflow."
  },
  {
   "property": "C145",
   "status": "proved",
   "theorems": [
    "C145_clipped",
    "C145_missed",
    "C145_bound"
   ],
   "note": ""
  },
  {
   "property": "C146",
   "status": "proved",
   "theorems": [
    "C146_hit",
    "C146_deep"
   ],
   "note": ""
  },
  {
   "property": "C147",
   "status": "proved",
   "theorems": [
    "C147_path",
    "C147_ends"
   ],
   "note": ""
  },
  {
   "property": "C148",
   "status": "proved",
   "theorems": [
    "C148_ends"
   ],
   "note": ""
  }
 ]
}