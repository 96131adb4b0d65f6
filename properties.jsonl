{"id": "C01", "title": "is_valid accepts exactly the encodings of cells", "statement": "For every 64-bit value other than 2^63, CellID::is_valid returns true iff the value is the id of some cell: a face in 0..5, a level in 0..30 and an index along the curve, encoded as face bits, two bits per level, a 1 bit and zeros; the cell is unique. It never panics on those values.", "quantifier": "all u64 values except 2^63", "why_tests_cant": "The domain has about 2^63 ids; tests sample a few hundred random ones.", "anchors": ["src/s2/cellid.rs:CellID::is_valid", "src/s2/cellid.rs:CellID::face", "src/s2/cellid.rs:CellID::lsb"]}
{"id": "C02", "title": "accessors recover the cell", "statement": "For every valid id, level(), face(), pos(), is_leaf(), is_face(), lsb(), child_position(k) and distance_from_begin() return the level, face, curve position, leaf/face flags, k-th child digit and index of the cell it encodes, without panicking.", "quantifier": "all valid ids, all levels 1..level", "why_tests_cant": "The domain has about 2^63 ids; tests sample a few hundred random ones.", "anchors": ["src/s2/cellid.rs:CellID::level", "src/s2/cellid.rs:CellID::face", "src/s2/cellid.rs:CellID::pos", "src/s2/cellid.rs:CellID::child_position", "src/s2/cellid.rs:CellID::distance_from_begin"]}
{"id": "C03", "title": "parent is the ancestor at the requested level", "statement": "For a valid id of level L and L' <= L, parent(L') is the id of the unique ancestor at L'; parent(L)=id; parent composes; immediate_parent is parent(L-1) for non-face cells.", "quantifier": "all valid ids, all L' <= L", "why_tests_cant": "The domain has about 2^63 ids; tests sample a few hundred random ones.", "anchors": ["src/s2/cellid.rs:CellID::parent", "src/s2/cellid.rs:CellID::immediate_parent"]}
{"id": "C04", "title": "children partition their parent", "statement": "For every valid non-leaf id, children() are four valid ids of the next level, in increasing order, whose sets of leaves are disjoint and whose union is the parent's set of leaves; each has the id as parent; child k has child_position k.", "quantifier": "all valid non-leaf ids", "why_tests_cant": "The domain has about 2^63 ids; tests sample a few hundred random ones.", "anchors": ["src/s2/cellid.rs:CellID::children", "src/s2/cellid.rs:CellID::child_begin", "src/s2/cellid.rs:CellID::child_end"]}
{"id": "C05", "title": "child iteration enumerates exactly the descendants at a level", "statement": "child_iter_at_level(L') on a valid id of level L<=L' terminates after exactly 4^(L'-L) items and yields, in increasing order, exactly the valid ids of level L' contained in the cell; child_iter yields exactly children() for non-leaf cells. An assertion fails iff L' < L.", "quantifier": "all valid ids, all levels L <= L' <= 30", "why_tests_cant": "up to 4^30 items; unbounded by any test", "anchors": ["src/s2/cellid.rs:Iter::next", "src/s2/cellid.rs:CellID::child_iter", "src/s2/cellid.rs:CellID::child_iter_at_level"]}
{"id": "C06", "title": "contains is the ancestor relation", "statement": "For valid ids a and b, a.contains(b) iff a is b or an ancestor of b iff every leaf of b is a leaf of a; it is a partial order.", "quantifier": "all pairs of valid ids", "why_tests_cant": "The domain has about 2^63 ids; tests sample a few hundred random ones.", "anchors": ["src/s2/cellid.rs:CellID::contains"]}
{"id": "C07", "title": "intersects is overlap and cells are laminar", "statement": "For valid ids a, b: a.intersects(b) iff they share a leaf iff one contains the other; otherwise all ids in one's range are smaller than all in the other's.", "quantifier": "all pairs of valid ids", "why_tests_cant": "The domain has about 2^63 ids; tests sample a few hundred random ones.", "anchors": ["src/s2/cellid.rs:CellID::intersects"]}
{"id": "C08", "title": "range_min/range_max delimit exactly the leaves", "statement": "For a valid id, range_min and range_max are valid leaf ids, and a valid leaf id is contained in the cell iff it lies between them; the id itself is their midpoint.", "quantifier": "all valid ids, all leaves", "why_tests_cant": "The domain has about 2^63 ids; tests sample a few hundred random ones.", "anchors": ["src/s2/cellid.rs:CellID::range_min", "src/s2/cellid.rs:CellID::range_max"]}
{"id": "C09", "title": "next/prev walk one cell at a time along the curve", "statement": "For a valid id, next() and prev() return the id of the adjacent index at the same level (if it exists), are mutually inverse for every u64 whose lsb() does not panic, and no valid id of the same level lies in between.", "quantifier": "all valid ids; inverse law over all u64 except those whose lsb is 2^63", "why_tests_cant": "The domain has about 2^63 ids; tests sample a few hundred random ones.", "anchors": ["src/s2/cellid.rs:CellID::next", "src/s2/cellid.rs:CellID::prev"]}
{"id": "C10", "title": "next_wrap/prev_wrap are the cyclic successor and predecessor", "statement": "On valid ids of level L, next_wrap/prev_wrap are inverse permutations that step the index by one modulo 6*4^L; results are valid of the same level.", "quantifier": "all valid ids", "why_tests_cant": "The domain has about 2^63 ids; tests sample a few hundred random ones.", "anchors": ["src/s2/cellid.rs:CellID::next_wrap", "src/s2/cellid.rs:CellID::prev_wrap"]}
{"id": "C11", "title": "advance moves by the clamped number of steps", "statement": "advance(k) on a valid id with index n at level L returns the position with index clamp(n+k, 0, 6*4^L) at level L (6*4^L being the End position), for every i64 k, with no arithmetic overflow.", "quantifier": "all valid ids, all i64 step counts", "why_tests_cant": "The domain has about 2^63 ids; tests sample a few hundred random ones.", "anchors": ["src/s2/cellid.rs:CellID::advance"]}
{"id": "C12", "title": "advance_wrap moves modulo the number of cells", "statement": "advance_wrap(k) on a valid id with index n at level L returns the valid id with index (n+k) mod 6*4^L at level L, for every i64 k, with no arithmetic overflow.", "quantifier": "all valid ids, all i64 step counts", "why_tests_cant": "The domain has about 2^63 ids; tests sample a few hundred random ones.", "anchors": ["src/s2/cellid.rs:CellID::advance_wrap"]}
{"id": "C13", "title": "common_ancestor_level is the level of the deepest common ancestor", "statement": "For valid ids a, b: common_ancestor_level is None iff they are on different faces; otherwise Some(k) with k the greatest level at which both have an ancestor-or-self and those ancestors are equal. It is symmetric.", "quantifier": "all pairs of valid ids", "why_tests_cant": "The domain has about 2^63 ids; tests sample a few hundred random ones.", "anchors": ["src/s2/cellid.rs:CellID::common_ancestor_level"]}
{"id": "C14", "title": "max_tile is the largest tile below the limit", "statement": "For valid a and limit with a.range_min() < limit.range_min(), max_tile terminates and returns a valid cell with the same range_min as a, with range_max < limit.range_min(), and such that no larger cell has both properties; otherwise it returns limit.", "quantifier": "all valid id pairs where the limit is a leaf, a valid id, or the end position", "why_tests_cant": "loop depth and all range pairs", "anchors": ["src/s2/cellid.rs:CellID::max_tile"]}
{"id": "C15", "title": "from_range is the exact minimal tiling of a leaf range", "statement": "from_range(begin,end) on leaves begin<=end (end may be one past the last leaf) terminates and returns a normalized union whose leaves are exactly the leaves l with begin <= l < end.", "quantifier": "all begin/end leaf pairs", "why_tests_cant": "2^124 pairs; loop termination for all", "anchors": ["src/s2/cellunion.rs:CellUnion::from_range", "src/s2/cellid.rs:CellID::max_tile"]}
{"id": "C16", "title": "token round trip", "statement": "from_token(to_token(id)) = id for every u64; tokens are non-empty lower-case hex of at most 16 characters without trailing zeros (or \"X\" for 0), so distinct ids have distinct tokens.", "quantifier": "all u64 values", "why_tests_cant": "2^64 values", "anchors": ["src/s2/cellid.rs:CellID::to_token", "src/s2/cellid.rs:CellID::from_token"]}
{"id": "C17", "title": "from_token never panics and rejects garbage", "statement": "from_token on any string returns: the value of the digits, left-aligned to 16 digits when shorter, if the string is an optional '+' and at least one hex digit with value < 2^64; otherwise CellID(0).", "quantifier": "all byte strings", "why_tests_cant": "infinite input space", "anchors": ["src/s2/cellid.rs:CellID::from_token"]}
{"id": "C18", "title": "numeric id order is curve order", "statement": "For valid disjoint cells, a < b iff every leaf of a precedes every leaf of b on the curve; for nested cells the parent lies between its second and third child.", "quantifier": "all pairs of valid ids", "why_tests_cant": "The domain has about 2^63 ids; tests sample a few hundred random ones.", "anchors": ["src/s2/cellid.rs:CellID", "src/s2/cellid.rs:CellID::range_min", "src/s2/cellid.rs:CellID::range_max"]}
{"id": "C19", "title": "constructors always give valid cells", "statement": "from_face(f) for f<6 is the valid level-0 cell of face f; from_face_pos_level(f,pos,L) for f<6, pos<2^61, L<=30 is the valid level-L cell of face f that contains the leaf at position pos|1.", "quantifier": "all faces, positions and levels", "why_tests_cant": "The domain has about 2^63 ids; tests sample a few hundred random ones.", "anchors": ["src/s2/cellid.rs:CellID::from_face", "src/s2/cellid.rs:CellID::from_face_pos_level"]}
{"id": "C20", "title": "leaf cells are in bijection with (face,i,j)", "statement": "For f<6, 0<=i,j<2^30, from_face_ij(f,i,j) is a valid leaf id and face_ij_orientation returns f,i,j on it; conversely from_face_ij of the face_ij of a valid leaf is that leaf. No table index is out of range and no arithmetic overflows.", "quantifier": "all 6*2^60 leaves", "why_tests_cant": "6*2^60 leaves; the unit test checks a few thousand", "anchors": ["src/s2/cellid.rs:CellID::from_face_ij", "src/s2/cellid.rs:CellID::face_ij_orientation", "src/s2/cellid.rs:init_lookup_cell"]}
{"id": "C21", "title": "cells are aligned squares", "statement": "The leaves of a valid level-L cell are exactly the leaves of its face whose i and j lie in one aligned square of side 2^(30-L); and face_ij_orientation of the cell gives an (i,j) in that square.", "quantifier": "all valid ids", "why_tests_cant": "The domain has about 2^63 ids; tests sample a few hundred random ones.", "anchors": ["src/s2/cellid.rs:CellID::face_ij_orientation", "src/s2/cellid.rs:CellID::parent"]}
{"id": "C22", "title": "the curve is continuous", "statement": "For every level L and every two consecutive indices at that level (including across faces and from the last cell back to the first), the two cells share an edge on the surface of the cube.", "quantifier": "all levels, all 6*4^L consecutive pairs", "why_tests_cant": "6*4^30 pairs", "anchors": ["src/s2/cellid.rs:CellID::next_wrap", "src/s2/cellid.rs:CellID::face_ij_orientation", "src/s2/stuv.rs:face_uv_to_xyz"]}
{"id": "C23", "title": "cell centre coordinates are exact and do not overflow", "statement": "For every valid id, face_siti/center_face_siti return the exact centre of the cell's ij square doubled, in [1, 2^31-1], without i32 overflow.", "quantifier": "all valid ids", "why_tests_cant": "The domain has about 2^63 ids; tests sample a few hundred random ones.", "anchors": ["src/s2/cellid.rs:CellID::face_siti", "src/s2/cellid.rs:CellID::center_face_siti"]}
{"id": "C24", "title": "edge_neighbors returns the four cells across the edges", "statement": "For every valid id, edge_neighbors returns four distinct valid cells of the same level that are exactly the cells sharing an edge with it on the cube, in the order down, right, up, left; neighbouring is symmetric.", "quantifier": "all valid ids incl. face boundaries and corners", "why_tests_cant": "The domain has about 2^63 ids; tests sample a few hundred random ones.", "anchors": ["src/s2/cellid.rs:CellID::edge_neighbors", "src/s2/cellid.rs:CellID::from_face_ij_wrap"]}
{"id": "C25", "title": "vertex_neighbors returns the cells around the closest vertex", "statement": "For a valid id of level > k, vertex_neighbors(k) returns the level-k ancestor and exactly the other level-k cells sharing the ancestor's vertex closest to the cell (3 cells at a cube corner, 4 otherwise).", "quantifier": "all valid ids, all k < level", "why_tests_cant": "The domain has about 2^63 ids; tests sample a few hundred random ones.", "anchors": ["src/s2/cellid.rs:CellID::vertex_neighbors"]}
{"id": "C26", "title": "all_neighbors returns exactly the surrounding cells", "statement": "For a valid id of level L and k >= L, the set returned by all_neighbors(k) is exactly the set of level-k cells that touch the cell without overlapping it.", "quantifier": "all valid ids, all k >= L", "why_tests_cant": "The domain has about 2^63 ids; tests sample a few hundred random ones.", "anchors": ["src/s2/cellid.rs:CellID::all_neighbors"]}
{"id": "C27", "title": "normalize preserves the set of leaves", "statement": "For every list of valid ids (any order, duplicates, overlaps), after normalize the union covers exactly the same leaves.", "quantifier": "all finite lists of valid ids", "why_tests_cant": "unbounded input lists", "anchors": ["src/s2/cellunion.rs:CellUnion::normalize"]}
{"id": "C28", "title": "normalize produces a normalized union", "statement": "After normalize on any list of valid ids, ids are valid, strictly increasing, pairwise disjoint and no four are the children of one cell; is_normalized() returns true. normalize never panics.", "quantifier": "all finite lists of valid ids", "why_tests_cant": "unbounded input lists", "anchors": ["src/s2/cellunion.rs:CellUnion::normalize", "src/s2/cellunion.rs:CellUnion::is_normalized"]}
{"id": "C29", "title": "normal form is canonical", "statement": "Two lists of valid ids covering the same leaves normalize to the same vector; normalize is idempotent and independent of input order; the normal form has the fewest cells among all lists covering those leaves.", "quantifier": "all pairs of lists of valid ids", "why_tests_cant": "unbounded input lists", "anchors": ["src/s2/cellunion.rs:CellUnion::normalize"]}
{"id": "C30", "title": "contains_cellid decides containment", "statement": "On a normalized union and a valid id, contains_cellid(id) iff every leaf of id is covered by the union.", "quantifier": "all normalized unions, all valid ids", "why_tests_cant": "unbounded unions", "anchors": ["src/s2/cellunion.rs:CellUnion::contains_cellid", "src/consts.rs:search_lower_by"]}
{"id": "C31", "title": "intersects_cellid decides overlap", "statement": "On a normalized (or merely sorted and disjoint) union and a valid id, intersects_cellid(id) iff some leaf of id is covered by the union.", "quantifier": "all valid unions, all valid ids", "why_tests_cant": "unbounded unions", "anchors": ["src/s2/cellunion.rs:CellUnion::intersects_cellid", "src/consts.rs:search_lower_by"]}
{"id": "C32", "title": "is_valid and is_normalized decide their definitions", "statement": "CellUnion::is_valid is true iff all ids are valid, and they are increasing and pairwise disjoint; is_normalized is true iff in addition no four ids of the union (consecutive or not) are the four children of one cell.", "quantifier": "all vectors of ids on which lsb does not panic", "why_tests_cant": "unbounded vectors", "anchors": ["src/s2/cellunion.rs:CellUnion::is_valid", "src/s2/cellunion.rs:CellUnion::is_normalized", "src/s2/cellunion.rs:are_siblings"]}
{"id": "C33", "title": "union and merge are set union", "statement": "merge(us) and union(a,b) are the normalized union covering exactly the leaves covered by some operand.", "quantifier": "all lists of unions of valid ids", "why_tests_cant": "unbounded unions", "anchors": ["src/s2/cellunion.rs:CellUnion::merge", "src/s2/cellunion.rs:CellUnion::union"]}
{"id": "C34", "title": "intersection is set intersection", "statement": "For valid (sorted, disjoint) unions a, b, intersection terminates, covers exactly the leaves covered by both, is sorted and disjoint, and is normalized if both are; the debug assertions hold and no index is out of range.", "quantifier": "all pairs of valid unions", "why_tests_cant": "unbounded unions; two-pointer loop", "anchors": ["src/s2/cellunion.rs:CellUnion::intersection", "src/s2/cellunion.rs:lower_bound_cellids"]}
{"id": "C35", "title": "intersection with a cell", "statement": "For a normalized union x and a valid id, intersection_with_cell_id covers exactly the leaves of both, is normalized, and its debug assertions hold.", "quantifier": "all normalized unions, all valid ids", "why_tests_cant": "unbounded unions", "anchors": ["src/s2/cellunion.rs:CellUnion::intersection_with_cell_id"]}
{"id": "C36", "title": "difference is set difference", "statement": "For a list x of valid ids and a valid union y, difference terminates and covers exactly the leaves of x not covered by y; if both are normalized the result is normalized (the debug assertion holds).", "quantifier": "all pairs of unions", "why_tests_cant": "unbounded unions; recursion depth", "anchors": ["src/s2/cellunion.rs:CellUnion::difference", "src/s2/cellunion.rs:cell_union_difference_internal"]}
{"id": "C37", "title": "containment and intersection of unions", "statement": "For normalized unions, contains_cell_union and intersects_cell_union decide inclusion and overlap of the covered leaf sets.", "quantifier": "all pairs of normalized unions", "why_tests_cant": "unbounded unions", "anchors": ["src/s2/cellunion.rs:CellUnion::contains_cell_union", "src/s2/cellunion.rs:CellUnion::intersects_cell_union"]}
{"id": "C38", "title": "denormalize keeps the region and fixes the levels", "statement": "For valid ids, min_level<=30 and level_mod in 1..3, denormalize covers exactly the same leaves, and every output level l satisfies l >= min_level and ((l-min_level) mod level_mod = 0 or l = 30); each output cell is a descendant-or-self of an input cell. No panic.", "quantifier": "all lists of valid ids, all parameters in range", "why_tests_cant": "unbounded lists", "anchors": ["src/s2/cellunion.rs:CellUnion::denormalize"]}
{"id": "C39", "title": "leaf_cell_covered counts leaves", "statement": "For a valid union, leaf_cell_covered returns the number of distinct covered leaves, at most 6*2^60, with no overflow.", "quantifier": "all valid unions", "why_tests_cant": "unbounded unions", "anchors": ["src/s2/cellunion.rs:CellUnion::leaf_cell_covered"]}
{"id": "C40", "title": "expand_at_level grows the union", "statement": "For a normalized union and level k, expand_at_level terminates in a normalized union that covers every previously covered leaf and every level-k cell that touches a cell of the original.", "quantifier": "all normalized unions, all levels", "why_tests_cant": "unbounded unions", "anchors": ["src/s2/cellunion.rs:CellUnion::expand_at_level"]}
{"id": "C41", "title": "coverings cover", "statement": "If the region's intersects_cell answers true for every cell meeting the region and its cell_union_bound covers the region, then covering()'s union contains every leaf that meets the region, for every min_level<=30, max_level<=30, level_mod 1..3 and max_cells.", "quantifier": "all regions (as predicates), all coverer parameters, all heap tie-breaking orders", "why_tests_cant": "infinitely many regions; priority queue order", "anchors": ["src/s2/region.rs:RegionCoverer::covering", "src/s2/region.rs:Coverer::covering_internal"]}
{"id": "C42", "title": "interior coverings stay inside", "statement": "If contains_cell(c)=true only when every leaf of c is inside the region, then every cell of interior_covering (and interior_cellunion) lies inside the region.", "quantifier": "all regions, all parameters, all heap orders", "why_tests_cant": "infinitely many regions", "anchors": ["src/s2/region.rs:RegionCoverer::interior_covering", "src/s2/region.rs:RegionCoverer::interior_cellunion"]}
{"id": "C43", "title": "coverings respect level constraints", "statement": "Every cell in covering/interior_covering has level >= min_level, level <= max_level and (level-min_level) a multiple of level_mod (or level 30), for consistent parameters.", "quantifier": "all regions and parameters", "why_tests_cant": "infinitely many regions", "anchors": ["src/s2/region.rs:RegionCoverer::covering", "src/s2/region.rs:RegionCoverer::adjust_level"]}
{"id": "C44", "title": "covering search terminates", "statement": "covering_internal terminates for every region oracle and every parameters with level_mod in 1..3 and max_level<=30: the main loop pops finitely many candidates, expansion never goes below a leaf.", "quantifier": "all regions and parameters, all heap orders", "why_tests_cant": "termination over all oracles", "anchors": ["src/s2/region.rs:Coverer::covering_internal", "src/s2/region.rs:Coverer::expand_children", "src/s2/region.rs:Coverer::add_candidate"]}
{"id": "C45", "title": "normalize_covering/fast_covering terminate and cover", "statement": "fast_covering terminates, its result covers everything cell_union_bound covered, and cell levels respect min_level/level_mod/max_level.", "quantifier": "all initial cell lists and parameters", "why_tests_cant": "unbounded lists; loop termination", "anchors": ["src/s2/region.rs:RegionCoverer::fast_covering", "src/s2/region.rs:RegionCoverer::normalize_covering"]}
{"id": "C46", "title": "search_lower_by is a correct binary search", "statement": "For every len and every monotone predicate f, search_lower_by terminates and returns the least index i with f(i), or len; f is only called on indices < len.", "quantifier": "all lengths and predicates", "why_tests_cant": "unbounded lengths", "anchors": ["src/consts.rs:search_lower_by"]}
{"id": "C47", "title": "r1 interval operations match sets of reals", "statement": "For intervals without NaN endpoints and every non-NaN f64 point p: intersection contains p iff both contain p; union contains p if either does (and is the smallest such interval); contains_interval/intersects/interior variants agree with the point sets; expanded, add_point, clamp and empty behave as documented.", "quantifier": "all f64 intervals without NaN, all f64 points", "why_tests_cant": "2^128 intervals", "anchors": ["src/r1/interval.rs"]}
{"id": "C48", "title": "s1 interval operations match sets of angles", "statement": "For valid s1 intervals (all f64 endpoints in [-pi,pi]) and every point in [-pi,pi]: contains_interval, intersects, union, intersection, complement, invert agree with sets of points; results are valid intervals.", "quantifier": "all valid f64 circular intervals and points", "why_tests_cant": "2^128 intervals", "anchors": ["src/s1/interval.rs"]}
{"id": "C49", "title": "r2 rectangle operations match point sets", "statement": "contains, intersects, intersection, union, add_point, clamp_point, vertices of r2 rectangles agree with the sets of points they denote.", "quantifier": "all f64 rectangles without NaN", "why_tests_cant": "2^256 rectangles", "anchors": ["src/r2/rect.rs"]}
{"id": "C50", "title": "orientation predicate antisymmetry", "statement": "For all points of f64 coordinates: sign(a,b,c) implies not sign(c,b,a); sign(b,c,a) follows the documented rotation law only up to rounding (what holds is stated).", "quantifier": "all f64 triples", "why_tests_cant": "2^576 inputs", "anchors": ["src/s2/predicates.rs:sign", "src/r3/vector.rs:cross"]}
{"id": "C51", "title": "robust_sign resolves every non-degenerate triple", "statement": "robust_sign(a,b,c) is Indeterminate only if two of the points are the same (documented property 1).", "quantifier": "all triples of unit points", "why_tests_cant": "collinear triples are never sampled", "anchors": ["src/s2/predicates.rs:robust_sign", "src/s2/predicates.rs:exact_sign"]}
{"id": "C52", "title": "points map to valid leaf cells", "statement": "CellID::from(p) is a valid leaf id for every point with non-NaN coordinates, not all zero; st_to_ij results are always in [0,2^30-1] for every f64 including NaN and infinities.", "quantifier": "all f64 points", "why_tests_cant": "2^192 points", "anchors": ["src/s2/cellid.rs:From<Point>", "src/s2/cellid.rs:st_to_ij", "src/s2/stuv.rs:xyz_to_face_uv"]}
{"id": "C53", "title": "Shape edges are totally ordered", "statement": "Edge's Ord/Eq is a total order consistent with equality: cmp(e,e)=Equal, antisymmetric, transitive.", "quantifier": "all edges with non-NaN coordinates", "why_tests_cant": "all edges", "anchors": ["src/s2/shape.rs:Edge::cmp"]}
{"id": "C54", "title": "metric levels bracket the requested value", "statement": "Metric::min_level(v) returns the smallest level whose metric value is <= v and max_level(v) the largest level whose value is >= v, clamped to [0,30], for every v (0 and negative included) and both dimensions.", "quantifier": "all f64 v, metrics of dimension 1 and 2", "why_tests_cant": "2^64 values", "anchors": ["src/s2/metric.rs:min_level", "src/s2/metric.rs:max_level"]}
{"id": "C55", "title": "caps grow by adding points and detect overlap", "statement": "cap + p contains p and everything cap contained; the full cap intersects every non-empty cap; the empty cap intersects none.", "quantifier": "all f64 caps and points", "why_tests_cant": "2^256 inputs", "anchors": ["src/s2/cap.rs:Cap::add", "src/s2/cap.rs:Cap::intersects"]}
{"id": "C56", "title": "r2 point product is componentwise", "statement": "p * q has coordinates p.x*q.x and p.y*q.y and is commutative.", "quantifier": "all f64 pairs of points", "why_tests_cant": "2^256 inputs", "anchors": ["src/r2/point.rs:Mul"]}
{"id": "C57", "title": "cell id operations are total on u64", "statement": "is_valid, lsb, level, range_min and contains return without panicking for every u64, in particular for values obtained from from_token on any string.", "quantifier": "all u64", "why_tests_cant": "only corner values 0 and 2^63 misbehave", "anchors": ["src/s2/cellid.rs:CellID::is_valid", "src/s2/cellid.rs:CellID::lsb", "src/s2/cellid.rs:CellID::level"]}
{"id": "C58", "title": "coverer accepts level_mod 0", "statement": "As documented (0/1, 2 or 3 allowed), level_mod = 0 behaves like 1 and coverings terminate.", "quantifier": "level_mod = 0, all regions", "why_tests_cant": "never tested", "anchors": ["src/s2/region.rs:RegionCoverer", "src/s2/region.rs:Coverer::new_candidate", "src/s2/region.rs:Coverer::expand_children"]}
{"id": "C59", "title": "token order", "statement": "For nonzero 64-bit ids x and y, x < y iff to_token(x) precedes to_token(y) in byte-wise (dictionary) order, so sorting tokens sorts cells along the curve.", "quantifier": "all pairs of nonzero u64 values", "why_tests_cant": "2^128 pairs", "anchors": ["src/s2/cellid.rs:CellID::to_token"]}
{"id": "C60", "title": "orientation predicts the children", "statement": "For every valid non-leaf id, the orientation o returned by face_ij_orientation is in 0..3 and child k of the cell is the quadrant of its (i,j) square given by the base visiting order (0,0),(0,1),(1,1),(1,0) with the axes swapped if bit 0 of o is set and both inverted if bit 1 is set.", "quantifier": "all valid non-leaf ids, k in 0..3", "why_tests_cant": "The domain has about 2^63 ids; tests sample a few hundred random ones.", "anchors": ["src/s2/cellid.rs:CellID::face_ij_orientation", "src/s2/cellid.rs:CellID::children"]}
{"id": "C61", "title": "coverings respect the cell limit", "statement": "For every region, interior coverings have at most max(max_cells, 6) cells, and so have coverings when min_level = 0, both before and after level_mod is applied.", "quantifier": "all regions, all parameters in range, all heap tie-breaking orders", "why_tests_cant": "infinitely many regions; priority queue order", "anchors": ["src/s2/region.rs:RegionCoverer::covering", "src/s2/region.rs:RegionCoverer::interior_covering", "src/s2/region.rs:Coverer::covering_internal"]}
{"id": "C62", "title": "s1 intersection is exact", "statement": "For valid circular intervals the intersection contains exactly the common points.", "quantifier": "all valid f64 circular intervals and points", "why_tests_cant": "2^128 pairs of intervals", "anchors": ["src/s1/interval.rs:Interval::intersection"]}
{"id": "C63", "title": "points, vectors and edge ids are totally ordered", "statement": "The orders of r2::Point, r3::Vector and ShapeEdgeID are lexicographic, reflexive on equal values, antisymmetric and transitive, and Equal exactly on values that compare ==.", "quantifier": "all pairs and triples of points and vectors without NaN, all i32/i64 ids", "why_tests_cant": "2^576 triples", "anchors": ["src/r2/point.rs:Point::cmp", "src/r3/vector.rs:Vector::cmp", "src/s2/shape.rs:ShapeEdgeID::cmp"]}
{"id": "C64", "title": "simple_crossing does not depend on edge directions", "statement": "simple_crossing(a,b,c,d) is unchanged by reversing either edge and by exchanging the edges.", "quantifier": "all quadruples of f64 points", "why_tests_cant": "2^768 inputs", "anchors": ["src/s2/edgeutil.rs:simple_crossing"]}
{"id": "C65", "title": "orientation answers are exact", "statement": "For unit points (as judged by is_unit), if triage_sign or robust_sign answers CounterClockwise the exact determinant of the three points is positive, and if it answers Clockwise it is negative.", "quantifier": "all triples of unit f64 points", "why_tests_cant": "near-degenerate triples are never sampled", "anchors": ["src/s2/predicates.rs:triage_sign", "src/s2/predicates.rs:stable_sign", "src/s2/predicates.rs:robust_sign"]}
{"id": "C66", "title": "ordered_ccw laws", "statement": "The documented properties of Point::ordered_ccw(a,b,c,o): if both (a,b,c) and (b,a,c) are ordered then a == b; if both (a,b,c) and (a,c,b) then b == c; if both (a,b,c) and (c,b,a) then a == b or b == c; a == b or b == c implies true; otherwise a == c implies false.", "quantifier": "all unit points", "why_tests_cant": "degenerate configurations", "anchors": ["src/s2/point.rs:Point::ordered_ccw"]}
{"id": "C67", "title": "robust_sign rotation and exchange laws", "statement": "robust_sign(b,c,a) == robust_sign(a,b,c) and robust_sign(c,b,a) == -robust_sign(a,b,c) (documented properties 2 and 3).", "quantifier": "all triples of f64 points", "why_tests_cant": "2^576 inputs", "anchors": ["src/s2/predicates.rs:robust_sign"]}
{"id": "C68", "title": "a cell found for a point contains it", "statement": "Cell::from(&p).contains_point(&p) is true for every point p (documented at cell.rs: contains_point).", "quantifier": "all finite f64 points other than the origin", "why_tests_cant": "a failure needs a point within rounding of a leaf boundary", "anchors": ["src/s2/cell.rs:Cell::contains_point", "src/s2/cell.rs:From<&Point>", "src/s2/cellid.rs:From<Point>"]}
{"id": "C69", "title": "cell centres are in their cells", "statement": "For every valid id, CellID::from(Point::from(id)) is contained in id and equals id when id is a leaf; Cell::from(id).center() is that point and Cell::from(id).contains_point(center) is true.", "quantifier": "all valid ids", "why_tests_cant": "The domain has about 2^63 ids; tests sample a few hundred random ones.", "anchors": ["src/s2/cellid.rs:From<CellID> for Point", "src/s2/cellid.rs:CellID::raw_point", "src/s2/cell.rs:Cell::center", "src/s2/cell.rs:Cell::contains_point"]}
{"id": "C70", "title": "cell children are the cells of the child ids", "statement": "Cell::from(id).children() is None for a leaf and otherwise the four cells Cell::from(child), in traversal order, with the same face, level, orientation, id and bit-identical (u,v) bounds.", "quantifier": "all valid ids", "why_tests_cant": "The domain has about 2^63 ids; tests sample a few hundred random ones.", "anchors": ["src/s2/cell.rs:Cell::children", "src/s2/cell.rs:From<&CellID>"]}
{"id": "C71", "title": "(u,v) bounds nest as the ids do", "statement": "For cells of one face, the (u,v) bound of c contains that of d iff id c contains id d, and their interiors meet iff the ids intersect; every bound is a proper rectangle in [-1,1]x[-1,1], the whole of it for a face cell; bound_uv(id) equals the bound of Cell::from(id).", "quantifier": "all pairs of valid ids on one face", "why_tests_cant": "The domain has about 2^63 ids; tests sample a few hundred random ones.", "anchors": ["src/s2/cell.rs:From<&CellID>", "src/s2/cellid.rs:CellID::bound_uv", "src/s2/cellid.rs:ij_level_to_bound_uv"]}
{"id": "C72", "title": "coordinate conversions are monotone and inverse up to rounding", "statement": "uv_to_st and st_to_uv are monotone between [-1,1] and [0,1] and inverse to each other within a few units of 2^-52; face_uv_to_xyz followed by face_xyz_to_uv (and, strictly inside a face, by xyz_to_face_uv) returns the same face and coordinates exactly.", "quantifier": "all finite f64 in the domains, all faces", "why_tests_cant": "2^64 and 2^128 inputs", "anchors": ["src/s2/stuv.rs:uv_to_st", "src/s2/stuv.rs:st_to_uv", "src/s2/stuv.rs:face_uv_to_xyz", "src/s2/stuv.rs:xyz_to_face_uv", "src/s2/stuv.rs:face_xyz_to_uv"]}
{"id": "C73", "title": "vertices of adjacent cells coincide", "statement": "Two cells, of any faces and levels, that share a corner of the cube grid return equal points (==) from vertex() there; every cell contains its own four vertices.", "quantifier": "all pairs of valid ids, all vertex indices", "why_tests_cant": "The domain has about 2^63 ids; tests sample a few hundred random ones.", "anchors": ["src/s2/cell.rs:Cell::vertex", "src/s2/cell.rs:Cell::contains_point"]}
{"id": "C74", "title": "chord angle arithmetic agrees with angle arithmetic", "statement": "For chord angles a, b of angles alpha, beta in [0, pi], a + b is the chord angle of min(pi, alpha+beta), a - b that of max(0, alpha-beta), sin2 and cos are the squared sine and the cosine, each up to a small multiple of 2^-53.", "quantifier": "all f64 chord angles between 0 and 4", "why_tests_cant": "2^128 pairs; worst cases of rounding are not sampled", "anchors": ["src/s1/chordangle.rs:add", "src/s1/chordangle.rs:sub", "src/s1/chordangle.rs:ChordAngle::sin2", "src/s1/chordangle.rs:ChordAngle::cos"]}
{"id": "C75", "title": "laws of chord angle sums", "statement": "a + b == b + a, 0 is neutral on both sides, the sum lies between 0 and 4 and is 4 as soon as the squared lengths add up to 4.", "quantifier": "all f64 chord angles between 0 and 4", "why_tests_cant": "2^128 pairs", "anchors": ["src/s1/chordangle.rs:add"]}
{"id": "C76", "title": "points of caps", "statement": "A full cap contains every point, an empty cap contains none (nor does its interior), a non-empty cap contains its centre, and a point in the interior of a cap is in the cap.", "quantifier": "all f64 caps and points", "why_tests_cant": "2^448 inputs", "anchors": ["src/s2/cap.rs:Cap::contains_point", "src/s2/cap.rs:Cap::interior_contains_point"]}
{"id": "C77", "title": "the sum of two caps contains both", "statement": "(a + b).contains(a), (a + b).contains(b), and every point contained in a is contained in a + b.", "quantifier": "all valid f64 caps", "why_tests_cant": "2^512 inputs; the code asks for the error analysis in a TODO", "anchors": ["src/s2/cap.rs:Cap::add", "src/s2/cap.rs:Cap::contains"]}
{"id": "C78", "title": "cap predicates agree with the sphere", "statement": "contains_point, contains and intersects of valid caps agree with the geometry of the real unit sphere up to 2^-40 in squared distance; containment is reflexive, full caps contain every cap, every cap contains the empty cap, an empty cap contains no other.", "quantifier": "all valid f64 caps and unit points, all real points of the sphere", "why_tests_cant": "continuum of points, rounding", "anchors": ["src/s2/cap.rs:Cap::contains", "src/s2/cap.rs:Cap::intersects", "src/s2/cap.rs:Cap::contains_point", "src/s2/point.rs:Point::chordangle"]}
{"id": "C79", "title": "caps and cells", "statement": "contains_cell and intersects_cell answer without panicking for every cell; contains_cell implies intersects_cell; a contained cell has every point in the cap, and a cell that does not intersect has none.", "quantifier": "all f64 caps, all valid ids", "why_tests_cant": "continuum of points", "anchors": ["src/s2/cap.rs:Cap::contains_cell", "src/s2/cap.rs:Cap::intersects_cell"]}
{"id": "C80", "title": "a cap and its complement cover the sphere", "statement": "Every unit point is contained in a cap or in its complement; full and empty are complements of each other; the complement has the opposite centre and the supplementary radius.", "quantifier": "all valid f64 caps, all unit f64 points", "why_tests_cant": "needs points within rounding of the boundary", "anchors": ["src/s2/cap.rs:Cap::complement"]}
{"id": "C81", "title": "max_point_error bounds the error of squared distances", "statement": "For points whose lengths differ from 1 by at most 2*DBL_EPSILON, the squared distance computed by chordangle differs from that of the exact directions by at most max_point_error.", "quantifier": "all pairs of nearly unit f64 points", "why_tests_cant": "2^384 inputs, exact reals", "anchors": ["src/s1/chordangle.rs:ChordAngle::max_point_error", "src/s2/point.rs:Point::chordangle"]}
{"id": "C82", "title": "normalize returns the unit vector of the same direction", "statement": "For every finite vector other than zero, normalize returns a unit vector each of whose components is within a relative error of 2^-50 of the exact quotient by the length.", "quantifier": "all finite f64 vectors", "why_tests_cant": "2^192 inputs, exact reals", "anchors": ["src/r3/vector.rs:Vector::normalize", "src/r3/vector.rs:Vector::is_unit"]}
{"id": "C83", "title": "ortho returns an orthogonal unit vector", "statement": "For every unit vector v, ortho(v) is a unit vector, its exact inner product with v is at most 10^-14, and ortho(-v) == -ortho(v).", "quantifier": "all unit f64 vectors", "why_tests_cant": "2^192 inputs, exact reals", "anchors": ["src/r3/vector.rs:Vector::ortho", "src/r3/vector.rs:Vector::cross"]}
{"id": "C84", "title": "largest_component and smallest_component", "statement": "largest_component returns an axis whose component is at least as large in absolute value as any other, smallest_component one at most as large as any other.", "quantifier": "all finite f64 vectors", "why_tests_cant": "2^192 inputs", "anchors": ["src/r3/vector.rs:Vector::largest_component", "src/r3/vector.rs:Vector::smallest_component"]}
{"id": "C85", "title": "Angle::normalized stays in [0, 2 pi)", "statement": "Angle::normalized returns the equivalent angle, a whole number of turns away, in [0, 2*PI).", "quantifier": "all finite f64 angles", "why_tests_cant": "2^64 inputs; the failing angles are tiny negative ones", "anchors": ["src/s1/angle.rs:Angle::normalized"]}
{"id": "C86", "title": "E5/E6/E7 conversions", "statement": "Converting an E5, E6 or E7 value to Angle or Deg gives that many units up to a few rounding errors and is strictly increasing; converting back, also through the other of Angle and Deg, returns the same integer; a coarser unit refines exactly; every angle is converted to a nearest integer, saturating at the ends of i32.", "quantifier": "all i32 values in each of the three units, all finite f64 angles", "why_tests_cant": "2^32 integers times 2^64 angles, exact reals", "anchors": ["src/s1/angle.rs:E5", "src/s1/angle.rs:E6", "src/s1/angle.rs:E7", "src/s1/angle.rs:Deg"]}
{"id": "C87", "title": "LatLng::is_valid and normalized", "statement": "is_valid holds exactly of latitudes in [-PI/2, PI/2] and longitudes in [-PI, PI]. normalized returns a valid position whose longitude is exactly a whole number of turns away and whose latitude is the nearest in range, and changes no valid position; with a longitude that is not finite or a NaN latitude its result is not valid.", "quantifier": "all pairs of f64", "why_tests_cant": "2^128 inputs", "anchors": ["src/s2/latlng.rs:LatLng::is_valid", "src/s2/latlng.rs:LatLng::normalized", "src/consts.rs:remainder"]}
{"id": "C88", "title": "s1 expanded", "statement": "Expanding a valid interval of the circle by a margin gives a valid interval that contains the points within the margin of the interval and no others, up to a few roundings; in particular a non-negative margin never loses a point of the interval, and a negative one keeps only points of it. Empty stays empty, full stays full.", "quantifier": "all valid intervals, all finite f64 margins", "why_tests_cant": "2^192 inputs; the failing interval is one in 2^104", "anchors": ["src/s1/interval.rs:Interval::expanded", "src/consts.rs:remainder"]}
{"id": "C89", "title": "s1 len", "statement": "The length of a valid interval of the circle is the length of the arc up to a few roundings, and negative exactly for the empty interval.", "quantifier": "all valid intervals", "why_tests_cant": "2^128 inputs; the failing interval is one of them", "anchors": ["src/s1/interval.rs:Interval::len"]}
{"id": "C90", "title": "s1 center and complement_center", "statement": "The centre of a non-empty interval lies in it and halfway along it up to a few roundings; the centre of the complement lies outside the interior and halfway along the rest of the circle.", "quantifier": "all valid intervals that are not empty (and not full)", "why_tests_cant": "2^128 inputs, exact reals", "anchors": ["src/s1/interval.rs:Interval::center", "src/s1/interval.rs:Interval::complement_center"]}
{"id": "C91", "title": "s1 directed_hausdorff_distance", "statement": "The result is the greatest distance along the circle of a point of the first interval from the second, up to a few roundings; 0 when the first is contained in the second, and PI when only the second is empty.", "quantifier": "all pairs of valid intervals", "why_tests_cant": "2^256 inputs and a supremum over points", "anchors": ["src/s1/interval.rs:Interval::directed_hausdorff_distance", "src/s1/interval.rs:positive_distance"]}
{"id": "C92", "title": "approx_eq of intervals", "statement": "approx_eq_by tells whether each end can be moved by at most the given error, along the circle or the line, to turn one interval into the other without the ends crossing; up to rounding.", "quantifier": "all pairs of valid intervals and all errors in range", "why_tests_cant": "2^320 inputs, exact reals", "anchors": ["src/s1/interval.rs:Interval::approx_eq_by", "src/s1/interval.rs:Interval::approx_eq", "src/r1/interval.rs:Interval::approx_eq"]}
{"id": "C93", "title": "Rectangle predicates agree with sets of positions", "statement": "For valid latitude-longitude rectangles, is_empty, is_full, contains and interior_contains (positions and rectangles), intersects, interior_intersects and == agree with the sets of positions they denote, longitudes taken modulo a full turn; is_valid holds exactly of the pairs of ranges that denote such a set; invalid positions are contained in none; the corners belong to the rectangle and is_point tells whether it has one position only.", "quantifier": "all pairs of valid rectangles, all positions", "why_tests_cant": "2^512 inputs and sets of real positions", "anchors": ["src/s2/rect.rs:Rect::is_valid", "src/s2/rect.rs:Rect::contains", "src/s2/rect.rs:Rect::intersects", "src/s2/rect.rs:Rect::interior_contains", "src/s2/rect.rs:Rect::vertex"]}
{"id": "C94", "title": "Rectangle union, intersection, adding positions, polar closure", "statement": "union and Add give valid rectangles that contain their arguments and no latitude that a rectangle around them could leave out; intersection contains exactly the common positions; from_point_pair contains both; polar_closure takes all longitudes exactly when the rectangle touches a pole.", "quantifier": "all pairs of valid rectangles, all positions", "why_tests_cant": "2^512 inputs; the failing ones are nearly full circles of longitude", "anchors": ["src/s2/rect.rs:Rect::union", "src/s2/rect.rs:Rect::intersection", "src/s2/rect.rs:Rect::polar_closure", "src/s2/rect.rs:Rect::from_point_pair"]}
{"id": "C95", "title": "Rectangle expanded, center, size, from_center_size", "statement": "expanded by non-negative margins contains the rectangle and every position within both margins of it, and none beyond, up to a few roundings; the latitudes stop at the poles. The centre is in the rectangle and halfway; the size is its extent; from_center_size contains what is within half the size of the centre and no more.", "quantifier": "all valid rectangles, all finite non-negative margins, all valid centres", "why_tests_cant": "2^384 inputs, exact reals", "anchors": ["src/s2/rect.rs:Rect::expanded", "src/s2/rect.rs:Rect::center", "src/s2/rect.rs:Rect::size", "src/s2/rect.rs:Rect::from_center_size"]}
{"id": "C96", "title": "Rectangles from a position and from degrees", "statement": "The rectangle of a valid position is valid and contains that position only. from_degrees of ranges within [-90, 90] and [-180, 180] is valid and contains the positions given in degrees within the ranges and, up to rounding, no others.", "quantifier": "all valid positions, all f64 ranges of degrees", "why_tests_cant": "2^256 inputs; the failing ones lie on the antimeridian", "anchors": ["src/s2/rect.rs:From<LatLng>", "src/s2/rect.rs:Rect::from_degrees"]}
{"id": "C97", "title": "Coverings of a cap cover it", "statement": "For every valid cap and all coverer parameters in range, covering, cellunion, fast_covering and the cap's own cell_union_bound return without panic, and every point of the cap, except within a small stated distance of its boundary, lies in one of the cells returned.", "quantifier": "all valid caps (f64 centre and radius), all parameters, all points, all tie orders of the queue", "why_tests_cant": "2^250 caps and infinitely many points of each", "anchors": ["src/s2/cap.rs:Cap::cell_union_bound", "src/s2/cap.rs:Cap::intersects_cell", "src/s2/region.rs:RegionCoverer::covering", "src/s2/region.rs:RegionCoverer::fast_covering"]}
{"id": "C98", "title": "Interior coverings of a cap stay in it", "statement": "For every valid cap and all parameters in range, a point that lies in a cell of interior_covering or interior_cellunion is in the cap, or within a small stated distance of it; an empty cap has an empty interior covering.", "quantifier": "all valid caps, all parameters, all points, all tie orders of the queue", "why_tests_cant": "2^250 caps and infinitely many points of each", "anchors": ["src/s2/cap.rs:Cap::contains_cell", "src/s2/region.rs:RegionCoverer::interior_covering"]}
{"id": "C99", "title": "Bounding caps of cells and unions", "statement": "Cell::cap_bound and CellUnion::cap_bound return a valid cap that contains the cell or union: the vertices of the cell by the library's own test, every point of the sphere in it up to 2^-38. The cap of a cell is the smallest with its centre that contains the vertices; the cap of a union is empty iff the union is.", "quantifier": "all valid cells; all lists of valid cells, of any length", "why_tests_cant": "infinitely many lists; the sum of the centres may cancel", "anchors": ["src/s2/cell.rs:Cell::cap_bound", "src/s2/cellunion.rs:CellUnion::cap_bound"]}
{"id": "C100", "title": "Coverings of cells and unions are exact", "statement": "For a cell, or a sorted disjoint union of cells, given as the region: covering, cellunion, fast_covering and cell_union_bound have every leaf of it, interior_covering and interior_cellunion have no leaf outside it, without exception or tolerance, and nothing panics.", "quantifier": "all valid cells and sorted disjoint unions of any length, all parameters in range, all tie orders of the queue", "why_tests_cant": "infinitely many unions; the bound is computed in floating point and may fall short", "anchors": ["src/s2/cell.rs:impl Region for Cell", "src/s2/cellunion.rs:impl Region for CellUnion", "src/s2/region.rs:RegionCoverer"]}
{"id": "C101", "title": "expand_by_radius reaches everything within the radius", "statement": "expand_by_radius(r, d) of any list of valid ids is a normalized union that covers the list and every point of the sphere within r radians of a point of one of its cells (less 2^-44 radians). For r up to the least width of a face it adds exactly the neighbours at one level: the coarser of d levels below the largest cell and the finest level whose cells are all at least r wide. A limit d that overflows u64 panics.", "quantifier": "all lists of valid ids, all radii but NaN, all level limits, all points of the sphere", "why_tests_cant": "infinitely many unions and points; the widths of cells differ over the sphere", "anchors": ["src/s2/cellunion.rs:CellUnion::expand_by_radius", "src/s2/metric.rs:MIN_WIDTHMETRIC"]}
{"id": "C102", "title": "LatLng to Point", "statement": "Point::from of any valid LatLng is a unit point (is_unit holds), within 2^-46 of the point of the sphere with that latitude and longitude.", "quantifier": "all valid f64 latitudes and longitudes; sin and cos any functions accurate to 2^-50", "why_tests_cant": "2^126 inputs; every platform's sin and cos", "anchors": ["src/s2/latlng.rs:From<LatLng> for Point", "src/s2/point.rs"]}
{"id": "C103", "title": "Point to LatLng", "statement": "LatLng::from of any unit point is valid, poles and antimeridian included, and within 2^-48 of the point.", "quantifier": "all f64 vectors that is_unit accepts; atan2 any function accurate to 2^-50", "why_tests_cant": "2^150 inputs; near the poles the longitude is ill-conditioned", "anchors": ["src/s2/latlng.rs:LatLng::latitude", "src/s2/latlng.rs:LatLng::longitude", "src/s2/latlng.rs:From<Point> for LatLng"]}
{"id": "C104", "title": "LatLng and Point round trips", "statement": "Converting a valid LatLng to a Point and back gives a valid LatLng within 2^-46 on the sphere, with the latitude within 2^-45; converting a unit point to a LatLng and back gives a unit point within 2^-46.", "quantifier": "all valid positions, all unit points, all accurate sin, cos and atan2", "why_tests_cant": "2^126 inputs and exact reals", "anchors": ["src/s2/latlng.rs:From<LatLng> for Point", "src/s2/latlng.rs:From<Point> for LatLng"]}
{"id": "C105", "title": "LatLng and CellID round trips", "statement": "For every valid cell, CellID::from(LatLng::from(id)) lies in the cell, its parent at the cell's level is the cell, and for a leaf it is the cell itself; the same for every vector within 2^-41 of the cell's centre. The leaf cell of any valid LatLng has a point within 2^-46 of the position, and Cell::from gives that leaf.", "quantifier": "all valid ids of all levels, all valid positions, all accurate sin, cos and atan2", "why_tests_cant": "4*10^18 leaves; the errors must stay below the width of a leaf everywhere", "anchors": ["src/s2/cellid.rs:From<CellID> for LatLng", "src/s2/cellid.rs:From<LatLng> for CellID", "src/s2/cell.rs:From<LatLng> for Cell"]}
{"id": "C106", "title": "Cells in (s,t) coordinates are exact", "statement": "The centre, size and bound of a cell in (s,t) coordinates are exactly those of the square of leaf columns and rows it covers, without rounding error.", "quantifier": "all valid ids of all levels", "why_tests_cant": "6*10^18 cells", "anchors": ["src/s2/cellid.rs:CellID::center_st", "src/s2/cellid.rs:CellID::bound_st", "src/s2/cellid.rs:CellID::size_st"]}
{"id": "C107", "title": "The edge normals of a cell point inward", "statement": "Each of the four edges of a cell is a unit vector normal to that side, pointing inward: points of the cell are on or above its plane, points of the k-th side on it, up to 2^-48. A point of the sphere that is above all four planes by 2^-48 is in the cell.", "quantifier": "all valid cells, all four edges, all points of the sphere", "why_tests_cant": "6*10^18 cells and infinitely many points", "anchors": ["src/s2/cell.rs:Cell::edge", "src/s2/cell.rs:Cell::edge_raw"]}
{"id": "C108", "title": "Cells containing and meeting cells", "statement": "Cell::contains_cell holds exactly when every leaf of the argument is a leaf of the cell, and then every point of the argument is a point of the cell; Cell::intersects_cell holds exactly when they share a leaf.", "quantifier": "all pairs of valid cells", "why_tests_cant": "10^37 pairs", "anchors": ["src/s2/cell.rs:Cell::contains_cell", "src/s2/cell.rs:Cell::intersects_cell"]}
{"id": "C109", "title": "closest_level is closest", "statement": "closest_level(v) is the level whose value is nearest to v as a ratio: within a factor sqrt 2 for lengths and 2 for areas unless all levels are larger or all smaller, and the closest level to the value of a level is that level.", "quantifier": "all metrics, all positive f64 values", "why_tests_cant": "2^63 values", "anchors": ["src/s2/metric.rs:Metric::closest_level"]}
{"id": "C110", "title": "The frames of the faces of the cube", "statement": "u_axis, v_axis and unit_norm of a face are a right-handed orthonormal frame; face_uv_to_xyz(u, v) is exactly norm + u * u_axis + v * v_axis, face_xyz_to_uvw the three components of a point in the frame; uvw_face(axis, direction) is the face that lies in that direction.", "quantifier": "all six faces, all finite u, v and points", "why_tests_cant": "the same frame must serve all points; 2^192 of them", "anchors": ["src/s2/stuv.rs:face_uv_to_xyz", "src/s2/stuv.rs:face_xyz_to_uvw", "src/s2/stuv.rs:uvw_face", "src/s2/stuv.rs:uvw_axis"]}
{"id": "C111", "title": "max and min of angles", "statement": "Angle::max, Angle::min and ChordAngle::max return one of their arguments, not less (not greater) than both.", "quantifier": "all pairs of f64 but NaN", "why_tests_cant": "2^128 pairs", "anchors": ["src/s1/angle.rs:Angle::max", "src/s1/angle.rs:Angle::min", "src/s1/chordangle.rs:ChordAngle::max"]}
{"id": "C112", "title": "Corners, inversion and Hausdorff distance of intervals and rectangles", "statement": "The corners of a rectangle go round counter-clockwise from the lower left: 0 and 1 are the lowest, 2 and 3 the highest, and going east from 0 to 1 and from 3 to 2 passes exactly its longitudes; the number counts modulo 4, lo is corner 0 and hi is corner 2. is_inverted holds iff its longitudes go on past the 180th meridian without filling the circle. The full rectangle is valid and has every position. The directed Hausdorff distance of intervals of the line is the greatest distance of a number in the one from the other, correctly rounded.", "quantifier": "all valid rectangles that are not empty, all intervals with ends up to 2^1022", "why_tests_cant": "2^256 inputs and infinitely many points", "anchors": ["src/s2/rect.rs:Rect::vertex", "src/s2/rect.rs:Rect::is_inverted", "src/s2/rect.rs:Rect::full", "src/r1/interval.rs:Interval::directed_hausdorff_distance"]}
{"id": "C113", "title": "Chord angles from angles", "statement": "ChordAngle::from(Angle) of an angle a >= 0 is the squared chord 4 sin(a/2)^2 of min(a, pi) up to a relative error of 2^-47, so it is between 0 and 4; a negative angle gives the negative chord angle and infinity gives infinity. Converting an angle up to 2 to a chord angle and back changes it by at most 2^-43.", "quantifier": "all non-negative finite f64 angles, all sin and asin functions accurate to the last digits", "why_tests_cant": "2^63 angles and real numbers", "anchors": ["src/s1/chordangle.rs:From<Angle> for ChordAngle", "src/s1/chordangle.rs:From<ChordAngle> for Angle"]}
{"id": "C114", "title": "Caps from a centre and an angle", "statement": "Cap::from_center_angle(c, a) is valid and not empty for a >= 0 and contains exactly the points whose angle from c is at most a, up to 2^-45 in the straight-line distance; a negative angle gives the empty cap and an angle of pi or more the full cap.", "quantifier": "all unit centres and points, all finite angles, all accurate sin", "why_tests_cant": "2^448 inputs", "anchors": ["src/s2/cap.rs:Cap::from_center_angle", "src/s2/cap.rs:Cap::contains_point"]}
{"id": "C115", "title": "Height and area of caps", "statement": "Cap::from_center_height(c, h) is empty for h < 0, full for h >= 2, and otherwise has height h exactly and contains the points at a depth of at most h below the centre's tangent plane. Cap::area is 2 pi (1 - cos r) up to a relative error of 2^-51. Cap::from_center_area(c, a) is empty for a < 0, full for a >= 4 pi, and otherwise has that area up to 2^-52.", "quantifier": "all valid caps, all unit points, all finite heights and areas", "why_tests_cant": "2^256 caps and reals", "anchors": ["src/s2/cap.rs:Cap::from_center_height", "src/s2/cap.rs:Cap::from_center_area", "src/s2/cap.rs:Cap::area", "src/s2/cap.rs:Cap::height"]}
{"id": "C116", "title": "Sine, tangent and validity of chord angles", "statement": "ChordAngle::sin is within 2^-50 of the sine of the angle; a finite tangent t satisfies t cos = sin up to 2^-49 (1 + |t|). is_valid holds exactly for the chord angles of at most 4 and infinity; from_squared_length keeps these and cuts larger ones to 4.", "quantifier": "all chord angles between 0 and 4, all f64 but NaN for validity", "why_tests_cant": "2^64 values and reals", "anchors": ["src/s1/chordangle.rs:ChordAngle::sin", "src/s1/chordangle.rs:ChordAngle::tan", "src/s1/chordangle.rs:ChordAngle::is_valid", "src/s1/chordangle.rs:ChordAngle::from_squared_length"]}
{"id": "C117", "title": "Expanding, meeting and comparing caps", "statement": "Cap::expanded(d) has the same centre and the sum of the angles, cut at pi, as its radius, and every point within d of a point of the cap is in it; the empty cap stays empty. interior_intersects answers whether the distance of the centres is less than the sum of the angles; a cap of radius 0 or an empty cap has no interior. Equal caps contain the same points; all empty caps are equal, all full ones are, and other caps are equal iff centre and radius are.", "quantifier": "all valid caps and points, all finite angles d >= 0, all accurate sin", "why_tests_cant": "2^512 pairs of caps and infinitely many points", "anchors": ["src/s2/cap.rs:Cap::expanded", "src/s2/cap.rs:Cap::interior_intersects", "src/s2/cap.rs:PartialEq for Cap"]}
{"id": "C118", "title": "Distance between points", "statement": "Point::distance is between 0 and the f64 PI and within 2^-47 of the angle between the directions of the two vectors, near 0 and near pi too; it gives bit for bit the same in both directions. approx_eq answers whether this angle is at most EPSILON (10^-14), up to 2^-47; in particular it holds for vectors with the same direction.", "quantifier": "all pairs of vectors for which is_unit holds, all accurate atan2", "why_tests_cant": "2^384 pairs of vectors; the true angle is real", "anchors": ["src/s2/point.rs:Point::distance", "src/s2/point.rs:Point::approx_eq", "src/r3/vector.rs:Vector::angle"]}
{"id": "C119", "title": "Distance between positions", "statement": "LatLng::distance is between 0 and the f64 PI; the chord of that angle is within 2^-44 of the chord between the two places. It is within 2^-40 of the angle between them if that is at most 2.5, and within 2^-20 always (near antipodal places included, where the haversine formula loses half of the digits).", "quantifier": "all pairs of valid positions, poles and the antimeridian included, all accurate sin, cos and atan2", "why_tests_cant": "2^256 pairs of positions; the true angle is real", "anchors": ["src/s2/latlng.rs:LatLng::distance"]}
{"id": "C120", "title": "Bounding rectangles of cells", "statement": "Cell::rect_bound is a valid rectangle, and every point of the cell is in it, up to a distance of 2^-46: for cells that contain a pole, touch one, or lie across the 180th meridian too. Rect::contains_cell returns true only if every point of the cell is in the rectangle up to that distance; the full rectangle contains every cell and the empty rectangle none.", "quantifier": "all cells of all levels and all their points, all valid rectangles, all accurate atan2 and asin", "why_tests_cant": "about 8 * 10^18 cells, each with infinitely many points", "anchors": ["src/s2/cell.rs:Cell::rect_bound", "src/s2/rect.rs:Rect::contains_cell", "src/s2/cell.rs:Cell::latitude", "src/s2/cell.rs:Cell::longitude"]}
{"id": "C121", "title": "Bounding rectangle of a cell union", "statement": "CellUnion::rect_bound is a valid rectangle with every point of every cell of the union, up to 2^-46; it is empty iff the union is.", "quantifier": "all lists of valid cells of any length, all accurate atan2 and asin", "why_tests_cant": "infinitely many unions and points", "anchors": ["src/s2/cellunion.rs:CellUnion::rect_bound", "src/s2/rect.rs:Rect::union"]}
{"id": "C122", "title": "Points in rectangles", "statement": "Rect::contains_point and interior_contains_point give the exact answer for a point of the sphere at most 2^-48 away from the given one (the same for both). The rect_bound of a point is valid and contains, up to 2^-48, that point and no other.", "quantifier": "all valid rectangles, all vectors for which is_unit holds, all accurate atan2", "why_tests_cant": "2^448 inputs", "anchors": ["src/s2/rect.rs:Rect::contains_point", "src/s2/rect.rs:Rect::interior_contains_point", "src/s2/point.rs:Region for Point"]}
{"id": "C123", "title": "Bounding rectangles of caps", "statement": "The rect_bound of a valid, non-empty cap is a valid rectangle that contains every point of the cap.", "quantifier": "all valid caps and all their points, all accurate sin, cos, atan2 and asin", "why_tests_cant": "infinitely many points in each of 2^256 caps; the failures need a cap around the south pole or a wide longitude range", "anchors": ["src/s2/cap.rs:Region for Cap::rect_bound"]}
{"id": "C124", "title": "Bounding caps of rectangles", "statement": "Rect::cap_bound is empty exactly for the empty rectangle. Otherwise it is a valid cap with every point of the rectangle up to a distance of 2^-44; it reaches no further than the cap around the nearer pole, and, for rectangles of at most half a turn, no further than the cap around the rectangle's centre through its corners.", "quantifier": "all valid rectangles (inverted, polar and full ones included) and all their points, all accurate sin and cos", "why_tests_cant": "infinitely many points in each of 2^256 rectangles", "anchors": ["src/s2/rect.rs:Rect::cap_bound"]}
{"id": "C125", "title": "Areas of rectangles", "statement": "Rect::area is 0 for the empty rectangle. Otherwise it is not negative and within 2^-45 of the area of the part of the sphere between the rectangle's latitudes and longitudes.", "quantifier": "all valid rectangles (inverted, polar and full ones included), all accurate sin", "why_tests_cant": "2^256 rectangles; the area is an integral over a continuum of points", "anchors": ["src/s2/rect.rs:Rect::area"]}
{"id": "C126", "title": "Centroids of rectangles", "statement": "Rect::centroid is the zero vector for the empty rectangle. Otherwise each coordinate is within 2^-44 of the integral of that coordinate over the part of the sphere between the rectangle's latitudes and longitudes, that is, the true centroid times the area.", "quantifier": "all valid rectangles (inverted, polar and full ones included), all accurate sin and cos", "why_tests_cant": "2^256 rectangles; the centroid is an integral over a continuum of points", "anchors": ["src/s2/rect.rs:Rect::centroid"]}
{"id": "C127", "title": "Cross products of points", "statement": "Point::cross of two unit points is never the zero vector. Negating the first point negates it. It is within 2^-48 (relative) of twice the cross product if that is not below 2^-40, and orthogonal to both points to that extent; negating the second point or exchanging the points negates it too.", "quantifier": "all pairs of vectors for which is_unit holds, equal and antipodal ones included", "why_tests_cant": "2^384 pairs of vectors; the true product is real", "anchors": ["src/s2/point.rs:Point::cross"]}
{"id": "C128", "title": "Points from coordinates", "statement": "Point::from_coords gives a vector for which is_unit holds, in the direction of the coordinates up to a few units in the last place, for every vector other than zero; the zero vector gives the fixed point ORIGIN.", "quantifier": "all triples of finite f64", "why_tests_cant": "2^192 triples; the failures need lengths beyond 10^154 or below 10^-162", "anchors": ["src/s2/point.rs:Point::from_coords", "src/r3/vector.rs:Vector::normalize"]}
{"id": "C129", "title": "Interpolation along an edge", "statement": "interpolate_at_distance(d, a, b) is a unit point within 2^-43 of the point at angle d from a on the great circle through a and b, in the direction of b. interpolate(t, a, b) is a unit point within 2^-42 of the point at the fraction t of the way; it returns a for t = 0 and b for t = 1.", "quantifier": "all pairs of distinct, not antipodal unit points, all finite angles and fractions, all accurate sin, cos and atan2", "why_tests_cant": "2^448 inputs; the true point is real", "anchors": ["src/s2/edgeutil.rs:interpolate", "src/s2/edgeutil.rs:interpolate_at_distance"]}
{"id": "C130", "title": "Centroids of caps", "statement": "Cap::centroid is the zero vector for an empty cap. Otherwise each coordinate is within 2^-44 of the centre's coordinate times the integral, over a cap of the same angle around a pole, of the coordinate along its axis: the true centroid times the area.", "quantifier": "all valid caps", "why_tests_cant": "2^256 caps; the centroid is an integral over a continuum of points", "anchors": ["src/s2/cap.rs:Cap::centroid"]}
{"id": "C131", "title": "Approximate equality of caps", "statement": "Cap::approx_eq holds for caps with centres and squared radii at most 10^-14 apart (up to rounding) and for no others, except that an empty cap is approximately equal to every cap with a squared radius of at most 10^-14 and a full one to every cap with a squared radius of at least 4 - 10^-14.", "quantifier": "all pairs of valid caps, all accurate atan2", "why_tests_cant": "2^512 pairs; the failures need a full cap", "anchors": ["src/s2/cap.rs:Cap::approx_eq"]}
{"id": "C132", "title": "Union of caps", "statement": "Cap::union is a valid cap that contains every point of both caps. With an empty cap it is the other cap, with a full cap it is full, and with a cap that lies inside the other it is that other cap, unchanged.", "quantifier": "all pairs of valid caps and all their points, all accurate sin, cos, asin and atan2", "why_tests_cant": "infinitely many points in each of 2^512 pairs of caps", "anchors": ["src/s2/cap.rs:Cap::union"]}
{"id": "C133", "title": "Frames of points", "statement": "The columns of Point::frame are within 2^-43 of a right-handed orthonormal frame whose third axis is the direction of the point; the third column is the point itself. from_frame takes coordinates in that frame to the point with these coordinates and to_frame takes a point to its coordinates, up to 2^-40; the two are inverse to each other up to 2^-39.", "quantifier": "all vectors for which is_unit holds, all vectors with coordinates of at most 2 (1 for the inverse)", "why_tests_cant": "2^384 pairs of vectors", "anchors": ["src/s2/point.rs:Point::frame", "src/s2/point.rs:from_frame", "src/s2/point.rs:to_frame"]}
{"id": "C134", "title": "Regular polygons", "statement": "regular_points(center, radius, n) gives n unit points. Vertex i is within 2^-39 of the point at the angle radius from the center, turned counterclockwise by 2 pi i / n from a first direction: all vertices are on the circle, evenly spaced and in order.", "quantifier": "all unit centers, all finite angles of at most 8 radians, all n up to 2^53, all accurate sin and cos", "why_tests_cant": "2^300 inputs and lists of any length; the true points are real", "anchors": ["src/s2/point.rs:regular_points", "src/s2/point.rs:regular_points_for_frame"]}
{"id": "C135", "title": "Distance from an edge", "statement": "distance_from_segment(x, a, b) is a finite angle, is within a small error of the angle from x to some point of the edge AB, and is at most that error above the angle from x to every point of the edge. With A = B it is the angle from x to A.", "quantifier": "all triples of vectors for which is_unit holds, all points of the edge, all accurate asin", "why_tests_cant": "2^576 triples, and infinitely many points on each edge", "anchors": ["src/s2/edgeutil.rs:distance_from_segment", "src/s2/edgeutil.rs:update_min_distance", "src/s2/edgeutil.rs:interior_dist"]}
{"id": "C136", "title": "The bounding rectangle of a chain of edges", "statement": "After add_point has been called on the points of a chain, get_bound is a valid rectangle, empty exactly for the empty chain. For a chain of n points it comes within n / 2^15 of every vertex and of every point of every edge. Adding more points never takes a point out of the rectangle kept by the bounder.", "quantifier": "all chains of any length of vectors for which is_unit holds, all points of all edges, all accurate sin, asin and atan2", "why_tests_cant": "chains of any length and infinitely many points on each edge", "anchors": ["src/s2/rect_bounder.rs:RectBounder::add_point", "src/s2/rect_bounder.rs:RectBounder::get_bound", "src/s2/rect_bounder.rs:RectBounder::new"]}
{"id": "C137", "title": "Distance from a rectangle", "statement": "Rect::distance_to_latlng of a non-empty rectangle is 0 for a position in it. It is within a small error of the angle between the position and some point of the rectangle, and at most that error above the angle to every point of the rectangle.", "quantifier": "all valid non-empty rectangles, all valid positions, all points of the rectangle, all accurate sin, cos and asin", "why_tests_cant": "infinitely many points in each of 2^256 rectangles", "anchors": ["src/s2/rect.rs:Rect::distance_to_latlng"]}
{"id": "C138", "title": "Hausdorff distances of intervals of numbers", "statement": "r1 Interval::directed_hausdorff_distance(i, o) is the directed Hausdorff distance of the intervals rounded to the nearest double: every number of i is within the true distance of some number of o, and some number of i is no closer than it to any number of o. It is 0 if i is empty and infinite if only o is.", "quantifier": "all pairs of intervals with finite ends, all their numbers", "why_tests_cant": "2^256 pairs of intervals, and infinitely many numbers in each", "anchors": ["src/r1/interval.rs:Interval::directed_hausdorff_distance"]}
{"id": "C139", "title": "Average areas of cells and unions", "statement": "Cell::average_area of a cell of level l is the 6 * 4^l-th part of the area of the sphere up to 2^-50 (relative), and exactly four times that of each of its children. CellUnion::average_area of a valid union is 4 pi times the part of all leaf cells that it covers, up to 2^-49 (relative); it is 0 for the empty union, and a union that covers more has no smaller average area.", "quantifier": "all valid cells, all valid unions of any length", "why_tests_cant": "unions of any length over 10^19 cells", "anchors": ["src/s2/cell.rs:Cell::average_area", "src/s2/cellunion.rs:CellUnion::average_area"]}
{"id": "C140", "title": "Unions contain the points of their cells", "statement": "CellUnion::contains_point of a normalized union holds exactly if one of its ids contains the leaf cell of the point.", "quantifier": "all normalized unions of any length, all points", "why_tests_cant": "2^192 points and unions of any length", "anchors": ["src/s2/cellunion.rs:CellUnion::contains_point"]}
{"id": "C141", "title": "Planar centroids", "statement": "Every coordinate of planar_centroid(a, b, c) is a third of the sum of the three coordinates, up to 2^-48.", "quantifier": "all triples of finite vectors with coordinates of at most 2", "why_tests_cant": "2^576 triples of vectors", "anchors": ["src/s2/point.rs:planar_centroid"]}
{"id": "C142", "title": "Hausdorff distances of rectangles", "statement": "Rect::directed_hausdorff_distance(a, b) of non-empty rectangles is the directed Hausdorff distance of their points along the sphere up to a small error: every point of a is that close to some point of b, and some point of a is no closer than that to any point of b. It is 0 if a is empty and pi if only b is. hausdorff_distance is the larger of both directions, in either order.", "quantifier": "all pairs of valid rectangles, all points of both, all accurate sin, cos and asin", "why_tests_cant": "infinitely many points in each of 2^512 pairs of rectangles", "anchors": ["src/s2/rect.rs:Rect::directed_hausdorff_distance", "src/s2/rect.rs:Rect::hausdorff_distance", "src/s2/rect.rs:Rect::hausdorff_distance_helper"]}
{"id": "C143", "title": "Lines against the faces of the cube", "statement": "For a finite normal n of a line in the plane of a face of the cube (u, v in [-1, 1]), intersects_face holds exactly if the line meets the face, intersects_opposite_edges exactly if it meets two opposite edges of the face, and sum_equal(u, v, w) exactly if u + v = w, without any rounding error. The point where the line leaves the face lies on an edge of the axis that exit_axis names, and exit_point is a point of the face within 2^-51 of it.", "quantifier": "all finite normals, of any size; for the exit point: normals that are not zero and meet the face", "why_tests_cant": "2^192 normals, and decisions that must be exact where every single sum may be rounded", "anchors": ["src/s2/edge_clipping.rs:sum_equal", "src/s2/edge_clipping.rs:PointUVW::intersects_face", "src/s2/edge_clipping.rs:PointUVW::intersects_opposite_edges", "src/s2/edge_clipping.rs:PointUVW::exit_axis", "src/s2/edge_clipping.rs:PointUVW::exit_point"]}
{"id": "C144", "title": "Interpolation along an edge", "statement": "interpolate(x, a, b, a1, b1) is exactly a1 at x = a and exactly b1 at x = b. For x between a and b it is between a1 and b1, and within 2^-50 of the value at x of the linear function through both ends.", "quantifier": "all coordinates of at most 1 + 2^-20 whose differences b - a and b1 - a1 are 0 or at least 2^-400", "why_tests_cant": "2^320 arguments", "anchors": ["src/s2/edge_clipping.rs:interpolate"]}
{"id": "C145", "title": "Clipping edges to rectangles", "statement": "If clip_edge(a, b, clip) finds an intersection, both ends of the clipped edge are in clip (exactly), in the bounding box of the edge (exactly) and within 2^-50 of points of the edge in both coordinates; they are in the order of a and b, and every point of the edge in clip is in their bounding box widened by 2^-50. If it finds none, no point of the edge is more than 2^-48 inside of clip. clipped_edge_bound is the bounding box of the clipped edge, or empty.", "quantifier": "all edges with coordinates of at most 1 + 2^-20 that are equal or 2^-400 apart, all finite rectangles, empty or not, all points of the edge", "why_tests_cant": "infinitely many points of each of 2^512 edges and rectangles; four sides are cut one after the other, each from the rounded result of the one before", "anchors": ["src/s2/edge_clipping.rs:clip_edge", "src/s2/edge_clipping.rs:clip_edge_bound", "src/s2/edge_clipping.rs:clip_bound_axis", "src/s2/edge_clipping.rs:update_endpoint", "src/s2/edge_clipping.rs:clipped_edge_bound"]}
{"id": "C146", "title": "Edges against rectangles", "statement": "If edge_intersects_rect(a, b, r) holds, then some point of the edge is within 2^-49 of r in both coordinates. If some point of the edge is more than 2^-49 inside of r, it holds.", "quantifier": "all edges with coordinates of at most 1 + 2^-20 that are equal or 2^-400 apart, all rectangles with such coordinates that are not empty", "why_tests_cant": "infinitely many points of each of 2^512 edges and rectangles", "anchors": ["src/s2/edge_clipping.rs:edge_intersects_rect"]}
{"id": "C147", "title": "Edges divided at the faces of the cube", "statement": "If face_segments(a, b) returns, its segments form one path: each of them ends exactly where, in space, the next one starts, consecutive segments are on different faces that share an edge, and these points are on the faces, [-1, 1] x [-1, 1]; all faces are met by the plane of the edge. The path starts on the face of a, where a is, or on a neighbour of that face, and ends so at b.", "quantifier": "all pairs of points with a normal that is finite and not zero, such that the plane of this normal meets the face where the path starts, and any number of turns of the loop", "why_tests_cant": "the points where the edge leaves a face are rounded, and which face is next is decided from rounded values, with exact ties at the corners", "anchors": ["src/s2/edge_clipping.rs:face_segments", "src/s2/edge_clipping.rs:move_origin_to_valid_face", "src/s2/edge_clipping.rs:next_face"]}
{"id": "C148", "title": "Dividing an edge at the faces of the cube ends", "statement": "face_segments(a, b) returns, with at least one and at most six segments, after at most five turns of its loop.", "quantifier": "all pairs of points with a normal that is finite and not zero, such that the plane of this normal meets the faces where the path starts and ends", "why_tests_cant": "the loop goes on until a face decided from rounded values is the last one; if a turn were decided wrongly, it would not end", "anchors": ["src/s2/edge_clipping.rs:face_segments", "src/s2/edge_clipping.rs:next_face"]}
