(** Model of the distance of a point from an edge, src/s2/edgeutil.rs.  asin is the
    parameter [fasin]. *)
From Verif Require Import Base F64 VectorModel AngleModel CapModel RegionModel PointModel.

(* edgeutil.rs:281 max_error: 4.75 * DBL_EPSILON * (xa2 + xb2 + ab2) + 8 * DBL_EPSILON * DBL_EPSILON;
   4.75 is 19 * 2^-2 *)
Definition planar_error (xa2 xb2 ab2 : f64) : f64 :=
  fadd (fmul (fmul (lit 19 (-2)) DBL_EPSILON) (fadd (fadd xa2 xb2) ab2)) (fmul (fmul (lit 8 0) DBL_EPSILON) DBL_EPSILON).

(* edgeutil.rs:233-332 interior_dist; a chord angle is its squared length *)
Definition interior_dist (x a b : vec) (min_dist : f64) (always : bool) : f64 * bool :=
  let xa2 := norm2 (vsub x a) in
  let xb2 := norm2 (vsub x b) in
  let ab2 := norm2 (vsub a b) in
  if fge (fabs (fsub xa2 xb2)) (fadd ab2 (planar_error xa2 xb2 ab2)) then (min_dist, false) else
  let c := point_cross a b in
  let c2 := norm2 c in
  let x_dot_c := dot x c in
  let x_dot_c2 := fmul x_dot_c x_dot_c in
  if negb always && fgt x_dot_c2 (fmul c2 min_dist) then (min_dist, false) else
  let cx := cross c x in
  if fge (dot (vsub a x) cx) f0 || fle (dot (vsub b x) cx) f0 then (min_dist, false) else
  let qr := fsub f1 (fsqrt (fdiv (norm2 cx) c2)) in
  let dist := fadd (fdiv x_dot_c2 c2) (fmul qr qr) in
  if negb always && fge dist min_dist then (min_dist, false) else (dist, true).

(* edgeutil.rs:177-196 update_min_distance *)
Definition update_min_distance (x a b : vec) (min_dist : f64) (always : bool) : f64 * bool :=
  let '(d, ok) := interior_dist x a b min_dist always in
  if ok then (d, true) else
  let dist := fmin (norm2 (vsub x a)) (norm2 (vsub x b)) in
  if negb always && fge dist min_dist then (min_dist, false) else (dist, true).

(* edgeutil.rs:224-227 distance_from_segment; ChordAngle::default() is 0 *)
Definition distance_from_segment (fasin : f64 -> f64) (x a b : vec) : f64 :=
  chord_to_angle fasin (fst (update_min_distance x a b f0 true)).
