(** Model of the distance of a position from a rectangle, src/s2/rect.rs.  sin, cos and asin
    are the parameters [fsin], [fcos] and [fasin]. *)
From Verif Require Import Base F64 R1Model S1Model AngleModel RectModel VectorModel TrigModel SegModel.

(* rect.rs:259-279 distance_to_latlng *)
Definition rect_distance (fsin fcos fasin : f64 -> f64) (r : rect) (p : latlng) : f64 :=
  if s1_contains (rlng r) (lng p) then
    angle_max (angle_max (fsub (lat p) (hi1 (rlat r))) (fsub (lo1 (rlat r)) (lat p))) f0
  else
    let i := s1_new (shi (rlng r)) (s1_complement_center (rlng r)) in
    let l := if s1_contains i (lng p) then shi (rlng r) else slo (rlng r) in
    let point := point_of_ll fsin fcos in
    distance_from_segment fasin (point p) (point (LL (lo1 (rlat r)) l)) (point (LL (hi1 (rlat r)) l)).
