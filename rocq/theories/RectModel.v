(** Model of src/s2/rect.rs, without the functions that call sin, cos and atan2
    (area, centroid, boundary_intersects, distance_to_latlng, the Hausdorff
    distances, intersects_cell; and contains_point, interior_contains_point, cap_bound and
    contains_cell, which are in BoundModel.v). *)
From Verif Require Import F64 R1Model S1Model AngleModel.

(* rect.rs:12-17 *)
Record rect := Rect { rlat : r1; rlng : s1 }.
(* rect.rs:25-29; -PI / 2. and PI / 2. *)
Definition LAT_RANGE : r1 := R1 (fdiv (fneg PI64) f2) (fdiv PI64 f2).
Definition LNG_RANGE : s1 := s1_FULL.
(* rect.rs:48-60 *)
Definition rect_empty : rect := Rect r1_EMPTY s1_EMPTY.
Definition rect_full : rect := Rect LAT_RANGE LNG_RANGE.
(* rect.rs:470-480 From<LatLng>; the struct literal does not go through Interval::new *)
Definition rect_of_ll (p : latlng) : rect := Rect (r1_from_point (lat p)) (S1 (lng p) (lng p)).
(* rect.rs:70-81; r1::Interval::new at r1/interval.rs:42-45 only stores its arguments *)
Definition rect_from_degrees (lat_lo lng_lo lat_hi lng_hi : f64) : rect :=
  Rect (R1 (angle_of_deg lat_lo) (angle_of_deg lat_hi)) (s1_new (angle_of_deg lng_lo) (angle_of_deg lng_hi)).
(* rect.rs:86-91 *)
Definition rect_from_point_pair (p q : latlng) : rect :=
  Rect (r1_from_point_pair (lat p) (lat q)) (s1_from_point_pair (lng p) (lng q)).
(* rect.rs:93-98 *)
Definition rect_is_valid (r : rect) : bool :=
  fle (fabs (lo1 (rlat r))) FRAC_PI_2 && fle (hi1 (rlat r)) FRAC_PI_2 && s1_is_valid (rlng r)
  && Bool.eqb (r1_is_empty (rlat r)) (s1_is_empty (rlng r)).
(* rect.rs:100-110 *)
Definition rect_is_empty (r : rect) : bool := r1_is_empty (rlat r).
Definition rect_is_full (r : rect) : bool := r1_eq (rlat r) LAT_RANGE && s1_is_full (rlng r).
Definition rect_is_point (r : rect) : bool :=
  feq (lo1 (rlat r)) (hi1 (rlat r)) && feq (slo (rlng r)) (shi (rlng r)).
(* rect.rs:114-116 *)
Definition rect_is_inverted (r : rect) : bool := s1_is_inverted (rlng r).
(* rect.rs:122-134; i is a u8 *)
Definition rect_vertex (r : rect) (i : Z) : latlng :=
  match i mod 4 with
  | 0 => LL (lo1 (rlat r)) (slo (rlng r))
  | 1 => LL (lo1 (rlat r)) (shi (rlng r))
  | 2 => LL (hi1 (rlat r)) (shi (rlng r))
  | _ => LL (hi1 (rlat r)) (slo (rlng r))
  end.
(* rect.rs:136-142 *)
Definition rect_lo (r : rect) : latlng := rect_vertex r 0.
Definition rect_hi (r : rect) : latlng := rect_vertex r 2.
(* rect.rs:144-156 *)
Definition rect_center (r : rect) : latlng := LL (r1_center (rlat r)) (s1_center (rlng r)).
Definition rect_size (r : rect) : latlng := LL (r1_len (rlat r)) (s1_len (rlng r)).
(* rect.rs:167-179 *)
Definition rect_expanded (r : rect) (m : latlng) : rect :=
  let la := r1_expanded (rlat r) (lat m) in
  let ln := s1_expanded (rlng r) (lng m) in
  if r1_is_empty la || s1_is_empty ln then rect_empty
  else Rect (r1_intersection la LAT_RANGE) ln.
(* rect.rs:62-68 *)
Definition rect_from_center_size (c s : latlng) : rect :=
  rect_expanded (rect_of_ll c) (LL (fmul (lat s) fhalf) (fmul (lng s) fhalf)).
(* rect.rs:181-190 *)
Definition rect_polar_closure (r : rect) : rect :=
  if feq (lo1 (rlat r)) (fdiv (fneg PI64) f2) || feq (hi1 (rlat r)) (fdiv PI64 f2)
  then Rect (rlat r) s1_FULL else r.
(* rect.rs:192-197 *)
Definition rect_union (r o : rect) : rect :=
  Rect (r1_union (rlat r) (rlat o)) (s1_union (rlng r) (rlng o)).
(* rect.rs:199-208 *)
Definition rect_intersection (r o : rect) : rect :=
  let la := r1_intersection (rlat r) (rlat o) in
  let ln := s1_intersection (rlng r) (rlng o) in
  if r1_is_empty la || s1_is_empty ln then rect_empty else Rect la ln.
(* rect.rs:210-212 *)
Definition rect_intersects (r o : rect) : bool :=
  r1_intersects (rlat r) (rlat o) && s1_intersects (rlng r) (rlng o).
(* rect.rs:243-245 *)
Definition rect_interior_intersects (r o : rect) : bool :=
  r1_interior_intersects (rlat r) (rlat o) && s1_interior_intersects (rlng r) (rlng o).
(* rect.rs:248-255 *)
Definition rect_approx_eq (r o : rect) : bool :=
  r1_approx_eq (rlat r) (rlat o) && s1_approx_eq (rlng r) (rlng o).
Definition rect_approx_eq_by (r o : rect) (e : latlng) : bool :=
  r1_approx_eq_by (rlat r) (rlat o) (lat e) && s1_approx_eq_by (rlng r) (rlng o) (lng e).
(* rect.rs:450-462 Add<&LatLng> *)
Definition rect_add (r : rect) (p : latlng) : rect :=
  if negb (ll_is_valid p) then r else Rect (r1_add (rlat r) (lat p)) (s1_add (rlng r) (lng p)).
(* rect.rs:464-468 PartialEq *)
Definition rect_eq (r o : rect) : bool := r1_eq (rlat r) (rlat o) && s1_eq (rlng r) (rlng o).
(* rect.rs:693-695 *)
Definition rect_contains (r o : rect) : bool :=
  r1_contains_interval (rlat r) (rlat o) && s1_contains_interval (rlng r) (rlng o).
(* rect.rs:698-700 *)
Definition rect_contains_ll (r : rect) (p : latlng) : bool :=
  ll_is_valid p && r1_contains (rlat r) (lat p) && s1_contains (rlng r) (lng p).
(* rect.rs:710-713 *)
Definition rect_interior_contains (r o : rect) : bool :=
  r1_interior_contains_interval (rlat r) (rlat o) && s1_interior_contains_interval (rlng r) (rlng o).
(* rect.rs:718-720 *)
Definition rect_interior_contains_ll (r : rect) (p : latlng) : bool :=
  r1_interior_contains (rlat r) (lat p) && s1_interior_contains (rlng r) (lng p).
