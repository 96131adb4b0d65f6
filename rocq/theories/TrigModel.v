(** Model of the functions of src/s2/latlng.rs, src/s2/cellid.rs, src/s2/cell.rs,
    src/r3/vector.rs, src/s2/point.rs, src/s1/chordangle.rs and src/s2/cap.rs that call
    sin, cos and atan2.  These have no IEEE definition: they are the parameters
    [fsin], [fcos] and [fatan2]. *)
From Verif Require Import Base F64 VectorModel AngleModel CellIdModel CellModel CapModel.
Open Scope Z_scope.

(* latlng.rs:83-95 Point::from(&LatLng) *)
Definition point_of_ll (fsin fcos : f64 -> f64) (p : latlng) : vec :=
  let phi := lat p in
  let theta := lng p in
  let cosphi := fcos phi in
  Vec (fmul (fcos theta) cosphi) (fmul (fsin theta) cosphi) (fsin phi).

(* latlng.rs:71-75 latitude, 77-80 longitude, as numbers of radians *)
Definition latitude (fatan2 : f64 -> f64 -> f64) (v : vec) : f64 :=
  let l := fsqrt (fadd (fmul (vx v) (vx v)) (fmul (vy v) (vy v))) in fatan2 (vz v) l.
Definition longitude (fatan2 : f64 -> f64 -> f64) (v : vec) : f64 := fatan2 (vy v) (vx v).
(* latlng.rs:102-108 LatLng::from(&Point) *)
Definition ll_of_point (fatan2 : f64 -> f64 -> f64) (v : vec) : latlng := LL (latitude fatan2 v) (longitude fatan2 v).

(* cellid.rs:789-799 LatLng::from(CellID) *)
Definition ll_of_cellid (fatan2 : f64 -> f64 -> f64) (x : Z) : option latlng :=
  let* p := point_from_cellid x in Some (ll_of_point fatan2 p).
(* cellid.rs:801-810 CellID::from(LatLng) *)
Definition cellid_of_ll (fsin fcos : f64 -> f64) (p : latlng) : option Z := cellid_from_point (point_of_ll fsin fcos p).
(* cell.rs:81-90 Cell::from(LatLng) *)
Definition cell_of_ll (fsin fcos : f64 -> f64) (p : latlng) : option s2cell :=
  let* x := cellid_of_ll fsin fcos p in cell_from_cellid x.

(* latlng.rs:61-67 distance *)
Definition ll_distance (fsin fcos : f64 -> f64) (fatan2 : f64 -> f64 -> f64) (a b : latlng) : f64 :=
  let dlat := fsin (fmul fhalf (fsub (lat b) (lat a))) in
  let dlng := fsin (fmul fhalf (fsub (lng b) (lng a))) in
  let x := fadd (fmul dlat dlat) (fmul (fmul (fmul dlng dlng) (fcos (lat a))) (fcos (lat b))) in
  fmul f2 (fatan2 (fsqrt x) (fsqrt (fmax (fsub f1 x) f0))).

(* vector.rs:215-217 angle; point.rs:160-162 distance *)
Definition vangle (fatan2 : f64 -> f64 -> f64) (a b : vec) : f64 := fatan2 (norm (cross a b)) (dot a b).
Definition point_distance (fatan2 : f64 -> f64 -> f64) (a b : vec) : f64 := vangle fatan2 a b.
(* point.rs:165-167 approx_eq *)
Definition point_approx_eq (fatan2 : f64 -> f64 -> f64) (a b : vec) : bool := fle (vangle fatan2 a b) EPSILON.

(* chordangle.rs:62-75 ChordAngle::from(&Angle); angle.rs is_infinite *)
Definition chord_of_angle (fsin : f64 -> f64) (a : f64) : f64 :=
  if flt a f0 then NEGATIVE
  else if is_infinite a then B754_infinity false
  else let l := fmul f2 (fsin (fmul fhalf (fmin a PI64))) in fmul l l.
(* cap.rs:103-105 from_center_angle *)
Definition cap_from_center_angle (fsin : f64 -> f64) (c : vec) (a : f64) : cap := Cap c (chord_of_angle fsin a).
(* cap.rs:127-129 from_center_area, 176-179 area *)
Definition cap_from_center_area (c : vec) (area : f64) : cap := Cap c (from_squared_length (fdiv area PI64)).
Definition cap_area (c : cap) : f64 := fmul (fmul f2 PI64) (fmax (cap_height c) f0).
