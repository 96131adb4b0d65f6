(** Model of further functions of src/s2/point.rs, edgeutil.rs, cap.rs and rect.rs that
    construct points.  sin, cos, atan2 and asin are the parameters [fsin], [fcos],
    [fatan2] and [fasin]. *)
From Coq Require Import List.
From Verif Require Import Base F64 VectorModel R1Model S1Model AngleModel CapModel RectModel TrigModel RegionModel.
Import ListNotations.
Open Scope Z_scope.

(* point.rs:97-101 ORIGIN: -0.00999946643502502 = 0xBF847A99AA86ED3B,
   0.002592454260932412 = 0x3F653CC5488BEC88, 0.999946643502502 = 0x3FEFFF901A72D2AC *)
Definition ORIGIN : vec := Vec (lit (-0x147A99AA86ED3B) (-59)) (lit 0x153CC5488BEC88 (-61)) (lit 0x1FFF901A72D2AC (-53)).
(* the coordinates are all zero (point.rs:112, 150) *)
Definition is_zero (v : vec) : bool := feq (vx v) f0 && feq (vy v) f0 && feq (vz v) f0.
(* point.rs:111-117 from_coords *)
Definition from_coords (x y z : f64) : vec := if is_zero (Vec x y z) then ORIGIN else normalize (Vec x y z).
(* point.rs:144-157 cross *)
Definition point_cross (a b : vec) : vec :=
  let v := cross (vadd a b) (vsub b a) in if is_zero v then ortho a else v.

(* point.rs:185-191 frame: the three columns of the matrix *)
Definition frame (p : vec) : vec * vec * vec :=
  let c1 := ortho p in (cross c1 p, c1, p).
(* point.rs:198-201 from_frame: the product of a matrix, given by its columns, and a vector *)
Definition from_frame (m : vec * vec * vec) (p : vec) : vec :=
  let '(c0, c1, c2) := m in
  vadd (vadd (vscale c0 (vx p)) (vscale c1 (vy p))) (vscale c2 (vz p)).
(* point.rs:206-209 to_frame: the product with the transposed matrix *)
Definition to_frame (m : vec * vec * vec) (p : vec) : vec :=
  let '(c0, c1, c2) := m in
  let row c := fadd (fadd (fmul (vx c) (vx p)) (fmul (vy c) (vy p))) (fmul (vz c) (vz p)) in
  Vec (row c0) (row c1) (row c2).
(* point.rs:395-417 regular_points_for_frame *)
Definition regular_point (fsin fcos : f64 -> f64) (m : vec * vec * vec) (radius step : f64) (i : Z) : vec :=
  let z := fcos radius in
  let r := fsin radius in
  let angle := fmul (of_int i) step in
  normalize (from_frame m (Vec (fmul r (fcos angle)) (fmul r (fsin angle)) z)).
(* point.rs:387-389 regular_points; the number of vertices is a usize *)
Definition regular_points (fsin fcos : f64 -> f64) (center : vec) (radius : f64) (n : Z) : list vec :=
  let step := fdiv (fmul f2 PI64) (of_int n) in
  map (fun i => regular_point fsin fcos (frame center) radius step (Z.of_nat i)) (seq 0 (Z.to_nat n)).
(* point.rs:371-373 planar_centroid *)
Definition planar_centroid (a b c : vec) : vec := vscale (vadd (vadd a b) c) (fdiv f1 (of_int 3)).

(* edgeutil.rs:133-150 interpolate_at_distance *)
Definition interpolate_at_distance (fsin fcos : f64 -> f64) (ax : f64) (a b : vec) : vec :=
  let normal := point_cross a b in
  let tangent := cross normal a in
  normalize (vadd (vscale a (fcos ax)) (vscale tangent (fdiv (fsin ax) (norm tangent)))).
(* edgeutil.rs:120-129 interpolate *)
Definition interpolate (fsin fcos : f64 -> f64) (fatan2 : f64 -> f64 -> f64) (t : f64) (a b : vec) : vec :=
  if feq t f0 then a
  else if feq t f1 then b
  else interpolate_at_distance fsin fcos (fmul t (vangle fatan2 a b)) a b.

(* cap.rs:444-471 union *)
Definition cap_union (fsin fcos : f64 -> f64) (fatan2 : f64 -> f64 -> f64) (fasin : f64 -> f64) (c o : cap) : cap :=
  let '(a, b) := if fgt (radius c) (radius o) then (c, o) else (o, c) in
  if cap_is_full a || cap_is_empty b then a
  else
    let ra := chord_to_angle fasin (radius a) in
    let rb := chord_to_angle fasin (radius b) in
    let d := point_distance fatan2 (center a) (center b) in
    if fge ra (fadd d rb) then a
    else
      let res := fmul fhalf (fadd (fadd d ra) rb) in
      Cap (interpolate_at_distance fsin fcos (fmul fhalf (fadd (fsub d ra) rb)) (center c) (center o)) res.
(* cap.rs:237-246 approx_eq; 1e-14 = 0x3D06849B86A12B9B *)
Definition CAP_EPS : f64 := lit 0x16849B86A12B9B (-99).
Definition cap_approx_eq (fatan2 : f64 -> f64 -> f64) (c o : cap) : bool :=
  point_approx_eq fatan2 (center c) (center o) && fle (fabs (fsub (radius c) (radius o))) CAP_EPS
  || cap_is_empty c && fle (radius o) CAP_EPS
  || cap_is_empty o && fle (radius c) CAP_EPS
  || cap_is_full c && fge (radius o) (fsub f2 CAP_EPS)
  || cap_is_full o && fge (radius c) (fsub f2 CAP_EPS).

(* rect.rs:741-805 centroid *)
Definition rect_centroid (fsin fcos : f64 -> f64) (r : rect) : vec :=
  if rect_is_empty r then Vec f0 f0 f0
  else
    let z1 := fsin (lo1 (rlat r)) in
    let z2 := fsin (hi1 (rlat r)) in
    let r1 := fcos (lo1 (rlat r)) in
    let r2 := fcos (hi1 (rlat r)) in
    let alpha := fmul fhalf (s1_len (rlng r)) in
    let k := fmul (fsin alpha) (fadd (fsub (fmul r2 z2) (fmul r1 z1)) (r1_len (rlat r))) in
    let c := s1_center (rlng r) in
    let z := fmul (fmul alpha (fadd z2 z1)) (fsub z2 z1) in
    Vec (fmul k (fcos c)) (fmul k (fsin c)) z.
(* cap.rs:423-441 centroid of a cap *)
Definition cap_centroid (c : cap) : vec :=
  if cap_is_empty c then Vec f0 f0 f0
  else vscale (center c) (fmul (fsub f1 (fmul fhalf (cap_height c))) (cap_area c)).
