(** Model of the functions of src/s2/rect.rs, cell.rs, cellunion.rs, cap.rs and point.rs
    that test points and cells against latitude-longitude rectangles or compute bounding
    rectangles and caps.  sin, cos, atan2 and asin are the parameters [fsin], [fcos],
    [fatan2] and [fasin]. *)
From Coq Require Import List.
From Verif Require Import Base F64 VectorModel StuvModel R1Model S1Model AngleModel CellIdModel CellModel CapModel RectModel TrigModel RegionModel.
Import ListNotations.
Open Scope Z_scope.

(* rect.rs:703-705 contains_point, 725-727 interior_contains_point *)
Definition rect_contains_point (fatan2 : f64 -> f64 -> f64) (r : rect) (p : vec) : bool := rect_contains_ll r (ll_of_point fatan2 p).
Definition rect_interior_contains_point (fatan2 : f64 -> f64 -> f64) (r : rect) (p : vec) : bool :=
  rect_interior_contains_ll r (ll_of_point fatan2 p).
(* rect.rs:158-165 area *)
Definition rect_area (fsin : f64 -> f64) (r : rect) : f64 :=
  if rect_is_empty r then f0
  else fmul (s1_len (rlng r)) (fabs (fsub (fsin (hi1 (rlat r))) (fsin (lo1 (rlat r))))).
(* point.rs:426-428 rect_bound of a point *)
Definition point_rect_bound (fatan2 : f64 -> f64 -> f64) (p : vec) : rect := rect_of_ll (ll_of_point fatan2 p).

(* cell.rs:253-261 uv_from_ij; i and j are 0 or 1 *)
Definition uv_from_ij (s : s2cell) (i j : bool) : pt2 :=
  P2 (if i then hi1 (rx (c_uv s)) else lo1 (rx (c_uv s))) (if j then hi1 (ry (c_uv s)) else lo1 (ry (c_uv s))).
(* cell.rs:263-266 point_from_ij *)
Definition point_from_ij (s : s2cell) (i j : bool) : option vec :=
  face_uv_to_xyz (c_face s) (px (uv_from_ij s i j)) (py (uv_from_ij s i j)).
(* cell.rs:268-276 latitude, longitude *)
Definition cell_latitude (fatan2 : f64 -> f64 -> f64) (s : s2cell) (i j : bool) : option f64 :=
  let* p := point_from_ij s i j in Some (latitude fatan2 p).
Definition cell_longitude (fatan2 : f64 -> f64 -> f64) (s : s2cell) (i j : bool) : option f64 :=
  let* p := point_from_ij s i j in Some (longitude fatan2 p).

(* cell.rs:33-35 POLE_MIN_LAT *)
Definition POLE_MIN_LAT (fasin : f64 -> f64) : f64 :=
  fsub (fasin (fsqrt (fdiv f1 (of_int 3)))) (fmul fhalf DBL_EPSILON).
(* cell.rs:294-309 the corner coordinate with the largest absolute latitude *)
Definition far_corner (axis : vec) (w : f64) : bool :=
  if feq (vz axis) f0 then flt w f0 else fgt w f0.
(* cell.rs:344 PI_4 *)
Definition PI_4 : f64 := fdiv PI64 (of_int 4).
(* cell.rs:345-371 the bound of a face *)
Definition face_rect (fasin : f64 -> f64) (f : Z) : option rect :=
  if f =? 0 then Some (Rect (R1 (fneg PI_4) PI_4) (s1_new (fneg PI_4) PI_4))
  else if f =? 1 then Some (Rect (R1 (fneg PI_4) PI_4) (s1_new PI_4 (fmul (of_int 3) PI_4)))
  else if f =? 2 then Some (Rect (R1 (POLE_MIN_LAT fasin) (fdiv PI64 f2)) s1_FULL)
  else if f =? 3 then Some (Rect (R1 (fneg PI_4) PI_4) (s1_new (fmul (of_int 3) PI_4) (fmul (of_int (-3)) PI_4)))
  else if f =? 4 then Some (Rect (R1 (fneg PI_4) PI_4) (s1_new (fmul (of_int (-3)) PI_4) (fneg PI_4)))
  else if f =? 5 then Some (Rect (R1 (fdiv (fneg PI64) f2) (fmul (of_int (-1)) (POLE_MIN_LAT fasin))) s1_FULL)
  else None.
(* cell.rs:279-383 rect_bound *)
Definition cell_rect_bound (fatan2 : f64 -> f64 -> f64) (fasin : f64 -> f64) (s : s2cell) : option rect :=
  if c_level s >? 0 then
    let* ua := u_axis (c_face s) in
    let i := far_corner ua (fadd (lo1 (rx (c_uv s))) (hi1 (rx (c_uv s)))) in
    let* va := v_axis (c_face s) in
    let j := far_corner va (fadd (lo1 (ry (c_uv s))) (hi1 (ry (c_uv s)))) in
    let* la := cell_latitude fatan2 s i j in
    let* lb := cell_latitude fatan2 s (negb i) (negb j) in
    let* oa := cell_longitude fatan2 s i (negb j) in
    let* ob := cell_longitude fatan2 s (negb i) j in
    let e := fmul f2 DBL_EPSILON in
    Some (rect_polar_closure (rect_expanded (Rect (r1_add (r1_from_point la) lb) (s1_add (s1_add s1_EMPTY oa) ob)) (LL e e)))
  else
    let* b := face_rect fasin (c_face s) in Some (rect_expanded b (LL DBL_EPSILON f0)).

(* rect.rs:533-545 contains_cell *)
Definition rect_contains_cell (fatan2 : f64 -> f64 -> f64) (fasin : f64 -> f64) (r : rect) (s : s2cell) : option bool :=
  let* b := cell_rect_bound fatan2 fasin s in Some (rect_contains r b).
(* cellunion.rs:451-457 rect_bound *)
Fixpoint rects_loop (fatan2 : f64 -> f64 -> f64) (fasin : f64 -> f64) (l : list Z) (acc : rect) : option rect :=
  match l with
  | [] => Some acc
  | x :: t =>
      let* s := cell_from_cellid x in
      let* b := cell_rect_bound fatan2 fasin s in
      rects_loop fatan2 fasin t (rect_union acc b)
  end.
Definition union_rect_bound (fatan2 : f64 -> f64 -> f64) (fasin : f64 -> f64) (l : list Z) : option rect :=
  rects_loop fatan2 fasin l rect_empty.

(* rect.rs:490-525 cap_bound; Point::from_coords(0, 0, z) (point.rs:111-117) is the
   normalised vector *)
Definition rect_cap_bound (fsin fcos : f64 -> f64) (r : rect) : cap :=
  if rect_is_empty r then cap_empty
  else
    let '(pole_z, pole_angle) :=
      if flt (fadd (hi1 (rlat r)) (lo1 (rlat r))) f0 then (fneg f1, fadd (fdiv PI64 f2) (hi1 (rlat r)))
      else (f1, fsub (fdiv PI64 f2) (lo1 (rlat r))) in
    let pole_cap := cap_from_center_angle fsin (VectorModel.normalize (Vec f0 f0 pole_z)) pole_angle in
    if fge (fremainder (fsub (shi (rlng r)) (slo (rlng r))) (fmul f2 PI64)) f0
       && flt (fsub (shi (rlng r)) (slo (rlng r))) (fmul f2 PI64)
    then
      let mid_cap := cap_add_point (cap_add_point (cap_from_point (point_of_ll fsin fcos (rect_center r)))
                                      (point_of_ll fsin fcos (rect_lo r))) (point_of_ll fsin fcos (rect_hi r)) in
      if flt (cap_height mid_cap) (cap_height pole_cap) then mid_cap else pole_cap
    else pole_cap.

(* cap.rs:268-309 rect_bound; PI / -2. is fdiv PI64 (of_int (-2)); the struct fields are
   assigned directly *)
Definition cap_rect_bound (fsin fcos : f64 -> f64) (fatan2 : f64 -> f64 -> f64) (fasin : f64 -> f64) (c : cap) : rect :=
  if cap_is_empty c then rect_empty
  else
    let cap_angle := chord_to_angle fasin (radius c) in
    let center_lat := latitude fatan2 (center c) in
    let lo := fsub center_lat cap_angle in
    let hi := fadd center_lat cap_angle in
    let south := flt lo (fdiv PI64 (of_int (-2))) in
    let lo := if south then fdiv PI64 f2 else lo in
    let north := fgt hi (fdiv PI64 f2) in
    let hi := if north then fdiv PI64 f2 else hi in
    let lng :=
      if negb (south || north) then
        let sin_a := fsin (radius c) in
        let sin_c := fcos center_lat in
        if fle sin_a sin_c then
          let angle_a := fasin (fdiv sin_a sin_c) in
          let center_lng := longitude fatan2 (center c) in
          S1 (fremainder (fsub center_lng angle_a) (fmul PI64 f2)) (fremainder (fadd center_lng angle_a) (fmul PI64 f2))
        else s1_FULL
      else s1_FULL in
    Rect (R1 lo hi) lng.
