(** Model of the Hausdorff distances of rectangles, src/s2/rect.rs.  The library functions sin,
    cos, asin and atan2 are parameters.  [None]: the assertion of line 352 fails. *)
From Verif Require Import Base F64 R1Model S1Model AngleModel RectModel VectorModel TrigModel PointModel SegModel MiscModel.

(* rect.rs:405-424 bisector_intersection *)
Definition bisector_intersection (fsin fcos : f64 -> f64) (l : r1) (g : f64) : vec :=
  let g := fabs g in
  let c := r1_center l in
  let o := if fge c f0 then LL (fsub c FRAC_PI_2) g else LL (fsub (fneg c) FRAC_PI_2) (fsub g PI64) in
  point_cross (from_coords f0 (fneg f1) f0) (point_of_ll fsin fcos o).

(* rect.rs:426-448 interior_max_distance *)
Definition interior_max_distance (fatan2 : f64 -> f64 -> f64) (a : r1) (b : vec) : option f64 :=
  if r1_is_empty a || fge (vx b) f0 then None
  else
    let x := from_coords (fneg (vx b)) f0 (fneg (vz b)) in
    if r1_interior_contains a (lat (ll_of_point fatan2 x)) then Some (point_distance fatan2 b x) else None.
Definition max_with (m : f64) (d : option f64) : f64 := match d with Some d => angle_max m d | None => m end.

(* rect.rs:306-401 hausdorff_distance_helper *)
Definition hausdorff_helper (fsin fcos fasin : f64 -> f64) (fatan2 : f64 -> f64 -> f64) (g : f64) (a b : r1) : option f64 :=
  if negb (fle f0 g && fle g PI64) then None
  else if feq g f0 then Some (r1_hausdorff a b)
  else
    let point := point_of_ll fsin fcos in
    let b_lo := point (LL (lo1 b) g) in
    let b_hi := point (LL (hi1 b) g) in
    let a_lo := point (LL (lo1 a) f0) in
    let a_hi := point (LL (hi1 a) f0) in
    let m := angle_max (distance_from_segment fasin a_lo b_lo b_hi) (distance_from_segment fasin a_hi b_lo b_hi) in
    if fle g FRAC_PI_2 then
      Some (if r1_contains a f0 && r1_contains b f0 then angle_max m g else m)
    else
      let p := bisector_intersection fsin fcos b g in
      let pl := latitude fatan2 p in
      let m := if r1_contains a pl then angle_max m (point_distance fatan2 p b_lo) else m in
      let m := if fgt pl (lo1 a) then max_with m (interior_max_distance fatan2 (R1 (lo1 a) (fmin pl (hi1 a))) b_lo) else m in
      let m := if flt pl (hi1 a) then max_with m (interior_max_distance fatan2 (R1 (fmax pl (lo1 a)) (hi1 a)) b_hi) else m in
      Some m.

(* rect.rs:295-304 directed_hausdorff_distance *)
Definition rect_hausdorff (fsin fcos fasin : f64 -> f64) (fatan2 : f64 -> f64 -> f64) (r o : rect) : option f64 :=
  if rect_is_empty r then Some f0
  else if rect_is_empty o then Some PI64
  else hausdorff_helper fsin fcos fasin fatan2 (s1_hausdorff (rlng r) (rlng o)) (rlat r) (rlat o).
(* rect.rs:285-288 hausdorff_distance *)
Definition rect_hausdorff_both (fsin fcos fasin : f64 -> f64) (fatan2 : f64 -> f64 -> f64) (r o : rect) : option f64 :=
  let* x := rect_hausdorff fsin fcos fasin fatan2 r o in
  let* y := rect_hausdorff fsin fcos fasin fatan2 o r in
  Some (angle_max x y).
