(** Model of src/s2/edge_clipping.rs: dividing the edge between two points of the sphere at the
    boundaries of the six faces of the cube. *)
From Coq Require Import List.
From Verif Require Import Base F64 R1Model S1Model AngleModel VectorModel StuvModel PointModel ClipModel.
Import ListNotations.
Open Scope Z_scope.

(* std::f64::consts::SQRT_2 = 0x3FF6A09E667F3BCD *)
Definition SQRT_2 : f64 := lit 0x16A09E667F3BCD (-52).
(* edge_clipping.rs:46 FACE_CLIP_ERROR_RADIANS *)
Definition FACE_CLIP_ERROR_RADIANS : f64 := fmul (of_int 3) DBL_EPSILON.
(* edge_clipping.rs:59 FACE_CLIP_ERROR_UV_COORD *)
Definition FACE_CLIP_ERROR_UV_COORD : f64 := fmul (fmul (of_int 9) (fdiv f1 SQRT_2)) DBL_EPSILON.

(* edge_clipping.rs:584-588 FaceSegment *)
Record face_segment := FS { fs_face : Z; fs_a : pt2; fs_b : pt2 }.

(* edge_clipping.rs:682-731 move_origin_to_valid_face: its first return, and the early return in its second test *)
Definition origin_is_valid (face : Z) (a ab : vec) (a_uv : pt2) : option bool :=
  if fle (fmax (fabs (px a_uv)) (fabs (py a_uv))) (fsub f1 FACE_CLIP_ERROR_UV_COORD) then Some true
  else
    let* n := face_xyz_to_uvw face ab in
    if intersects_face n then
      let uv := exit_point n (exit_axis n) in
      let* exit := face_uv_to_xyz face (px uv) (py uv) in
      let a_tan := point_cross (normalize ab) a in
      Some (fge (dot (vsub exit a) a_tan) (fneg FACE_CLIP_ERROR_RADIANS))
    else Some false.
(* edge_clipping.rs:682-731 move_origin_to_valid_face *)
Definition move_origin_to_valid_face (face : Z) (a ab : vec) (a_uv : pt2) : option (Z * pt2) :=
  let* valid := origin_is_valid face a ab a_uv in
  if valid : bool then Some (face, a_uv)
  else
    let* face :=
      if fge (fabs (px a_uv)) (fabs (py a_uv)) then uvw_face face 0 (if fgt (px a_uv) f0 then 1 else 0)
      else uvw_face face 1 (if fgt (py a_uv) f0 then 1 else 0) in
    let* (u, v) := valid_face_xyz_to_uv face a in
    Some (face, P2 (fclamp u (fneg f1) f1) (fclamp v (fneg f1) f1)).

(* edge_clipping.rs:222-227 Axis::value *)
Definition axis_value (a : uv_axis) : Z := match a with AxisU => 0 | AxisV => 1 end.
(* edge_clipping.rs:739-772 next_face; the faces are looked up before the tests of && *)
Definition next_face (face : Z) (exit : pt2) (axis : uv_axis) (n : vec) (target_face : Z) : option Z :=
  let exit_a := match axis with AxisU => px exit | AxisV => py exit end in
  let exit_1minus_a := match axis with AxisU => py exit | AxisV => px exit end in
  let exit_a_pos := if fgt exit_a f0 then 1 else 0 in
  let exit_1minus_a_pos := if fgt exit_1minus_a f0 then 1 else 0 in
  let* other := uvw_face face (1 - axis_value axis) exit_1minus_a_pos in
  if feq (fabs exit_1minus_a) f1 && (other =? target_face) && sum_equal (fmul (px exit) (vx n)) (fmul (py exit) (vy n)) (fneg (vz n))
  then Some target_face
  else uvw_face face (axis_value axis) exit_a_pos.

(* edge_clipping.rs:644-668, the loop of face_segments; None if it is not left within [fuel] turns *)
Fixpoint face_loop (fuel : nat) (ab : vec) (b_face : Z) (b_saved : pt2) (face : Z) (a : pt2) : option (list face_segment) :=
  if face =? b_face then Some [FS face a b_saved]
  else match fuel with
  | O => None
  | S k =>
      let* n := face_xyz_to_uvw face ab in
      let axis := exit_axis n in
      let b := exit_point n axis in
      let* exit_xyz := face_uv_to_xyz face (px b) (py b) in
      let* next := next_face face b axis n b_face in
      let* exit_uvw := face_xyz_to_uvw next exit_xyz in
      let* rest := face_loop k ab b_face b_saved next (P2 (vx exit_uvw) (vy exit_uvw)) in
      Some (FS face a b :: rest)
  end.
(* edge_clipping.rs:602-669 face_segments *)
Definition face_segments (fuel : nat) (a b : vec) : option (list face_segment) :=
  let* (af, a_x, a_y) := xyz_to_face_uv a in
  let* (bf, b_x, b_y) := xyz_to_face_uv b in
  if af =? bf then Some [FS af (P2 a_x a_y) (P2 b_x b_y)]
  else
    let ab := point_cross a b in
    let* (a_face, segment_a) := move_origin_to_valid_face af a ab (P2 a_x a_y) in
    let* (b_face, segment_b) := move_origin_to_valid_face bf b (vscale ab (fneg f1)) (P2 b_x b_y) in
    face_loop fuel ab b_face segment_b a_face segment_a.
