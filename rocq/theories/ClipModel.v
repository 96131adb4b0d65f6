(** Model of src/s2/edge_clipping.rs: the exact tests of lines against a face of the cube and the
    clipping of plane edges to rectangles.  face_segments, move_origin_to_valid_face and
    next_face are in FaceSegModel.v.  Not modelled: clip_to_face, clip_to_padded_face, clip_destination. *)
From Verif Require Import Base F64 R1Model VectorModel.
Open Scope Z_scope.

(* edge_clipping.rs:211-213 sum_equal *)
Definition sum_equal (u v w : f64) : bool := feq (fadd u v) w && feq u (fsub w v) && feq v (fsub w u).

(* edge_clipping.rs:217-228 Axis *)
Inductive uv_axis := AxisU | AxisV.

(* edge_clipping.rs:234-247 intersects_face *)
Definition intersects_face (n : vec) : bool :=
  let u := fabs (vx n) in
  let v := fabs (vy n) in
  let w := fabs (vz n) in
  fge v (fsub w u) && fge u (fsub w v).

(* edge_clipping.rs:253-273 intersects_opposite_edges *)
Definition intersects_opposite_edges (n : vec) : bool :=
  let u := fabs (vx n) in
  let v := fabs (vy n) in
  let w := fabs (vz n) in
  if fne (fabs (fsub u v)) w then fge (fabs (fsub u v)) w
  else if fge u v then fge (fsub u w) v
  else fge (fsub v w) u.

(* edge_clipping.rs:280-305 exit_axis; is_sign_negative is the sign bit *)
Definition exit_axis (n : vec) : uv_axis :=
  if intersects_opposite_edges n then
    if fge (fabs (vx n)) (fabs (vy n)) then AxisV else AxisU
  else if negb (xorb (xorb (Bsign (vx n)) (Bsign (vy n))) (Bsign (vz n))) then AxisV else AxisU.

(* edge_clipping.rs:310-330 exit_point *)
Definition exit_point (n : vec) (a : uv_axis) : pt2 :=
  match a with
  | AxisU =>
      let u := if fgt (vy n) f0 then f1 else fneg f1 in
      P2 u (fdiv (fsub (fmul (fneg u) (vx n)) (vz n)) (vy n))
  | AxisV =>
      let v := if flt (vx n) f0 then f1 else fneg f1 in
      P2 (fdiv (fsub (fmul (fneg v) (vy n)) (vz n)) (vx n)) v
  end.

(* edge_clipping.rs:569-577 interpolate *)
Definition interpolate_1d (x a b a1 b1 : f64) : f64 :=
  if feq a b then a1
  else if fle (fabs (fsub a x)) (fabs (fsub b x)) then fadd a1 (fdiv (fmul (fsub b1 a1) (fsub x a)) (fsub b a))
  else fadd b1 (fdiv (fmul (fsub a1 b1) (fsub x b)) (fsub a b)).

(* edge_clipping.rs:417-438 update_endpoint *)
Definition update_endpoint (bound : r1) (high : bool) (value : f64) : r1 * bool :=
  if negb high then
    if flt (hi1 bound) value then (bound, false)
    else (if flt (lo1 bound) value then R1 value (hi1 bound) else bound, true)
  else if fgt (lo1 bound) value then (bound, false)
  else (if fgt (hi1 bound) value then R1 (lo1 bound) value else bound, true).

(* edge_clipping.rs:458-471, the lower half of clip_bound_axis *)
Definition clip_below (a0 b0 : f64) (bound0 : r1) (a1 b1 : f64) (bound1 : r1) (neg : bool) (clip : r1) : r1 * r1 * bool :=
  if flt (lo1 bound0) (lo1 clip) then
    if flt (hi1 bound0) (lo1 clip) then (bound0, bound1, false)
    else
      let '(bound1, updated) := update_endpoint bound1 neg (interpolate_1d (lo1 clip) a0 b0 a1 b1) in
      (R1 (lo1 clip) (hi1 bound0), bound1, updated)
  else (bound0, bound1, true).
(* edge_clipping.rs:473-487, its upper half *)
Definition clip_above (a0 b0 : f64) (bound0 : r1) (a1 b1 : f64) (bound1 : r1) (neg : bool) (clip : r1) : r1 * r1 * bool :=
  if fgt (hi1 bound0) (hi1 clip) then
    if fgt (lo1 bound0) (hi1 clip) then (bound0, bound1, false)
    else
      let '(bound1, updated) := update_endpoint bound1 (negb neg) (interpolate_1d (hi1 clip) a0 b0 a1 b1) in
      (R1 (lo1 bound0) (hi1 clip), bound1, updated)
  else (bound0, bound1, true).
(* edge_clipping.rs:448-488 clip_bound_axis *)
Definition clip_bound_axis (a0 b0 : f64) (bound0 : r1) (a1 b1 : f64) (bound1 : r1) (neg : bool) (clip : r1) : r1 * r1 * bool :=
  let '(bound0, bound1, ok) := clip_below a0 b0 bound0 a1 b1 bound1 neg clip in
  if ok then clip_above a0 b0 bound0 a1 b1 bound1 neg clip else (bound0, bound1, false).

(* edge_clipping.rs:538-560 clip_edge_bound *)
Definition clip_edge_bound (a b : pt2) (clip bound : r2) : r2 * bool :=
  let neg := xorb (fgt (px a) (px b)) (fgt (py a) (py b)) in
  let '(x, y, ok) := clip_bound_axis (px a) (px b) (rx bound) (py a) (py b) (ry bound) neg (rx clip) in
  if negb ok then (bound, false)
  else
    let '(y', x', ok) := clip_bound_axis (py a) (py b) y (px a) (px b) x neg (ry clip) in
    if negb ok then (R2 x y, false) else (R2 x' y', true).

(* edge_clipping.rs:162-186 clip_edge *)
Definition clip_edge (a b : pt2) (clip : r2) : pt2 * pt2 * bool :=
  let bound := r2_from_points [a; b] in
  let '(bound, intersects) := clip_edge_bound a b clip bound in
  if negb intersects then (P2 f0 f0, P2 f0 f0, false)
  else
    let ai := if fgt (px a) (px b) then 1 else 0 in
    let aj := if fgt (py a) (py b) then 1 else 0 in
    (r2_vertex_ij bound ai aj, r2_vertex_ij bound (1 - ai) (1 - aj), true).

(* edge_clipping.rs:521-529 clipped_edge_bound *)
Definition clipped_edge_bound (a b : pt2) (clip : r2) : r2 :=
  let bound := r2_from_points [a; b] in
  let '(b1, intersects) := clip_edge_bound a b clip bound in
  if intersects then b1 else r2_EMPTY.

(* edge_clipping.rs:493-515 edge_intersects_rect *)
Definition edge_intersects_rect (a b : pt2) (r : r2) : bool :=
  if negb (r2_intersects r (r2_from_points [a; b])) then false
  else
    let n := pt2_ortho (pt2_sub b a) in
    let i := if fge (px n) f0 then 1 else 0 in
    let j := if fge (py n) f0 then 1 else 0 in
    let max := pt2_dot n (pt2_sub (r2_vertex_ij r i j) a) in
    let min := pt2_dot n (pt2_sub (r2_vertex_ij r (1 - i) (1 - j)) a) in
    fge max f0 && fle min f0.
