(** Model of src/r1/interval.rs, src/r2/rect.rs and src/r2/point.rs. *)
From Verif Require Import F64.

(** ** r1::Interval *)

(* r1/interval.rs:25-32 *)
Record r1 := R1 { lo1 : f64; hi1 : f64 }.
(* r1/interval.rs:40 EMPTY *)
Definition r1_EMPTY := R1 f1 f0.
(* r1/interval.rs:48-50 *)
Definition r1_from_point (p : f64) := R1 p p.
(* r1/interval.rs:55-61 *)
Definition r1_from_point_pair (p1 p2 : f64) := if fle p1 p2 then R1 p1 p2 else R1 p2 p1.
(* r1/interval.rs:64-66 *)
Definition r1_is_empty (i : r1) : bool := fgt (lo1 i) (hi1 i).
(* r1/interval.rs:70-72 *)
Definition r1_center (i : r1) : f64 := fmul fhalf (fadd (lo1 i) (hi1 i)).
(* r1/interval.rs:76-78 *)
Definition r1_len (i : r1) : f64 := fsub (hi1 i) (lo1 i).
(* r1/interval.rs:81-83 *)
Definition r1_contains (i : r1) (p : f64) : bool := fle (lo1 i) p && fle p (hi1 i).
(* r1/interval.rs:86-92 *)
Definition r1_contains_interval (i oi : r1) : bool :=
  if r1_is_empty oi then true else fle (lo1 i) (lo1 oi) && fle (hi1 oi) (hi1 i).
(* r1/interval.rs:95-97 *)
Definition r1_interior_contains (i : r1) (p : f64) : bool := flt (lo1 i) p && flt p (hi1 i).
(* r1/interval.rs:100-106 *)
Definition r1_interior_contains_interval (i oi : r1) : bool :=
  if r1_is_empty oi then true else flt (lo1 i) (lo1 oi) && flt (hi1 oi) (hi1 i).
(* r1/interval.rs:109-117 *)
Definition r1_intersects (i oi : r1) : bool :=
  if fle (lo1 i) (lo1 oi) then fle (lo1 oi) (hi1 i) && fle (lo1 oi) (hi1 oi)
  else fle (lo1 i) (hi1 oi) && fle (lo1 i) (hi1 i).
(* r1/interval.rs:121-123 *)
Definition r1_interior_intersects (i oi : r1) : bool :=
  flt (lo1 oi) (hi1 i) && flt (lo1 i) (hi1 oi) && flt (lo1 i) (hi1 i) && fle (lo1 oi) (hi1 oi).
(* r1/interval.rs:126-132 *)
Definition r1_intersection (i o : r1) : r1 := R1 (fmax (lo1 i) (lo1 o)) (fmin (hi1 i) (hi1 o)).
(* r1/interval.rs:136-138 *)
Definition r1_clamp_point (i : r1) (p : f64) : f64 := fmax (lo1 i) (fmin (hi1 i) p).
(* r1/interval.rs:144-153 *)
Definition r1_expanded (i : r1) (m : f64) : r1 :=
  if r1_is_empty i then i else R1 (fsub (lo1 i) m) (fadd (hi1 i) m).
(* r1/interval.rs:156-167 *)
Definition r1_union (i o : r1) : r1 :=
  if r1_is_empty i then o
  else if r1_is_empty o then i
  else R1 (fmin (lo1 i) (lo1 o)) (fmax (hi1 i) (hi1 o)).
(* r1/interval.rs:191-199 directed_hausdorff_distance *)
Definition r1_hausdorff (i o : r1) : f64 :=
  if r1_is_empty i then f0
  else if r1_is_empty o then inf
  else fmax f0 (fmax (fsub (hi1 i) (hi1 o)) (fsub (lo1 o) (lo1 i))).
(* r1/interval.rs:211-221 Add<f64> *)
Definition r1_add (i : r1) (p : f64) : r1 :=
  if r1_is_empty i then R1 p p
  else if flt p (lo1 i) then R1 p (hi1 i)
  else if fgt p (hi1 i) then R1 (lo1 i) p
  else i.
(* r1/interval.rs:226-228 PartialEq *)
Definition r1_eq (i o : r1) : bool :=
  (feq (lo1 i) (lo1 o) && feq (hi1 i) (hi1 o)) || (r1_is_empty i && r1_is_empty o).

(** ** r2::Point *)

(* r2/point.rs:24-29 *)
Record pt2 := P2 { px : f64; py : f64 }.
(* r2/point.rs:34-51 Ord *)
Definition pt2_cmp (a b : pt2) : comparison :=
  if flt (px a) (px b) then Lt
  else if fgt (px a) (px b) then Gt
  else if flt (py a) (py b) then Lt
  else if fgt (py a) (py b) then Gt
  else Eq.
(* r2/point.rs:66-86 Add, Sub *)
Definition pt2_add (a b : pt2) : pt2 := P2 (fadd (px a) (px b)) (fadd (py a) (py b)).
Definition pt2_sub (a b : pt2) : pt2 := P2 (fsub (px a) (px b)) (fsub (py a) (py b)).
(* r2/point.rs:88-97 Mul<&Point> *)
Definition pt2_mul (a b : pt2) : pt2 := P2 (fmul (px a) (px a)) (fmul (py b) (py b)).
(* r2/point.rs:113-122 Mul<f64> *)
Definition pt2_scale (a : pt2) (k : f64) : pt2 := P2 (fmul (px a) k) (fmul (py a) k).
(* r2/point.rs:130-135 *)
Definition pt2_ortho (a : pt2) : pt2 := P2 (fneg (py a)) (px a).
(* r2/point.rs:138-145 *)
Definition pt2_dot (a b : pt2) : f64 := fadd (fmul (px a) (px b)) (fmul (py a) (py b)).
Definition pt2_cross (a b : pt2) : f64 := fsub (fmul (px a) (py b)) (fmul (py a) (px b)).

(** ** r2::Rect *)

(* r2/rect.rs:23-31 *)
Record r2 := R2 { rx : r1; ry : r1 }.
(* r2/rect.rs:36-39 *)
Definition r2_EMPTY := R2 r1_EMPTY r1_EMPTY.
(* r2/rect.rs:213-223 Add<&Point> *)
Definition r2_add_point (r : r2) (p : pt2) : r2 := R2 (r1_add (rx r) (px p)) (r1_add (ry r) (py p)).
(* r2/rect.rs:43-61; Rect::default() is [0,0]x[0,0] *)
Definition r2_from_points (ps : list pt2) : r2 :=
  match ps with
  | [] => R2 (R1 f0 f0) (R1 f0 f0)
  | p :: ps' => fold_left r2_add_point ps' (R2 (r1_from_point (px p)) (r1_from_point (py p)))
  end.
(* r2/rect.rs:74-81 *)
Definition r2_is_valid (r : r2) : bool := Bool.eqb (r1_is_empty (rx r)) (r1_is_empty (ry r)).
Definition r2_is_empty (r : r2) : bool := r1_is_empty (rx r).
(* r2/rect.rs:85-92 *)
Definition r2_vertices (r : r2) : list pt2 :=
  [P2 (lo1 (rx r)) (lo1 (ry r)); P2 (hi1 (rx r)) (lo1 (ry r));
   P2 (hi1 (rx r)) (hi1 (ry r)); P2 (lo1 (rx r)) (hi1 (ry r))].
(* r2/rect.rs:96-100 *)
Definition r2_vertex_ij (r : r2) (i j : Z) : pt2 :=
  P2 (if i =? 0 then lo1 (rx r) else hi1 (rx r)) (if j =? 0 then lo1 (ry r) else hi1 (ry r)).
(* r2/rect.rs:125-134 *)
Definition r2_contains_point (r : r2) (p : pt2) : bool := r1_contains (rx r) (px p) && r1_contains (ry r) (py p).
Definition r2_interior_contains_point (r : r2) (p : pt2) : bool :=
  r1_interior_contains (rx r) (px p) && r1_interior_contains (ry r) (py p).
(* r2/rect.rs:137-156 *)
Definition r2_contains (r o : r2) : bool := r1_contains_interval (rx r) (rx o) && r1_contains_interval (ry r) (ry o).
Definition r2_interior_contains (r o : r2) : bool :=
  r1_interior_contains_interval (rx r) (rx o) && r1_interior_contains_interval (ry r) (ry o).
Definition r2_intersects (r o : r2) : bool := r1_intersects (rx r) (rx o) && r1_intersects (ry r) (ry o).
Definition r2_interior_intersects (r o : r2) : bool :=
  r1_interior_intersects (rx r) (rx o) && r1_interior_intersects (ry r) (ry o).
(* r2/rect.rs:160-162 *)
Definition r2_clamp_point (r : r2) (p : pt2) : pt2 := P2 (r1_clamp_point (rx r) (px p)) (r1_clamp_point (ry r) (py p)).
(* r2/rect.rs:168-176 *)
Definition r2_expanded (r : r2) (m : pt2) : r2 :=
  let x := r1_expanded (rx r) (px m) in
  let y := r1_expanded (ry r) (py m) in
  if r1_is_empty x || r1_is_empty y then r2_EMPTY else R2 x y.
(* r2/rect.rs:185-190; the same at 225-236 Add<&Rect> *)
Definition r2_union (r o : r2) : r2 := R2 (r1_union (rx r) (rx o)) (r1_union (ry r) (ry o)).
(* r2/rect.rs:194-202 *)
Definition r2_intersection (r o : r2) : r2 :=
  let x := r1_intersection (rx r) (rx o) in
  let y := r1_intersection (ry r) (ry o) in
  if r1_is_empty x || r1_is_empty y then r2_EMPTY else R2 x y.
