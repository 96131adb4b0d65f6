(** Model of src/s1/chordangle.rs and of the parts of src/s2/cap.rs that use no
    trigonometric function.  A chord angle is its squared length, an f64. *)
From Coq Require Import List Bool.
From Verif Require Import Base F64 VectorModel StuvModel CellModel.
Import ListNotations.
Open Scope Z_scope.

(** ** s1/chordangle.rs *)
(* chordangle.rs:46-58 NEGATIVE, RIGHT, STRAIGHT, MAXLENGTH2 *)
Definition c4 : f64 := of_int 4.
Definition quarter : f64 := lit 1 (-2).
Definition NEGATIVE : f64 := fneg f1.
Definition RIGHT : f64 := f2.
Definition STRAIGHT : f64 := c4.

Definition is_infinite (x : f64) : bool := match x with B754_infinity _ => true | _ => false end.

(* chordangle.rs:112-139 add, 148-162 sub *)
Definition chord_add (a b : f64) : f64 :=
  if feq b f0 then a
  else if fge (fadd a b) c4 then STRAIGHT
  else
    let x := fmul a (fsub f1 (fmul quarter b)) in
    let y := fmul b (fsub f1 (fmul quarter a)) in
    fmin c4 (fadd (fadd x y) (fmul f2 (fsqrt (fmul x y)))).
Definition chord_sub (a b : f64) : f64 :=
  if feq b f0 then a
  else if fle a b then f0
  else
    let x := fmul a (fsub f1 (fmul quarter b)) in
    let y := fmul b (fsub f1 (fmul quarter a)) in
    fmax f0 (fsub (fadd x y) (fmul f2 (fsqrt (fmul x y)))).

(* chordangle.rs:180-186 from_squared_length *)
Definition from_squared_length (l : f64) : f64 := if fgt l c4 then STRAIGHT else l.
(* chordangle.rs:203-205 is_special, 193-200 expanded, 208-210 is_valid, 212-214 max *)
Definition chord_is_special (a : f64) : bool := flt a f0 || is_infinite a.
Definition chord_expanded (a e : f64) : f64 :=
  if chord_is_special a then a else fmax f0 (fmin c4 (fadd a e)).
Definition chord_is_valid (a : f64) : bool := fge a f0 && fle a c4 || chord_is_special a.
Definition chord_max (a b : f64) : f64 := if flt a b then b else a.
(* chordangle.rs:220-225 max_point_error, 229-231 max_angle_error *)
Definition max_point_error (a : f64) : f64 :=
  fadd (fmul (fmul (lit 5 (-1)) DBL_EPSILON) a) (fmul (fmul (of_int 16) DBL_EPSILON) DBL_EPSILON).
Definition max_angle_error (a : f64) : f64 := fmul DBL_EPSILON a.
(* chordangle.rs:235-237 sin, 241-248 sin2, 252-255 cos, 258-260 tan *)
Definition chord_sin2 (a : f64) : f64 := fmul a (fsub f1 (fmul quarter a)).
Definition chord_sin (a : f64) : f64 := fsqrt (chord_sin2 a).
Definition chord_cos (a : f64) : f64 := fsub f1 (fmul fhalf a).
Definition chord_tan (a : f64) : f64 := fdiv (chord_sin a) (chord_cos a).

(* s2/point.rs:378-380 chordangle *)
Definition chordangle (p q : vec) : f64 := fmin c4 (norm2 (vsub p q)).

(** ** s2/cap.rs *)
(* cap.rs:72-75 *)
Record cap := Cap { center : vec; radius : f64 }.

(* cap.rs:34-38 CENTER_POINT, 95-100 From<&Point>, 110-115 from_center_chordangle,
   120-122 from_center_height, 133-140 empty, full *)
Definition CENTER_POINT : vec := Vec f1 f0 f0.
Definition cap_from_point (p : vec) : cap := Cap p f0.
Definition cap_from_center_height (c : vec) (h : f64) : cap := Cap c (from_squared_length (fmul f2 h)).
Definition cap_empty : cap := Cap CENTER_POINT NEGATIVE.
Definition cap_full : cap := Cap CENTER_POINT STRAIGHT.

(* cap.rs:143-155 is_valid, is_empty, is_full; 164-166 height *)
Definition cap_is_valid (c : cap) : bool := is_unit (center c) && fle (radius c) STRAIGHT.
Definition cap_is_empty (c : cap) : bool := flt (radius c) f0.
Definition cap_is_full (c : cap) : bool := feq (radius c) STRAIGHT.
Definition cap_height (c : cap) : f64 := fmul fhalf (radius c).

(* cap.rs:182-189 contains *)
Definition cap_contains (c o : cap) : bool :=
  if cap_is_full c || cap_is_empty o then true
  else fge (radius c) (chord_add (chordangle (center c) (center o)) (radius o)).
(* cap.rs:193-199 intersects *)
Definition cap_intersects (c o : cap) : bool :=
  if cap_is_full c || cap_is_empty o then false
  else fge (chord_add (radius c) (radius o)) (chordangle (center c) (center o)).
(* cap.rs:202-209 interior_intersects *)
Definition cap_interior_intersects (c o : cap) : bool :=
  if fle (radius c) f0 || cap_is_empty o then false
  else fgt (chord_add (radius c) (radius o)) (chordangle (center c) (center o)).
(* cap.rs:212-219 contains_point, interior_contains_point *)
Definition cap_contains_point (c : cap) (p : vec) : bool := fle (chordangle (center c) p) (radius c).
Definition cap_interior_contains_point (c : cap) (p : vec) : bool :=
  cap_is_full c || flt (chordangle (center c) p) (radius c).
(* cap.rs:226-234 complement *)
Definition cap_complement (c : cap) : cap :=
  if cap_is_full c then cap_empty
  else if cap_is_empty c then cap_full
  else Cap (vscale (center c) (fneg f1)) (chord_sub STRAIGHT (radius c)).
(* cap.rs:250-256 expanded; the Angle is given as the chord angle converted from it *)
Definition cap_expanded (c : cap) (d : f64) : cap :=
  if cap_is_empty c then cap_empty else Cap (center c) (chord_add (radius c) d).
(* cap.rs:474-480 eq *)
Definition cap_eq (c o : cap) : bool :=
  feq (radius c) (radius o) && veq (center c) (center o)
  || cap_is_empty c && cap_is_empty o || cap_is_full c && cap_is_full o.
(* cap.rs:482-497 add a point *)
Definition cap_add_point (c : cap) (p : vec) : cap :=
  if cap_is_empty c then cap_from_point p
  else Cap (center c) (fmax (chordangle (center c) p) (radius c)).
(* cap.rs:505-522 add a cap *)
Definition cap_add (c o : cap) : cap :=
  if cap_is_empty c then o
  else if cap_is_empty o then c
  else
    let dist := chord_add (chordangle (center c) (center o)) (radius o) in
    let new_rad := fmax (chord_expanded dist (fmul DBL_EPSILON dist)) (radius c) in
    Cap (center c) new_rad.

(* cell.rs:127-135 vertices *)
Fixpoint vertices_from (d : s2cell) (ks : list Z) : option (list vec) :=
  match ks with
  | [] => Some []
  | k :: t => let* v := cell_vertex d k in let* r := vertices_from d t in Some (v :: r)
  end.
Definition cell_vertices (d : s2cell) : option (list vec) := vertices_from d [0; 1; 2; 3].

(* cap.rs:386-411 the loop of intersects_cell_vertices from index k on *)
Fixpoint edges_check (c : cap) (d : s2cell) (vs : list vec) (sin2 : f64) (ks : list Z) : option bool :=
  match ks with
  | [] => Some false
  | k :: t =>
      let* edge := cell_edge d k in
      let dt := dot (center c) edge in
      if fgt dt f0 then edges_check c d vs sin2 t
      else if fgt (fmul dt dt) (fmul sin2 (norm2 edge)) then Some false
      else
        let dir := cross edge (center c) in
        let* v := index vs k in
        let* w := index vs (Z.land (k + 1) 3) in
        if flt (dot dir v) f0 && fgt (dot dir w) f0 then Some true
        else edges_check c d vs sin2 t
  end.
(* cap.rs:362-412 intersects_cell_vertices *)
Definition intersects_cell_vertices (c : cap) (d : s2cell) (vs : list vec) : option bool :=
  if fge (radius c) RIGHT then Some false
  else if cap_is_empty c then Some false
  else
    let* b := cell_contains_point d (center c) in
    if b : bool then Some true
    else edges_check c d vs (chord_sin2 (radius c)) [0; 1; 2; 3].
(* cap.rs:314-324 contains_cell, 327-336 intersects_cell *)
Definition cap_contains_cell (c : cap) (d : s2cell) : option bool :=
  let* vs := cell_vertices d in
  if forallb (cap_contains_point c) vs then
    let* b := intersects_cell_vertices (cap_complement c) d vs in Some (negb b)
  else Some false.
Definition cap_intersects_cell (c : cap) (d : s2cell) : option bool :=
  let* vs := cell_vertices d in
  if existsb (cap_contains_point c) vs then Some true
  else intersects_cell_vertices c d vs.
