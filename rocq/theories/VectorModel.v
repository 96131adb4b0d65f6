(** Model of src/r3/vector.rs.  Line numbers refer to that file.

    Not modelled: Debug.  angle calls atan2 and is in TrigModel.v. *)
From Verif Require Import F64.
Open Scope Z_scope.

(* vector.rs:26-30 struct Vector *)
Record vec := Vec { vx : f64; vy : f64; vz : f64 }.

(* vector.rs:24 derived PartialEq: equality of the components as numbers *)
Definition veq (a b : vec) : bool := feq (vx a) (vx b) && feq (vy a) (vy b) && feq (vz a) (vz b).

(* vector.rs:45-54 Add *)
Definition vadd (a b : vec) : vec := Vec (fadd (vx a) (vx b)) (fadd (vy a) (vy b)) (fadd (vz a) (vz b)).
(* vector.rs:63-72 Sub *)
Definition vsub (a b : vec) : vec := Vec (fsub (vx a) (vx b)) (fsub (vy a) (vy b)) (fsub (vz a) (vz b)).
(* vector.rs:80-89 Mul<Vector> *)
Definition vmul (a b : vec) : vec := Vec (fmul (vx a) (vx b)) (fmul (vy a) (vy b)) (fmul (vz a) (vz b)).
(* vector.rs:92-101 Mul<f64> *)
Definition vscale (a : vec) (m : f64) : vec := Vec (fmul (vx a) m) (fmul (vy a) m) (fmul (vz a) m).

(* vector.rs:119-146 Ord::cmp *)
Definition vcmp (a b : vec) : comparison :=
  if flt (vx a) (vx b) then Lt
  else if fgt (vx a) (vx b) then Gt
  else if flt (vy a) (vy b) then Lt
  else if fgt (vy a) (vy b) then Gt
  else if flt (vz a) (vz b) then Lt
  else if fgt (vz a) (vz b) then Gt
  else Eq.

(* vector.rs:155-159 approx_eq *)
Definition vapprox_eq (a b : vec) : bool :=
  flt (fabs (fsub (vx a) (vx b))) EPSILON && flt (fabs (fsub (vy a) (vy b))) EPSILON &&
  flt (fabs (fsub (vz a) (vz b))) EPSILON.

(* vector.rs:181-183 dot *)
Definition dot (a b : vec) : f64 :=
  fadd (fadd (fmul (vx a) (vx b)) (fmul (vy a) (vy b))) (fmul (vz a) (vz b)).
(* vector.rs:167-169 norm2, 162-164 norm *)
Definition norm2 (a : vec) : f64 := dot a a.
Definition norm (a : vec) : f64 := fsqrt (norm2 a).

(* vector.rs:172-178 normalize *)
Definition normalize (a : vec) : vec :=
  if feq (vx a) f0 && feq (vy a) f0 && feq (vz a) f0 then a
  else vscale a (fdiv f1 (norm a)).

(* vector.rs:186-189 is_unit; 5e-14 = 0x3D2C25C268497682 *)
Definition EPSILON2 : f64 := lit 0x1C25C268497682 (-97).
Definition is_unit (a : vec) : bool := flt (fabs (fsub (norm2 a) f1)) EPSILON2.

(* vector.rs:192-198 abs *)
Definition vabs (a : vec) : vec := Vec (fabs (vx a)) (fabs (vy a)) (fabs (vz a)).

(* vector.rs:201-207 cross *)
Definition cross (a b : vec) : vec :=
  Vec (fsub (fmul (vy a) (vz b)) (fmul (vz a) (vy b)))
      (fsub (fmul (vz a) (vx b)) (fmul (vx a) (vz b)))
      (fsub (fmul (vx a) (vy b)) (fmul (vy a) (vx b))).

(* vector.rs:210-212 distance *)
Definition vdistance (a b : vec) : f64 := norm (vsub a b).

(* vector.rs:263-267 Axis *)
Inductive axis := AX | AY | AZ.

(* vector.rs:236-245 largest_component *)
Definition largest_component (v : vec) : axis :=
  let a := vabs v in
  if fgt (vx a) (vy a) then (if fgt (vx a) (vz a) then AX else AZ)
  else if fgt (vy a) (vz a) then AY else AZ.

(* vector.rs:248-257 smallest_component *)
Definition smallest_component (v : vec) : axis :=
  let t := vabs v in
  if flt (vx t) (vy t) then (if flt (vx t) (vz t) then AX else AZ)
  else if flt (vy t) (vz t) then AY else AZ.

(* vector.rs:221-233 ortho; 0.012 = 0x3F889374BC6A7EFA, 0.0053 = 0x3F75B573EAB367A1,
   0.00457 = 0x3F72B7FE08AEFB2B *)
Definition ortho (a : vec) : vec :=
  let ox := lit 0x189374BC6A7EFA (-59) in
  let oy := lit 0x15B573EAB367A1 (-60) in
  let oz := lit 0x12B7FE08AEFB2B (-60) in
  let ov := match largest_component a with
            | AX => Vec ox oy f1
            | AY => Vec f1 oy oz
            | AZ => Vec ox f1 oz
            end in
  normalize (cross a ov).
