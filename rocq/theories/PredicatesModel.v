(** Model of src/s2/predicates.rs, of simple_crossing (src/s2/edgeutil.rs) and of
    ordered_ccw (src/s2/point.rs).  A Point is its Vector (s2/point.rs:22). *)
From Verif Require Import Base F64 VectorModel.
Open Scope Z_scope.

(* predicates.rs:48 1.8274 * DBL_EPSILON *)
Definition MAX_DETERMINANT_ERROR : f64 := fmul (lit 0x1d3d07c84b5dcc (-52)) DBL_EPSILON.
(* predicates.rs:58 3.2321 * DBL_EPSILON *)
Definition DET_ERROR_MULTIPLIER : f64 := fmul (lit 0x19db573eab367a (-51)) DBL_EPSILON.

(* predicates.rs:60-66 *)
Inductive direction := Clockwise | Indeterminate | CounterClockwise.

(* predicates.rs:77-90 sign *)
Definition sign (a b c : vec) : bool := fgt (dot (cross c a) b) f0.

(* the comparison that ends stable_sign (176-183) and triage_sign (193-200) *)
Definition judge (det err : f64) : direction :=
  if fgt det err then CounterClockwise
  else if flt det (fneg err) then Clockwise
  else Indeterminate.

(* predicates.rs:191-200 triage_sign *)
Definition triage_sign (a b c : vec) : direction := judge (dot (cross a b) c) MAX_DETERMINANT_ERROR.

(* predicates.rs:143-184 stable_sign *)
Definition stable_sign (a b c : vec) : direction :=
  let ab := vsub b a in
  let ab2 := norm2 ab in
  let bc := vsub c b in
  let bc2 := norm2 bc in
  let ca := vsub a c in
  let ca2 := norm2 ca in
  let '(e1, e2, op) :=
    if fge ab2 bc2 && fge ab2 ca2 then (ca, bc, c)
    else if fge bc2 ca2 then (ab, ca, a)
    else (bc, ab, b) in
  let det := fneg (dot (cross e1 e2) op) in
  let max_err := fmul DET_ERROR_MULTIPLIER (fsqrt (fmul (norm2 e1) (norm2 e2))) in
  judge det max_err.

(* predicates.rs:230-238 exact_sign *)
Definition exact_sign (_ _ _ : vec) (_ : bool) : direction := Indeterminate.

(* predicates.rs:205-227 expensive_sign *)
Definition expensive_sign (a b c : vec) : direction :=
  if veq a b || veq b c || veq c a then Indeterminate
  else match stable_sign a b c with
       | Indeterminate => exact_sign a b c false
       | d => d
       end.

(* predicates.rs:118-125 robust_sign *)
Definition robust_sign (a b c : vec) : direction :=
  match triage_sign a b c with
  | Indeterminate => expensive_sign a b c
  | d => d
  end.

(* edgeutil.rs:96-114 simple_crossing *)
Definition simple_crossing (a b c d : vec) : bool :=
  let ab := cross a b in
  let acb := fneg (dot ab c) in
  let bda := dot ab d in
  if fle (fmul acb bda) f0 then false
  else
    let cd := cross c d in
    let cbd := fneg (dot cd b) in
    let dac := dot cd a in
    fgt (fmul acb cbd) f0 && fgt (fmul acb dac) f0.

(* point.rs:224-236 ordered_ccw *)
Definition ordered_ccw (a b c o : vec) : bool :=
  let s1 := match robust_sign b o a with Clockwise => 0 | _ => 1 end in
  let s2 := match robust_sign c o b with Clockwise => 0 | _ => 1 end in
  let s3 := match robust_sign a o c with CounterClockwise => 1 | _ => 0 end in
  2 <=? s1 + s2 + s3.
