(** Specification of cross products and of points along great circles. *)
From Coq Require Import Reals.
From Verif Require Import F64 IntervalSpec VectorModel CapSpec.
Open Scope R_scope.

Definition dot3 (a b : pos) : R := px3 a * px3 b + py3 a * py3 b + pz3 a * pz3 b.
Definition cross3 (a b : pos) : pos :=
  Pos (py3 a * pz3 b - pz3 a * py3 b) (pz3 a * px3 b - px3 a * pz3 b) (px3 a * py3 b - py3 a * px3 b).
Definition length3 (a : pos) : R := sqrt (dot3 a a).
(* the position a vector stands for *)
Definition position (v : vec) : pos := Pos (B2R (vx v)) (B2R (vy v)) (B2R (vz v)).
Definition finite_vec (v : vec) : Prop := finite (vx v) /\ finite (vy v) /\ finite (vz v).
(* opposite vectors *)
Definition opposite3 (v w : vec) : Prop :=
  finite_vec v /\ finite_vec w /\ B2R (vx v) = - B2R (vx w) /\ B2R (vy v) = - B2R (vy w) /\ B2R (vz v) = - B2R (vz w).

(* The unit vector orthogonal to [a] on the side of [b], for points on the unit sphere: what
   is left of [b] without its component along [a], scaled to length 1. *)
Definition heading (a b : pos) : pos :=
  let k := dot3 a b in
  let r := Pos (px3 b - k * px3 a) (py3 b - k * py3 a) (pz3 b - k * pz3 a) in
  Pos (px3 r / length3 r) (py3 r / length3 r) (pz3 r / length3 r).
(* the point at the angle [t] from [a] on the great circle from [a] through [b] *)
Definition along (a b : pos) (t : R) : pos :=
  let h := heading a b in
  Pos (cos t * px3 a + sin t * px3 h) (cos t * py3 a + sin t * py3 h) (cos t * pz3 a + sin t * pz3 h).
