(** Specification of frames and regular polygons. *)
From Coq Require Import Reals.
From Verif Require Import F64 IntervalSpec VectorModel CapSpec PointSpec.
Open Scope R_scope.

(* three orthogonal axes of length 1, in the order of the thumb, index and middle finger of
   the right hand *)
Definition right_handed (e0 e1 e2 : pos) : Prop :=
  dot3 e0 e0 = 1 /\ dot3 e1 e1 = 1 /\ dot3 e0 e1 = 0 /\ e2 = cross3 e0 e1.
(* the point with the coordinates [q] with respect to the axes *)
Definition in_axes (e0 e1 e2 q : pos) : pos :=
  Pos (px3 q * px3 e0 + py3 q * px3 e1 + pz3 q * px3 e2) (px3 q * py3 e0 + py3 q * py3 e1 + pz3 q * py3 e2) (px3 q * pz3 e0 + py3 q * pz3 e1 + pz3 q * pz3 e2).
(* the point at the angle [r] from the third axis, turned by [t] from the first axis towards
   the second *)
Definition on_circle (e0 e1 e2 : pos) (r t : R) : pos := in_axes e0 e1 e2 (Pos (sin r * cos t) (sin r * sin t) (cos r)).
(* What is assumed of sin and cos between -8 and 8. *)
Definition accurate8 (f : f64 -> f64) (g : R -> R) : Prop := forall x, finite x -> Rabs (B2R x) <= 8 ->
  finite (f x) /\ Rabs (B2R (f x) - g (B2R x)) <= 1 / 2 ^ 50.
(* the coordinates of a vector are finite and within [e] of those of a point *)
Definition close (v : vec) (p : pos) (e : R) : Prop :=
  finite_vec v /\ Rabs (B2R (vx v) - px3 p) <= e /\ Rabs (B2R (vy v) - py3 p) <= e /\ Rabs (B2R (vz v) - pz3 p) <= e.
(* coordinates of at most [k] in magnitude *)
Definition within (k : R) (p : pos) : Prop := Rabs (px3 p) <= k /\ Rabs (py3 p) <= k /\ Rabs (pz3 p) <= k.
