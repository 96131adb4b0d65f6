(** Specification for conversions between points, latitudes and longitudes, and angles. *)
From Coq Require Import ZArith Reals.
From Flocq Require Import Core.
From Verif Require Import F64 IntervalSpec VectorModel AngleModel CapSpec.
Open Scope R_scope.

(* What is assumed of the library's sin and cos: on [-4,4] the result is within 2^-50 of
   the real function.  (One unit in the last place is at most 2^-53 there.) *)
Definition accurate (f : f64 -> f64) (g : R -> R) : Prop := forall x, finite x -> Rabs (B2R x) <= 4 ->
  finite (f x) /\ Rabs (B2R (f x) - g (B2R x)) <= 1 / 2 ^ 50.

(* [t] is an angle from the positive first axis to the point (x, y) *)
Definition polar_angle (y x t : R) : Prop :=
  - PI <= t <= PI /\ x = sqrt (x * x + y * y) * cos t /\ y = sqrt (x * x + y * y) * sin t.
(* What is assumed of atan2: the result is within 2^-50 of the angle of the point, is at most
   the double PI in magnitude, and at most PI/2 if the point is not on the left; it is a
   finite number for zeros too. *)
Definition accurate_atan2 (f : f64 -> f64 -> f64) : Prop := forall y x, finite y -> finite x ->
  finite (f y x) /\ Rabs (B2R (f y x)) <= pi /\
  (B2R y <> 0 \/ B2R x <> 0 ->
    (0 <= B2R x -> Rabs (B2R (f y x)) <= pi / 2) /\
    exists t, polar_angle (B2R y) (B2R x) t /\ Rabs (B2R (f y x) - t) <= 1 / 2 ^ 50).

(* the point of the unit sphere at a latitude and a longitude *)
Definition sphere_at (lat lng : R) : pos := Pos (cos lng * cos lat) (sin lng * cos lat) (sin lat).
Definition place (p : latlng) : pos := sphere_at (B2R (lat p)) (B2R (lng p)).
(* the length of the chord between two points *)
Definition apart (d e : pos) : R := sqrt (dist2 d e).

(* A stronger assumption on sin, for small angles: the result is at most 1 in magnitude and
   the error is relative. *)
Definition accurate_sin (f : f64 -> f64) : Prop := forall x, finite x -> Rabs (B2R x) <= 4 ->
  finite (f x) /\ Rabs (B2R (f x)) <= 1 /\ Rabs (B2R (f x) - sin (B2R x)) <= 1 / 2 ^ 50 * Rabs (sin (B2R x)) + bpow radix2 (-1000).
(* Likewise for cos, of which the relative error must be small on the way to PI/2 too. *)
Definition accurate_cos (f : f64 -> f64) : Prop := forall x, finite x -> Rabs (B2R x) <= 4 ->
  finite (f x) /\ Rabs (B2R (f x)) <= 1 /\ Rabs (B2R (f x) - cos (B2R x)) <= 1 / 2 ^ 50 * Rabs (cos (B2R x)) + bpow radix2 (-1000).
(* A further assumption on atan2: the upper half plane, the positive zero included, has no
   negative angle. *)
Definition upper_atan2 (f : f64 -> f64 -> f64) : Prop := forall y x, finite y -> finite x -> Bsign y = false -> 0 <= B2R (f y x).
