(** The points of the sphere in a latitude-longitude rectangle.  Independent of the model. *)
From Coq Require Import Reals.
From Verif Require Import F64 IntervalSpec RectSpec CapSpec TrigSpec.
Open Scope R_scope.

(* [d] has a latitude and a longitude in the rectangle.  The model's arcs are taken modulo
   the double [2 * pi], so the longitude is one from -PI to PI. *)
Definition area (s n w e : f64) (d : pos) : Prop :=
  exists p t, zone s n w e (p, t) /\ Rabs t <= PI /\ d = sphere_at p t.
(* [d] is at most a chord of length [r] away from a point of the rectangle *)
Definition near_area (s n w e : f64) (r : R) (d : pos) : Prop := exists d', area s n w e d' /\ apart d d' <= r.
(* likewise for the interior of the rectangle *)
Definition interior_area (s n w e : f64) (d : pos) : Prop :=
  exists p t, zone_interior s n w e (p, t) /\ Rabs t <= PI /\ d = sphere_at p t.
