(** What latitude-longitude rectangles denote.  Independent of the model. *)
From Coq Require Import Reals.
From Verif Require Import F64 IntervalSpec.
Open Scope R_scope.

(** A position: latitude and longitude, in radians.  Longitudes are taken modulo
    [2 * pi] (IntervalSpec.v), so (p, t) and (p, t + 2 * pi) are the same position. *)
Definition position := (R * R)%type.
Definition lat_lng (p t : f64) : position := (B2R p, B2R t).

(** The positions of a rectangle, given by the ends of its two intervals. *)
Definition zone (s n w e : f64) (x : position) : Prop := between s n (Fin (fst x)) /\ arc w e (snd x).
(** Its interior. *)
Definition zone_interior (s n w e : f64) (x : position) : Prop :=
  strictly_between s n (Fin (fst x)) /\ arc_interior w e (snd x).

(** Latitudes from -pi/2 to pi/2, a valid arc, and both empty or none. *)
Definition valid_zone (s n w e : f64) : Prop :=
  finite s /\ number n /\ - (pi / 2) <= B2R s <= pi / 2 /\ ele (ev n) (Fin (pi / 2)) /\
  valid_arc w e /\ (void (between s n) <-> void (arc w e)).
(** A valid latitude and longitude. *)
Definition valid_position (p t : f64) : Prop :=
  finite p /\ finite t /\ - (pi / 2) <= B2R p <= pi / 2 /\ - pi <= B2R t <= pi.
