(** Distances along the circle.  Independent of the model. *)
From Coq Require Import Reals.
From Verif Require Import F64 IntervalSpec.
Open Scope R_scope.

(** The length of the arc from [lo] counter-clockwise to [hi]. *)
Definition arc_length (lo hi : f64) : R := arc_end (B2R lo) (B2R hi) - B2R lo.
(** [t] is at most [r] away from a point of P, along the circle. *)
Definition within (P : R -> Prop) (r t : R) : Prop := exists s, P s /\ exists k : Z, Rabs (t + 2 * pi * IZR k - s) <= r.
(** Everything at most [r] away from [t] is in P. *)
Definition deep (P : R -> Prop) (r t : R) : Prop := forall s, Rabs (s - t) <= r -> P s.
(** Two ends of arcs are at most [r] apart, along the circle. *)
Definition close (a b : f64) (r : R) : Prop := exists n : Z, Rabs (B2R b - B2R a - 2 * pi * IZR n) <= r.
