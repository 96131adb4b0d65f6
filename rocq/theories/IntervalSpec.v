(** What intervals and rectangles denote.  Independent of the model of the
    interval code: only the values of doubles are used. *)
From Coq Require Import Reals.
From Verif Require Import F64.
Open Scope R_scope.

(** Points of the extended real line. *)
Inductive ext := MInf | Fin (r : R) | PInf.
Definition ele (x y : ext) : Prop :=
  match x, y with
  | MInf, _ => True
  | _, PInf => True
  | Fin a, Fin b => a <= b
  | _, _ => False
  end.
Definition elt (x y : ext) : Prop := ~ ele y x.

(** The value of a double that is not NaN. *)
Definition ev (x : f64) : ext :=
  match x with
  | B754_infinity true => MInf
  | B754_infinity false => PInf
  | _ => Fin (B2R x)
  end.
Definition number (x : f64) : Prop := is_nan x = false.
Definition finite (x : f64) : Prop := is_finite x = true.

(** The closed interval with bounds lo, hi, and its interior. *)
Definition between (lo hi : f64) (x : ext) : Prop := ele (ev lo) x /\ ele x (ev hi).
Definition strictly_between (lo hi : f64) (x : ext) : Prop := elt (ev lo) x /\ elt x (ev hi).

(** Set vocabulary. *)
Definition subset {A} (P Q : A -> Prop) : Prop := forall x, P x -> Q x.
Definition meets {A} (P Q : A -> Prop) : Prop := exists x, P x /\ Q x.
Definition void {A} (P : A -> Prop) : Prop := forall x, ~ P x.

(** The circle: angles are taken modulo [2 * pi], where [pi] is the double
    nearest to the number pi, since the code represents the circle by [-pi, pi]
    with its ends identified. *)
Definition pi : R := B2R PI64.

(** Where an arc that starts at [lo] and turns counter-clockwise to [hi] ends. *)
Definition arc_end (lo hi : R) : R := if Rle_dec lo hi then hi else hi + 2 * pi.

(** The pair [pi, -pi] stands for the empty set. *)
Definition arc (lo hi : f64) (t : R) : Prop :=
  ~ (B2R lo = pi /\ B2R hi = - pi) /\
  exists k : Z, B2R lo <= t + 2 * pi * IZR k <= arc_end (B2R lo) (B2R hi).
(** Interior; the interior of the full circle is the circle. *)
Definition arc_interior (lo hi : f64) (t : R) : Prop :=
  (B2R lo = - pi /\ B2R hi = pi) \/
  exists k : Z, B2R lo < t + 2 * pi * IZR k < arc_end (B2R lo) (B2R hi).

(** Endpoints of a valid circular interval: finite, in [-pi, pi], with -pi used
    only in the full interval [-pi, pi] and the empty interval [pi, -pi]. *)
Definition valid_arc (lo hi : f64) : Prop :=
  finite lo /\ finite hi /\ - pi <= B2R lo <= pi /\ - pi <= B2R hi <= pi /\
  (B2R lo = - pi -> B2R hi = pi) /\ (B2R hi = - pi -> B2R lo = pi).
(** An angle as the code takes it. *)
Definition angle (p : f64) : Prop := finite p /\ - pi <= B2R p <= pi.
