(** Specification for coverings of regions of the sphere. *)
From Coq Require Import ZArith Reals List.
From Verif Require Import Spec CovererModel CovererSpec F64 IntervalSpec VectorModel CellIdModel HilbertModel CellSpec CellModel CapSpec CapModel.
Open Scope R_scope.

(* What is assumed of the library's asin: on [0,1] it is within 2^-50 of the real one.
   (One unit in the last place of a result between 1 and PI/2 is 2^-52.) *)
Definition accurate_asin (fasin : f64 -> f64) : Prop := forall x, finite x -> 0 <= B2R x <= 1 ->
  finite (fasin x) /\ Rabs (B2R (fasin x) - asin (B2R x)) <= 1 / 2 ^ 50.

(* the length of the chord from the centre of a cap to a point *)
Definition from_center (cp : cap) (p : vec) : R := sqrt (dist2 (direction (center cp)) (direction p)).

(* some id of the list contains the leaf of the point *)
Definition covers_point (l : list BinInt.Z) (p : vec) : Prop :=
  exists x id, cellid_from_point p = Some x /\ In id l /\ contains id x = Some true.

(* every covering of the region has all leaves of the set R, and every interior covering
   has only leaves of R; none of the calls panics or runs forever *)
Definition exact_coverings (pr : params) (r : region) (R : BinInt.Z -> Prop) : Prop := forall tie,
  exists us ds fs ius ids,
    yields (fun fuel => cellunion fuel tie pr r) us /\
    yields (fun fuel => covering fuel tie pr r) ds /\
    yields (fun fuel => fast_covering fuel pr r) fs /\
    yields (fun fuel => interior_cellunion fuel tie pr r) ius /\
    yields (fun fuel => interior_covering fuel tie pr r) ids /\
    (forall m, R m -> covered us m /\ covered ds m /\ covered fs m) /\
    (forall m, covered ius m \/ covered ids m -> R m).

(* the angle between two points of the unit sphere, in radians *)
Definition angle_between (d e : pos) : R := 2 * asin (sqrt (dist2 d e) / 2).
(* a number of radians up to a double, less an allowance; infinity admits every angle *)
Definition below (a : R) (r : f64) (tol : R) : Prop := r = B754_infinity false \/ finite r /\ a < B2R r - tol.
