(** Specification vocabulary for cells as regions. *)
From Coq Require Import Reals.
From Verif Require Import Base Spec HilbertSpec F64 VectorModel.
Open Scope Z_scope.

(* the component of a point along the axis of face f: faces 0..5 are +x +y +z -x -y -z *)
Definition axis_comp (f : Z) (p : vec) : f64 :=
  if f mod 3 =? 0 then vx p else if f mod 3 =? 1 then vy p else vz p.

(* corner k of a square, in the order of Cell::vertex: lower left, lower right, upper
   right, upper left *)
Definition corner (q : square) (k : Z) : Z * Z * Z :=
  cube_point (sq_face q) (sq_i q + (if (k =? 1) || (k =? 2) then sq_side q else 0))
    (sq_j q + (if 2 <=? k then sq_side q else 0)).

(* finite coordinates, not all zero *)
Definition finite_point (p : vec) : Prop :=
  is_finite (vx p) = true /\ is_finite (vy p) = true /\ is_finite (vz p) = true /\
  (B2R (vx p) <> 0 \/ B2R (vy p) <> 0 \/ B2R (vz p) <> 0)%R.
