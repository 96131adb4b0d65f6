(** Specification vocabulary for chord angles and caps: exact angles, the unit
    sphere of real space, and the set of directions a cap stands for. *)
From Coq Require Import ZArith Reals.
From Verif Require Import F64 VectorModel.
Open Scope R_scope.

(* the squared length of the chord of an angle *)
Definition chord (t : R) : R := 4 * (sin (t / 2) * sin (t / 2)).

(* points of real space *)
Record pos := Pos { px3 : R; py3 : R; pz3 : R }.
Definition on_sphere (d : pos) : Prop := px3 d * px3 d + py3 d * py3 d + pz3 d * pz3 d = 1.
Definition dist2 (d e : pos) : R :=
  (px3 d - px3 e) * (px3 d - px3 e) + (py3 d - py3 e) * (py3 d - py3 e) + (pz3 d - pz3 e) * (pz3 d - pz3 e).

(* the point of the sphere in the direction of a vector of doubles *)
Definition direction (v : vec) : pos :=
  let n := sqrt (B2R (vx v) * B2R (vx v) + B2R (vy v) * B2R (vy v) + B2R (vz v) * B2R (vz v)) in
  Pos (B2R (vx v) / n) (B2R (vy v) / n) (B2R (vz v) / n).

(* the points of the sphere within a given squared distance of a point *)
Definition in_disc (c : vec) (r2 : R) (d : pos) : Prop := on_sphere d /\ dist2 (direction c) d <= r2.

(* the point at (u,v) on a face of the cube, and the part of the sphere below a
   rectangle of a face *)
Definition face_pos (f : Z) (u v : R) : pos :=
  if (f =? 0)%Z then Pos 1 u v
  else if (f =? 1)%Z then Pos (- u) 1 v
  else if (f =? 2)%Z then Pos (- u) (- v) 1
  else if (f =? 3)%Z then Pos (-1) (- v) (- u)
  else if (f =? 4)%Z then Pos v (-1) (- u)
  else Pos v u (-1).
Definition in_patch (f : Z) (u0 u1 v0 v1 : R) (d : pos) : Prop :=
  on_sphere d /\ exists u v t, u0 <= u <= u1 /\ v0 <= v <= v1 /\ 0 < t /\
    px3 d = t * px3 (face_pos f u v) /\ py3 d = t * py3 (face_pos f u v) /\ pz3 d = t * pz3 (face_pos f u v).
