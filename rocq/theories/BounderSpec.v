(** Chains of edges on the sphere.  Independent of the model. *)
From Coq Require Import Reals List.
From Verif Require Import CapSpec RegionSpec PointSpec.
Import ListNotations.
Open Scope R_scope.

(* [d] is one of the points [ds], or lies on the shorter arc of a great circle from one of
   them to the next *)
Fixpoint on_chain (ds : list pos) (d : pos) : Prop :=
  match ds with
  | [] => False
  | a :: r => d = a \/ match r with
                       | [] => False
                       | b :: _ => exists t, 0 <= t <= angle_between a b /\ d = along a b t
                       end \/ on_chain r d
  end.
(* no two consecutive points are more than [m] apart, in radians *)
Fixpoint steps_within (m : R) (ds : list pos) : Prop :=
  match ds with
  | [] => True
  | a :: r => match r with [] => True | b :: _ => angle_between a b <= m end /\ steps_within m r
  end.
