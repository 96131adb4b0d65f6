(** Specification of the region coverer, independent of the search. *)
From Verif Require Import Base Spec CovererModel.

(* Parameters within the documented ranges. *)
Definition allowed (p : params) : Prop :=
  0 <= min_level p <= 30 /\ 0 <= max_level p <= 30 /\ 1 <= level_mod p <= 3 /\ 0 <= max_cells p.

(* A region is a set of leaf cells (those that meet it).  Its predicates are sound:
   every cell that meets the region is reported as intersecting, ... *)
Definition detects (r : region) (R : Z -> Prop) : Prop :=
  forall c m, wf c -> leaves c m -> R m -> intersects_cell r (code c) = true.
(* ... a cell reported as contained lies inside the region, ... *)
Definition inside (r : region) (R : Z -> Prop) : Prop :=
  forall c, wf c -> contains_cell r (code c) = true -> forall m, leaves c m -> R m.
(* ... and the cell bound is a list of valid ids, and covers the region. *)
Definition valid_bound (r : region) : Prop := Forall valid_id (cell_union_bound r).
Definition bounds (r : region) (R : Z -> Prop) : Prop :=
  forall m, R m -> covered (cell_union_bound r) m.

(* Levels the user asked for. *)
Definition level_allowed (p : params) (l : Z) : Prop :=
  min_level p <= l <= Z.max (min_level p) (max_level p) /\ (l - min_level p) mod level_mod p = 0.

(* [f] gives this answer whenever it is run for long enough. *)
Definition yields {A} (f : nat -> option A) (a : A) : Prop :=
  exists N, forall fuel, (N <= fuel)%nat -> f fuel = Some a.
