(** Model of the Region implementations of src/s2/cap.rs, cell.rs, cellunion.rs and
    point.rs as far as the region coverer uses them.  The only library function without
    an IEEE definition is asin: it is the parameter [fasin]. *)
From Coq Require Import List.
From Verif Require Import Base F64 VectorModel StuvModel R1Model CellIdModel CellUnionModel NeighborModel CellModel CapModel MetricModel CovererModel.
Import ListNotations.
Open Scope Z_scope.

(* s1/chordangle.rs:95-108 Angle::from(ChordAngle), in radians (angle.rs:79-91 rad, inf) *)
Definition chord_to_angle (fasin : f64 -> f64) (ca : f64) : f64 :=
  if flt ca f0 then fneg f1
  else if is_infinite ca then B754_infinity false
  else fmul f2 (fasin (fmul fhalf (fsqrt ca))).

(* cap.rs:341-357 cell_union_bound; 172-174 radius *)
Definition cap_cell_union_bound (fasin : f64 -> f64) (c : cap) : option (list Z) :=
  let* lvl := MetricModel.max_level MIN_WIDTHMETRIC (chord_to_angle fasin (radius c)) in
  if lvl =? 0 then
    let* f0 := from_face 0 in let* f1 := from_face 1 in let* f2 := from_face 2 in
    let* f3 := from_face 3 in let* f4 := from_face 4 in let* f5 := from_face 5 in
    Some [f0; f1; f2; f3; f4; f5]
  else
    let* x := cellid_from_point (center c) in vertex_neighbors x (lvl - 1).

(* cell.rs:412-425 cap_bound; r2/rect.rs:113-115 center *)
Definition cell_cap_bound (s : s2cell) : option cap :=
  let* r := face_uv_to_xyz (c_face s) (r1_center (rx (c_uv s))) (r1_center (ry (c_uv s))) in
  let* vs := cell_vertices s in
  Some (fold_left cap_add_point vs (cap_from_point (VectorModel.normalize r))).

(* cellunion.rs:422-431 the weighted sum of the centres *)
Fixpoint centroid_loop (l : list Z) (acc : vec) : option vec :=
  match l with
  | [] => Some acc
  | x :: t =>
      let* lvl := level x in
      let area := value AVG_AREAMETRIC lvl in
      let* p := point_from_cellid x in
      centroid_loop t (vadd acc (vscale p area))
  end.
(* cellunion.rs:443-446 *)
Fixpoint caps_loop (l : list Z) (acc : cap) : option cap :=
  match l with
  | [] => Some acc
  | x :: t =>
      let* s := cell_from_cellid x in
      let* b := cell_cap_bound s in
      caps_loop t (cap_add acc b)
  end.
(* cellunion.rs:415-448 cap_bound; Point::from_coords(1, 0, 0) (point.rs:111-117) is
   the normalised vector *)
Definition union_cap_bound (l : list Z) : option cap :=
  match l with
  | [] => Some cap_empty
  | _ =>
      let* s := centroid_loop l (Vec f0 f0 f0) in
      let axis := if feq (vx s) f0 && feq (vy s) f0 && feq (vz s) f0 then VectorModel.normalize (Vec f1 f0 f0) else VectorModel.normalize s in
      caps_loop l (cap_from_point axis)
  end.

(* What the coverer sees of a region: it builds the Cell of an id (region.rs:214, 332,
   cell.rs:50-63) and asks.  A panic has no answer; the theorems of PropsRegion.v show that
   there is none, so that the default below is never used. *)
Definition answer (o : option bool) : bool := match o with Some b => b | None => false end.
Definition bound_list (o : option (list Z)) : list Z := match o with Some l => l | None => [] end.

(* cap.rs:312-357 impl Region for Cap, without rect_bound *)
Definition cap_intersects_id (c : cap) (x : Z) : option bool := let* s := cell_from_cellid x in cap_intersects_cell c s.
Definition cap_contains_id (c : cap) (x : Z) : option bool := let* s := cell_from_cellid x in cap_contains_cell c s.
Definition cap_region (fasin : f64 -> f64) (c : cap) : region :=
  Region (fun x => answer (cap_intersects_id c x)) (fun x => answer (cap_contains_id c x)) (bound_list (cap_cell_union_bound fasin c)).

(* cellunion.rs:413-472 impl Region for CellUnion *)
Definition cellunion_bound (fasin : f64 -> f64) (l : list Z) : option (list Z) :=
  let* c := union_cap_bound l in cap_cell_union_bound fasin c.
Definition cellunion_region (fasin : f64 -> f64) (l : list Z) : region :=
  Region (fun x => answer (intersects_cellid l x)) (fun x => answer (contains_cellid l x)) (bound_list (cellunion_bound fasin l)).

(* cell.rs:410-436 impl Region for Cell, with the trait's cell_union_bound (region.rs:58-60) *)
Definition cell_bound (fasin : f64 -> f64) (x : Z) : option (list Z) :=
  let* s := cell_from_cellid x in let* c := cell_cap_bound s in cap_cell_union_bound fasin c.
Definition cell_region (fasin : f64 -> f64) (x : Z) : region :=
  Region (fun y => answer (intersects x y)) (fun y => answer (contains x y)) (bound_list (cell_bound fasin x)).

(* point.rs:419-440 impl Region for Point, with the trait's cell_union_bound *)
Definition point_intersects_id (p : vec) (x : Z) : option bool := let* s := cell_from_cellid x in cell_contains_point s p.
Definition point_region (fasin : f64 -> f64) (p : vec) : region :=
  Region (fun x => answer (point_intersects_id p x)) (fun _ => false) (bound_list (cap_cell_union_bound fasin (cap_from_point p))).

(* cellunion.rs:386-389 the least level of the cells, starting from MAX_LEVEL *)
Fixpoint coarsest (l : list Z) (acc : Z) : option Z :=
  match l with
  | [] => Some acc
  | x :: t => let* v := level x in coarsest t (Z.min acc v)
  end.
(* cellunion.rs:385-395 expand_by_radius; the Angle is given by its radians (angle.rs:79-81) *)
Definition expand_by_radius (l : list Z) (rad : f64) (max_level_diff : Z) : option (list Z) :=
  let* min_level := coarsest l 30 in
  let* radius_level := MetricModel.max_level MIN_WIDTHMETRIC rad in
  let* l := if (radius_level =? 0) && fgt rad (value MIN_WIDTHMETRIC 0) then expand_at_level l 0 else Some l in
  let* s := add64 min_level max_level_diff in
  expand_at_level l (Z.min s radius_level).
