(** Model of src/s2/cell.rs and of the parts of src/s2/cellid.rs that relate cells
    to points: centres, bounds in (s,t) and (u,v), and the cell of a point. *)
From Verif Require Import Base F64 R1Model VectorModel StuvModel CellIdModel HilbertModel NeighborModel.
Open Scope Z_scope.

(* cellid.rs:746-748 ij_to_stmin *)
Definition ij_to_stmin (i : Z) : f64 := fdiv (of_int i) MAX_SIZE_F64.

(* cellid.rs:949-964 ij_level_to_bound_uv *)
Definition ij_level_to_bound_uv (i j lvl : Z) : option r2 :=
  let* cell_size := size_i32 lvl in
  let* m := chk_i32 (- cell_size) in
  let x_lo := Z.land i m in
  let y_lo := Z.land j m in
  let* x_hi := chk_i32 (x_lo + cell_size) in
  let* y_hi := chk_i32 (y_lo + cell_size) in
  Some (R2 (R1 (st_to_uv (ij_to_stmin x_lo)) (st_to_uv (ij_to_stmin x_hi)))
           (R1 (st_to_uv (ij_to_stmin y_lo)) (st_to_uv (ij_to_stmin y_hi)))).

(* cellid.rs:426-433 raw_point *)
Definition raw_point (x : Z) : option vec :=
  let* (f, si, ti) := face_siti x in
  face_uv_to_xyz f (st_to_uv (siti_to_st (as_u64 si))) (st_to_uv (siti_to_st (as_u64 ti))).

(* cellid.rs:586-592 center_st *)
Definition center_st (x : Z) : option pt2 :=
  let* (_, si, ti) := face_siti x in
  Some (P2 (siti_to_st (as_u64 si)) (siti_to_st (as_u64 ti))).
(* cellid.rs:595-597 size_st *)
Definition size_st (lvl : Z) : option f64 := let* s := size_i32 lvl in Some (ij_to_stmin s).
(* r2/rect.rs:65-70 from_center_size *)
Definition r2_from_center_size (c s : pt2) : r2 :=
  R2 (r1_expanded (r1_from_point (px c)) (fdiv (px s) f2)) (r1_expanded (r1_from_point (py c)) (fdiv (py s) f2)).
(* cellid.rs:601-604 bound_st *)
Definition bound_st (x : Z) : option r2 :=
  let* lvl := level x in
  let* s := size_st lvl in
  let* c := center_st x in
  Some (r2_from_center_size c (P2 s s)).
(* cellid.rs:611-617 center_uv *)
Definition center_uv (x : Z) : option pt2 :=
  let* (_, si, ti) := face_siti x in
  Some (P2 (st_to_uv (siti_to_st (as_u64 si))) (st_to_uv (siti_to_st (as_u64 ti)))).
(* cellid.rs:620-623 bound_uv *)
Definition bound_uv (x : Z) : option r2 :=
  let* (_, i, j, _) := face_ij_orientation x in
  let* lvl := level x in
  ij_level_to_bound_uv i j lvl.

(* cellid.rs:764-788 Point::from(CellID) *)
Definition point_from_cellid (x : Z) : option vec :=
  let* r := raw_point x in Some (normalize r).
(* cellid.rs:813-820 CellID::from(Point) *)
Definition cellid_from_point (p : vec) : option Z :=
  let* (f, u, v) := xyz_to_face_uv p in
  from_face_ij f (st_to_ij (uv_to_st u)) (st_to_ij (uv_to_st v)).

(* cell.rs:42-48 Cell *)
Record s2cell := S2Cell { c_face : Z; c_level : Z; c_orientation : Z; c_id : Z; c_uv : r2 }.

(* cell.rs:50-63 Cell::from(CellID) *)
Definition cell_from_cellid (x : Z) : option s2cell :=
  let* (f, i, j, o) := face_ij_orientation x in
  if negb (f <? 6) then None else
  let* lvl := level x in
  let* uv := ij_level_to_bound_uv i j lvl in
  Some (S2Cell f lvl o x uv).
(* cell.rs:70-74 Cell::from(Point) *)
Definition cell_from_point (p : vec) : option s2cell :=
  let* x := cellid_from_point p in cell_from_cellid x.

(* cell.rs:112-114 is_leaf *)
Definition cell_is_leaf (c : s2cell) : bool := c_level c =? MAX_LEVEL.

(* cell.rs:122-125 vertex; the vertices of 127-135 are those for k = 0..3 *)
Definition cell_vertex (c : s2cell) (k : Z) : option vec :=
  let* v := index (r2_vertices (c_uv c)) k in
  let* r := face_uv_to_xyz (c_face c) (px v) (py v) in
  Some (normalize r).

(* cell.rs:139-147 edge *)
Definition cell_edge (c : s2cell) (k : Z) : option vec :=
  let m1 := fneg f1 in
  if k =? 0 then let* n := vnorm (c_face c) (lo1 (ry (c_uv c))) in Some (normalize n)
  else if k =? 1 then let* n := unorm (c_face c) (hi1 (rx (c_uv c))) in Some (normalize n)
  else if k =? 2 then let* n := vnorm (c_face c) (hi1 (ry (c_uv c))) in Some (normalize (vscale n m1))
  else if k =? 3 then let* n := unorm (c_face c) (lo1 (rx (c_uv c))) in Some (normalize (vscale n m1))
  else None.

(* cell.rs:158-160 center *)
Definition cell_center (c : s2cell) : option vec := point_from_cellid (c_id c).

(* cell.rs:178-206 one child; `level + 1` is a u8 addition of a level below 30 *)
Definition cell_child (c : s2cell) (mid : pt2) (cid pos : Z) : s2cell :=
  let ij := pos_to_ij (c_orientation c) pos in
  let i := Z.shiftr ij 1 in
  let j := Z.land ij 1 in
  let x := rx (c_uv c) in
  let y := ry (c_uv c) in
  S2Cell (c_face c) (c_level c + 1) (Z.lxor (c_orientation c) (pos_to_orientation pos)) cid
    (R2 (if i =? 1 then R1 (px mid) (hi1 x) else R1 (lo1 x) (px mid))
        (if j =? 1 then R1 (py mid) (hi1 y) else R1 (lo1 y) (py mid))).
(* cell.rs:166-210 children; the outer option is the panic, the inner one the value;
   the call of next() after the fourth child is part of the code *)
Definition cell_children (c : s2cell) : option (option (list s2cell)) :=
  if cell_is_leaf c then Some None
  else
    let* mid := center_uv (c_id c) in
    let* c0 := child_begin (c_id c) in
    let* c1 := next c0 in
    let* c2 := next c1 in
    let* c3 := next c2 in
    let* _ := next c3 in
    Some (Some [cell_child c mid c0 0; cell_child c mid c1 1; cell_child c mid c2 2; cell_child c mid c3 3]).

(* r2/rect.rs:178-180 expanded_by_margin *)
Definition r2_expanded_by_margin (r : r2) (m : f64) : r2 := r2_expanded r (P2 m m).

(* cell.rs:392-407 contains_point *)
Definition cell_contains_point (c : s2cell) (p : vec) : option bool :=
  let* r := face_xyz_to_uv (c_face c) p in
  match r with
  | Some (u, v) => Some (r2_contains_point (r2_expanded_by_margin (c_uv c) DBL_EPSILON) (P2 u v))
  | None => Some false
  end.
(* cell.rs:428-435 intersects_cell, contains_cell *)
Definition cell_intersects_cell (c d : s2cell) : option bool := intersects (c_id c) (c_id d).
Definition cell_contains_cell (c d : s2cell) : option bool := contains (c_id c) (c_id d).
