(** Model of average areas (src/s2/cell.rs, src/s2/cellunion.rs), of point containment in a
    cell union and of the centroid of a planar triangle (src/s2/point.rs). *)
From Verif Require Import Base F64 R1Model VectorModel MetricModel CellIdModel CellModel CellUnionModel.
Open Scope Z_scope.

(* cell.rs:249-251 average_area *)
Definition cell_average_area (c : s2cell) : f64 := value AVG_AREAMETRIC (c_level c).
(* cellunion.rs:398-400 average_area *)
Definition union_average_area (v : list Z) : option f64 :=
  let* n := leaf_cell_covered v in
  Some (fmul (value AVG_AREAMETRIC MAX_LEVEL) (of_int n)).
(* cellunion.rs:358-360 contains_point *)
Definition union_contains_point (v : list Z) (p : vec) : option bool :=
  let* x := cellid_from_point p in contains_cellid v x.
(* point.rs:371-373 planar_centroid *)
Definition planar_centroid (a b c : vec) : vec := vscale (vadd (vadd a b) c) (fdiv f1 (of_int 3)).
