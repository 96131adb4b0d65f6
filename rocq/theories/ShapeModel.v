(** Model of the ordered types of src/s2/shape.rs.  The Shape trait itself has no
    implementation in the crate; only its two provided methods are modelled. *)
From Verif Require Import Base F64 R1Model.
Open Scope Z_scope.

(* shape.rs:20-23 Edge *)
Record edge := Edge { v0 : pt2; v1 : pt2 }.

(* shape.rs:27-36 Ord for Edge *)
Definition edge_cmp (e o : edge) : comparison :=
  let v0cmp := pt2_cmp (v0 e) (v0 o) in
  match v0cmp with
  | Eq => pt2_cmp (v0 e) (v1 o)
  | _ => v0cmp
  end.
(* shape.rs:44-48 PartialEq for Edge *)
Definition edge_eq (e o : edge) : bool := match edge_cmp e o with Eq => true | _ => false end.

(* shape.rs:57-60 ShapeEdgeID; both fields are i32 *)
Record shape_edge_id := ShapeEdgeID { shape_id : Z; edge_id : Z }.
(* shape.rs:56 derived PartialEq *)
Definition sei_eq (a b : shape_edge_id) : bool := (shape_id a =? shape_id b) && (edge_id a =? edge_id b).
(* shape.rs:67-73 Ord; Ordering::then *)
Definition sei_cmp (a b : shape_edge_id) : comparison :=
  match Z.compare (shape_id a) (shape_id b) with
  | Eq => Z.compare (edge_id a) (edge_id b)
  | c => c
  end.

(* shape.rs:217-219, 222-224 the provided methods of Shape, given what the shape reports *)
Definition shape_is_empty (num_edges num_chains dimension : Z) : bool :=
  (num_edges =? 0) && (negb (dimension =? 2) || (num_chains =? 0)).
Definition shape_is_full (num_edges num_chains dimension : Z) : bool :=
  (num_edges =? 0) && (dimension =? 2) && (num_chains >? 0).
