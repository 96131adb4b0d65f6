(** Specification vocabulary for neighbours: squares that touch on the surface of
    the cube (the points and edges of a square are those of HilbertSpec.v). *)
From Verif Require Import Base Spec HilbertSpec.

(* the four corners of a square, as points of the cube *)
Definition corner_of (q : square) (P : Z * Z * Z) : Prop :=
  exists a b, (a = 0 \/ a = 1) /\ (b = 0 \/ b = 1) /\
    P = cube_point (sq_face q) (sq_i q + a * sq_side q) (sq_j q + b * sq_side q).

(* the grid points of a square, its boundary included *)
Definition on_square (q : square) (P : Z * Z * Z) : Prop :=
  exists i j, sq_i q <= i <= sq_i q + sq_side q /\ sq_j q <= j <= sq_j q + sq_side q /\
    P = cube_point (sq_face q) i j.

(* two squares whose sides are a whole number of grid steps touch iff they have a
   grid point in common, and overlap iff they have a unit square in common *)
Definition touch (q q' : square) : Prop := exists P, on_square q P /\ on_square q' P.
Definition overlap (q q' : square) : Prop :=
  exists f i j, in_square q f i j /\ in_square q' f i j.

(* edges 0, 1, 2, 3 of a square: down, right, up, left in the coordinates of its face *)
Definition edge_k (k : Z) (q : square) : (Z * Z * Z) * (Z * Z * Z) :=
  let c a b := cube_point (sq_face q) (sq_i q + a * sq_side q) (sq_j q + b * sq_side q) in
  if k =? 0 then (c 0 0, c 1 0)
  else if k =? 1 then (c 1 0, c 1 1)
  else if k =? 2 then (c 1 1, c 0 1)
  else (c 0 1, c 0 0).

(* one of the eight vertices of the cube *)
Definition cube_vertex (P : Z * Z * Z) : Prop :=
  let '(x, y, z) := P in Z.abs x = 2 ^ 30 /\ Z.abs y = 2 ^ 30 /\ Z.abs z = 2 ^ 30.

(* the corner of p closest to the centre of q, in both coordinates of the face (all
   coordinates doubled, so that the centre is on the grid) *)
Definition closest_corner (p q : square) (V : Z * Z * Z) : Prop :=
  let ends a := [a; a + sq_side p] in
  let near c v w := Z.abs (2 * v - c) <= Z.abs (2 * w - c) in
  exists vi vj, V = cube_point (sq_face p) vi vj /\
    In vi (ends (sq_i p)) /\ In vj (ends (sq_j p)) /\
    (forall wi, In wi (ends (sq_i p)) -> near (2 * sq_i q + sq_side q) vi wi) /\
    (forall wj, In wj (ends (sq_j p)) -> near (2 * sq_j q + sq_side q) vj wj).

(** The same relations between cells, given the map from (face, i, j) to leaves. *)
Section Cells.
  Context (at_ij : Z -> Z -> Z -> option Z).
  Definition cells_share_edge (c d : cell) : Prop :=
    exists q q', is_square_of at_ij c q /\ is_square_of at_ij d q' /\ share_edge q q'.
  (* the boundaries meet, the interiors do not *)
  Definition cells_neighbor (c d : cell) : Prop :=
    exists q q', is_square_of at_ij c q /\ is_square_of at_ij d q' /\ touch q q' /\ ~ overlap q q'.
  Definition cell_corner (c : cell) (V : Z * Z * Z) : Prop :=
    exists q, is_square_of at_ij c q /\ corner_of q V.
End Cells.
