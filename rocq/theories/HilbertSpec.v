(** Specification vocabulary for cell geometry: squares on the faces of a cube. *)
From Verif Require Import Base Spec.

(* Each face is a grid of 2^30 x 2^30 unit squares, one per leaf.  A cell of level
   [l] is to be a square of this side: *)
Definition side (l : Z) : Z := 2 ^ (30 - l).

Record square := Square { sq_face : Z; sq_i : Z; sq_j : Z; sq_side : Z }.

(* a square of the given side on a face, with a lower corner that is a multiple of its side *)
Definition aligned (q : square) : Prop :=
  0 <= sq_face q < 6 /\ 0 < sq_side q /\
  (sq_side q | sq_i q) /\ (sq_side q | sq_j q) /\
  0 <= sq_i q /\ sq_i q + sq_side q <= 2 ^ 30 /\
  0 <= sq_j q /\ sq_j q + sq_side q <= 2 ^ 30.

(* the unit square (i, j) of face f lies in q *)
Definition in_square (q : square) (f i j : Z) : Prop :=
  f = sq_face q /\ sq_i q <= i < sq_i q + sq_side q /\ sq_j q <= j < sq_j q + sq_side q.

(* the square a cell ought to be, given the map [at] from (face, i, j) to leaf
   indices: its unit squares are exactly those of the cell's leaves *)
Definition is_square_of (at_ij : Z -> Z -> Z -> option Z) (c : cell) (q : square) : Prop :=
  aligned q /\ sq_side q = side (lv c) /\
  forall f i j, 0 <= f < 6 -> 0 <= i < 2 ^ 30 -> 0 <= j < 2 ^ 30 ->
    (in_square q f i j <-> exists m, at_ij f i j = Some (code (leaf m)) /\ leaves c m).

(* quadrant of child k of a cell whose curve has orientation o: the base curve visits
   (0,0) (0,1) (1,1) (1,0); bit 0 of o swaps the axes, bit 1 inverts both *)
Definition base_quadrant (k : Z) : Z * Z :=
  if k =? 0 then (0, 0) else if k =? 1 then (0, 1) else if k =? 2 then (1, 1) else (1, 0).
Definition quadrant (o k : Z) : Z * Z :=
  let (a, b) := base_quadrant k in
  let (a, b) := if Z.odd o then (b, a) else (a, b) in
  if 2 <=? o then (1 - a, 1 - b) else (a, b).
Definition sub_square (q : square) (ab : Z * Z) : square :=
  let h := sq_side q / 2 in
  Square (sq_face q) (sq_i q + h * fst ab) (sq_j q + h * snd ab) h.

(** ** The cube

    Face f with axes (u, v) on the surface of the cube [-N, N]^3, N = 2^30; grid
    line i of a face is at u = 2 i - N.  The six maps are the documented ones
    (s2/stuv.rs, "face_uv_to_xyz"). *)
Definition cube_point (f i j : Z) : Z * Z * Z :=
  let N := 2 ^ 30 in
  let u := 2 * i - N in
  let v := 2 * j - N in
  if f =? 0 then (N, u, v)
  else if f =? 1 then (- u, N, v)
  else if f =? 2 then (- u, - v, N)
  else if f =? 3 then (- N, - v, - u)
  else if f =? 4 then (v, - N, - u)
  else (v, u, - N).

(* the four edges of a square, as pairs of points of the cube *)
Definition edge_of (q : square) (P Q : Z * Z * Z) : Prop :=
  let c a b := cube_point (sq_face q) (sq_i q + a * sq_side q) (sq_j q + b * sq_side q) in
  (P, Q) = (c 0 0, c 1 0) \/ (P, Q) = (c 1 0, c 1 1) \/
  (P, Q) = (c 1 1, c 0 1) \/ (P, Q) = (c 0 1, c 0 0) \/
  (Q, P) = (c 0 0, c 1 0) \/ (Q, P) = (c 1 0, c 1 1) \/
  (Q, P) = (c 1 1, c 0 1) \/ (Q, P) = (c 0 1, c 0 0).

Definition share_edge (q q' : square) : Prop := exists P Q, edge_of q P Q /\ edge_of q' P Q.
