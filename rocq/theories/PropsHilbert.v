(** Property theorems for cell geometry on the faces: C20-C23, C60. *)
From Verif Require Import Base Spec CellIdModel CellIdArith CellIdProofs HilbertModel HilbertSpec HilbertProofs HilbertGeom.

(** C20: leaf ids and (face, i, j) triples are in bijection, by from_face_ij and
    face_ij_orientation, which are inverse to each other and never panic there. *)
Theorem C20_leaf_ij_bijection :
  (forall f i j, 0 <= f < 6 -> 0 <= i < 2 ^ 30 -> 0 <= j < 2 ^ 30 ->
     exists m o, wf (leaf m) /\ from_face_ij f i j = Some (code (leaf m)) /\
       face_of (leaf m) = f /\ 0 <= o < 4 /\
       face_ij_orientation (code (leaf m)) = Some (f, i, j, o)) /\
  (forall m, wf (leaf m) ->
     exists i j o, 0 <= i < 2 ^ 30 /\ 0 <= j < 2 ^ 30 /\ 0 <= o < 4 /\
       face_ij_orientation (code (leaf m)) = Some (face_of (leaf m), i, j, o) /\
       from_face_ij (face_of (leaf m)) i j = Some (code (leaf m))).
Proof.
  split.
  - intros f i j Hf Hi Hj. destruct (from_face_ij_leaf f i j Hf Hi Hj) as (m & Hm & E & F & o & EW).
    exists m, o. pose proof (face_ij_leaf m Hm) as K. pose proof (leaf_from_face_ij m Hm) as K2.
    rewrite EW in K, K2. rewrite F in K. split; [exact Hm |]. split; [exact E |]. split; [exact F |].
    split; [apply K2 | exact K].
  - intros m Hm. pose proof (face_ij_leaf m Hm) as K. pose proof (leaf_from_face_ij m Hm) as K2.
    destruct (cellW (leaf m)) as [[i j] o]. exists i, j, o. unfold r4 in K2. tauto.
Qed.
Example C20_example :
  wf (leaf 4599128168848903346) /\
  from_face_ij 3 123456789 987654321 = Some (code (leaf 4599128168848903346)) /\
  face_ij_orientation (code (leaf 4599128168848903346)) = Some (3, 123456789, 987654321, 1).
Proof. vm_compute. intuition congruence. Qed.
Print Assumptions C20_leaf_ij_bijection.

(** C21: every cell of level l is an aligned square of side 2^(30-l) of its face,
    i.e. the leaves from_face_ij(f, i, j) in the cell are exactly those with (i, j) in
    the square; the square is unique, and the (i, j) reported for the cell is in it. *)
Theorem C21_cells_are_squares : forall c, wf c ->
  exists q, is_square_of from_face_ij c q /\ sq_face q = face_of c /\
    (forall q', is_square_of from_face_ij c q' -> q' = q) /\
    exists i j o, face_ij_orientation (code c) = Some (face_of c, i, j, o) /\
      in_square q (face_of c) i j.
Proof.
  intros c Hc. exists (sq c). split; [apply sq_correct, Hc |]. split; [apply sq_aligned, Hc |].
  split; [intros q' Hq'; eapply square_unique; [exact Hq' | apply sq_correct, Hc] |].
  destruct (face_ij_cell c Hc) as (i & j & E & I & _). eauto.
Qed.
Example C21_example : exists q, is_square_of from_face_ij (Cell 2 77) q /\
  q = Square 4 (2 * 2 ^ 28) (1 * 2 ^ 28) (2 ^ 28).
Proof.
  exists (sq (Cell 2 77)). split; [apply sq_correct | reflexivity].
  vm_compute. intuition congruence.
Qed.
Print Assumptions C21_cells_are_squares.

(** C22: the curve is continuous at every level: two cells that are consecutive along
    it (across face boundaries too, and from the last cell back to the first) are
    squares of the cube that share an edge. *)
Theorem C22_curve_continuous : forall c c' q q', wf c -> wf c' ->
  lv c = lv c' -> ix c' = ix c + 1 \/ (ix c = 6 * 4 ^ lv c - 1 /\ ix c' = 0) ->
  is_square_of from_face_ij c q -> is_square_of from_face_ij c' q' ->
  share_edge q q'.
Proof.
  intros c c' q q' Hc Hc' HL HN Hq Hq'.
  rewrite (square_unique _ _ _ _ Hq (sq_correct c Hc)).
  rewrite (square_unique _ _ _ _ Hq' (sq_correct c' Hc')).
  apply next_share; auto. split; auto.
Qed.
(* across the boundary of faces 2 and 3 at level 5 *)
Example C22_example :
  share_edge (sq (Cell 5 (3 * 4 ^ 5 - 1))) (sq (Cell 5 (3 * 4 ^ 5))) /\
  sq_face (sq (Cell 5 (3 * 4 ^ 5 - 1))) = 2 /\ sq_face (sq (Cell 5 (3 * 4 ^ 5))) = 3.
Proof.
  split; [| vm_compute; auto].
  apply (C22_curve_continuous (Cell 5 (3 * 4 ^ 5 - 1)) (Cell 5 (3 * 4 ^ 5)));
    try apply sq_correct; try reflexivity; try (left; reflexivity); vm_compute; intuition congruence.
Qed.
Print Assumptions C22_curve_continuous.

(** C23: the centre reported by face_siti and center_face_siti, in units of half a
    leaf, is the centre of the cell's square; no overflow. *)
Theorem C23_centre_exact : forall c q, wf c -> is_square_of from_face_ij c q ->
  let centre := Some (sq_face q, 2 * sq_i q + sq_side q, 2 * sq_j q + sq_side q) in
  face_siti (code c) = centre /\ center_face_siti (code c) = centre.
Proof.
  intros c q Hc Hq. rewrite (square_unique _ _ _ _ Hq (sq_correct c Hc)).
  destruct (sq_aligned c Hc) as (_ & -> & ->). apply center_ok, Hc.
Qed.
Example C23_example : face_siti (code (Cell 2 77)) = Some (4, 5 * 2 ^ 28, 3 * 2 ^ 28).
Proof. reflexivity. Qed.
Print Assumptions C23_centre_exact.

(** C60: the orientation reported by face_ij_orientation tells where the children
    are: child k of a non-leaf cell is the quadrant of the cell's square given by the
    base curve, with axes swapped if bit 0 is set and inverted if bit 1 is set. *)
Theorem C60_orientation : forall c k q q' i j f o, wf c -> lv c < 30 -> 0 <= k < 4 ->
  is_square_of from_face_ij c q -> is_square_of from_face_ij (child c k) q' ->
  face_ij_orientation (code c) = Some (f, i, j, o) ->
  0 <= o < 4 /\ q' = sub_square q (quadrant o k).
Proof.
  intros c k q q' i j f o Hc HL Hk Hq Hq' E.
  rewrite (square_unique _ _ _ _ Hq (sq_correct c Hc)).
  rewrite (square_unique _ _ _ _ Hq' (sq_correct _ (child_wf c k Hc HL Hk))).
  destruct (face_ij_cell c Hc) as (i' & j' & E' & _). rewrite E in E'. injection E' as -> -> -> ->.
  split; [| apply sq_child; auto].
  pose proof (cellW_range c Hc) as R. unfold ori. destruct (cellW c) as [[a b] o]. apply R.
Qed.
Example C60_example : face_ij_orientation (code (Cell 2 77)) = Some (4, 671088639, 402653183, 3) /\
  sq (child (Cell 2 77) 1) = sub_square (sq (Cell 2 77)) (0, 1).
Proof. split; reflexivity. Qed.
Print Assumptions C60_orientation.
