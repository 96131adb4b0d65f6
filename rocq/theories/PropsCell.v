(** C52, C68-C73: cells, their (u,v) rectangles, and points. *)
From Coq Require Import Reals Lra Lia.
From Flocq Require Import Core.
From Verif Require Import Base Spec F64 F64Facts IntervalSpec F64Arith F64Error F64Neg S1Proofs R1Model VectorModel StuvModel
  CellIdModel CellIdArith CellIdProofs HilbertModel HilbertSpec HilbertGeom NeighborModel NeighborProofs
  CellSpec CellModel StuvError CellLattice CellProofs CellPoint CellVertex.
Open Scope Z_scope.

(** ** C52: every point, whatever its coordinates (NaN and infinities included), is
    mapped to a valid leaf id; if no coordinate is NaN, the face of the leaf is that
    of a coordinate of largest magnitude, with its sign. *)
Theorem C52_points_to_leaves : forall p,
  exists x, cellid_from_point p = Some x /\ valid_id x /\ is_valid x = Some true /\ is_leaf x = true /\
    (is_nan (vx p) = false -> is_nan (vy p) = false -> is_nan (vz p) = false ->
     let a := axis_comp (CellIdModel.face x) p in
     fle (fabs (vx p)) (fabs a) = true /\ fle (fabs (vy p)) (fabs a) = true /\ fle (fabs (vz p)) (fabs a) = true /\
     (CellIdModel.face x < 3 -> fle f0 a = true) /\ (3 <= CellIdModel.face x -> flt a f0 = true)).
Proof.
  intros p. pose proof (face_bounds p) as Hf. destruct (valid_face_some _ p Hf) as (u & v & E).
  unfold cellid_from_point, xyz_to_face_uv. rewrite E.
  destruct (from_face_ij_leaf (StuvModel.face p) (st_to_ij (uv_to_st u)) (st_to_ij (uv_to_st v)) Hf (st_to_ij_range _) (st_to_ij_range _))
    as (m & W & -> & Fm & _).
  exists (code (leaf m)). split; [reflexivity|]. split; [exists (leaf m); auto|]. split.
  { destruct (is_valid_correct (code (leaf m))) as (b & -> & Hb); [pose proof (code_bounds _ W); change (2 ^ 61) with 2305843009213693952 in *; change (2 ^ 64) with 18446744073709551616; lia| |].
    - rewrite code_leaf. change (2 ^ 63) with (2 * 4611686018427387904). lia.
    - f_equal. apply Hb. exists (leaf m); auto. }
  split; [rewrite code_leaf_flag by auto; reflexivity|]. rewrite face_code, Fm by auto. intros Nx Ny Nz.
  destruct (face_major p Nx Ny Nz) as (H1 & H2 & H3 & H4).
  split; [exact H1|]. split; [exact H2|]. split; [exact H3|]. destruct (Z.ltb_spec (StuvModel.face p) 3); split; intros; auto; lia.
Qed.
Example C52_example : exists x, cellid_from_point (Vec f1 (fneg f2) fhalf) = Some x /\ CellIdModel.face x = 4.
Proof.
  assert (H : match cellid_from_point (Vec f1 (fneg f2) fhalf) with Some x => CellIdModel.face x =? 4 | None => false end = true) by (vm_compute; reflexivity).
  revert H. destruct (cellid_from_point _) as [x|]; [|discriminate]. intros H. exists x. split; [reflexivity|lia].
Qed.
Print Assumptions C52_points_to_leaves.

(* the column is in range for every double *)
Theorem C52_column_range : forall s, 0 <= st_to_ij s < 2 ^ 30.
Proof. exact st_to_ij_range. Qed.
Print Assumptions C52_column_range.

(** ** C68: Cell::from(&p).contains_point(&p) is documented to hold always; it does
    not.  The point below is of unit length, lies in the leaf found for it up to
    rounding, but outside of its bound by more than the margin of one DBL_EPSILON
    that contains_point allows. *)
Definition p68 : vec := Vec (lit 0x1daee14e7caa5b (-53)) (lit (-0x17e8bf2a6c27c8) (-54)) f0.
Definition own_point_missing (p : vec) : bool :=
  match cell_from_point p with
  | Some c => match cell_contains_point c p with Some b => negb b | None => false end
  | None => false
  end.
Lemma own_point_missing_spec p : own_point_missing p = true ->
  exists c, cell_from_point p = Some c /\ cell_contains_point c p = Some false.
Proof.
  unfold own_point_missing. destruct (cell_from_point p) as [c|]; [|discriminate].
  destruct (cell_contains_point c p) as [[|]|] eqn:E; try discriminate. eauto.
Qed.
Theorem C68_contains_own_point_refuted : exists p c,
  is_unit p = true /\ cell_from_point p = Some c /\ cell_contains_point c p = Some false.
Proof.
  assert (U : is_unit p68 = true) by (vm_compute; reflexivity).
  assert (M : own_point_missing p68 = true) by (vm_compute; reflexivity).
  destruct (own_point_missing_spec _ M) as (c & H). exists p68, c. exact (conj U H).
Qed.
Print Assumptions C68_contains_own_point_refuted.

(* what holds: the (u,v) coordinates of the point are within four DBL_EPSILON of the
   bound of the leaf, for every finite point that is not the origin *)
Theorem C68_contains_own_point_partial : forall p, finite_point p ->
  exists c (u v : f64), cell_from_point p = Some c /\ c_level c = 30 /\ xyz_to_face_uv p = Some (c_face c, u, v) /\
    (B2R (lo1 (rx (c_uv c))) - 4 * bpow radix2 (-52) <= B2R u <= B2R (hi1 (rx (c_uv c))) + 4 * bpow radix2 (-52) /\
     B2R (lo1 (ry (c_uv c))) - 4 * bpow radix2 (-52) <= B2R v <= B2R (hi1 (ry (c_uv c))) + 4 * bpow radix2 (-52))%R.
Proof.
  intros p (Fx & Fy & Fz & NZ). destruct (xyz_uv p (conj Fx (conj Fy Fz)) NZ) as (u & v & E & Fu & Fv & Bu & Bv & _).
  pose proof (face_bounds p) as Hf. destruct (column u Fu Bu) as (Ri & Lu & Uu). destruct (column v Fv Bv) as (Rj & Lv & Uv).
  set (i := st_to_ij (uv_to_st u)) in *. set (j := st_to_ij (uv_to_st v)) in *.
  destruct (from_face_ij_leaf (StuvModel.face p) i j Hf Ri Rj) as (m & W & Em & Fm & _).
  exists (cell_of (leaf m)), u, v. split.
  { unfold cell_from_point, cellid_from_point. rewrite E. fold i j. rewrite Em. apply cell_from_ok, W. }
  split; [reflexivity|]. cbn [cell_of c_face]. rewrite Fm. split; [exact E|].
  destruct (sq_correct (leaf m) W) as (_ & S & H).
  assert (I : in_square (sq (leaf m)) (StuvModel.face p) i j).
  { apply H; auto. exists m. split; [exact Em|]. unfold leaves, leaf. cbn [lv ix]. change (4 ^ (30 - 30)) with 1. lia. }
  destruct I as (_ & Ii & Ij). cbn [lv leaf] in S. change (side 30) with 1 in S.
  unfold cell_of, uvrect. cbn [c_uv rx ry lo1 hi1]. rewrite S in *. replace (sq_i (sq (leaf m))) with i by lia. replace (sq_j (sq (leaf m))) with j by lia.
  replace (2 * (i + 1)) with (2 * i + 2) by lia. replace (2 * (j + 1)) with (2 * j + 2) by lia.
  change (bpow radix2 (-52)) with (/ 4503599627370496)%R. lra.
Qed.
Example C68_example : finite_point p68.
Proof.
  unfold finite_point. split; [vm_compute; reflexivity|]. split; [vm_compute; reflexivity|]. split; [reflexivity|].
  left. cbn [p68 vx]. destruct (lit_val 0x1daee14e7caa5b (-53) ltac:(lia) ltac:(lia)) as [_ ->]. pose proof (bpow_gt_0 radix2 (-53)). lra.
Qed.
Print Assumptions C68_contains_own_point_partial.

(** ** C69: the centre of a cell is in the cell: Point::from(id) is mapped back into
    the cell, to the id itself if it is a leaf, and contains_point holds of it. *)
Theorem C69_centre_in_cell : forall c, wf c -> exists C p x,
  cell_from_cellid (code c) = Some C /\
  point_from_cellid (code c) = Some p /\ cell_center C = Some p /\
  cellid_from_point p = Some x /\ contains (code c) x = Some true /\ (lv c = 30 -> x = code c) /\
  cell_contains_point C p = Some true.
Proof.
  intros c W. destruct (centre_ok c W) as (p & x & H). exists (cell_of c), p, x. split; [apply cell_from_ok, W|].
  destruct H as (H1 & H2 & H3 & H4 & H5 & H6). auto 10.
Qed.
Example C69_example : wf (Cell 2 77) /\ wf (leaf 12345).
Proof. split; vm_compute; intuition congruence. Qed.
Print Assumptions C69_centre_in_cell.

(** ** C70: children of a cell are the cells of the child ids, in traversal order,
    with bit-identical bounds; a leaf has none. *)
Theorem C70_children : forall c C, wf c -> cell_from_cellid (code c) = Some C ->
  (lv c = 30 -> cell_children C = Some None) /\
  (lv c < 30 -> exists C0 C1 C2 C3, cell_children C = Some (Some [C0; C1; C2; C3]) /\
     cell_from_cellid (code (child c 0)) = Some C0 /\ cell_from_cellid (code (child c 1)) = Some C1 /\
     cell_from_cellid (code (child c 2)) = Some C2 /\ cell_from_cellid (code (child c 3)) = Some C3).
Proof.
  intros c C W E. rewrite cell_from_ok in E by auto. injection E as <-. split.
  - intros L. unfold cell_children, cell_is_leaf, MAX_LEVEL. cbn [cell_of c_level]. rewrite L. reflexivity.
  - intros L. exists (cell_of (child c 0)), (cell_of (child c 1)), (cell_of (child c 2)), (cell_of (child c 3)).
    split; [apply children_ok; auto|]. repeat split; apply cell_from_ok, child_wf; auto; unfold HilbertProofs.r4; lia.
Qed.
Example C70_example : exists C, cell_from_cellid (code (Cell 2 77)) = Some C.
Proof. exists (cell_of (Cell 2 77)). apply cell_from_ok. vm_compute. intuition congruence. Qed.
Print Assumptions C70_children.

(** ** C71: the (u,v) bounds of the cells of a face are proper rectangles of
    [-1,1]x[-1,1], nested exactly as the ids are and with disjoint interiors when the
    ids do not intersect. *)
Theorem C71_bound : forall c, wf c -> exists C, cell_from_cellid (code c) = Some C /\
  c_face C = face_of c /\ c_level C = lv c /\ c_id C = code c /\ bound_uv (code c) = Some (c_uv C) /\
  flt (lo1 (rx (c_uv C))) (hi1 (rx (c_uv C))) = true /\ flt (lo1 (ry (c_uv C))) (hi1 (ry (c_uv C))) = true /\
  r2_contains (R2 (R1 (fneg f1) f1) (R1 (fneg f1) f1)) (c_uv C) = true /\
  (lv c = 0 -> r2_contains (c_uv C) (R2 (R1 (fneg f1) f1) (R1 (fneg f1) f1)) = true).
Proof.
  intros c W. exists (cell_of c). split; [apply cell_from_ok, W|]. cbn [cell_of c_face c_level c_id c_uv].
  split; [reflexivity|]. split; [reflexivity|]. split; [reflexivity|]. split; [apply bound_uv_ok, W|].
  destruct (sq_aligned c W) as ((_ & P & _ & _ & B1 & B2 & B3 & B4) & _ & S). unfold uvrect. cbn [rx ry lo1 hi1].
  change (2 ^ 30) with 1073741824 in *.
  split; [rewrite uvl_lt by lia; apply Z.ltb_lt; lia|]. split; [rewrite uvl_lt by lia; apply Z.ltb_lt; lia|].
  destruct f1_val as [F1 V1]. destruct (fneg_val f1 F1) as [Fn Vn]. destruct uvl_ends as (E0 & E1 & _).
  assert (L : forall k, 0 <= k <= 2 ^ 31 -> fle (fneg f1) (uvl k) = true /\ fle (uvl k) f1 = true).
  { intros k Hk. destruct (uvl_val k Hk) as (F & _ & B). destruct (fle_R _ _ Fn F) as [X|X]; [|lra]. destruct (fle_R _ _ F F1) as [Y|Y]; [auto|lra]. }
  split.
  - unfold r2_contains, r1_contains_interval, r1_is_empty, fgt. cbn [rx ry lo1 hi1]. rewrite !uvl_lt by lia.
    destruct (Z.ltb_spec (2 * (sq_i (sq c) + sq_side (sq c))) (2 * sq_i (sq c))); [lia|].
    destruct (Z.ltb_spec (2 * (sq_j (sq c) + sq_side (sq c))) (2 * sq_j (sq c))); [lia|].
    destruct (L (2 * sq_i (sq c)) ltac:(lia)) as [-> _]. destruct (L (2 * sq_j (sq c)) ltac:(lia)) as [-> _].
    destruct (L (2 * (sq_i (sq c) + sq_side (sq c))) ltac:(lia)) as [_ ->]. destruct (L (2 * (sq_j (sq c) + sq_side (sq c))) ltac:(lia)) as [_ ->].
    reflexivity.
  - intros L0. rewrite S, L0 in *. change (side 0) with 1073741824 in *. replace (sq_i (sq c)) with 0 in * by lia. replace (sq_j (sq c)) with 0 in * by lia.
    vm_compute. reflexivity.
Qed.
Example C71_bound_example : wf (Cell 0 5). Proof. vm_compute. intuition congruence. Qed.
Print Assumptions C71_bound.

Theorem C71_nesting : forall c d C D, wf c -> wf d ->
  cell_from_cellid (code c) = Some C -> cell_from_cellid (code d) = Some D -> c_face C = c_face D ->
  (r2_contains (c_uv C) (c_uv D) = true <-> contains (code c) (code d) = Some true) /\
  (r2_interior_intersects (c_uv C) (c_uv D) = true <-> intersects (code c) (code d) = Some true).
Proof.
  intros c d C D Wc Wd EC ED F. rewrite cell_from_ok in EC, ED by auto. injection EC as <-. injection ED as <-. cbn [cell_of c_face c_uv] in *.
  destruct (sq_aligned c Wc) as (A & Fc & _). destruct (sq_aligned d Wd) as (A' & Fd & _). split.
  - rewrite (rect_contains _ _ A A'). destruct (contains_code c d Wc Wd) as (b & -> & Hb). pose proof (contains_squares c d Wc Wd) as Q.
    split; intros H.
    + f_equal. apply Hb, Q. split; [congruence|exact H].
    + injection H as H. apply Hb, Q in H. apply H.
  - rewrite (rect_interior_intersects _ _ A A'). destruct (intersects_code c d Wc Wd) as (b & -> & Hb). pose proof (overlap_squares c d Wc Wd) as Q.
    split; intros H.
    + f_equal. apply Hb, Q. split; [congruence|exact H].
    + injection H as H. apply Hb, Q in H. apply H.
Qed.
Example C71_nesting_example : face_of (Cell 2 77) = face_of (Cell 1 19) /\ contains (code (Cell 1 19)) (code (Cell 2 77)) = Some true.
Proof. split; vm_compute; reflexivity. Qed.
Print Assumptions C71_nesting.

(** ** C72: the maps between (s,t) and (u,v), and between faces and points *)
Theorem C72_monotone : forall x y : f64, is_finite x = true -> is_finite y = true ->
  ((-1 <= B2R x <= B2R y)%R -> (B2R y <= 1)%R -> (0 <= B2R (uv_to_st x) <= B2R (uv_to_st y))%R /\ (B2R (uv_to_st y) <= 1)%R) /\
  ((0 <= B2R x <= B2R y)%R -> (B2R y <= 1)%R -> (-1 <= B2R (st_to_uv x) <= B2R (st_to_uv y))%R /\ (B2R (st_to_uv y) <= 1)%R).
Proof.
  intros x y Fx Fy. split; intros H U.
  - destruct (uv_to_st_err x Fx ltac:(lra)) as (_ & Bx & _). destruct (uv_to_st_err y Fy ltac:(lra)) as (_ & By & _).
    pose proof (uv_to_st_mono x y Fx Fy ltac:(lra) ltac:(lra) U). lra.
  - pose proof (st_to_uv_range x Fx ltac:(lra)). pose proof (st_to_uv_range y Fy ltac:(lra)).
    pose proof (st_to_uv_mono x y Fx Fy ltac:(lra) ltac:(lra) U). lra.
Qed.
Print Assumptions C72_monotone.

(* going from u to s and back moves u by at most four DBL_EPSILON, and from s to u
   and back moves s by at most three *)
Theorem C72_round_trip : forall x : f64, is_finite x = true ->
  ((-1 <= B2R x <= 1)%R -> (Rabs (B2R (st_to_uv (uv_to_st x)) - B2R x) <= 4 * bpow radix2 (-52))%R) /\
  ((0 <= B2R x <= 1)%R -> (Rabs (B2R (uv_to_st (st_to_uv x)) - B2R x) <= 3 * bpow radix2 (-52))%R).
Proof.
  intros x F. change (bpow radix2 (-52)) with (/ 4503599627370496)%R. split; intros B.
  - destruct (uv_to_st_err x F B) as (Fs & Bs & E). destruct (st_to_uv_err _ Fs Bs) as [_ E']. apply Rabs_le_inv in E, E'. apply Rabs_le. lra.
  - destruct (st_to_uv_err x F B) as [Fu E]. pose proof (st_to_uv_range x F B) as Bu. destruct (uv_to_st_err _ Fu Bu) as (Fs & Bs & E').
    set (s := uv_to_st (st_to_uv x)) in *. apply Rabs_le_inv in E, E'. apply Rabs_le.
    destruct (Rle_dec (B2R s) (B2R x)).
    + destruct (UU_slope (B2R s) (B2R x)) as [S _]; lra.
    + destruct (UU_slope (B2R x) (B2R s)) as [S _]; lra.
Qed.
Print Assumptions C72_round_trip.

Lemma fdiv_one (x y : f64) : finite x -> finite y -> B2R y = 1%R -> fdiv x y = x.
Proof.
  intros F Fy V. destruct (Req_dec (B2R x) 0) as [Z|N].
  - pose proof (zero_dec x F Z) as H. assert (y = f1) as ->.
    { destruct f1_val as [F1 V1]. apply float_eq; auto; [congruence|lra]. }
    destruct x; try discriminate. destruct s; vm_compute; reflexivity.
  - pose proof (fdiv_result x y F Fy ltac:(lra)) as R. destruct (result_exact _ _ x R) as [G W]; [rewrite V; field|].
    apply float_eq; auto; rewrite W, V; [field|]. intros Z. apply N. lra.
Qed.
Lemma fdiv_neg (x y : f64) : finite x -> finite y -> B2R y = (-1)%R -> fdiv (fneg x) y = x.
Proof.
  intros F Fy V. destruct (fneg_val x F) as [Fn Vn]. destruct (Req_dec (B2R x) 0) as [Z|N].
  - pose proof (zero_dec x F Z) as H. assert (y = fneg f1) as ->.
    { destruct f1_val as [F1 V1]. destruct (fneg_val f1 F1) as [G W]. apply float_eq; auto; lra. }
    destruct x; try discriminate. destruct s; vm_compute; reflexivity.
  - pose proof (fdiv_result (fneg x) y Fn Fy ltac:(lra)) as R. rewrite Vn, V in R. destruct (result_exact _ _ x R) as [G W]; [field|].
    apply float_eq; auto; rewrite W; [field|]. intros Z. apply N. lra.
Qed.
(* a point strictly inside a face of the cube is found on that face with the same
   coordinates, bit for bit; on the boundary this holds when the face is given *)
Theorem C72_face_uv_exact : forall f (u v : f64), 0 <= f < 6 -> is_finite u = true -> is_finite v = true ->
  exists r, face_uv_to_xyz f u v = Some r /\ face_xyz_to_uv f r = Some (Some (u, v)) /\
    ((Rabs (B2R u) < 1)%R -> (Rabs (B2R v) < 1)%R -> xyz_to_face_uv r = Some (f, u, v)).
Proof.
  intros f u v Hf Fu Fv. destruct f1_val as [F1 V1]. destruct (fneg_val f1 F1) as [Fn Vn]. rewrite V1 in Vn.
  destruct (fneg_val u Fu) as [Fnu Vnu]. destruct (fneg_val v Fv) as [Fnv Vnv].
  assert (D1 : forall x, finite x -> fdiv x f1 = x) by (intros; apply fdiv_one; auto).
  assert (D2 : forall x, finite x -> fdiv (fneg x) (fneg f1) = x) by (intros; apply fdiv_neg; auto; lra).
  assert (P : fle f1 f0 = false) by reflexivity. assert (P' : fle f0 (fneg f1) = false) by reflexivity.
  assert (Q : forall r, face_uv_to_xyz f u v = Some r -> valid_face_xyz_to_uv f r = Some (u, v) /\ face_xyz_to_uv f r = Some (Some (u, v))).
  { intros r E. unfold face_uv_to_xyz in E. unfold face_xyz_to_uv, valid_face_xyz_to_uv, fge.
    destruct (face_zero_cases f Hf) as [-> | [-> | [-> | [-> | [-> | ->]]]]]; cbn [Z.eqb Pos.eqb] in E |- *; apply Some_inj in E; subst r;
    cbn [vx vy vz]; rewrite ?P, ?P', ?fneg_invol, ?D1, ?D2 by assumption; split; reflexivity. }
  assert (X : exists r, face_uv_to_xyz f u v = Some r).
  { unfold face_uv_to_xyz. destruct (face_zero_cases f Hf) as [-> | [-> | [-> | [-> | [-> | ->]]]]]; eexists; reflexivity. }
  destruct X as (r & E). exists r. destruct (Q r E) as [Q1 Q2]. split; [exact E|]. split; [exact Q2|]. intros Bu Bv.
  assert (StuvModel.face r = f) as H; [|unfold xyz_to_face_uv; rewrite H, Q1; reflexivity].
  unfold face_uv_to_xyz in E.
  destruct (face_zero_cases f Hf) as [Ef | [Ef | [Ef | [Ef | [Ef | Ef]]]]]; rewrite Ef in *; cbn [Z.eqb Pos.eqb] in E; apply Some_inj in E; subst r;
    (apply face_unique; [split; [|split]; assumption|lia|..]);
    match goal with |- context [axis_comp ?k (Vec ?a ?b ?c)] =>
      first [change (axis_comp k (Vec a b c)) with a; change (k mod 3) with 0 |
             change (axis_comp k (Vec a b c)) with b; change (k mod 3) with 1 |
             change (axis_comp k (Vec a b c)) with c; change (k mod 3) with 2] end;
    cbn [vx vy vz Z.ltb Z.compare Pos.compare Pos.compare_cont]; intros; try lia;
    rewrite ?Vn, ?Vnu, ?Vnv, ?V1, ?Rabs_Ropp, ?Rabs_R1; lra.
Qed.
Example C72_face_uv_example : (Rabs (B2R fhalf) < 1)%R.
Proof. destruct fhalf_val as [_ ->]. rewrite Rabs_pos_eq; lra. Qed.
Print Assumptions C72_face_uv_exact.

(** ** C73: cells that share a corner of the cube grid, whatever their faces and
    levels, have the very same point as vertex there, and every cell contains its
    own vertices. *)
Theorem C73_vertices_meet : forall c d p q j k C D, wf c -> wf d -> 0 <= j < 4 -> 0 <= k < 4 ->
  cell_from_cellid (code c) = Some C -> cell_from_cellid (code d) = Some D ->
  is_square_of from_face_ij c p -> is_square_of from_face_ij d q -> corner p j = corner q k ->
  exists a b, cell_vertex C j = Some a /\ cell_vertex D k = Some b /\ veq a b = true.
Proof.
  intros c d p q j k C D W W' Hj Hk E E' Q Q' H. rewrite cell_from_ok in E, E' by auto. injection E as <-. injection E' as <-.
  rewrite (square_unique _ _ _ _ Q (sq_correct c W)) in H. rewrite (square_unique _ _ _ _ Q' (sq_correct d W')) in H.
  apply vertices_meet; auto.
Qed.
(* the corner (1,1,1) of the cube, seen from a leaf of face 0 and from face 1 *)
Example C73_example : let c := leaf (2 * 4 ^ 30 / 3) in let d := Cell 0 1 in wf c /\ wf d /\
  is_square_of from_face_ij c (sq c) /\ is_square_of from_face_ij d (sq d) /\ corner (sq c) 2 = corner (sq d) 3.
Proof.
  intros c d. assert (wf c) by (vm_compute; intuition congruence). assert (wf d) by (vm_compute; intuition congruence).
  split; [assumption|]. split; [assumption|]. split; [apply sq_correct; assumption|]. split; [apply sq_correct; assumption|]. vm_compute. reflexivity.
Qed.
Print Assumptions C73_vertices_meet.

Theorem C73_vertices_contained : forall c k C, wf c -> 0 <= k < 4 -> cell_from_cellid (code c) = Some C ->
  exists p, cell_vertex C k = Some p /\ cell_contains_point C p = Some true.
Proof.
  intros c k C W Hk E. rewrite cell_from_ok in E by auto. injection E as <-. apply vertex_contained; auto.
Qed.
Print Assumptions C73_vertices_contained.
