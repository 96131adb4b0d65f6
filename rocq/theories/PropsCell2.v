(** C106-C108: cells in the (s,t) plane, their edges, and cells as sets. *)
From Coq Require Import ZArith Reals Lra Lia Psatz Bool List.
From Flocq Require Import Core.
From Verif Require Import Base Spec F64 F64Facts IntervalSpec F64Arith F64Error S1Proofs R1Model VectorModel StuvModel CellIdModel CellIdArith CellIdProofs CellUnionProofs
  HilbertModel HilbertSpec HilbertProofs HilbertGeom NeighborModel NeighborProofs CellSpec CellModel StuvError CellLattice CellProofs CellPoint PropsCell PropsCellId
  PredicatesFloat CapSpec CapModel CapError CapCell CapEdge CapEdgeFloat CapEdgeMain CoverCell CoverProofs TrigProofs PropsRim.
Import ListNotations.
Open Scope R_scope.
Local Notation Z := BinInt.Z.

(** ** C106: centre, size and bound of a cell in (s,t), without any rounding.  The square q of
    a cell is given by the leaf cells in it, in units of 2^-30. *)
Lemma st_end k s : (0 <= k)%Z -> (0 < s)%Z -> (k + s <= 2 ^ 30)%Z -> forall m, finite m -> B2R m = IZR (2 * s) / 2147483648 ->
  let r := r1_expanded (r1_from_point (CellLattice.lat (2 * k + s))) (fdiv m f2) in
  B2R (lo1 r) = IZR k / 1073741824 /\ B2R (hi1 r) = IZR (k + s) / 1073741824.
Proof.
  intros K S B m Fm Vm. cbv zeta. destruct (lat_val (2 * k + s) ltac:(lia)) as [Fl Vl]. destruct f2_val as [F2 V2].
  pose proof (fdiv_result m f2 Fm F2 ltac:(rewrite V2; lra)) as R. rewrite Vm, V2 in R.
  destruct (result_format _ _ s (-31) R ltac:(lia) ltac:(lia)) as [Fd Vd]; [change (bpow radix2 (-31)) with (/ 2147483648); rewrite mult_IZR; field|].
  set (d := fdiv m f2) in *. unfold r1_expanded, r1_from_point, r1_is_empty. cbn [lo1 hi1].
  replace (fgt (CellLattice.lat (2 * k + s)) (CellLattice.lat (2 * k + s))) with false.
  2:{ unfold fgt. destruct (flt_R _ _ Fl Fl) as [C|_]; [lra|reflexivity]. }
  pose proof (fsub_result _ d Fl Fd) as R1'. pose proof (fadd_result _ d Fl Fd) as R2'. rewrite Vl, Vd in R1', R2'. cbn [lo1 hi1].
  destruct (result_format _ _ (2 * k) (-31) R1' ltac:(lia) ltac:(lia)) as [_ V1]; [change (bpow radix2 (-31)) with (/ 2147483648); rewrite !plus_IZR, !mult_IZR; field|].
  destruct (result_format _ _ (2 * (k + s)) (-31) R2' ltac:(lia) ltac:(lia)) as [_ V2']; [change (bpow radix2 (-31)) with (/ 2147483648); rewrite !plus_IZR, !mult_IZR, !plus_IZR; field|].
  rewrite V1, V2', !plus_IZR, !mult_IZR, ?plus_IZR. split; field.
Qed.
Theorem C106_st : forall c q, wf c -> is_square_of from_face_ij c q ->
  exists p s b, center_st (code c) = Some p /\ size_st (lv c) = Some s /\ bound_st (code c) = Some b /\
    B2R (px p) = (IZR (sq_i q) + IZR (sq_side q) / 2) / 2 ^ 30 /\ B2R (py p) = (IZR (sq_j q) + IZR (sq_side q) / 2) / 2 ^ 30 /\
    B2R s = IZR (sq_side q) / 2 ^ 30 /\ IZR (sq_side q) * IZR (2 ^ lv c) = 2 ^ 30 /\
    B2R (lo1 (rx b)) = IZR (sq_i q) / 2 ^ 30 /\ B2R (hi1 (rx b)) = IZR (sq_i q + sq_side q) / 2 ^ 30 /\
    B2R (lo1 (ry b)) = IZR (sq_j q) / 2 ^ 30 /\ B2R (hi1 (ry b)) = IZR (sq_j q + sq_side q) / 2 ^ 30.
Proof.
  intros c q W Q. rewrite (square_unique _ _ _ _ Q (sq_correct c W)) in *. clear Q q. pose proof W as (HL & _).
  destruct (center_ok c W) as [E _]. destruct (sq_aligned c W) as ((_ & P & _ & _ & B1 & B2 & B3 & B4) & F & S). rewrite S in *. change (2 ^ 30)%Z with 1073741824%Z in *.
  assert (EC : center_st (code c) = Some (P2 (CellLattice.lat (2 * sq_i (sq c) + side (lv c))) (CellLattice.lat (2 * sq_j (sq c) + side (lv c))))).
  { unfold center_st. rewrite E, !as_u64_pos, !siti_lat by lia. reflexivity. }
  assert (ES : size_st (lv c) = Some (CellLattice.lat (2 * side (lv c)))) by (unfold size_st; rewrite size_i32_ok, ij_lat by (auto; lia); reflexivity).
  destruct (lat_val (2 * side (lv c)) ltac:(lia)) as [Fs Vs].
  eexists _, _, _. split; [exact EC|]. split; [exact ES|]. split; [unfold bound_st; rewrite level_code by exact W; rewrite ES, EC; reflexivity|]. cbn [px py].
  destruct (lat_val (2 * sq_i (sq c) + side (lv c)) ltac:(lia)) as [_ ->]. destruct (lat_val (2 * sq_j (sq c) + side (lv c)) ltac:(lia)) as [_ ->].
  rewrite Vs, !plus_IZR, !mult_IZR. split; [field|]. split; [field|]. split; [field|]. split.
  { rewrite <- mult_IZR. replace (side (lv c) * 2 ^ lv c)%Z with 1073741824%Z; [lra|]. unfold side. rewrite <- Z.pow_add_r by lia. replace (30 - lv c + lv c)%Z with 30%Z by lia. reflexivity. }
  unfold r2_from_center_size. cbn [rx ry px py].
  destruct (st_end (sq_i (sq c)) (side (lv c)) ltac:(lia) ltac:(lia) ltac:(change (2 ^ 30)%Z with 1073741824%Z; lia) _ Fs Vs) as [L1 L2].
  destruct (st_end (sq_j (sq c)) (side (lv c)) ltac:(lia) ltac:(lia) ltac:(change (2 ^ 30)%Z with 1073741824%Z; lia) _ Fs Vs) as [L3 L4].
  rewrite L1, L2, L3, L4. rewrite !plus_IZR. repeat split; field.
Qed.
Print Assumptions C106_st.
Example C106_example : wf (Cell 2 7) /\ is_square_of from_face_ij (Cell 2 7) (sq (Cell 2 7)).
Proof. assert (W : wf (Cell 2 7)) by (vm_compute; intuition congruence). split; [exact W|apply sq_correct, W]. Qed.

(** ** C107: edges *)
(* the part of the sphere over edge k of the cell: lower, right, upper, left *)
Definition over_edge (C : s2cell) (k : Z) (d : pos) : Prop :=
  let x := c_uv C in let u0 := B2R (lo1 (rx x)) in let u1 := B2R (hi1 (rx x)) in let v0 := B2R (lo1 (ry x)) in let v1 := B2R (hi1 (ry x)) in
  if (k =? 0)%Z then in_patch (c_face C) u0 u1 v0 v0 d else if (k =? 1)%Z then in_patch (c_face C) u1 u1 v0 v1 d
  else if (k =? 2)%Z then in_patch (c_face C) u0 u1 v1 v1 d else in_patch (c_face C) u0 u0 v0 v1 d.
(* the side of the plane with normal e a point lies on *)
Definition above (e : vec) (d : pos) : R := B2R (vx e) * px3 d + B2R (vy e) * py3 d + B2R (vz e) * pz3 d.

Lemma comp1 d : on_sphere d -> Rabs (px3 d) <= 1 /\ Rabs (py3 d) <= 1 /\ Rabs (pz3 d) <= 1.
Proof. unfold on_sphere. intros H. repeat split; apply Rabs_le; nra. Qed.
Lemma edge_side c k : wf c -> (0 <= k < 4)%Z -> exists e t, cell_edge (cell_of c) k = Some e /\ is_unit e = true /\ 1 / 2 <= t <= 1 /\
  forall d, on_sphere d -> Rabs (above e d - t * elin k (cell_rc c) (loc (face_of c) d)) <= 27 * StuvError.eps.
Proof.
  intros W Hk. destruct (normal_edge c k W Hk) as (r & Er & (C & _) & L). pose proof (face_of_range c W) as Hf.
  destruct (cube_close r C) as (BN & _ & _ & U & (C1 & C2 & C3) & _). set (n := sqrt (sqn r)) in *.
  exists (VectorModel.normalize r), (/ n). split; [exact Er|]. split; [exact U|]. split. { split; [apply Rle_trans with (/ 2); [lra|apply Rinv_le_contravar; lra]|rewrite <- Rinv_1; apply Rinv_le_contravar; lra]. }
  intros d S. rewrite elin_dt, <- L, loc_dt by auto. unfold shrink, RV, rdot, above in *. cbn [px3 py3 pz3] in *. set (e := VectorModel.normalize r) in *.
  destruct (comp1 d S) as (D1 & D2 & D3). 
  replace (_ - _) with ((B2R (vx e) - / n * B2R (vx r)) * px3 d + (B2R (vy e) - / n * B2R (vy r)) * py3 d + (B2R (vz e) - / n * B2R (vz r)) * pz3 d) by ring.
  assert (M : forall a b k, Rabs a <= k -> Rabs b <= 1 -> Rabs (a * b) <= k) by (intros a b k' Ha Hb; rewrite Rabs_mult; pose proof (Rabs_pos a); pose proof (Rabs_pos b); nra).
  pose proof (M _ _ _ C1 D1) as E1. pose proof (M _ _ _ C2 D2) as E2. pose proof (M _ _ _ C3 D3) as E3. apply Rabs_le_inv in E1, E2, E3. apply Rabs_le. lra.
Qed.
Theorem C107_edges : forall c C k, wf c -> cell_from_cellid (code c) = Some C -> (0 <= k < 4)%Z ->
  exists e, cell_edge C k = Some e /\ is_unit e = true /\
    (forall d, patch C d -> - (1 / 2 ^ 48) <= above e d) /\ (forall d, over_edge C k d -> Rabs (above e d) <= 1 / 2 ^ 48).
Proof.
  intros c C k W E Hk. rewrite cell_from_ok in E by exact W. injection E as <-. destruct (edge_side c k W Hk) as (e & t & Ee & U & T & H). exists e. split; [exact Ee|]. split; [exact U|].
  pose proof (face_of_range c W) as Hf. split.
  - intros d P. destruct (patch_cone c d W P) as (S & I0 & I1 & I2 & I3). specialize (H d S). apply Rabs_le_inv in H.
    assert (G : 0 <= elin k (cell_rc c) (loc (face_of c) d)) by (unfold elin; edges k Hk; assumption). nra.
  - intros d O. assert (G : on_sphere d /\ elin k (cell_rc c) (loc (face_of c) d) = 0).
    { assert (L : forall x y s, px3 d = s * px3 (face_pos (face_of c) x y) -> py3 d = s * py3 (face_pos (face_of c) x y) -> pz3 d = s * pz3 (face_pos (face_of c) x y) -> loc (face_of c) d = P3 s (s * x) (s * y)).
      { intros x y s X1 X2 X3. assert (Ed : d = shrink s (face_pos (face_of c) x y)) by (destruct d as [q1 q2 q3]; unfold shrink; cbn [px3 py3 pz3] in *; congruence). rewrite Ed, loc_shrink, loc_face by exact Hf. unfold scale. cbn [pw pa pb]. f_equal; ring. }
      unfold over_edge, elin, l0, l1, l2, l3, cell_rc in *. cbv zeta in O. cbn [cell_of c_face c_uv u0 u1 v0 v1] in *. revert O.
      edges k Hk; intros (S & x & y & s & X & Y & _ & X1 & X2 & X3); (split; [exact S|]); rewrite (L x y s X1 X2 X3); cbn [pw pa pb];
        first [replace y with (B2R (lo1 (ry (uvrect (sq c))))) by lra; ring | replace x with (B2R (hi1 (rx (uvrect (sq c))))) by lra; ring
              |replace y with (B2R (hi1 (ry (uvrect (sq c))))) by lra; ring | replace x with (B2R (lo1 (rx (uvrect (sq c))))) by lra; ring]. }
    destruct G as [S G]. specialize (H d S). rewrite G, Rmult_0_r, Rminus_0_r in H. lra.
Qed.
Print Assumptions C107_edges.
(* Conversely what is clearly on the inner side of all four edges belongs to the cell. *)
Theorem C107_inside : forall c C d, wf c -> cell_from_cellid (code c) = Some C -> on_sphere d ->
  (forall k e, (0 <= k < 4)%Z -> cell_edge C k = Some e -> 1 / 2 ^ 48 <= above e d) -> patch C d.
Proof.
  intros c C d W E S H. rewrite cell_from_ok in E by exact W. injection E as <-. pose proof (face_of_range c W) as Hf.
  assert (G : forall k, (0 <= k < 4)%Z -> 0 < elin k (cell_rc c) (loc (face_of c) d)).
  { intros k Hk. destruct (edge_side c k W Hk) as (e & t & Ee & _ & T & D). specialize (D d S). specialize (H k e Hk Ee). apply Rabs_le_inv in D. apply Rnot_le_lt. intros L. nra. }
  pose proof (G 0%Z ltac:(lia)) as G0. pose proof (G 1%Z ltac:(lia)) as G1. pose proof (G 2%Z ltac:(lia)) as G2. pose proof (G 3%Z ltac:(lia)) as G3.
  unfold elin, l0, l1, l2, l3 in *. cbn [Z.eqb Pos.eqb] in *. destruct (cell_rc_ok c W) as (_ & OU & OV). set (q := cell_rc c) in *. set (x := loc (face_of c) d) in *.
  assert (PW : 0 < pw x) by (apply Rnot_le_lt; intros L; nra).
  split; [exact S|]. exists (pa x / pw x), (pb x / pw x), (pw x). change (c_face (cell_of c)) with (face_of c).
  assert (M : forall a b, a * pw x < b -> a <= b / pw x) by (intros a b L; apply Rmult_le_reg_r with (pw x); [exact PW|]; unfold Rdiv; rewrite Rmult_assoc, Rinv_l by lra; lra).
  assert (M' : forall a b, b < a * pw x -> b / pw x <= a) by (intros a b L; apply Rmult_le_reg_r with (pw x); [exact PW|]; unfold Rdiv; rewrite Rmult_assoc, Rinv_l by lra; lra).
  split; [split; [apply (M (u0 q)); lra|apply (M' (u1 q)); lra]|]. split; [split; [apply (M (v0 q)); lra|apply (M' (v1 q)); lra]|]. split; [exact PW|].
  assert (EA : pw x * (pa x / pw x) = pa x) by (field; lra). assert (EB : pw x * (pb x / pw x) = pb x) by (field; lra). unfold face_pos. clearbody q. clear - EA EB Hf. unfold x, loc in *. revert EA EB.
  faces (face_of c) Hf; cbn [pw pa pb px3 py3 pz3]; intros EA EB; repeat split; lra.
Qed.
Print Assumptions C107_inside.
Example C107_hyps : wf (Cell 4 1000) /\ (0 <= 2 < 4)%Z /\ exists C, cell_from_cellid (code (Cell 4 1000)) = Some C.
Proof. assert (W : wf (Cell 4 1000)) by (vm_compute; intuition congruence). split; [exact W|]. split; [lia|]. eexists. apply cell_from_ok, W. Qed.

(** ** C108: cells as sets of leaves *)
Theorem C108_cell_sets : forall c d C D, wf c -> wf d -> cell_from_cellid (code c) = Some C -> cell_from_cellid (code d) = Some D ->
  (exists b, cell_contains_cell C D = Some b /\ (b = true <-> forall m, leaves d m -> leaves c m) /\
     (b = true -> forall p, patch D p -> patch C p)) /\
  (exists b, cell_intersects_cell C D = Some b /\ (b = true <-> exists m, leaves c m /\ leaves d m)).
Proof.
  intros c d C D Wc Wd EC ED. rewrite cell_from_ok in EC, ED by auto. injection EC as <-. injection ED as <-. unfold cell_contains_cell, cell_intersects_cell. cbn [cell_of c_id]. split.
  - destruct (C06_contains c d Wc Wd) as ((b & E & _ & H) & _). exists b. split; [exact E|]. split; [exact H|]. intros B p P.
    destruct (contains_code c d Wc Wd) as (b' & E' & V). rewrite E in E'. injection E' as <-. destruct (proj1 V B) as [L <-]. destruct Wc as (LC & _). apply patch_anc; auto; lia.
  - destruct (C07_intersects c d Wc Wd) as (b & E & H & _). exists b. split; [exact E|exact H].
Qed.
Print Assumptions C108_cell_sets.
Example C108_example : let c := Cell 2 7 in let d := Cell 4 115 in wf c /\ wf d /\ contains (code c) (code d) = Some true /\ contains (code d) (code c) = Some false.
Proof. vm_compute. intuition congruence. Qed.
