(** The cap bound of a cell contains the cell, with room to spare for the inside of every leaf. *)
From Coq Require Import ZArith Reals Lra Lia Psatz List Bool.
From Flocq Require Import Core.
From Verif Require Import Base Spec F64 F64Facts IntervalSpec F64Arith F64Error S1Proofs VectorModel StuvModel R1Model
  CellIdModel CellIdArith CellIdProofs CellUnionModel HilbertModel HilbertSpec HilbertGeom NeighborSpec
  CellSpec CellModel StuvError CellLattice CellProofs CellPoint CellVertex
  PredicatesError PredicatesFloat CapSpec CapModel ChordProofs CapProofs CapError PropsCap CapCell CapEdge CapEdgeFloat CapEdgeMain CoverGeom CoverCell RegionModel CoverProofs ExpandProofs CircleProofs.
Import ListNotations.
Open Scope R_scope.
Local Notation corner := CapEdge.corner.
Local Notation LL := CapCell.L.

(** ** Rectangles of a plane *)
Lemma L_eq x y : sqrt (1 + x * x + y * y) = LL x y. Proof. reflexivity. Qed.
Lemma corner_dt c x y : dt c (corner x y) * LL x y = dt c (P3 1 x y).
Proof. pose proof (L_pos x y) as P. unfold dt, corner. cbn [pw pa pb]. rewrite !L_eq. field. lra. Qed.
Lemma corner_self x y : dt (corner x y) (P3 1 x y) = LL x y.
Proof. pose proof (L_pos x y) as P. pose proof (L_sq x y) as S. unfold dt, corner. cbn [pw pa pb]. rewrite !L_eq. apply Rmult_eq_reg_r with (LL x y); [|lra]. rewrite S. field. lra. Qed.
Definition at_corners (q : rc) (P : R -> R -> Prop) : Prop := P (u0 q) (v0 q) /\ P (u1 q) (v0 q) /\ P (u0 q) (v1 q) /\ P (u1 q) (v1 q).

Lemma cone_all q c k : 0 <= k -> at_corners q (fun x y => k <= dt c (corner x y)) ->
  forall x y, u0 q <= x <= u1 q -> v0 q <= y <= v1 q -> k * LL x y <= dt c (P3 1 x y).
Proof.
  intros K (A & B & C & D) x y Bx By.
  assert (S : forall a b, k <= dt c (corner a b) -> k * LL a b - 0 <= dt c (P3 1 a b)).
  { intros a b H. rewrite <- corner_dt. pose proof (L_pos a b). rewrite Rminus_0_r. apply Rmult_le_compat_r; lra. }
  pose proof (patch_lower (fun a b => dt c (P3 1 a b)) k 0 (u0 q) (u1 q) (v0 q) (v1 q) ltac:(intros; unfold dt; cbn [pw pa pb]; ring) K (S _ _ A) (S _ _ B) (S _ _ C) (S _ _ D) x y Bx By) as H.
  cbv beta in H. lra.
Qed.
Lemma cone_gap q x0 y0 k s w x y : okrc q -> u0 q <= x0 <= u1 q -> v0 q <= y0 <= v1 q -> 0 <= k <= 1 ->
  at_corners q (fun a b => k <= dt (corner x0 y0) (corner a b)) ->
  0 <= s -> 0 < w -> u1 q - u0 q <= w -> v1 q - v0 q <= w -> 2 * s <= w ->
  u0 q + s <= x <= u1 q - s -> v0 q + s <= y <= v1 q - s ->
  k + s / w * (1 - k) / 2 <= dt (corner x0 y0) (corner x y).
Proof.
  intros Q Bx0 By0 K A Hs Hw W1 W2 Sw Bx By. destruct Q as (Q1 & Q2 & Q3 & Q4 & Q5 & Q6).
  set (m := s / w). assert (M : 0 <= m <= / 2). { unfold m. split; [apply Rmult_le_pos; [lra|left; apply Rinv_0_lt_compat; lra]|]. apply Rmult_le_reg_r with w; [lra|]. unfold Rdiv. rewrite Rmult_assoc, Rinv_l by lra. lra. }
  assert (MW : m * w = s) by (unfold m; field; lra).
  set (l := 1 - m). assert (Lb : / 2 <= l <= 1) by (unfold l; lra).
  set (qx := x0 + (x - x0) / l). set (qy := y0 + (y - y0) / l).
  assert (EX : (1 - l) * x0 + l * qx = x) by (unfold qx; field; lra). assert (EY : (1 - l) * y0 + l * qy = y) by (unfold qy; field; lra).
  assert (IN : forall lo hi z0 z, lo <= z0 <= hi -> hi - lo <= w -> lo + s <= z <= hi - s -> lo <= z0 + (z - z0) / l <= hi).
  { intros lo hi z0 z B1 B2 B3. assert (P : 0 < / l) by (apply Rinv_0_lt_compat; lra).
    assert (E : z0 + (z - z0) / l = z0 + (z - z0) * / l) by (unfold Rdiv; reflexivity).
    split; apply Rmult_le_reg_r with l; try lra; replace ((z0 + (z - z0) / l) * l) with (z0 * l + (z - z0)) by (field; lra); unfold l.
    - assert ((z0 - lo) * m <= w * m) by (apply Rmult_le_compat_r; lra). lra.
    - assert ((hi - z0) * m <= w * m) by (apply Rmult_le_compat_r; lra). lra. }
  pose proof (IN _ _ x0 x Bx0 W1 Bx) as IQx. pose proof (IN _ _ y0 y By0 W2 By) as IQy. fold qx in IQx. fold qy in IQy.
  pose proof (cone_all q (corner x0 y0) k ltac:(lra) A qx qy IQx IQy) as GQ.
  pose proof (corner_self x0 y0) as GC. pose proof (L_convex l x0 y0 qx qy ltac:(lra)) as CV. rewrite EX, EY in CV.
  assert (GP : dt (corner x0 y0) (P3 1 x y) = (1 - l) * dt (corner x0 y0) (P3 1 x0 y0) + l * dt (corner x0 y0) (P3 1 qx qy)). { rewrite <- EX, <- EY. unfold dt. cbn [pw pa pb]. ring. }
  rewrite <- corner_dt, GC in GP. pose proof (L_pos x y) as LP. pose proof (L_le2 x y ltac:(lra) ltac:(lra)) as L2. pose proof (L_pos x0 y0) as LC.
  set (g := dt (corner x0 y0) (corner x y)) in *. set (Lx := LL x y) in *. set (Lc := LL x0 y0) in *. set (Lq := LL qx qy) in *. set (gq := dt (corner x0 y0) (P3 1 qx qy)) in *.
  replace (1 - l) with m in * by (unfold l; ring).
  assert (H1 : l * (k * Lq) <= l * gq) by (apply Rmult_le_compat_l; lra).
  assert (H2 : k * Lx <= k * (m * Lc + l * Lq)) by (apply Rmult_le_compat_l; lra).
  assert (H3 : k * Lx + m * (1 - k) * Lc <= g * Lx) by (rewrite GP; lra).
  assert (MK : 0 <= m * (1 - k)) by (apply Rmult_le_pos; lra).
  assert (H4 : m * (1 - k) * 1 <= m * (1 - k) * Lc) by (apply Rmult_le_compat_l; lra).
  assert (H5 : m * (1 - k) * Lx <= m * (1 - k) * 2) by (apply Rmult_le_compat_l; lra).
  apply Rmult_le_reg_r with Lx; [lra|]. lra.
Qed.

(* the corners of a rectangle are not too close to a point of it *)
Lemma corner_far x0 y0 x1 y1 : -1 <= x0 <= 1 -> -1 <= y0 <= 1 -> -1 <= x1 <= 1 -> -1 <= y1 <= 1 ->
  let c := dt (corner x0 y0) (corner x1 y1) in (x1 - x0) * (x1 - x0) / 9 <= 2 - 2 * c /\ (y1 - y0) * (y1 - y0) / 9 <= 2 - 2 * c.
Proof.
  intros B1 B2 B3 B4. cbv zeta. set (c := dt _ _). pose proof (L_pos x0 y0) as P0. pose proof (L_pos x1 y1) as P1. pose proof (L_sq x0 y0) as S0. pose proof (L_sq x1 y1) as S1.
  assert (E : c * (LL x0 y0 * LL x1 y1) = 1 + x0 * x1 + y0 * y1).
  { unfold c, dt, corner. cbn [pw pa pb]. rewrite !L_eq. field. lra. }
  set (a := LL x0 y0) in *. set (b := LL x1 y1) in *. assert (AB : (a * b) * (a * b) = (1 + x0 * x0 + y0 * y0) * (1 + x1 * x1 + y1 * y1)) by (rewrite <- S0, <- S1; ring).
  assert (SQ : forall z, -1 <= z <= 1 -> 0 <= z * z <= 1) by (intros z; nra). pose proof (SQ x0 B1). pose proof (SQ y0 B2). pose proof (SQ x1 B3). pose proof (SQ y1 B4).
  assert (M9 : (a * b) * (a * b) <= 9) by (rewrite AB; replace 9 with (3 * 3) by ring; apply Rmult_le_compat; lra). assert (P : 1 <= a * b) by nra.
  set (p := a * b) in *. assert (KEY : (1 - c * c) * (p * p) = (x0 * y1 - y0 * x1) * (x0 * y1 - y0 * x1) + (y0 - y1) * (y0 - y1) + (x1 - x0) * (x1 - x0)).
  { replace ((1 - c * c) * (p * p)) with (p * p - (c * p) * (c * p)) by ring. rewrite E, AB. ring. }
  pose proof (Rle_0_sqr (x0 * y1 - y0 * x1)) as Q1. pose proof (Rle_0_sqr (y0 - y1)) as Q2. pose proof (Rle_0_sqr (x1 - x0)) as Q3. unfold Rsqr in *.
  assert (T : 1 - c * c <= 2 - 2 * c) by (pose proof (Rle_0_sqr (1 - c)) as Q; unfold Rsqr in Q; lra).
  assert (PP : 1 <= p * p) by (rewrite <- (Rmult_1_r 1); apply Rmult_le_compat; lra).
  assert (C0 : 0 <= 1 - c * c). { apply Rmult_le_reg_r with (p * p); [lra|]. rewrite KEY. lra. }
  assert (C9 : (1 - c * c) * (p * p) <= (1 - c * c) * 9) by (apply Rmult_le_compat_l; lra).
  clear - T KEY C9 Q1 Q2 Q3. generalize dependent ((1 - c * c) * (p * p)). intros z E H. split; lra.
Qed.

(** ** The centre of a cell *)
Lemma mid_val (lo hi : f64) : finite lo -> finite hi -> -1 <= B2R lo -> B2R lo < B2R hi -> B2R hi <= 1 ->
  let m := fmul fhalf (fadd lo hi) in finite m /\ B2R lo <= B2R m <= B2R hi /\ Rabs (B2R m - (B2R lo + B2R hi) / 2) <= / 1024.
Proof.
  intros FL FH B1 B2 B3. cbv zeta. pose proof (fadd_result _ _ FL FH) as RS. destruct (half2 _ _ RS) as (FS & VS & ES); [apply Rabs_le; lra|].
  destruct (half_val _ FS) as (FC & VC & EC); [apply Rabs_le; lra|]. split; [exact FC|].
  destruct (twice_val _ FL ltac:(apply Rabs_le; lra)) as [_ VL2]. destruct (twice_val _ FH ltac:(apply Rabs_le; lra)) as [_ VH2].
  split.
  - split.
    + assert (Q : 2 * B2R lo <= B2R (fadd lo hi)) by (rewrite VS; apply (rnd_lower (fmul f2 lo)); [exact VL2|lra]). rewrite VC. apply (rnd_lower lo); [reflexivity|lra].
    + assert (Q : B2R (fadd lo hi) <= 2 * B2R hi) by (rewrite VS; apply (rnd_upper (fmul f2 hi)); [exact VH2|lra]). rewrite VC. apply (rnd_upper hi); [reflexivity|lra].
  - apply Rabs_le. lra.
Qed.

Lemma cell_centre c : wf c -> let q := cell_rc c in exists r x0 y0,
  face_uv_to_xyz (c_face (cell_of c)) (r1_center (rx (c_uv (cell_of c)))) (r1_center (ry (c_uv (cell_of c)))) = Some r /\
  cube_pt r /\ RV r = face_pos (face_of c) x0 y0 /\ u0 q <= x0 <= u1 q /\ v0 q <= y0 <= v1 q /\
  Rabs (x0 - (u0 q + u1 q) / 2) <= / 1024 /\ Rabs (y0 - (v0 q + v1 q) / 2) <= / 1024.
Proof.
  intros W. cbv zeta. pose proof (face_of_range c W) as Hf. destruct (cell_rc_ok c W) as ((K1 & K2 & K3 & K4 & K5 & K6) & _).
  destruct (sq_aligned c W) as ((_ & P & _ & _ & B1 & B2 & B3 & B4) & _ & _).
  destruct (cell_line (sq_i (sq c)) (sq_i (sq c) + sq_side (sq c)) ltac:(lia) ltac:(lia) ltac:(lia)) as (F1 & F2 & _).
  destruct (cell_line (sq_j (sq c)) (sq_j (sq c) + sq_side (sq c)) ltac:(lia) ltac:(lia) ltac:(lia)) as (F3 & F4 & _).
  unfold cell_rc, cell_of, uvrect, r1_center in *. cbn [c_face c_uv rx ry lo1 hi1 u0 u1 v0 v1] in *.
  set (a := uvl (2 * sq_i (sq c))) in *. set (b := uvl (2 * (sq_i (sq c) + sq_side (sq c)))) in *. set (a' := uvl (2 * sq_j (sq c))) in *. set (b' := uvl (2 * (sq_j (sq c) + sq_side (sq c)))) in *.
  destruct (mid_val a b F1 F2 K1 K2 K3) as (Fm & Bm & Em). destruct (mid_val a' b' F3 F4 K4 K5 K6) as (Fm' & Bm' & Em').
  set (m := fmul fhalf (fadd a b)) in *. set (m' := fmul fhalf (fadd a' b')) in *.
  destruct (face_uv_cube (face_of c) m m' Hf Fm Fm' ltac:(apply Rabs_le; lra) ltac:(apply Rabs_le; lra)) as (r & Er & C).
  destruct (face_uv_pos _ _ _ r Hf Fm Fm' Er) as (P1 & P2 & P3'). exists r, (B2R m), (B2R m'). split; [exact Er|]. split; [exact C|].
  split; [unfold RV; rewrite <- P1, <- P2, <- P3'; destruct (face_pos _ _ _); reflexivity|]. auto.
Qed.

(** ** The cap around the vertices *)
Lemma add_points v ps : forall cp, center cp = v -> finite (radius cp) -> 0 <= B2R (radius cp) <= 4 ->
  let r := fold_left cap_add_point ps cp in
  center r = v /\ finite (radius r) /\ B2R (radius cp) <= B2R (radius r) <= 4 /\
  (forall p, In p ps -> B2R (chordangle v p) <= B2R (radius r)) /\
  (radius r = radius cp \/ exists p, In p ps /\ radius r = chordangle v p).
Proof.
  induction ps as [|p t IH]; intros cp EC F B; cbv zeta.
  - cbn [fold_left]. split; [exact EC|]. split; [exact F|]. split; [lra|]. split; [intros p []|auto].
  - cbn [fold_left]. assert (EQ : cap_add_point cp p = Cap v (fmax (chordangle v p) (radius cp))) by (unfold cap_add_point; destruct (empty_R cp F) as [N|N]; [lra|]; rewrite EC; reflexivity). rewrite EQ.
    destruct (chordangle_range v p) as [Fc Bc]. destruct (fmax_R _ _ Fc F) as [Fm Vm].
    destruct (IH (Cap v (fmax (chordangle v p) (radius cp))) eq_refl Fm) as (C & Fr & Br & H & E); cbn [radius] in *.
    { rewrite Vm. split; [eapply Rle_trans; [|apply Rmax_r]; lra|apply Rmax_lub; lra]. }
    rewrite Vm in Br. split; [exact C|]. split; [exact Fr|]. pose proof (Rmax_l (B2R (chordangle v p)) (B2R (radius cp))). pose proof (Rmax_r (B2R (chordangle v p)) (B2R (radius cp))).
    split; [lra|]. split; [intros p' [<-|I]; [lra|auto]|].
    destruct E as [E|(p' & I & E)]; [|right; exists p'; split; [right; exact I|exact E]].
    rewrite E. unfold fmax. rewrite (finite_number _ Fc), (finite_number _ F). destruct (fle _ _); [left; reflexivity|right; exists p; split; [left|]; reflexivity].
Qed.

Lemma at_four q (P : R -> R -> Prop) : (forall k, (0 <= k < 4)%Z -> P (kx k q) (ky k q)) -> at_corners q P.
Proof. intros H. pose proof (H 0 ltac:(lia))%Z. pose proof (H 1 ltac:(lia))%Z. pose proof (H 2 ltac:(lia))%Z. pose proof (H 3 ltac:(lia))%Z. unfold at_corners. auto. Qed.
Lemma corners_four q (P : R -> R -> Prop) : at_corners q P -> forall k, (0 <= k < 4)%Z -> P (kx k q) (ky k q).
Proof. intros (A & B & C & D) k Hk. destruct (k_cases k Hk) as [-> | [-> | [-> | ->]]]; assumption. Qed.

(* a point of a rectangle and its middle *)
Lemma mid_prod lo hi m z : -1 <= lo -> lo < hi -> hi <= 1 -> Rabs (m - (lo + hi) / 2) <= / 1024 -> z = lo \/ z = hi -> - (1 / 4) <= m * z.
Proof.
  intros A B C E H. apply Rabs_le_inv in E. assert (K : - (1 / 8) <= (lo + hi) / 2 * z). { pose proof (Rle_0_sqr (lo + hi / 2)) as Q1. pose proof (Rle_0_sqr (hi + lo / 2)) as Q2. unfold Rsqr in *. destruct H as [-> | ->]; nra. }
  assert (D : - / 1024 <= (m - (lo + hi) / 2) * z <= / 1024) by (destruct H as [-> | ->]; nra). lra.
Qed.
Lemma centre_corners q x0 y0 : okrc q -> Rabs (x0 - (u0 q + u1 q) / 2) <= / 1024 -> Rabs (y0 - (v0 q + v1 q) / 2) <= / 1024 ->
  at_corners q (fun a b => 0 <= dt (corner x0 y0) (corner a b)).
Proof.
  intros (K1 & K2 & K3 & K4 & K5 & K6) E1 E2.
  assert (G : forall a b, a = u0 q \/ a = u1 q -> b = v0 q \/ b = v1 q -> 0 <= dt (corner x0 y0) (corner a b)).
  { intros a b Ha Hb. pose proof (mid_prod _ _ _ a K1 K2 K3 E1 Ha) as P1. pose proof (mid_prod _ _ _ b K4 K5 K6 E2 Hb) as P2.
    pose proof (L_pos x0 y0) as L0. pose proof (L_pos a b) as L1. assert (E : dt (corner x0 y0) (corner a b) * (LL x0 y0 * LL a b) = 1 + x0 * a + y0 * b).
    { unfold dt, corner. cbn [pw pa pb]. rewrite !L_eq. field. lra. }
    assert (P : 0 < LL x0 y0 * LL a b) by (apply Rmult_lt_0_compat; lra). apply Rmult_le_reg_r with (LL x0 y0 * LL a b); [exact P|]. rewrite E. lra. }
  unfold at_corners. auto 10.
Qed.

Lemma rc_gv c : cell_rc c = Rc (gv (2 * sq_i (sq c) - N)) (gv (2 * (sq_i (sq c) + sq_side (sq c)) - N)) (gv (2 * sq_j (sq c) - N)) (gv (2 * (sq_j (sq c) + sq_side (sq c)) - N)).
Proof. unfold cell_rc, uvrect, gv. cbn [rx ry lo1 hi1]. rewrite !Z.sub_add. reflexivity. Qed.
Lemma rc_nest c m : wf c -> leaves c m -> wf (leaf m) -> let q := cell_rc c in let l := cell_rc (leaf m) in
  face_of (leaf m) = face_of c /\ u0 q <= u0 l /\ u1 l <= u1 q /\ v0 q <= v0 l /\ v1 l <= v1 q.
Proof.
  intros W L Wm. cbv zeta. pose proof W as (HL & _). destruct (leaf_in (leaf m) (lv c) Wm eq_refl ltac:(lia)) as (Sq & Fq & Fp & Sp & Li & Lj).
  rewrite (leaves_anc c m W L) in Fp, Sp, Li, Lj. destruct (sq_aligned c W) as ((_ & _ & _ & _ & A1 & A2 & A3 & A4) & Fc & Sc).
  destruct (sq_aligned _ Wm) as ((_ & _ & _ & _ & B1 & B2 & B3 & B4) & _ & _). rewrite Sq in B2, B4. rewrite Sc in A2, A4.
  rewrite !rc_gv, Sq, Sc. cbn [u0 u1 v0 v1]. split; [congruence|].
  repeat split; apply gv_mono; lia.
Qed.
Lemma patch_corner c d : wf c -> patch (cell_of c) d -> on_sphere d /\ exists x y,
  u0 (cell_rc c) <= x <= u1 (cell_rc c) /\ v0 (cell_rc c) <= y <= v1 (cell_rc c) /\ loc (face_of c) d = corner x y.
Proof.
  intros W P. pose proof (face_of_range c W) as Hf. destruct (patch_pos c d W P) as (S & x & y & t & T & X & Y & E). split; [exact S|]. exists x, y. rewrite rc_gv. cbn [u0 u1 v0 v1].
  split; [exact X|]. split; [exact Y|]. rewrite E, loc_shrink, loc_face by auto.
  assert (U : unit3 (loc (face_of c) d)) by (apply loc_unit; auto). rewrite E, loc_shrink, loc_face in U by auto. unfold unit3, dt, scale in U. cbn [pw pa pb] in U.
  pose proof (L_pos x y) as LP. pose proof (L_sq x y) as LS. assert (TL : t * LL x y = 1).
  { assert (Q : (t * LL x y) * (t * LL x y) = 1) by (replace (t * LL x y * (t * LL x y)) with (t * t * (LL x y * LL x y)) by ring; rewrite LS; lra).
    assert (0 < t * LL x y) by (apply Rmult_lt_0_compat; lra). nra. }
  unfold scale, corner. cbn [pw pa pb]. rewrite !L_eq. assert (TE : t = / LL x y) by (apply Rmult_eq_reg_r with (LL x y); [rewrite TL; field; lra|lra]). rewrite TE. f_equal; field; lra.
Qed.
Lemma chd_loc c a b s t : (0 <= face_of c < 6)%Z -> on_sphere a -> on_sphere b -> loc (face_of c) a = s -> loc (face_of c) b = t ->
  chd a b * chd a b = 2 - 2 * dt s t /\ 0 <= chd a b <= 2.
Proof. intros Hf A B <- <-. destruct (chd_range a b A B) as (R1 & R2 & R3). rewrite loc_dt by auto. rewrite R2, R3. split; [reflexivity|exact R1]. Qed.

Lemma sq_le_le a b : 0 <= a -> 0 <= b -> a * a <= b * b -> a <= b.
Proof. intros A B H. apply Rnot_lt_le. intros L. assert (b * b < a * a) by (apply Rmult_le_0_lt_compat; lra). lra. Qed.

Theorem cell_bound_ok c : wf c -> exists cp, cell_cap_bound (cell_of c) = Some cp /\ valid_cap cp /\ 0 <= B2R (radius cp) /\
  (forall k p, (0 <= k < 4)%Z -> cell_vertex (cell_of c) k = Some p -> cap_contains_point cp p = true) /\
  (exists k p, (0 <= k < 4)%Z /\ cell_vertex (cell_of c) k = Some p /\ B2R (radius cp) <= B2R (chordangle (center cp) p)) /\
  (forall d, patch (cell_of c) d -> chd (direction (center cp)) d <= sqrt (B2R (radius cp)) + 1 / 2 ^ 41) /\
  (forall m, leaves c m -> wf (leaf m) -> exists d, patch (cell_of (leaf m)) d /\ chd (direction (center cp)) d <= sqrt (B2R (radius cp)) - 1 / 2 ^ 37).
Proof.
  intros W. pose proof (face_of_range c W) as Hf. destruct (cell_rc_ok c W) as (Q & WX & WY). pose proof Q as (K1 & K2 & K3 & K4 & K5 & K6).
  destruct (cell_centre c W) as (r & x0 & y0 & Er & Cr & Pr & Bx0 & By0 & Mx & My). set (q := cell_rc c) in *.
  destruct (cell_vertices_ok c W) as (p0 & p1 & p2 & p3 & Ev & V0 & V1 & V2 & V3).
  destruct (cube_close r Cr) as (BN & NN & _ & UU & CL & SP). set (v := VectorModel.normalize r) in *. pose proof (close_dir _ _ CL SP) as CD.
  destruct (add_points v [p0; p1; p2; p3] (cap_from_point v) eq_refl eq_refl ltac:(cbn [radius cap_from_point]; change (B2R f0) with 0; lra)) as (EC & Fr & Br & HC & HE).
  change (B2R (radius (cap_from_point v))) with 0 in Br. set (cp := fold_left cap_add_point [p0; p1; p2; p3] (cap_from_point v)) in *.
  exists cp. split. { unfold cell_cap_bound. rewrite Er, Ev. reflexivity. }
  assert (ALL : forall k p, (0 <= k < 4)%Z -> cell_vertex (cell_of c) k = Some p -> In p [p0; p1; p2; p3]).
  { intros k p Hk E. destruct (k_cases k Hk) as [-> | [-> | [-> | ->]]]; cbn [In]; [rewrite V0 in E|rewrite V1 in E|rewrite V2 in E|rewrite V3 in E]; apply Some_inj in E; auto 6. }
  destruct c4_val as [F4 V4].
  assert (VC : valid_cap cp). { split; [|exact Fr]. unfold cap_is_valid. rewrite EC, UU. unfold STRAIGHT. destruct (fle_R _ c4 Fr F4); [reflexivity|lra]. }
  split; [exact VC|]. split; [lra|]. rewrite EC.
  assert (IN : forall k p, (0 <= k < 4)%Z -> cell_vertex (cell_of c) k = Some p -> cap_contains_point cp p = true).
  { intros k p Hk E. unfold cap_contains_point. rewrite EC. destruct (chordangle_range v p) as [Fc _]. specialize (HC p (ALL k p Hk E)). destruct (fle_R _ _ Fc Fr); [reflexivity|lra]. }
  split; [exact IN|]. split.
  { destruct HE as [HE|(p & I & HE)].
    - exists 0%Z, p0. split; [lia|]. split; [exact V0|]. rewrite HE. change (B2R (radius (cap_from_point v))) with 0. destruct (chordangle_range v p0); lra.
    - rewrite HE. cbn [In] in I. destruct I as [<-|[<-|[<-|[<-|[]]]]]; [exists 0%Z, p0|exists 1%Z, p1|exists 2%Z, p2|exists 3%Z, p3]; repeat split; auto; lia || lra. }
  (* the centre on the sphere *)
  set (cc := below (face_of c) x0 y0). destruct (below_patch c x0 y0 W Bx0 By0) as [PC LC]. fold cc in PC, LC. destruct PC as [SC _].
  assert (EQ : shrink (/ sqrt (sqn r)) (RV r) = cc).
  { unfold cc, below. rewrite Pr. f_equal. f_equal. f_equal. transitivity (rdot (RV r) (RV r)); [reflexivity|]. rewrite <- (loc_dt (face_of c)), Pr, loc_face by auto. unfold dt. cbn [pw pa pb]. ring. }
  rewrite EQ in CD. assert (CH : chd (direction v) cc <= 256 * u). { unfold chd. rewrite <- (sqrt_square (256 * u)) by lra. apply sqrt_le_1_alt. exact CD. }
  set (T := sqrt (B2R (radius cp)) + / 4398046511104 + 256 * u). destruct (sqrt_nonneg (B2R (radius cp)) ltac:(lra)) as [R0 RR].
  pose proof (centre_corners q x0 y0 Q Mx My) as POS.
  assert (COR : forall k, (0 <= k < 4)%Z -> 1 - T * T / 2 <= dt (corner x0 y0) (corner (kx k q) (ky k q))).
  { intros k Hk. assert (Hp : exists p, cell_vertex (cell_of c) k = Some p) by (destruct (k_cases k Hk) as [-> | [-> | [-> | ->]]]; eauto). destruct Hp as [p Ep].
    destruct (corner_dist c k p v (radius cp) W Hk Ep UU Fr ltac:(lra)) as (d & PD & LD & _ & I). assert (CPE : Cap v (radius cp) = cp) by (rewrite <- EC; destruct cp; reflexivity).
    rewrite CPE in I. specialize (I (IN k p Hk Ep)). fold q in LD. destruct (chd_loc c cc d _ _ Hf SC (proj1 PD) LC LD) as [E B].
    pose proof (chd_tri cc (direction v) d) as TR. rewrite (chd_sym cc (direction v)) in TR. assert (LE : chd cc d <= T) by (unfold T; lra).
    assert (chd cc d * chd cc d <= T * T) by (apply Rmult_le_compat; lra). lra. }
  set (K := Rmax 0 (1 - T * T / 2)). assert (KB : 0 <= K <= 1). { unfold K. split; [apply Rmax_l|]. apply Rmax_lub; [lra|]. pose proof (Rle_0_sqr T) as Q0. unfold Rsqr in Q0. lra. }
  assert (KT : 1 - T * T / 2 <= K) by apply Rmax_r.
  assert (AT : at_corners q (fun a b => K <= dt (corner x0 y0) (corner a b))).
  { apply at_four. intros k Hk. unfold K. apply Rmax_lub; [exact (corners_four _ _ POS k Hk)|exact (COR k Hk)]. }
  set (w := Rmax (u1 q - u0 q) (v1 q - v0 q)). assert (W1 : u1 q - u0 q <= w) by apply Rmax_l. assert (W2 : v1 q - v0 q <= w) by apply Rmax_r.
  assert (T0 : 0 <= T) by (unfold T; lra).
  split.
  - intros d PD. destruct (patch_corner c d W PD) as (SD & x & y & Bx & By & LD). fold q in Bx, By.
    pose proof (cone_gap q x0 y0 K 0 w x y Q Bx0 By0 KB AT ltac:(lra) ltac:(lra) W1 W2 ltac:(lra) ltac:(lra) ltac:(lra)) as G. unfold Rdiv in G. rewrite !Rmult_0_l, Rplus_0_r in G.
    destruct (chd_loc c cc d _ _ Hf SC SD LC LD) as [E B]. assert (LE : chd cc d <= T) by (apply sq_le_le; lra).
    pose proof (chd_tri (direction v) cc d) as TR. unfold T in LE. lra.
  - intros m Lm Wm. destruct (rc_nest c m W Lm Wm) as (FE & N1 & N2 & N3 & N4). destruct (cell_rc_ok _ Wm) as ((J1 & J2 & J3 & J4 & J5 & J6) & JX & JY). fold q in N1, N2, N3, N4. set (l := cell_rc (leaf m)) in *.
    set (x := (u0 l + u1 l) / 2). set (y := (v0 l + v1 l) / 2). set (s := / 2147483648).
    destruct (below_patch (leaf m) x y Wm ltac:(fold l; unfold x; lra) ltac:(fold l; unfold y; lra)) as [PD LD]. rewrite FE in LD, PD. set (d := below (face_of c) x y) in *. exists d. split; [exact PD|].
    pose proof (cone_gap q x0 y0 K s w x y Q Bx0 By0 KB AT ltac:(unfold s; lra) ltac:(lra) W1 W2 ltac:(unfold s; lra) ltac:(unfold s, x; lra) ltac:(unfold s, y; lra)) as G.
    destruct (chd_loc c cc d _ _ Hf SC (proj1 PD) LC LD) as [E B].
    (* the radius is not small against the width *)
    assert (BIG : w / 6 <= T).
    { assert (FAR : exists k, (0 <= k < 4)%Z /\ (w / 2 <= Rabs (kx k q - x0) \/ w / 2 <= Rabs (ky k q - y0))).
      { unfold w, Rmax. destruct (Rle_dec _ _) as [L|L].
        - destruct (Rle_dec y0 ((v0 q + v1 q) / 2)); [exists 2%Z|exists 0%Z]; (split; [lia|right]); unfold ky; cbn [Z.leb Z.compare Pos.compare Pos.compare_cont]; [rewrite Rabs_pos_eq; lra|rewrite Rabs_left1; lra].
        - destruct (Rle_dec x0 ((u0 q + u1 q) / 2)); [exists 1%Z|exists 0%Z]; (split; [lia|left]); unfold kx; cbn [Z.eqb Pos.eqb orb]; [rewrite Rabs_pos_eq; lra|rewrite Rabs_left1; lra]. }
      destruct FAR as (k & Hk & FAR). specialize (COR k Hk). assert (BKX : u0 q <= kx k q <= u1 q) by (unfold kx; destruct ((k =? 1) || (k =? 2))%Z; lra). assert (BKY : v0 q <= ky k q <= v1 q) by (unfold ky; destruct (2 <=? k)%Z; lra).
      destruct (corner_far x0 y0 (kx k q) (ky k q) ltac:(lra) ltac:(lra) ltac:(lra) ltac:(lra)) as [C1 C2]. cbv zeta in C1, C2.
      apply sq_le_le; [lra|lra|].
      assert (ABS : forall z, w / 2 <= Rabs z -> w / 2 * (w / 2) <= z * z) by (intros z H; rewrite <- (sqr_abs z); apply Rmult_le_compat; lra).
      destruct FAR as [H|H]; specialize (ABS _ H); lra. }
    assert (SW : 0 < s / w) by (apply Rmult_lt_0_compat; [unfold s; lra|apply Rinv_0_lt_compat; lra]). assert (SWW : s / w * w = s) by (field; lra).
    set (e := s / w) in *. assert (E1 : e <= 1 / 2). { apply Rmult_le_reg_r with w; [lra|]. rewrite SWW. unfold s. lra. }
    assert (LE : chd cc d <= T * (1 - e / 4)).
    { apply sq_le_le; [lra|apply Rmult_le_pos; lra|]. assert (P1 : 2 - 2 * K <= T * T) by lra. assert (P2 : (2 - 2 * K) * (1 - e / 2) <= T * T * (1 - e / 2)) by (apply Rmult_le_compat_r; lra).
      assert (P3 : 0 <= T * T * (e * e)) by (apply Rmult_le_pos; apply Rmult_le_pos; lra). lra. }
    assert (GAP : s / 24 <= T * (e / 4)). { assert (w / 6 * (e / 4) <= T * (e / 4)) by (apply Rmult_le_compat_r; lra). lra. }
    pose proof (chd_tri (direction v) cc d) as TR. unfold T in LE, GAP. unfold s in GAP. lra.
Qed.
