(** The computations of intersects_cell_vertices against the real geometry of a face. *)
From Coq Require Import Reals Lra Lia Psatz Bool List.
From Flocq Require Import Core.
From Verif Require Import Base Spec F64 F64Facts IntervalSpec F64Arith F64Error F64Neg S1Proofs R1Model VectorModel StuvModel
  CellIdModel CellIdArith CellIdProofs HilbertSpec HilbertGeom CellModel StuvError CellLattice CellProofs CellPoint CellVertex
  PredicatesError PredicatesFloat PredicatesSound CapSpec CapModel ChordProofs CapProofs CapError NormProofs CapCell CapEdge.
Import ListNotations.
Open Scope R_scope.

(** ** Dot product and determinant of vectors of about unit length *)
Definition RV (v : vec) : pos := Pos (X v) (Y v) (Z v).
Definition rdet (a b c : pos) : R :=
  (py3 a * pz3 b - pz3 a * py3 b) * px3 c + (pz3 a * px3 b - px3 a * pz3 b) * py3 c + (px3 a * py3 b - py3 a * px3 b) * pz3 c.
Definition unitish (v : vec) : Prop := fvec v /\ Rabs (X v) <= 9 / 8 /\ Rabs (Y v) <= 9 / 8 /\ Rabs (Z v) <= 9 / 8.
Lemma unitish_small v : unitish v -> small v.
Proof. intros (F & A & B & C). split; [exact F|]. change (pow2 2) with 4. repeat split; lra. Qed.
Lemma rnd_in r B : Rabs r <= B -> Rabs (rnd r - r) <= u * B + h.
Proof. intros H. pose proof (PredicatesError.rnd_rel r). pose proof (Rabs_pos r). lra. Qed.
Lemma abs_mul_le a b A B : Rabs a <= A -> Rabs b <= B -> Rabs (a * b) <= A * B.
Proof. intros. rewrite Rabs_mult. apply Rmult_le_compat; auto; apply Rabs_pos. Qed.
Lemma abs_add_le a b A B : Rabs a <= A -> Rabs b <= B -> Rabs (a + b) <= A + B.
Proof. intros. eapply Rle_trans; [apply Rabs_triang|lra]. Qed.
Lemma abs_sub_le a b A B : Rabs a <= A -> Rabs b <= B -> Rabs (a - b) <= A + B.
Proof. intros. unfold Rminus. apply abs_add_le; [auto|]. rewrite Rabs_Ropp. auto. Qed.
Lemma near_bound a b B e : Rabs b <= B -> Rabs (a - b) <= e -> Rabs a <= B + e.
Proof. intros. replace a with (b + (a - b)) by ring. apply abs_add_le; auto. Qed.

Lemma dot_err a b : unitish a -> unitish b -> finite (dot a b) /\ Rabs (B2R (dot a b) - rdot (RV a) (RV b)) <= 12 * u.
Proof.
  intros ((FA1 & FA2 & FA3) & A1 & A2 & A3) ((FB1 & FB2 & FB3) & B1 & B2 & B3).
  pose proof (abs_mul_le _ _ _ _ A1 B1) as P1. pose proof (abs_mul_le _ _ _ _ A2 B2) as P2. pose proof (abs_mul_le _ _ _ _ A3 B3) as P3.
  pose proof h_tiny as HT. pose proof h_pos as HP.
  assert (PW : pow2 2 = 4) by reflexivity. assert (PW3 : pow2 3 = 8) by reflexivity.
  destruct (result_val _ _ 2 ltac:(lia) (fmul_result _ _ FA1 FB1) ltac:(lra)) as (F1 & V1 & _).
  destruct (result_val _ _ 2 ltac:(lia) (fmul_result _ _ FA2 FB2) ltac:(lra)) as (F2 & V2 & _).
  destruct (result_val _ _ 2 ltac:(lia) (fmul_result _ _ FA3 FB3) ltac:(lra)) as (F3 & V3 & _).
  pose proof (rnd_in _ _ P1) as R1. pose proof (rnd_in _ _ P2) as R2. pose proof (rnd_in _ _ P3) as R3. rewrite <- V1 in R1. rewrite <- V2 in R2. rewrite <- V3 in R3.
  set (m1 := fmul (vx a) (vx b)) in *. set (m2 := fmul (vy a) (vy b)) in *. set (m3 := fmul (vz a) (vz b)) in *.
  pose proof (near_bound _ _ _ _ P1 R1) as N1. pose proof (near_bound _ _ _ _ P2 R2) as N2. pose proof (near_bound _ _ _ _ P3 R3) as N3.
  pose proof (abs_add_le _ _ _ _ N1 N2) as N4. destruct (result_val _ _ 3 ltac:(lia) (fadd_result _ _ F1 F2) ltac:(lra)) as (F4 & V4 & _).
  pose proof (rnd_in _ _ N4) as R4. rewrite <- V4 in R4. pose proof (near_bound _ _ _ _ N4 R4) as N5.
  pose proof (abs_add_le _ _ _ _ N5 N3) as N6. destruct (result_val _ _ 3 ltac:(lia) (fadd_result _ _ F4 F3) ltac:(lra)) as (F5 & V5 & _).
  pose proof (rnd_in _ _ N6) as R5. rewrite <- V5 in R5. unfold dot. fold m1 m2 m3. split; [exact F5|]. unfold rdot, RV. cbn [px3 py3 pz3].
  apply Rabs_le_inv in R1. apply Rabs_le_inv in R2. apply Rabs_le_inv in R3. apply Rabs_le_inv in R4. apply Rabs_le_inv in R5. apply Rabs_le. lra.
Qed.
Lemma det_err a b c : unitish a -> unitish b -> unitish c ->
  finite (dot (cross a b) c) /\ Rabs (B2R (dot (cross a b) c) - rdet (RV a) (RV b) (RV c)) <= 60 * u.
Proof.
  intros UA UB UC. destruct (dot_cross_val a b c (unitish_small _ UA) (unitish_small _ UB) (unitish_small _ UC)) as
    (F & m1 & m1' & m2 & m2' & m3 & m3' & p1 & p2 & p3 & t1 & t2 & t3 & s & (M1 & M1' & M2 & M2' & M3 & M3') & (Q1 & Q2 & Q3) & (T1 & T2 & T3) & S & D).
  split; [exact F|]. destruct UA as (_ & A1 & A2 & A3). destruct UB as (_ & B1 & B2 & B3). destruct UC as (_ & C1 & C2 & C3).
  pose proof h_tiny as HT. pose proof h_pos as HP.
  assert (COMP : forall x y x' y' z z' p : R, Rabs x <= 9 / 8 -> Rabs y <= 9 / 8 -> Rabs x' <= 9 / 8 -> Rabs y' <= 9 / 8 -> z = rnd (x * y) -> z' = rnd (x' * y') -> p = rnd (z - z') ->
    forall w t, Rabs w <= 9 / 8 -> t = rnd (p * w) -> Rabs (t - (x * y - x' * y') * w) <= 11 * u /\ Rabs t <= 3).
  { intros x y x' y' z z' p Hx Hy Hx' Hy' Ez Ez' Ep w t Hw Et.
    pose proof (abs_mul_le _ _ _ _ Hx Hy) as P. pose proof (abs_mul_le _ _ _ _ Hx' Hy') as P'. pose proof (rnd_in _ _ P) as R. pose proof (rnd_in _ _ P') as R'. rewrite <- Ez in R. rewrite <- Ez' in R'.
    pose proof (near_bound _ _ _ _ P R) as N. pose proof (near_bound _ _ _ _ P' R') as N'. pose proof (abs_sub_le _ _ _ _ N N') as N2. pose proof (rnd_in _ _ N2) as R2. rewrite <- Ep in R2.
    assert (E : Rabs (p - (x * y - x' * y')) <= 6 * u).
    { apply Rabs_le_inv in R. apply Rabs_le_inv in R'. apply Rabs_le_inv in R2. apply Rabs_le. lra. }
    assert (Pp : Rabs p <= 8 / 3). { pose proof (near_bound _ _ _ _ N2 R2). lra. }
    pose proof (abs_mul_le _ _ _ _ E Hw) as EE. pose proof (abs_mul_le _ _ _ _ Pp Hw) as PP. pose proof (rnd_in _ _ PP) as R3. rewrite <- Et in R3. split.
    - replace (t - (x * y - x' * y') * w) with ((t - p * w) + (p - (x * y - x' * y')) * w) by ring. eapply Rle_trans; [apply Rabs_triang|]. lra.
    - assert (B : Rabs ((x * y - x' * y') * w) <= 81 / 32 * (9 / 8)) by (apply abs_mul_le; auto; eapply Rle_trans; [apply (abs_sub_le _ _ _ _ P P')|lra]).
      assert (Rabs (t - (x * y - x' * y') * w) <= 11 * u). { replace (t - (x * y - x' * y') * w) with ((t - p * w) + (p - (x * y - x' * y')) * w) by ring. eapply Rle_trans; [apply Rabs_triang|]. lra. }
      pose proof (near_bound _ _ _ _ B H). lra. }
  destruct (COMP _ _ _ _ _ _ _ A2 B3 A3 B2 M1 M1' Q1 _ _ C1 T1) as [E1 G1]. destruct (COMP _ _ _ _ _ _ _ A3 B1 A1 B3 M2 M2' Q2 _ _ C2 T2) as [E2 G2]. destruct (COMP _ _ _ _ _ _ _ A1 B2 A2 B1 M3 M3' Q3 _ _ C3 T3) as [E3 G3].
  pose proof (abs_add_le _ _ _ _ G1 G2) as N4. pose proof (rnd_in _ _ N4) as R4. rewrite <- S in R4. pose proof (near_bound _ _ _ _ N4 R4) as N5. pose proof (abs_add_le _ _ _ _ N5 G3) as N6. pose proof (rnd_in _ _ N6) as R5. rewrite <- D in R5.
  unfold rdet, RV. cbn [px3 py3 pz3]. apply Rabs_le_inv in E1. apply Rabs_le_inv in E2. apply Rabs_le_inv in E3. apply Rabs_le_inv in R4. apply Rabs_le_inv in R5. apply Rabs_le. lra.
Qed.

(** ** Vectors near unit directions *)
Definition close (v : vec) (d : pos) : Prop := Rabs (X v - px3 d) <= 9 * u /\ Rabs (Y v - py3 d) <= 9 * u /\ Rabs (Z v - pz3 d) <= 9 * u.
Definition shrink (t : R) (d : pos) : pos := Pos (t * px3 d) (t * py3 d) (t * pz3 d).
Lemma cube_close r : cube_pt r -> let n := sqrt (sqn r) in
  1 <= n <= 2 /\ n * n = sqn r /\ unitish (VectorModel.normalize r) /\ is_unit (VectorModel.normalize r) = true /\ close (VectorModel.normalize r) (shrink (/ n) (RV r)) /\ on_sphere (shrink (/ n) (RV r)).
Proof.
  intros C. cbv zeta. destruct (cube_moderate r C) as [M S]. destruct (normalize_close r M) as (n & P & SS & FV & E1 & E2 & E3 & U).
  assert (EN : sqrt (sqn r) = n) by (rewrite <- SS; apply sqrt_square; lra). rewrite EN. assert (BN : 1 <= n <= 2) by nra. split; [exact BN|]. split; [exact SS|].
  destruct (sqn_comp r n ltac:(lra) ltac:(lra)) as (C1 & C2 & C3). assert (INV : 0 < / n) by (apply Rinv_0_lt_compat; lra).
  assert (LE1 : forall x, Rabs x <= n -> Rabs (x / n) <= 1).
  { intros x Hx. unfold Rdiv. rewrite Rabs_mult, (Rabs_pos_eq (/ n)) by lra. apply Rmult_le_reg_r with n; [lra|]. rewrite Rmult_assoc, Rinv_l by lra. lra. }
  pose proof (LE1 _ C1) as L1. pose proof (LE1 _ C2) as L2. pose proof (LE1 _ C3) as L3. pose proof h_tiny as HT. pose proof h_pos as HP.
  assert (D1 : Rabs (X (VectorModel.normalize r) - X r / n) <= 9 * u) by lra. assert (D2 : Rabs (Y (VectorModel.normalize r) - Y r / n) <= 9 * u) by lra. assert (D3 : Rabs (Z (VectorModel.normalize r) - Z r / n) <= 9 * u) by lra.
  split. { split; [exact FV|]. pose proof (near_bound _ _ _ _ L1 D1). pose proof (near_bound _ _ _ _ L2 D2). pose proof (near_bound _ _ _ _ L3 D3). repeat split; lra. }
  split; [exact U|]. split.
  - unfold close, shrink, RV. cbn [px3 py3 pz3]. unfold Rdiv in *. rewrite !(Rmult_comm (/ n)). auto.
  - unfold on_sphere, shrink, RV. cbn [px3 py3 pz3]. transitivity (sqn r / (n * n)); [unfold sqn; field; lra|]. rewrite SS. field. lra.
Qed.
Lemma sphere_comp d : on_sphere d -> Rabs (px3 d) <= 1 /\ Rabs (py3 d) <= 1 /\ Rabs (pz3 d) <= 1.
Proof.
  unfold on_sphere. intros S. assert (H : forall x y z, x * x + y * y + z * z = 1 -> Rabs x <= 1).
  { clear. intros x y z E. assert (x * x <= 1) by (pose proof (Rle_0_sqr y); pose proof (Rle_0_sqr z); unfold Rsqr in *; lra). apply Rabs_le. split; nra. }
  split; [|split].
  - apply (H _ (py3 d) (pz3 d)). lra.
  - apply (H _ (px3 d) (pz3 d)). lra.
  - apply (H _ (px3 d) (py3 d)). lra.
Qed.
Lemma dot_close v d c : close v d -> Rabs (px3 c) <= 9 / 8 -> Rabs (py3 c) <= 9 / 8 -> Rabs (pz3 c) <= 9 / 8 -> Rabs (rdot c (RV v) - rdot c d) <= 31 * u.
Proof.
  intros (A & B & C) H1 H2 H3. unfold rdot, RV. cbn [px3 py3 pz3].
  replace (px3 c * X v + py3 c * Y v + pz3 c * Z v - (px3 c * px3 d + py3 c * py3 d + pz3 c * pz3 d)) with (px3 c * (X v - px3 d) + py3 c * (Y v - py3 d) + pz3 c * (Z v - pz3 d)) by ring.
  pose proof (abs_mul_le _ _ _ _ H1 A) as P1. pose proof (abs_mul_le _ _ _ _ H2 B) as P2. pose proof (abs_mul_le _ _ _ _ H3 C) as P3.
  pose proof (abs_add_le _ _ _ _ (abs_add_le _ _ _ _ P1 P2) P3). lra.
Qed.
(* the cross product of two vectors of about unit length *)
Definition rcross (a b : pos) : pos := Pos (py3 a * pz3 b - pz3 a * py3 b) (pz3 a * px3 b - px3 a * pz3 b) (px3 a * py3 b - py3 a * px3 b).
Definition b98 (c : pos) : Prop := Rabs (px3 c) <= 9 / 8 /\ Rabs (py3 c) <= 9 / 8 /\ Rabs (pz3 c) <= 9 / 8.
Lemma det_lin v d a b : close v d -> b98 a -> b98 b -> Rabs (rdot (rcross a b) (RV v) - rdot (rcross a b) d) <= 70 * u.
Proof.
  intros (A & B & C) (H1 & H2 & H3) (K1 & K2 & K3). unfold rdot, RV, rcross. cbn [px3 py3 pz3].
  assert (G : forall x y x' y', Rabs x <= 9 / 8 -> Rabs y <= 9 / 8 -> Rabs x' <= 9 / 8 -> Rabs y' <= 9 / 8 -> Rabs (x * y - x' * y') <= 81 / 32).
  { intros x y x' y' Q1 Q2 Q3 Q4. pose proof (abs_sub_le _ _ _ _ (abs_mul_le _ _ _ _ Q1 Q2) (abs_mul_le _ _ _ _ Q3 Q4)). lra. }
  pose proof (G _ _ _ _ H2 K3 H3 K2) as G1. pose proof (G _ _ _ _ H3 K1 H1 K3) as G2. pose proof (G _ _ _ _ H1 K2 H2 K1) as G3.
  set (x := py3 a * pz3 b - pz3 a * py3 b) in *. set (y := pz3 a * px3 b - px3 a * pz3 b) in *. set (z := px3 a * py3 b - py3 a * px3 b) in *.
  replace (x * X v + y * Y v + z * Z v - (x * px3 d + y * py3 d + z * pz3 d)) with (x * (X v - px3 d) + y * (Y v - py3 d) + z * (Z v - pz3 d)) by ring.
  pose proof (abs_mul_le _ _ _ _ G1 A) as P1. pose proof (abs_mul_le _ _ _ _ G2 B) as P2. pose proof (abs_mul_le _ _ _ _ G3 C) as P3.
  pose proof (abs_add_le _ _ _ _ (abs_add_le _ _ _ _ P1 P2) P3). lra.
Qed.
Lemma det_close e n v p c : close e n -> close v p -> on_sphere n -> on_sphere p -> unitish e -> unitish v -> b98 c ->
  Rabs (rdet (RV e) c (RV v) - rdet n c p) <= 140 * u.
Proof.
  intros CE CV Sn Sp (_ & E1 & E2 & E3) (_ & V1 & V2 & V3) BC. destruct (sphere_comp n Sn) as (N1 & N2 & N3).
  assert (BN : b98 n) by (unfold b98; repeat split; lra). assert (BV : b98 (RV v)) by (unfold b98, RV; cbn [px3 py3 pz3]; repeat split; lra).
  pose proof (det_lin v p n c CV BN BC) as Q1. pose proof (det_lin e n c (RV v) CE BC BV) as Q2.
  replace (rdet (RV e) c (RV v) - rdet n c p) with ((rdot (rcross c (RV v)) (RV e) - rdot (rcross c (RV v)) n) + (rdot (rcross n c) (RV v) - rdot (rcross n c) p)) by (unfold rdet, rdot, rcross, RV; cbn [px3 py3 pz3]; ring).
  eapply Rle_trans; [apply Rabs_triang|]. lra.
Qed.

(** ** Coordinates of a face *)
Definition loc (f : BinInt.Z) (d : pos) : p3 :=
  (if (f =? 0)%Z then P3 (px3 d) (py3 d) (pz3 d)
  else if (f =? 1)%Z then P3 (py3 d) (- px3 d) (pz3 d)
  else if (f =? 2)%Z then P3 (pz3 d) (- px3 d) (- py3 d)
  else if (f =? 3)%Z then P3 (- px3 d) (- pz3 d) (- py3 d)
  else if (f =? 4)%Z then P3 (- py3 d) (- pz3 d) (px3 d)
  else P3 (- pz3 d) (py3 d) (px3 d)).
Definition ddet (a b c : p3) : R :=
  (pa a * pb b - pb a * pa b) * pw c + (pb a * pw b - pw a * pb b) * pa c + (pw a * pa b - pa a * pw b) * pb c.
Ltac faces f Hf := destruct (face_zero_cases f Hf) as [-> | [-> | [-> | [-> | [-> | ->]]]]]; cbn [Z.eqb Pos.eqb].
Lemma loc_dt f a b : (0 <= f < 6)%Z -> dt (loc f a) (loc f b) = rdot a b.
Proof. intros Hf. unfold loc, dt, rdot. faces f Hf; cbn [pw pa pb]; ring. Qed.
Lemma loc_det f a b c : (0 <= f < 6)%Z -> ddet (loc f a) (loc f b) (loc f c) = rdet a b c.
Proof. intros Hf. unfold loc, ddet, rdet. faces f Hf; cbn [pw pa pb]; ring. Qed.
Lemma loc_shrink f t a : (0 <= f < 6)%Z -> loc f (shrink t a) = scale t (loc f a).
Proof. intros Hf. unfold loc, shrink, scale. faces f Hf; cbn [pw pa pb px3 py3 pz3]; f_equal; ring. Qed.
Lemma loc_face f u v : (0 <= f < 6)%Z -> loc f (face_pos f u v) = P3 1 u v.
Proof. intros Hf. unfold loc, face_pos. faces f Hf; cbn [px3 py3 pz3]; f_equal; ring. Qed.
Lemma loc_unit f d : (0 <= f < 6)%Z -> on_sphere d -> unit3 (loc f d).
Proof. intros Hf S. unfold unit3. rewrite loc_dt by auto. exact S. Qed.

(* the normals of the edges and the corners they start from *)
Definition eN (k : BinInt.Z) (q : rc) : p3 :=
  (if (k =? 0)%Z then P3 (- v0 q) 0 1 else if (k =? 1)%Z then P3 (u1 q) (-1) 0 else if (k =? 2)%Z then P3 (v1 q) 0 (-1) else P3 (- u0 q) 1 0).
Definition eV (k : BinInt.Z) (q : rc) : p3 :=
  (if (k =? 0)%Z then P3 1 (u0 q) (v0 q) else if (k =? 1)%Z then P3 1 (u1 q) (v0 q) else if (k =? 2)%Z then P3 1 (u1 q) (v1 q) else P3 1 (u0 q) (v1 q)).
Definition elin (k : BinInt.Z) (q : rc) (c : p3) : R := (if (k =? 0)%Z then l0 q c else if (k =? 1)%Z then l1 q c else if (k =? 2)%Z then l2 q c else l3 q c).
Definition edA (k : BinInt.Z) (q : rc) (c : p3) : R := (if (k =? 0)%Z then dA 0 q c else if (k =? 1)%Z then dA 1 q c else if (k =? 2)%Z then dA 2 q c else dA 3 q c).
Definition edB (k : BinInt.Z) (q : rc) (c : p3) : R := (if (k =? 0)%Z then dB 0 q c else if (k =? 1)%Z then dB 1 q c else if (k =? 2)%Z then dB 2 q c else dB 3 q c).
Lemma k_cases k : (0 <= k < 4)%Z -> k = 0%Z \/ k = 1%Z \/ k = 2%Z \/ k = 3%Z. Proof. lia. Qed.
Ltac edges k Hk := destruct (k_cases k Hk) as [-> | [-> | [-> | ->]]];
  [try change (Z.land (0 + 1) 3) with 1%Z|try change (Z.land (1 + 1) 3) with 2%Z|try change (Z.land (2 + 1) 3) with 3%Z|try change (Z.land (3 + 1) 3) with 0%Z]; cbn [Z.eqb Pos.eqb].
Lemma elin_dt k q c : (0 <= k < 4)%Z -> elin k q c = dt c (eN k q).
Proof. intros Hk. unfold elin, eN, l0, l1, l2, l3, dt. edges k Hk; cbn [pw pa pb]; ring. Qed.
Lemma edA_det k q c : (0 <= k < 4)%Z -> edA k q c = - ddet (eN k q) c (eV k q).
Proof. intros Hk. unfold edA, eN, eV, dA, det0, turn, turn_rc, ddet. edges k Hk; cbn [pw pa pb u0 u1 v0 v1]; ring. Qed.
Lemma edB_det k q c : (0 <= k < 4)%Z -> edB k q c = ddet (eN k q) c (eV (Z.land (k + 1) 3) q).
Proof. intros Hk. unfold edB, eN, eV, dB, det1, turn, turn_rc, ddet. edges k Hk; cbn [pw pa pb u0 u1 v0 v1]; ring. Qed.

(** ** The rectangle of a cell *)
Definition cell_rc (c : cell) : rc :=
  let r := uvrect (sq c) in Rc (B2R (lo1 (rx r))) (B2R (hi1 (rx r))) (B2R (lo1 (ry r))) (B2R (hi1 (ry r))).
Lemma cell_line a b : (0 <= a)%Z -> (a < b)%Z -> (b <= 2 ^ 30)%Z ->
  finite (uvl (2 * a)) /\ finite (uvl (2 * b)) /\ -1 <= B2R (uvl (2 * a)) /\ B2R (uvl (2 * b)) <= 1 /\ B2R (uvl (2 * a)) + / 1073741824 <= B2R (uvl (2 * b)).
Proof.
  intros A B C. destruct (uvl_val (2 * a) ltac:(lia)) as (Fa & _ & Ba). destruct (uvl_val (2 * b) ltac:(lia)) as (Fb & _ & Bb).
  pose proof (uvl_gap (2 * a) (2 * a + 1) ltac:(lia) ltac:(lia)). pose proof (uvl_gap (2 * a + 1) (2 * b) ltac:(lia) ltac:(lia)). repeat split; auto; lra.
Qed.
Lemma cell_rc_ok c : wf c -> okrc (cell_rc c) /\ / 1073741824 <= u1 (cell_rc c) - u0 (cell_rc c) /\ / 1073741824 <= v1 (cell_rc c) - v0 (cell_rc c).
Proof.
  intros W. destruct (sq_aligned c W) as ((_ & P & _ & _ & B1 & B2 & B3 & B4) & F & S).
  destruct (cell_line (sq_i (sq c)) (sq_i (sq c) + sq_side (sq c)) ltac:(lia) ltac:(lia) ltac:(lia)) as (_ & _ & X1 & X2 & X3).
  destruct (cell_line (sq_j (sq c)) (sq_j (sq c) + sq_side (sq c)) ltac:(lia) ltac:(lia) ltac:(lia)) as (_ & _ & Y1 & Y2 & Y3).
  unfold cell_rc, okrc, uvrect. cbn [rx ry lo1 hi1 u0 u1 v0 v1]. repeat split; lra.
Qed.
Lemma patch_cone c d : wf c -> patch (cell_of c) d -> on_sphere d /\ incone (cell_rc c) (loc (face_of c) d).
Proof.
  intros W (S & x & y & t & BX & BY & T & E1 & E2 & E3). split; [exact S|]. pose proof (face_of_range c W) as Hf. cbn [cell_of c_face c_uv] in *.
  assert (E : d = shrink t (face_pos (face_of c) x y)) by (destruct d as [p0 p1 p2]; unfold shrink; cbn [px3 py3 pz3] in *; congruence).
  rewrite E, loc_shrink, loc_face by auto. destruct (scale_lin (cell_rc c) t (P3 1 x y)) as (L0 & L1 & L2 & L3). unfold incone. rewrite L0, L1, L2, L3.
  unfold l0, l1, l2, l3, cell_rc, uvrect in *. cbn [pw pa pb u0 u1 v0 v1 rx ry lo1 hi1] in *. repeat split; apply Rmult_le_pos; lra.
Qed.
(* the point of the sphere below (u, v) *)
Definition below (f : BinInt.Z) (x y : R) : pos := shrink (/ sqrt (1 + x * x + y * y)) (face_pos f x y).
Lemma below_patch c x y : wf c -> u0 (cell_rc c) <= x <= u1 (cell_rc c) -> v0 (cell_rc c) <= y <= v1 (cell_rc c) ->
  patch (cell_of c) (below (face_of c) x y) /\ loc (face_of c) (below (face_of c) x y) = CapEdge.corner x y.
Proof.
  intros W BX BY. pose proof (face_of_range c W) as Hf. destruct (len_pos x y) as [A B]. assert (I : 0 < / sqrt (1 + x * x + y * y)) by (apply Rinv_0_lt_compat; lra). split.
  - split.
    + unfold on_sphere, below, shrink. cbn [px3 py3 pz3]. set (n := sqrt _) in *. transitivity (/ n * / n * (px3 (face_pos (face_of c) x y) * px3 (face_pos (face_of c) x y) + py3 (face_pos (face_of c) x y) * py3 (face_pos (face_of c) x y) + pz3 (face_pos (face_of c) x y) * pz3 (face_pos (face_of c) x y))); [ring|].
      rewrite face_pos_len, <- B. field. lra.
    + exists x, y, (/ sqrt (1 + x * x + y * y)). split; [exact BX|]. split; [exact BY|]. split; [exact I|]. repeat split.
  - unfold below. rewrite loc_shrink, loc_face by auto. unfold scale, CapEdge.corner. cbn [pw pa pb]. f_equal; unfold Rdiv; ring.
Qed.

(** ** Edges and vertices as computed *)
Lemma neg_val (x : f64) : finite x -> finite (fmul x (fneg f1)) /\ B2R (fmul x (fneg f1)) = - B2R x.
Proof.
  intros F. destruct f1_val as [F1 V1]. destruct (fneg_val f1 F1) as [Fn Vn]. destruct (fneg_val x F) as [Fx Vx].
  destruct (result_exact _ _ (fneg x) (fmul_result x (fneg f1) F Fn)) as [Fz Vz]; [rewrite Vn, V1, Vx; ring|]. split; [exact Fz|]. rewrite Vz, Vn, V1. ring.
Qed.
(* r holds the components of a normal *)
Definition is_normal (r : vec) : Prop := cube_pt r /\ (X r = 0 \/ Y r = 0 \/ Z r = 0).
Lemma normal_edge c k : wf c -> (0 <= k < 4)%Z -> exists r, cell_edge (cell_of c) k = Some (VectorModel.normalize r) /\ is_normal r /\ loc (face_of c) (RV r) = eN k (cell_rc c).
Proof.
  intros W Hk. pose proof (face_of_range c W) as Hf. destruct (sq_aligned c W) as ((_ & P & _ & _ & B1 & B2 & B3 & B4) & _ & _).
  destruct (cell_line (sq_i (sq c)) (sq_i (sq c) + sq_side (sq c)) ltac:(lia) ltac:(lia) ltac:(lia)) as (F1 & F2 & X1 & X2 & X3).
  destruct (cell_line (sq_j (sq c)) (sq_j (sq c) + sq_side (sq c)) ltac:(lia) ltac:(lia) ltac:(lia)) as (F3 & F4 & Y1 & Y2 & Y3).
  unfold cell_edge, unorm, vnorm, cell_rc, cell_of, uvrect. cbn [c_face c_uv rx ry lo1 hi1].
  set (a := uvl (2 * sq_i (sq c))) in *. set (b := uvl (2 * (sq_i (sq c) + sq_side (sq c)))) in *. set (a' := uvl (2 * sq_j (sq c))) in *. set (b' := uvl (2 * (sq_j (sq c) + sq_side (sq c)))) in *.
  destruct f1_val as [G1 V1]. destruct (fneg_val f1 G1) as [Gn Vn].
  assert (Aa : Rabs (B2R a) <= 1) by (apply Rabs_le; lra). assert (Ab : Rabs (B2R b) <= 1) by (apply Rabs_le; lra). assert (Aa' : Rabs (B2R a') <= 1) by (apply Rabs_le; lra). assert (Ab' : Rabs (B2R b') <= 1) by (apply Rabs_le; lra).
  destruct (fneg_val a F1) as [Fa Va]. destruct (fneg_val b F2) as [Fb Vb]. destruct (fneg_val a' F3) as [Fa' Va']. destruct (fneg_val b' F4) as [Fb' Vb'].
  destruct (neg_val a F1) as [Ha Wa]. destruct (neg_val b F2) as [Hb Wb]. destruct (neg_val a' F3) as [Ha' Wa']. destruct (neg_val b' F4) as [Hb' Wb'].
  destruct (neg_val (fneg a) Fa) as [Ia Ja]. destruct (neg_val (fneg b) Fb) as [Ib Jb]. destruct (neg_val (fneg a') Fa') as [Ia' Ja']. destruct (neg_val (fneg b') Fb') as [Ib' Jb'].
  destruct (neg_val f1 G1) as [H1 W1]. destruct (neg_val (fneg f1) Gn) as [Hn Wn]. destruct (neg_val f0 eq_refl) as [H0 W0]. change (B2R f0) with 0 in W0.
  assert (Z0 : B2R f0 = 0) by reflexivity. assert (Zf : finite f0) by reflexivity.
  destruct (face_zero_cases _ Hf) as [E|[E|[E|[E|[E|E]]]]]; rewrite E; edges k Hk; eexists; (split; [reflexivity|]); unfold is_normal, cube_pt, fin3, loc, eN, RV, vscale; cbn [vx vy vz px3 py3 pz3 Z.eqb Pos.eqb u0 u1 v0 v1];
    (split; [split; [split; [repeat split; assumption|]|]|]); rewrite ?Ja, ?Jb, ?Ja', ?Jb', ?Wa, ?Wb, ?Wa', ?Wb', ?Va, ?Vb, ?Va', ?Vb', ?Wn, ?W1, ?Vn, ?V1, ?W0, ?Z0, ?Ropp_involutive, ?Rabs_Ropp, ?Ropp_0, ?Rabs_R0, ?Rabs_R1;
    solve [ repeat split; first [assumption | lra | auto] | auto | f_equal; ring ].
Qed.
Lemma vertex_cube c k : wf c -> (0 <= k < 4)%Z -> exists r, cell_vertex (cell_of c) k = Some (VectorModel.normalize r) /\ cube_pt r /\ loc (face_of c) (RV r) = eV k (cell_rc c).
Proof.
  intros W Hk. pose proof (face_of_range c W) as Hf. destruct (vertex_raw c k W Hk) as (Ri & Rj & r & Er & C & V). exists r. split; [exact V|]. split; [exact C|].
  destruct (uvl_val (2 * cor_i (sq c) k) ltac:(lia)) as (Fk & _). destruct (uvl_val (2 * cor_j (sq c) k) ltac:(lia)) as (Fl & _).
  destruct (face_uv_pos _ _ _ r Hf Fk Fl Er) as (P1 & P2 & P3).
  assert (E : RV r = face_pos (face_of c) (B2R (uvl (2 * cor_i (sq c) k))) (B2R (uvl (2 * cor_j (sq c) k)))).
  { unfold RV. rewrite <- P1, <- P2, <- P3. destruct (face_pos _ _ _). reflexivity. }
  rewrite E, loc_face by auto. unfold eV, cor_i, cor_j, cell_rc, uvrect. cbn [rx ry lo1 hi1 u0 u1 v0 v1].
  destruct (k_cases k Hk) as [-> | [-> | [-> | ->]]]; cbn [Z.eqb Pos.eqb orb Z.leb Z.compare Pos.compare Pos.compare_cont]; rewrite ?Z.add_0_r; reflexivity.
Qed.
Lemma unit_ctr v : is_unit v = true -> let m := sqrt (sqn v) in
  Rabs (m - 1) <= KR /\ unitish v /\ RV v = shrink m (direction v) /\ on_sphere (direction v).
Proof.
  intros H. destruct (unit_norm v H) as (F & S & N). cbv zeta. split; [exact N|]. unfold KR in N. apply Rabs_le_inv in N.
  assert (P : 0 < sqrt (sqn v)) by lra. set (m := sqrt (sqn v)) in *. split; [|split].
  - destruct (sqn_comp v m ltac:(lra) ltac:(lra)) as (C1 & C2 & C3). split; [exact F|]. repeat split; lra.
  - unfold RV, shrink, direction. cbn [px3 py3 pz3]. fold (sqn v). fold m. f_equal; field; lra.
  - apply unit_sphere, H.
Qed.
Lemma h_small : 100 * h <= u * u.
Proof.
  apply Rle_trans with (128 * pow2 (-113)).
  - unfold h. assert (pow2 (-1074) <= pow2 (-113)) by (apply bpow_le; lia). pose proof (bpow_gt_0 radix2 (-1074)). lra.
  - change (pow2 (-113)) with (/ 10384593717069655257060992658440192). lra.
Qed.

Section edge.
  Variable (f : BinInt.Z) (v : vec).
  Hypothesis Hf : (0 <= f < 6)%Z.
  Hypothesis Hv : is_unit v = true.
  Let m := sqrt (sqn v).
  Let C := loc f (direction v).

  Lemma edge_dot r N : is_normal r -> loc f (RV r) = N ->
    let e := VectorModel.normalize r in let n := sqrt (dt N N) in
    1 <= n <= 3 / 2 /\ n * n = dt N N /\ finite (dot v e) /\ Rabs (B2R (dot v e) - m * (dt C N / n)) <= 43 * u.
  Proof.
    intros [CR Z0] EN. cbv zeta. destruct (cube_close r CR) as (BN & NN & UN & _ & CL & SP). destruct (unit_ctr v Hv) as (BM & UV & EV & SV). fold m in BM, EV. set (n := sqrt (sqn r)) in *.
    assert (ED : dt N N = sqn r) by (rewrite <- EN, loc_dt by auto; unfold rdot, RV, sqn; reflexivity). rewrite ED. fold n.
    assert (N2 : n * n <= 2).
    { rewrite NN. destruct CR as (_ & B1 & B2 & B3 & _). unfold sqn. rewrite <- (sqr_abs (X r)), <- (sqr_abs (Y r)), <- (sqr_abs (Z r)). pose proof (Rabs_pos (X r)). pose proof (Rabs_pos (Y r)). pose proof (Rabs_pos (Z r)).
      destruct Z0 as [E|[E|E]]; rewrite E, Rabs_R0; nra. }
    split; [nra|]. split; [exact NN|]. destruct (dot_err v (VectorModel.normalize r) UV UN) as [F E]. split; [exact F|].
    destruct UV as (_ & V1 & V2 & V3). pose proof (dot_close _ _ (RV v) CL V1 V2 V3) as D.
    assert (EQ : rdot (RV v) (shrink (/ n) (RV r)) = m * (dt C N / n)).
    { rewrite <- (loc_dt f) by auto. rewrite loc_shrink, EN, EV, loc_shrink by auto. fold C. unfold dt, scale. cbn [pw pa pb]. field. lra. }
    rewrite EQ in D. apply Rabs_le_inv in D. apply Rabs_le_inv in E. apply Rabs_le. lra.
  Qed.
  Lemma edge_det r N rv V : is_normal r -> loc f (RV r) = N -> cube_pt rv -> loc f (RV rv) = V ->
    let e := VectorModel.normalize r in let p := VectorModel.normalize rv in let k := sqrt (dt N N) * sqrt (dt V V) in
    1 <= k <= 5 / 2 /\ finite (dot (cross e v) p) /\ Rabs (B2R (dot (cross e v) p) - m * (ddet N C V / k)) <= 200 * u.
  Proof.
    intros [CR Z0] EN CV EV. cbv zeta. destruct (edge_dot r N (conj CR Z0) EN) as (_ & NN' & _).
    destruct (cube_close r CR) as (BN & NN & UN & _ & CL & SP). destruct (cube_close rv CV) as (BV & VV & UVV & _ & CLV & SPV).
    destruct (unit_ctr v Hv) as (BM & UV & EVV & SV). fold m in BM, EVV.
    assert (ED : dt N N = sqn r) by (rewrite <- EN, loc_dt by auto; unfold rdot, RV, sqn; reflexivity).
    assert (EDV : dt V V = sqn rv) by (rewrite <- EV, loc_dt by auto; unfold rdot, RV, sqn; reflexivity). rewrite ED, EDV in *. set (n := sqrt (sqn r)) in *. set (nv := sqrt (sqn rv)) in *.
    assert (N2 : n * n <= 2).
    { rewrite NN. destruct CR as (_ & B1 & B2 & B3 & _). unfold sqn. rewrite <- (sqr_abs (X r)), <- (sqr_abs (Y r)), <- (sqr_abs (Z r)). pose proof (Rabs_pos (X r)). pose proof (Rabs_pos (Y r)). pose proof (Rabs_pos (Z r)).
      destruct Z0 as [E|[E|E]]; rewrite E, Rabs_R0; nra. }
    assert (NV3 : nv * nv <= 3) by (rewrite VV; destruct (cube_moderate rv CV) as [_ S]; lra).
    split. { split; [nra|]. assert (n <= 1415 / 1000) by nra. assert (nv <= 1733 / 1000) by nra. assert (n * nv <= 1415 / 1000 * (1733 / 1000)) by (apply Rmult_le_compat; lra). lra. }
    destruct (det_err (VectorModel.normalize r) v (VectorModel.normalize rv) UN UV UVV) as [F E]. split; [exact F|].
    assert (BB : b98 (RV v)) by (destruct UV as (_ & V1 & V2 & V3); repeat split; assumption).
    pose proof (det_close _ _ _ _ (RV v) CL CLV SP SPV UN UVV BB) as D.
    assert (EQ : rdet (shrink (/ n) (RV r)) (RV v) (shrink (/ nv) (RV rv)) = m * (ddet N C V / (n * nv))).
    { rewrite <- (loc_det f) by auto. rewrite !loc_shrink, EN, EV, EVV, loc_shrink by auto. fold C. unfold ddet, scale. cbn [pw pa pb]. field. lra. }
    rewrite EQ in D. apply Rabs_le_inv in D. apply Rabs_le_inv in E. apply Rabs_le. lra.
  Qed.
End edge.

(** ** The test for a far edge *)
Definition EF : R := / 17592186044416.   (* 2^-44 *)
Lemma sin2_err (r : f64) : finite r -> 0 <= B2R r <= 2 -> finite (chord_sin2 r) /\ Rabs (B2R (chord_sin2 r) - sn (B2R r) * sn (B2R r)) <= 5 * u * (sn (B2R r) * sn (B2R r)) + 2 * h.
Proof.
  intros F B. destruct (sn_facts (B2R r) ltac:(lra)) as (_ & SS & _). rewrite SS. destruct quarter_val as [Fq Vq]. destruct f1_val as [F1 V1]. set (x := B2R r) in *.
  pose proof h_small as HS. pose proof h_pos as HP.
  destruct (result_val _ _ 0 ltac:(lia) (fmul_result quarter r Fq F)) as (Fa & Va & _); [fold x; rewrite Vq, Rabs_pos_eq by lra; change (pow2 0) with 1; lra|]. fold x in Va. rewrite Vq in Va.
  assert (Ra : Rabs (B2R (fmul quarter r) - x / 4) <= u * (x / 4) + h). { rewrite Va. replace (/ 4 * x) with (x / 4) by lra. pose proof (PredicatesError.rnd_rel (x / 4)) as Q. rewrite (Rabs_pos_eq (x / 4)) in Q by lra. exact Q. }
  set (a := fmul quarter r) in *. apply Rabs_le_inv in Ra.
  destruct (result_val _ _ 1 ltac:(lia) (fsub_result f1 a F1 Fa)) as (Fb & Vb & _); [rewrite V1; apply Rabs_le; change (pow2 1) with 2; lra|]. rewrite V1 in Vb.
  assert (Rb : Rabs (B2R (fsub f1 a) - (1 - x / 4)) <= 3 * u * (1 - x / 4)).
  { rewrite Vb. pose proof (PredicatesError.rnd_rel (1 - B2R a)) as Q. rewrite (Rabs_pos_eq (1 - B2R a)) in Q by lra. apply Rabs_le_inv in Q. apply Rabs_le. lra. }
  set (b := fsub f1 a) in *. apply Rabs_le_inv in Rb.
  assert (XB : Rabs (x * B2R b - x * (1 - x / 4)) <= 3 * u * (x * (1 - x / 4))).
  { replace (x * B2R b - x * (1 - x / 4)) with (x * (B2R b - (1 - x / 4))) by ring. rewrite Rabs_mult, (Rabs_pos_eq x) by lra. replace (3 * u * (x * (1 - x / 4))) with (x * (3 * u * (1 - x / 4))) by ring. apply Rmult_le_compat_l; [lra|]. apply Rabs_le. lra. }
  assert (P : 0 <= x * (1 - x / 4) <= 2) by nra. set (y := x * (1 - x / 4)) in *.
  apply Rabs_le_inv in XB. destruct (result_val _ _ 2 ltac:(lia) (fmul_result r b F Fb)) as (Fc & Vc & _); [fold x; apply Rabs_le; change (pow2 2) with 4; lra|].
  unfold chord_sin2. fold a b. split; [exact Fc|]. rewrite Vc. fold x. pose proof (PredicatesError.rnd_rel (x * B2R b)) as Q.
  assert (Rabs (x * B2R b) <= (1 + 3 * u) * y) by (apply Rabs_le; lra). apply Rabs_le_inv in Q. apply Rabs_le. lra.
Qed.
Lemma slack_sq t : 0 <= t -> t <= 9 / 8 -> t * t * (1 + 90 * u) + 10 * h <= (t + 100 * u) * (t + 100 * u).
Proof. intros A B. pose proof h_small. assert (t * t <= 9 / 8 * t) by (apply Rmult_le_compat_r; lra). lra. Qed.
Lemma far_test (d r : f64) e : finite d -> Rabs (B2R d) <= 9 / 8 -> finite r -> 0 <= B2R r <= 2 -> unitish e -> Rabs (sqn e - 1) <= 64 * u ->
  (fgt (fmul d d) (fmul (chord_sin2 r) (norm2 e)) = true -> sn (B2R r) <= Rabs (B2R d) + 100 * u) /\
  (fgt (fmul d d) (fmul (chord_sin2 r) (norm2 e)) = false -> Rabs (B2R d) <= sn (B2R r) + 100 * u).
Proof.
  intros Fd Bd Fr Br UE SE. destruct (sin2_err r Fr Br) as [Fs Es]. destruct (sn_facts (B2R r) ltac:(lra)) as (S0 & SS & _).
  assert (S1 : sn (B2R r) <= 1) by nra. set (s := sn (B2R r)) in *. set (S := chord_sin2 r) in *.
  assert (Ps : 0 <= s * s <= 1) by nra. pose proof h_small as HS. pose proof h_pos as HP. apply Rabs_le_inv in Es. apply Rabs_le_inv in SE.
  assert (FN : finite (norm2 e)) by apply (dot_err e e UE UE). pose proof (norm2_near e FN) as NE. apply Rabs_le_inv in NE.
  assert (NE2 : Rabs (B2R (norm2 e) - 1) <= 69 * u) by (apply Rabs_le; lra). set (N := norm2 e) in *. apply Rabs_le_inv in NE2.
  assert (SN : Rabs (B2R S * B2R N - s * s) <= 76 * u * (s * s) + 4 * h).
  { replace (B2R S * B2R N - s * s) with (B2R N * (B2R S - s * s) + (B2R N - 1) * (s * s)) by ring. eapply Rle_trans; [apply Rabs_triang|]. rewrite (Rabs_mult (B2R N)), (Rabs_mult (B2R N - 1)), (Rabs_pos_eq (s * s)) by lra.
    assert (Rabs (B2R N) <= 1 + 69 * u) by (apply Rabs_le; lra). assert (Rabs (B2R N - 1) <= 69 * u) by (apply Rabs_le; lra). assert (Rabs (B2R S - s * s) <= 5 * u * (s * s) + 2 * h) by (apply Rabs_le; lra).
    assert (Rabs (B2R N) * Rabs (B2R S - s * s) <= (1 + 69 * u) * (5 * u * (s * s) + 2 * h)) by (apply Rmult_le_compat; auto using Rabs_pos).
    assert (Rabs (B2R N - 1) * (s * s) <= 69 * u * (s * s)) by (apply Rmult_le_compat_r; lra). lra. }
  destruct (result_val _ _ 1 ltac:(lia) (fmul_result S N Fs FN)) as (FP & VP & _); [apply Rabs_le_inv in SN; apply Rabs_le; change (pow2 1) with 2; lra|].
  assert (RP : Rabs (B2R (fmul S N) - s * s) <= 80 * u * (s * s) + 6 * h).
  { rewrite VP. pose proof (PredicatesError.rnd_rel (B2R S * B2R N)) as Q. apply Rabs_le_inv in SN. assert (Rabs (B2R S * B2R N) <= (1 + 76 * u) * (s * s) + 4 * h) by (apply Rabs_le; lra). apply Rabs_le_inv in Q. apply Rabs_le. lra. }
  set (D := Rabs (B2R d)) in *. assert (D0 : 0 <= D) by apply Rabs_pos. assert (DD : B2R d * B2R d = D * D) by (unfold D; rewrite sqr_abs; reflexivity).
  destruct (result_val _ _ 1 ltac:(lia) (fmul_result d d Fd Fd)) as (F2 & V2 & _); [rewrite DD; rewrite Rabs_pos_eq; change (pow2 1) with 2; nra|].
  assert (R2 : Rabs (B2R (fmul d d) - D * D) <= u * (D * D) + h).
  { rewrite V2, DD. pose proof (PredicatesError.rnd_rel (D * D)) as Q. rewrite (Rabs_pos_eq (D * D)) in Q by nra. exact Q. }
  apply Rabs_le_inv in RP. apply Rabs_le_inv in R2. unfold fgt. destruct (flt_R _ _ FP F2) as [LT|GE].
  - split; [intros _|discriminate]. apply sq_le; [lra|]. pose proof (slack_sq D D0 Bd). pose proof (Rle_0_sqr D). unfold Rsqr in *. lra.
  - split; [discriminate|intros _]. apply sq_le; [lra|]. pose proof (slack_sq s S0 ltac:(lra)). lra.
Qed.

(** ** Is the centre in the rectangle? *)
Lemma face_uv_val f v : (0 <= f < 6)%Z -> fvec v -> let C := loc f (RV v) in
  (pw C <= 0 -> face_xyz_to_uv f v = Some None) /\
  (0 < pw C -> exists a b, face_xyz_to_uv f v = Some (Some (a, b)) /\ result a (pa C / pw C) /\ result b (pb C / pw C)).
Proof.
  intros Hf (F1 & F2 & F3). cbv zeta. destruct (fneg_val _ F1) as [G1 W1]. destruct (fneg_val _ F2) as [G2 W2]. destruct (fneg_val _ F3) as [G3 W3].
  assert (T : forall z r r', result z r -> r = r' -> result z r') by (intros z r r' H <-; exact H).
  assert (LE : forall x, finite x -> (B2R x <= 0 -> fle x f0 = true) /\ (0 < B2R x -> fle x f0 = false)).
  { intros x F. destruct (fle_R x f0 F eq_refl) as [L|L]; change (B2R f0) with 0 in L; split; intros; auto; lra. }
  assert (GE : forall x, finite x -> (- B2R x <= 0 -> fge x f0 = true) /\ (0 < - B2R x -> fge x f0 = false)).
  { intros x F. unfold fge. destruct (fle_R f0 x eq_refl F) as [L|L]; change (B2R f0) with 0 in L; split; intros; auto; lra. }
  unfold face_xyz_to_uv, valid_face_xyz_to_uv, loc, RV. destruct (LE _ F1) as [L1 L1']. destruct (LE _ F2) as [L2 L2']. destruct (LE _ F3) as [L3 L3']. destruct (GE _ F1) as [M1 M1']. destruct (GE _ F2) as [M2 M2']. destruct (GE _ F3) as [M3 M3'].
  faces f Hf; cbn [px3 py3 pz3 pw pa pb]; (split; [intros H|intros H; eexists; eexists]);
    first [rewrite L1 by auto | rewrite L1' by auto | rewrite L2 by auto | rewrite L2' by auto | rewrite L3 by auto | rewrite L3' by auto
          | rewrite M1 by auto | rewrite M1' by auto | rewrite M2 by auto | rewrite M2' by auto | rewrite M3 by auto | rewrite M3' by auto ]; try reflexivity;
    (split; [reflexivity|]); split; (eapply T; [apply fdiv_result; auto; lra|]); rewrite ?W1, ?W2, ?W3; field; lra.
Qed.
Lemma line_ends (lo hi : f64) : finite lo -> finite hi -> -1 <= B2R lo -> B2R lo < B2R hi -> B2R hi <= 1 ->
  r1_expanded (R1 lo hi) DBL_EPSILON = R1 (fsub lo DBL_EPSILON) (fadd hi DBL_EPSILON) /\
  finite (fsub lo DBL_EPSILON) /\ B2R (fsub lo DBL_EPSILON) = rnd (B2R lo - 2 * u) /\ finite (fadd hi DBL_EPSILON) /\ B2R (fadd hi DBL_EPSILON) = rnd (B2R hi + 2 * u).
Proof.
  intros Fl Fh L LH H. destruct DBL_EPSILON_val as [Fe Ve]. assert (V2 : B2R DBL_EPSILON = 2 * u) by (rewrite Ve; lra).
  destruct (result_val _ _ 1 ltac:(lia) (fsub_result lo _ Fl Fe)) as (F1 & V1 & _); [rewrite V2; apply Rabs_le; change (pow2 1) with 2; lra|].
  destruct (result_val _ _ 1 ltac:(lia) (fadd_result hi _ Fh Fe)) as (F3 & V3 & _); [rewrite V2; apply Rabs_le; change (pow2 1) with 2; lra|].
  rewrite V2 in V1, V3. split; [|auto]. unfold r1_expanded. rewrite (CellPoint.not_empty _ _ Fl Fh ltac:(lra)). reflexivity.
Qed.
Lemma line_true (lo hi x : f64) t : finite lo -> finite hi -> -1 <= B2R lo -> B2R lo < B2R hi -> B2R hi <= 1 -> result x t -> B2R lo - 2 * u <= t <= B2R hi + 2 * u ->
  r1_contains (r1_expanded (R1 lo hi) DBL_EPSILON) x = true.
Proof.
  intros Fl Fh L LH H RX T. destruct (line_ends lo hi Fl Fh L LH H) as (-> & F1 & V1 & F2 & V2).
  destruct (result_val _ _ 1 ltac:(lia) RX) as (Fx & Vx & _); [apply Rabs_le; change (pow2 1) with 2; lra|].
  unfold r1_contains. cbn [lo1 hi1]. assert (A : rnd (B2R lo - 2 * u) <= rnd t) by (apply rnd_le; lra). assert (B : rnd t <= rnd (B2R hi + 2 * u)) by (apply rnd_le; lra).
  destruct (fle_R _ x F1 Fx) as [P|P]; [|lra]. destruct (fle_R x _ Fx F2) as [Q|Q]; [reflexivity|lra].
Qed.
Lemma line_sound (lo hi x : f64) t : finite lo -> finite hi -> -1 <= B2R lo -> B2R lo < B2R hi -> B2R hi <= 1 -> result x t ->
  r1_contains (r1_expanded (R1 lo hi) DBL_EPSILON) x = true -> B2R lo - 8 * u <= t <= B2R hi + 8 * u.
Proof.
  intros Fl Fh L LH H RX C. destruct (line_ends lo hi Fl Fh L LH H) as (E & F1 & V1 & F2 & V2). rewrite E in C. unfold r1_contains in C. cbn [lo1 hi1] in C. apply andb_true_iff in C. destruct C as [C1 C2].
  destruct RX as [(Fx & Vx & _)|(s & -> & _)].
  - destruct (fle_R _ x F1 Fx) as [P|]; [|discriminate]. destruct (fle_R x _ Fx F2) as [Q|]; [|discriminate]. rewrite V1, Vx in P. rewrite V2, Vx in Q.
    pose proof h_small. pose proof h_pos. pose proof (PredicatesError.rnd_rel (B2R lo - 2 * u)) as R1. pose proof (PredicatesError.rnd_rel (B2R hi + 2 * u)) as R2. pose proof (PredicatesError.rnd_rel t) as R3.
    assert (Rabs (B2R lo - 2 * u) <= 9 / 8) by (apply Rabs_le; lra). assert (Rabs (B2R hi + 2 * u) <= 9 / 8) by (apply Rabs_le; lra). apply Rabs_le_inv in R1. apply Rabs_le_inv in R2.
    assert (Rabs t <= 3 / 2). { pose proof (Rabs_triang (rnd t) (t - rnd t)) as TR. replace (rnd t + (t - rnd t)) with t in TR by ring. rewrite (Rabs_minus_sym t) in TR. assert (Rabs (rnd t) <= 5 / 4) by (apply Rabs_le; lra). lra. }
    apply Rabs_le_inv in R3. lra.
  - exfalso. unfold fle in *. destruct s, (fsub lo DBL_EPSILON) as [| | |], (fadd hi DBL_EPSILON) as [| | |]; discriminate.
Qed.
Lemma centre_in c v : wf c -> fvec v -> let C := loc (face_of c) (RV v) in let q := cell_rc c in
  (0 < pw C -> (forall k, (0 <= k < 4)%Z -> - (2 * u) * pw C <= elin k q C) -> cell_contains_point (cell_of c) v = Some true) /\
  (cell_contains_point (cell_of c) v = Some true -> 0 < pw C /\ forall k, (0 <= k < 4)%Z -> - (8 * u) * pw C <= elin k q C).
Proof.
  intros W FV. cbv zeta. pose proof (face_of_range c W) as Hf. destruct (face_uv_val (face_of c) v Hf FV) as [N P]. set (C := loc (face_of c) (RV v)) in *.
  destruct (sq_aligned c W) as ((_ & PS & _ & _ & B1 & B2 & B3 & B4) & _ & _).
  destruct (cell_line (sq_i (sq c)) (sq_i (sq c) + sq_side (sq c)) ltac:(lia) ltac:(lia) ltac:(lia)) as (F1 & F2 & X1 & X2 & X3).
  destruct (cell_line (sq_j (sq c)) (sq_j (sq c) + sq_side (sq c)) ltac:(lia) ltac:(lia) ltac:(lia)) as (F3 & F4 & Y1 & Y2 & Y3).
  unfold cell_contains_point, r2_expanded_by_margin, r2_expanded, cell_rc, cell_of, uvrect. cbn [c_face c_uv rx ry lo1 hi1 px py].
  set (a := uvl (2 * sq_i (sq c))) in *. set (b := uvl (2 * (sq_i (sq c) + sq_side (sq c)))) in *. set (a' := uvl (2 * sq_j (sq c))) in *. set (b' := uvl (2 * (sq_j (sq c) + sq_side (sq c)))) in *.
  assert (NE : forall lo hi : f64, finite lo -> finite hi -> -1 <= B2R lo -> B2R lo + / 1073741824 <= B2R hi -> B2R hi <= 1 -> r1_is_empty (r1_expanded (R1 lo hi) DBL_EPSILON) = false).
  { intros lo hi G1 G2 G3 G4 G5. destruct (line_ends lo hi G1 G2 G3 ltac:(lra) G5) as (-> & H1 & H2 & H3 & H4). apply CellPoint.not_empty; auto. rewrite H2, H4. apply rnd_le. lra. }
  rewrite (NE a b), (NE a' b') by (auto; lra). cbn [orb]. unfold r2_contains_point. cbn [rx ry px py].
  assert (LIN : forall k, elin k (Rc (B2R a) (B2R b) (B2R a') (B2R b')) C = (if (k =? 0)%Z then pb C - B2R a' * pw C else if (k =? 1)%Z then B2R b * pw C - pa C else if (k =? 2)%Z then B2R b' * pw C - pb C else pa C - B2R a * pw C)) by reflexivity.
  split.
  - intros PW H. destruct (P PW) as (x & y & E & RX & RY). rewrite E.
    pose proof (H 0%Z ltac:(lia)) as H0. pose proof (H 1%Z ltac:(lia)) as H1. pose proof (H 2%Z ltac:(lia)) as H2. pose proof (H 3%Z ltac:(lia)) as H3. rewrite LIN in *. cbn [Z.eqb Pos.eqb] in *.
    assert (DIV : forall z, z / pw C * pw C = z) by (intros; field; lra).
    rewrite (line_true a b x (pa C / pw C)), (line_true a' b' y (pb C / pw C)); auto; try lra; split; apply Rmult_le_reg_r with (pw C); try lra; rewrite DIV; lra.
  - destruct (Rle_dec (pw C) 0) as [NP|NP]; [rewrite (N NP); discriminate|]. assert (PW : 0 < pw C) by lra. destruct (P PW) as (x & y & E & RX & RY). rewrite E. intros H. apply Some_inj in H. apply andb_true_iff in H. destruct H as [HX HY].
    apply (line_sound a b x _ F1 F2 X1 ltac:(lra) X2 RX) in HX. apply (line_sound a' b' y _ F3 F4 Y1 ltac:(lra) Y2 RY) in HY. split; [exact PW|].
    assert (DIV : forall z, z / pw C * pw C = z) by (intros; field; lra).
    assert (MU : forall lo z, lo <= z / pw C -> lo * pw C <= z) by (intros lo z Hz; rewrite <- (DIV z); apply Rmult_le_compat_r; lra).
    assert (ML : forall hi z, z / pw C <= hi -> z <= hi * pw C) by (intros lo z Hz; rewrite <- (DIV z); apply Rmult_le_compat_r; lra).
    intros k Hk. rewrite LIN. destruct HX as [HX1 HX2]. destruct HY as [HY1 HY2]. apply MU in HX1. apply MU in HY1. apply ML in HX2. apply ML in HY2.
    edges k Hk; lra.
Qed.

(** ** A positive dot product with an edge *)
Lemma two_sum x y : 0 < rnd x + rnd y -> 0 < x + y.
Proof. intros H. apply Rnot_le_lt. intros L. assert (rnd x <= rnd (- y)) by (apply rnd_le; lra). rewrite rnd_opp in H0. lra. Qed.
Lemma dot_sign a b : unitish a -> unitish b -> X b = 0 \/ Y b = 0 \/ Z b = 0 -> 0 < B2R (dot a b) -> 0 < rdot (RV a) (RV b).
Proof.
  intros ((FA1 & FA2 & FA3) & A1 & A2 & A3) ((FB1 & FB2 & FB3) & B1 & B2 & B3) ZZ.
  pose proof (abs_mul_le _ _ _ _ A1 B1) as P1. pose proof (abs_mul_le _ _ _ _ A2 B2) as P2. pose proof (abs_mul_le _ _ _ _ A3 B3) as P3.
  pose proof h_tiny as HT. pose proof h_pos as HP. assert (PW : pow2 2 = 4) by reflexivity. assert (PW3 : pow2 3 = 8) by reflexivity.
  destruct (result_val _ _ 2 ltac:(lia) (fmul_result _ _ FA1 FB1) ltac:(lra)) as (F1 & V1 & N1).
  destruct (result_val _ _ 2 ltac:(lia) (fmul_result _ _ FA2 FB2) ltac:(lra)) as (F2 & V2 & N2).
  destruct (result_val _ _ 2 ltac:(lia) (fmul_result _ _ FA3 FB3) ltac:(lra)) as (F3 & V3 & N3).
  unfold dot. set (m1 := fmul (vx a) (vx b)) in *. set (m2 := fmul (vy a) (vy b)) in *. set (m3 := fmul (vz a) (vz b)) in *.
  destruct (add_val m1 m2 2 F1 F2 N1 N2 ltac:(lia)) as (F4 & V4 & N4).
  destruct (add_val (fadd m1 m2) m3 3 F4 F3 N4 ltac:(lra) ltac:(lia)) as (F5 & V5 & _). rewrite V5. intros H.
  assert (H1 : 0 < B2R (fadd m1 m2) + B2R m3). { apply Rnot_le_lt. intros L. apply rnd_le in L. rewrite rnd_0 in L. lra. }
  assert (H2 : 0 < B2R m1 + B2R m2 + B2R m3).
  { apply Rnot_le_lt. intros L. destruct (fneg_val m3 F3) as [_ Vn]. assert (rnd (B2R m1 + B2R m2) <= rnd (B2R (fneg m3))) by (apply rnd_le; lra). rewrite rnd_fix, <- V4, Vn in H0. lra. }
  rewrite V1, V2, V3 in H2. unfold rdot, RV. cbn [px3 py3 pz3]. destruct ZZ as [E|[E|E]]; rewrite E in *; rewrite Rmult_0_r, rnd_0 in H2.
  - assert (0 < Y a * Y b + Z a * Z b) by (apply two_sum; lra). lra.
  - assert (0 < X a * X b + Z a * Z b) by (apply two_sum; lra). lra.
  - assert (0 < X a * X b + Y a * Y b) by (apply two_sum; lra). lra.
Qed.
Lemma rnd_mono_side t s x w : -1 <= t <= 1 -> 1 / 2 <= s <= 1 -> 0 < w -> 0 < w * rnd (t * s) + x * s -> - (2 * u) * w <= t * w + x.
Proof.
  intros T S W H. pose proof h_small. pose proof h_pos. pose proof (PredicatesError.rnd_rel (t * s)) as R. assert (A : Rabs (t * s) <= s) by (apply Rabs_le; split; nra).
  apply Rabs_le_inv in R. assert (B : rnd (t * s) <= t * s + 2 * u * s) by lra. assert (w * rnd (t * s) <= w * (t * s + 2 * u * s)) by (apply Rmult_le_compat_l; lra).
  assert (0 < (t * w + 2 * u * w + x) * s) by lra. assert (0 < t * w + 2 * u * w + x) by (apply Rnot_le_lt; intros L; nra). lra.
Qed.
Lemma edge_inner c k v r : wf c -> (0 <= k < 4)%Z -> is_unit v = true -> is_normal r -> loc (face_of c) (RV r) = eN k (cell_rc c) ->
  0 < B2R (dot v (VectorModel.normalize r)) -> let C := loc (face_of c) (RV v) in 0 < pw C -> - (2 * u) * pw C <= elin k (cell_rc c) C.
Proof.
  intros W Hk Uv [CR Z0] EN D C PW. pose proof (face_of_range c W) as Hf. destruct (unit_ctr v Uv) as (_ & UV & _). destruct (cube_close r CR) as (_ & _ & UN & _).
  destruct (scale_range r CR) as [Fs Bs]. pose proof (normalize_cube r CR) as NC. set (s := scale_of r) in *. destruct CR as ((F1 & F2 & F3) & B1 & B2 & B3 & _).
  assert (CMP : forall x, finite x -> Rabs (B2R x) <= 1 -> B2R (fmul x s) = rnd (B2R x * B2R s)).
  { intros x Fx Bx. destruct (mul_val x s 0 0 Fx Fs) as (_ & V & _); auto; try lia; [change (pow2 0) with 1; rewrite Rabs_pos_eq; lra]. }
  set (e := VectorModel.normalize r) in *.
  assert (E1 : X e = rnd (X r * B2R s)) by (rewrite NC; apply CMP; auto). assert (E2 : Y e = rnd (Y r * B2R s)) by (rewrite NC; apply CMP; auto). assert (E3 : Z e = rnd (Z r * B2R s)) by (rewrite NC; apply CMP; auto).
  assert (ZE : X e = 0 \/ Y e = 0 \/ Z e = 0).
  { destruct Z0 as [E|[E|E]]; [left; rewrite E1|right; left; rewrite E2|right; right; rewrite E3]; rewrite E, Rmult_0_l; apply rnd_0. }
  pose proof (dot_sign v e UV UN ZE D) as P. rewrite <- (loc_dt (face_of c)) in P by auto. fold C in P.
  assert (LE : loc (face_of c) (RV e) = P3 (rnd (pw (eN k (cell_rc c)) * B2R s)) (rnd (pa (eN k (cell_rc c)) * B2R s)) (rnd (pb (eN k (cell_rc c)) * B2R s))).
  { rewrite <- EN. unfold loc, RV. destruct (face_zero_cases _ Hf) as [E|[E|[E|[E|[E|E]]]]]; rewrite E; cbn [Z.eqb Pos.eqb px3 py3 pz3 pw pa pb]; rewrite E1, E2, E3, ?Ropp_mult_distr_l_reverse, ?rnd_opp; reflexivity. }
  rewrite LE in P. unfold dt in P. cbn [pw pa pb] in P. destruct (cell_rc_ok c W) as ((K1 & K2 & K3 & K4 & K5 & K6) & _). set (q := cell_rc c) in *.
  assert (RS : rnd (1 * B2R s) = B2R s) by (rewrite Rmult_1_l; apply rnd_fix). assert (RM : rnd (-1 * B2R s) = - B2R s) by (replace (-1 * B2R s) with (- B2R s) by ring; rewrite rnd_opp, rnd_fix; reflexivity).
  assert (R0 : rnd (0 * B2R s) = 0) by (rewrite Rmult_0_l; apply rnd_0).
  unfold elin, eN in *. unfold l0, l1, l2, l3. clear LE EN. revert P. edges k Hk; cbn [pw pa pb]; rewrite ?RS, ?RM, ?R0; intros P.
  - pose proof (rnd_mono_side (- v0 q) (B2R s) (pb C) (pw C) ltac:(lra) ltac:(lra) PW ltac:(lra)). lra.
  - pose proof (rnd_mono_side (u1 q) (B2R s) (- pa C) (pw C) ltac:(lra) ltac:(lra) PW ltac:(lra)). lra.
  - pose proof (rnd_mono_side (v1 q) (B2R s) (- pb C) (pw C) ltac:(lra) ltac:(lra) PW ltac:(lra)). lra.
  - pose proof (rnd_mono_side (- u0 q) (B2R s) (pa C) (pw C) ltac:(lra) ltac:(lra) PW ltac:(lra)). lra.
Qed.
