(** C118, C119: distances between points and between positions. *)
From Coq Require Import ZArith Reals Lra Lia Psatz Bool.
From Flocq Require Import Core.
From Verif Require Import F64 F64Facts IntervalSpec F64Arith F64Error F64Neg S1Proofs VectorModel AngleModel AngleProofs CapSpec CapModel StuvError ChordProofs CapError
  PredicatesError PredicatesFloat PredicatesSound PredicatesStable PredicatesProofs CapEdgeFloat CapEdgeMain RegionSpec CoverProofs TrigModel TrigSpec TrigProofs TrigWitness PropsTrig PropsCap2.
Open Scope R_scope.

(* the polar angle of a point near k * (cos o, sin o) is near o *)
Lemma polar_close y x t o k e : polar_angle y x t -> 0 <= t <= PI -> 0 <= o <= PI -> 9 / 10 <= k -> 0 <= e <= 1 / 100 ->
  Rabs (x - k * cos o) <= e -> Rabs (y - k * sin o) <= e -> Rabs (t - o) <= 40 / 9 * e.
Proof.
  intros (_ & PX & PY) T O K E HX HY. set (r := sqrt (x * x + y * y)) in *. assert (R0 : 0 <= r) by apply sqrt_pos.
  set (d1 := x - k * cos o) in *. set (d2 := y - k * sin o) in *.
  assert (KCO : k * cos o = x - d1) by (unfold d1; ring). assert (KSO : k * sin o = y - d2) by (unfold d2; ring). clearbody r d1 d2.
  assert (S1 : k * sin (t - o) = d2 * cos t - d1 * sin t).
  { rewrite sin_minus. replace (k * (sin t * cos o - cos t * sin o)) with (sin t * (k * cos o) - cos t * (k * sin o)) by ring. rewrite KCO, KSO, PX, PY. ring. }
  assert (C1 : k * cos (t - o) = r - d1 * cos t - d2 * sin t).
  { rewrite cos_minus. replace (k * (cos t * cos o + sin t * sin o)) with (cos t * (k * cos o) + sin t * (k * sin o)) by ring. rewrite KCO, KSO, PX, PY. pose proof (sin2_cos2 t) as Q. unfold Rsqr in Q.
    replace (cos t * (r * cos t - d1) + sin t * (r * sin t - d2)) with (r * (sin t * sin t + cos t * cos t) - d1 * cos t - d2 * sin t) by ring. rewrite Q. ring. }
  pose proof (SIN_bound t) as SB. pose proof (COS_bound t) as CB. assert (SA : Rabs (sin t) <= 1) by (apply Rabs_le; lra). assert (CA : Rabs (cos t) <= 1) by (apply Rabs_le; lra).
  assert (M : forall a b, Rabs a <= e -> Rabs b <= 1 -> Rabs (a * b) <= e). { intros a b A B. rewrite Rabs_mult. replace e with (e * 1) by ring. apply Rmult_le_compat; auto; apply Rabs_pos. }
  pose proof (M _ _ HY CA) as M1. pose proof (M _ _ HX SA) as M2. pose proof (M _ _ HX CA) as M3. pose proof (M _ _ HY SA) as M4. apply Rabs_le_inv in M1, M2, M3, M4.
  set (s := sin (t - o)) in *. set (c := cos (t - o)) in *.
  assert (SS : Rabs s <= 20 / 9 * e). { assert (KS : Rabs (k * s) <= 2 * e) by (rewrite S1; apply Rabs_le; lra). rewrite Rabs_mult, (Rabs_pos_eq k) in KS by lra. pose proof (Rabs_pos s). assert (9 / 10 * Rabs s <= k * Rabs s) by (apply Rmult_le_compat_r; lra). lra. }
  assert (CC : - (20 / 9 * e) <= c). { apply Rnot_lt_le. intros C. assert (k * c < k * - (20 / 9 * e)) by (apply Rmult_lt_compat_l; lra). assert (k * (20 / 9 * e) >= 9 / 10 * (20 / 9 * e)) by (apply Rle_ge, Rmult_le_compat_r; lra). lra. }
  pose proof PI_tight as PT. assert (HP : Rabs (t - o) <= PI / 2).
  { apply Rnot_lt_le. intros C. assert (CN : c <= 0). { unfold c. destruct (Rle_dec 0 (t - o)) as [P|P]; [rewrite Rabs_pos_eq in C by lra; apply cos_le_0; lra|]. rewrite Rabs_left in C by lra. rewrite <- cos_neg. apply cos_le_0; lra. }
    pose proof (sin2_cos2 (t - o)) as Q. unfold Rsqr in Q. fold s c in Q. assert (s * s <= 1 / 40 * (1 / 40)) by (apply sq_abs_le; lra). assert (c * c <= 1 / 40 * (1 / 40)) by (apply sq_abs_le; [lra|apply Rabs_le; lra]). lra. }
  pose proof (Rabs_pos (t - o)) as PA. pose proof (sin_half (Rabs (t - o)) ltac:(lra)) as SH.
  assert (EQ : sin (Rabs (t - o)) <= Rabs s). { unfold s. destruct (Rle_dec 0 (t - o)) as [P|P]; [rewrite (Rabs_pos_eq (t - o)) by lra; apply Rle_abs|rewrite (Rabs_left (t - o)) by lra; rewrite sin_neg, <- Rabs_Ropp; apply Rle_abs]. }
  lra.
Qed.

(* the same with a better constant for small errors *)
Lemma polar_closer y x t o k e : polar_angle y x t -> 0 <= t <= PI -> 0 <= o <= PI -> 999 / 1000 <= k -> 0 <= e <= 1 / 1000 ->
  Rabs (x - k * cos o) <= e -> Rabs (y - k * sin o) <= e -> Rabs (t - o) <= 205 / 100 * e.
Proof.
  intros P T O K E HX HY. pose proof (polar_close y x t o k e P T O ltac:(lra) ltac:(lra) HX HY) as B. destruct P as (_ & PX & PY). set (r := sqrt (x * x + y * y)) in *.
  set (d1 := x - k * cos o) in *. set (d2 := y - k * sin o) in *.
  assert (KCO : k * cos o = x - d1) by (unfold d1; ring). assert (KSO : k * sin o = y - d2) by (unfold d2; ring). clearbody r d1 d2.
  assert (S1 : k * sin (t - o) = d2 * cos t - d1 * sin t).
  { rewrite sin_minus. replace (k * (sin t * cos o - cos t * sin o)) with (sin t * (k * cos o) - cos t * (k * sin o)) by ring. rewrite KCO, KSO, PX, PY. ring. }
  pose proof (SIN_bound t) as SB. pose proof (COS_bound t) as CB. assert (SA : Rabs (sin t) <= 1) by (apply Rabs_le; lra). assert (CA : Rabs (cos t) <= 1) by (apply Rabs_le; lra).
  assert (M : forall a b, Rabs a <= e -> Rabs b <= 1 -> Rabs (a * b) <= e). { intros a b A C. rewrite Rabs_mult. replace e with (e * 1) by ring. apply Rmult_le_compat; auto; apply Rabs_pos. }
  pose proof (M _ _ HY CA) as M1. pose proof (M _ _ HX SA) as M2. apply Rabs_le_inv in M1, M2.
  assert (SS : Rabs (sin (t - o)) <= 2003 / 1000 * e). { assert (KS : Rabs (k * sin (t - o)) <= 2 * e) by (rewrite S1; apply Rabs_le; lra). rewrite Rabs_mult, (Rabs_pos_eq k) in KS by lra. pose proof (Rabs_pos (sin (t - o))). assert (999 / 1000 * Rabs (sin (t - o)) <= k * Rabs (sin (t - o))) by (apply Rmult_le_compat_r; lra). lra. }
  assert (EQ : sin (Rabs (t - o)) <= Rabs (sin (t - o))). { destruct (Rle_dec 0 (t - o)) as [Q|Q]; [rewrite (Rabs_pos_eq (t - o)) by lra; apply Rle_abs|rewrite (Rabs_left (t - o)) by lra; rewrite sin_neg, <- Rabs_Ropp; apply Rle_abs]. }
  pose proof (Rabs_pos (t - o)) as PA. set (w := Rabs (t - o)) in *. clearbody w. assert (W : 999 / 1000 * w <= sin w).
  { destruct (sin_bound w 0) as [L _]; [lra|pose proof PI2_1; lra|]. unfold sin_approx, sin_term in L. cbn [Nat.mul Nat.add sum_f_R0 fact pow] in L.
    rewrite !INR_IZR_INZ in L. cbn [Nat.mul Nat.add Z.of_nat Pos.of_succ_nat Pos.succ] in L. assert (w * w <= 1 / 100 * (1 / 100)) by (apply Rmult_le_compat; lra). assert (w * (w * w) <= w * (1 / 100 * (1 / 100))) by (apply Rmult_le_compat_l; lra). lra. }
  lra.
Qed.

(* the angle between two directions *)
Lemma angle_trig d e : on_sphere d -> on_sphere e -> let o := angle_between d e in
  0 <= o <= PI /\ cos o = rdot d e /\ sin o = sqrt (1 - rdot d e * rdot d e).
Proof.
  intros D E. cbv zeta. unfold angle_between. fold (chd d e). destruct (chd_range d e D E) as (H1 & H2 & H3). set (c := chd d e) in *.
  pose proof (asin_bound (c / 2)) as AB. assert (A0 : 0 <= asin (c / 2)) by (pose proof (asin_ge (c / 2) ltac:(lra)); lra). set (a := asin (c / 2)) in *. assert (SA : sin a = c / 2) by (apply sin_asin; lra).
  assert (CO : cos (2 * a) = rdot d e). { rewrite cos_2a_sin, SA. lra. }
  split; [lra|]. split; [exact CO|]. rewrite <- CO. pose proof (sin2_cos2 (2 * a)) as Q. unfold Rsqr in Q. replace (1 - cos (2 * a) * cos (2 * a)) with (sin (2 * a) * sin (2 * a)) by lra. symmetry. apply sqrt_square. apply sin_ge_0; lra.
Qed.

(* a component of a cross product *)
Lemma cross_comp_err (a b c d : f64) : finite a -> finite b -> finite c -> finite d ->
  Rabs (B2R a) <= 9 / 8 -> Rabs (B2R b) <= 9 / 8 -> Rabs (B2R c) <= 9 / 8 -> Rabs (B2R d) <= 9 / 8 ->
  finite (fsub (fmul a b) (fmul c d)) /\ Rabs (B2R (fsub (fmul a b) (fmul c d)) - (B2R a * B2R b - B2R c * B2R d)) <= 6 * u.
Proof.
  intros Fa Fb Fc Fd Ba Bb Bc Bd. pose proof (abs_mul_le _ _ _ _ Ba Bb) as M1. pose proof (abs_mul_le _ _ _ _ Bc Bd) as M2. pose proof h_tiny as HT. pose proof h_pos as HP.
  assert (PW : pow2 2 = 4) by reflexivity.
  destruct (result_val _ _ 2 ltac:(lia) (fmul_result _ _ Fa Fb) ltac:(lra)) as (F1 & V1 & _). destruct (result_val _ _ 2 ltac:(lia) (fmul_result _ _ Fc Fd) ltac:(lra)) as (F2 & V2 & _).
  pose proof (rnd_in _ _ M1) as R1. pose proof (rnd_in _ _ M2) as R2. rewrite <- V1 in R1. rewrite <- V2 in R2.
  pose proof (near_bound _ _ _ _ M1 R1) as N1. pose proof (near_bound _ _ _ _ M2 R2) as N2. pose proof (abs_sub_le _ _ _ _ N1 N2) as N3.
  destruct (result_val _ _ 2 ltac:(lia) (fsub_result _ _ F1 F2) ltac:(lra)) as (F3 & V3 & _). pose proof (rnd_in _ _ N3) as R3. rewrite <- V3 in R3. split; [exact F3|].
  apply Rabs_le_inv in R1, R2, R3. apply Rabs_le. lra.
Qed.
Lemma cross_err a b : unitish a -> unitish b -> fvec (cross a b) /\ chd (RV (cross a b)) (rcross (RV a) (RV b)) <= 11 * u.
Proof.
  intros ((FA1 & FA2 & FA3) & A1 & A2 & A3) ((FB1 & FB2 & FB3) & B1 & B2 & B3). unfold cross.
  destruct (cross_comp_err _ _ _ _ FA2 FB3 FA3 FB2 A2 B3 A3 B2) as [G1 E1]. destruct (cross_comp_err _ _ _ _ FA3 FB1 FA1 FB3 A3 B1 A1 B3) as [G2 E2]. destruct (cross_comp_err _ _ _ _ FA1 FB2 FA2 FB1 A1 B2 A2 B1) as [G3 E3].
  split; [repeat split; assumption|]. apply chd_le; [lra|]. unfold dist2, RV, rcross. cbn [px3 py3 pz3 vx vy vz].
  assert (Q : 0 <= 6 * u) by lra. pose proof (sq_abs_le _ _ Q E1). pose proof (sq_abs_le _ _ Q E2). pose proof (sq_abs_le _ _ Q E3). lra.
Qed.
(* signs *)
Lemma sign_sq (x : f64) : finite (fmul x x) -> Bsign (fmul x x) = false.
Proof.
  intros F. unfold fmul in *. pose proof (Bmult_correct 53 1024 _ _ mode_NE x x) as H. destruct (Rlt_bool _ _) eqn:L.
  - destruct H as (_ & _ & S). rewrite S; [apply xorb_nilpotent|]. apply finite_number in F. exact F.
  - apply (f_equal is_finite_SF) in H. rewrite is_finite_SF_B2SF in H. fold f64 in *. rewrite F in H. discriminate H.
Qed.
Lemma sign_add (x y : f64) : finite x -> finite y -> Bsign x = false -> Bsign y = false -> finite (fadd x y) -> Bsign (fadd x y) = false.
Proof.
  intros Fx Fy Sx Sy F. unfold fadd in *. pose proof (Bplus_correct 53 1024 _ _ mode_NE x y Fx Fy) as H. destruct (Rlt_bool _ _) eqn:L.
  - destruct H as (_ & _ & S). rewrite S. pose proof (sign_false x Fx Sx). pose proof (sign_false y Fy Sy). destruct (Rcompare_spec (B2R x + B2R y) 0) as [K|K|K]; [lra| |reflexivity]. rewrite Sx, Sy. reflexivity.
  - destruct H as (H & _). apply (f_equal is_finite_SF) in H. rewrite is_finite_SF_B2SF in H. fold f64 in *. rewrite F in H. discriminate H.
Qed.
Lemma sign_sqrt (x : f64) : finite (fsqrt x) -> Bsign x = false -> Bsign (fsqrt x) = false.
Proof.
  intros F S. unfold fsqrt in *. destruct (Bsqrt_correct 53 1024 _ _ mode_NE x) as (_ & _ & H). rewrite H; [exact S|]. apply finite_number in F. exact F.
Qed.
Lemma sqrt_val_err (x : f64) : finite x -> 0 <= B2R x <= 4 -> finite (fsqrt x) /\ Rabs (B2R (fsqrt x) - sqrt (B2R x)) <= u * sqrt (B2R x) + h.
Proof.
  intros F B. destruct (fsqrt_val x F ltac:(lra)) as [G V]. split; [exact G|]. rewrite V. pose proof (PredicatesError.rnd_rel (sqrt (B2R x))) as R. rewrite (Rabs_pos_eq (sqrt (B2R x))) in R by apply sqrt_pos. exact R.
Qed.
Lemma sq_le_abs x B : 0 <= B -> x * x <= B * B -> Rabs x <= B.
Proof. intros P H. apply Rnot_lt_le. intros C. assert (B * B < Rabs x * Rabs x) by (apply Rmult_le_0_lt_compat; lra). rewrite sqr_abs in *. lra. Qed.
Lemma norm_err v : fvec v -> sqn v <= 2 -> finite (norm v) /\ Bsign (norm v) = false /\ Rabs (B2R (norm v) - sqrt (sqn v)) <= 8 * u.
Proof.
  intros (F1 & F2 & F3) S. assert (SM : small v).
  { pose proof (Rle_0_sqr (X v)). pose proof (Rle_0_sqr (Y v)). pose proof (Rle_0_sqr (Z v)). unfold Rsqr, sqn in *. unfold small. change (pow2 2) with 4. split; [repeat split; assumption|]. repeat split; apply sq_le_abs; lra. }
  destruct (norm2_small v SM) as [FN BN]. change (pow2 6) with 64 in BN. pose proof (norm2_near v FN) as E. assert (S0 : 0 <= sqn v) by (pose proof (Rle_0_sqr (X v)); pose proof (Rle_0_sqr (Y v)); pose proof (Rle_0_sqr (Z v)); unfold Rsqr, sqn in *; lra). pose proof h_pos as HP. pose proof h_tiny as HT.
  assert (SG : Bsign (norm2 v) = false). { unfold norm2, dot in *. pose proof (fadd_finite _ _ FN) as [F12 G3]. pose proof (fadd_finite _ _ F12) as [G1 G2]. apply sign_add; auto; [apply sign_add; auto|]; apply sign_sq; assumption. }
  pose proof (sign_false _ FN SG) as P. apply Rabs_le_inv in E as E'. destruct (sqrt_val_err (norm2 v) FN ltac:(lra)) as [FS ES]. unfold norm. split; [exact FS|]. split; [apply sign_sqrt; assumption|].
  assert (HH : 8 * h <= pow2 (-500) * pow2 (-500)). { change 8 with (pow2 3). unfold h. rewrite <- !bpow_plus. apply bpow_le. lia. }
  pose proof (sqrt_err (B2R (norm2 v)) (sqn v) (4 * u) (pow2 (-500)) P S0 ltac:(lra) ltac:(apply bpow_ge_0) ltac:(eapply Rle_trans; [exact E|lra])) as Q.
  assert (R2 : sqrt (sqn v) <= 15 / 10). { rewrite <- (sqrt_square (15 / 10)) by lra. apply sqrt_le_1_alt. lra. } pose proof (sqrt_pos (sqn v)) as RP.
  assert (P5 : pow2 (-500) <= u / 1000). { apply Rle_trans with (pow2 (-70)); [apply bpow_le; lia|]. change (pow2 (-70)) with (/ 1180591620717411303424). lra. }
  apply Rabs_le_inv in Q, ES. apply Rabs_le. split; lra.
Qed.

(** C118: Point::distance *)
Lemma unit_unitish v : is_unit v = true -> unitish v /\ 0 < sqn v /\ 999999 / 1000000 <= sqrt (sqn v) <= 1000001 / 1000000.
Proof.
  intros U. destruct (unit_norm v U) as (F & S & E). unfold KR in E. apply Rabs_le_inv in E. split; [|split; [rewrite S; nra|lra]]. split; [exact F|].
  assert (B : sqn v <= 9 / 8 * (9 / 8)) by (rewrite S; nra). pose proof (Rle_0_sqr (X v)). pose proof (Rle_0_sqr (Y v)). pose proof (Rle_0_sqr (Z v)). unfold Rsqr, sqn in *. repeat split; apply sq_le_abs; lra.
Qed.
Theorem C118_distance : forall fatan2 a b, accurate_atan2 fatan2 -> upper_atan2 fatan2 -> is_unit a = true -> is_unit b = true ->
  let d := point_distance fatan2 a b in finite d /\ 0 <= B2R d <= pi /\ Rabs (B2R d - angle_between (direction a) (direction b)) <= 1 / 2 ^ 47.
Proof.
  intros f a b A UP Ua Ub. cbv zeta. unfold point_distance, vangle. destruct (unit_unitish a Ua) as (TA & PA & LA). destruct (unit_unitish b Ub) as (TB & PB & LB).
  pose proof (unit_sphere _ Ua) as SA. pose proof (unit_sphere _ Ub) as SB. destruct (angle_trig _ _ SA SB) as (O & CO & SO). cbv zeta in *. set (o := angle_between (direction a) (direction b)) in *.
  destruct (dot_err a b TA TB) as [FD ED]. destruct (cross_err a b TA TB) as [FC EC]. set (na := sqrt (sqn a)) in *. set (nb := sqrt (sqn b)) in *.
  assert (NA : na * na = sqn a) by (apply sqrt_sqrt; lra). assert (NB : nb * nb = sqn b) by (apply sqrt_sqrt; lra).
  assert (DD : rdot (RV a) (RV b) = na * nb * cos o). { rewrite CO. unfold rdot, direction, RV. cbn [px3 py3 pz3]. fold (sqn a) (sqn b). fold na nb. field. lra. }
  assert (CC : sqrt (sqn a * sqn b - rdot (RV a) (RV b) * rdot (RV a) (RV b)) = na * nb * sin o).
  { replace (sqn a * sqn b - rdot (RV a) (RV b) * rdot (RV a) (RV b)) with ((na * nb * sin o) * (na * nb * sin o)).
    - apply sqrt_square. apply Rmult_le_pos; [apply Rmult_le_pos; lra|apply sin_ge_0; lra].
    - rewrite DD, <- NA, <- NB. pose proof (sin2_cos2 o) as Q. unfold Rsqr in Q. replace (sin o * sin o) with (1 - cos o * cos o) by lra. replace (na * nb * sin o * (na * nb * sin o)) with (na * na * (nb * nb) * (sin o * sin o)) by ring. replace (sin o * sin o) with (1 - cos o * cos o) by lra. ring. }
  assert (LG : sqrt (sqn a * sqn b - rdot (RV a) (RV b) * rdot (RV a) (RV b)) = chd org (rcross (RV a) (RV b))). { unfold chd, dist2, org, rcross, rdot, RV, sqn. cbn [px3 py3 pz3]. f_equal. ring. }
  rewrite CC in LG. assert (KB : 999 / 1000 <= na * nb <= 11 / 10). { split; [apply Rle_trans with (999999 / 1000000 * (999999 / 1000000)); [lra|apply Rmult_le_compat; lra]|apply Rle_trans with (1000001 / 1000000 * (1000001 / 1000000)); [apply Rmult_le_compat; lra|lra]]. }
  pose proof (SIN_bound o) as SBo. pose proof (sin_ge_0 o ltac:(lra) ltac:(lra)) as S0. assert (KS : 0 <= na * nb * sin o <= 11 / 10) by (split; [apply Rmult_le_pos; lra|apply Rle_trans with (11 / 10 * 1); [apply Rmult_le_compat; lra|lra]]).
  pose proof (chd_tri org (RV (cross a b)) (rcross (RV a) (RV b))) as T1. pose proof (chd_tri org (rcross (RV a) (RV b)) (RV (cross a b))) as T2. rewrite (chd_sym (rcross _ _)) in T2. rewrite <- LG, chd_org in *.
  pose proof (sqrt_pos (sqn (cross a b))) as PC. assert (NC : sqn (cross a b) <= 2).
  { rewrite <- (sqrt_sqrt (sqn (cross a b))) by (unfold sqn; nra). apply Rle_trans with (12 / 10 * (12 / 10)); [apply Rmult_le_compat; lra|lra]. }
  destruct (norm_err (cross a b) FC NC) as (FN & SN & EN). set (y := norm (cross a b)) in *. set (x := dot a b) in *. destruct (A y x FN FD) as (FF & BF & K). pose proof (UP y x FN FD SN) as UF. pose proof (sign_false _ FN SN) as Y0.
  split; [exact FF|]. split; [rewrite Rabs_pos_eq in BF by lra; lra|].
  assert (EX : Rabs (B2R x - na * nb * cos o) <= 19 * u) by (rewrite <- DD; eapply Rle_trans; [exact ED|lra]). assert (EY : Rabs (B2R y - na * nb * sin o) <= 19 * u) by (apply Rabs_le_inv in EN; apply Rabs_le; lra).
  assert (NZ : B2R y <> 0 \/ B2R x <> 0).
  { destruct (Req_dec (B2R y) 0) as [Q|Q]; [right|left; exact Q]. intros R. rewrite Q in EY. rewrite R in EX. pose proof (sin2_cos2 o) as SC. unfold Rsqr in SC. apply Rabs_le_inv in EX, EY.
    assert (C2 : (na * nb * cos o) * (na * nb * cos o) <= 1 / 10 * (1 / 10)) by (apply sq_abs_le; [lra|apply Rabs_le; lra]). assert (S2 : (na * nb * sin o) * (na * nb * sin o) <= 1 / 10 * (1 / 10)) by (apply sq_abs_le; [lra|apply Rabs_le; lra]).
    assert (SU : (na * nb) * (na * nb) = (na * nb * cos o) * (na * nb * cos o) + (na * nb * sin o) * (na * nb * sin o)). { replace ((na * nb * cos o) * (na * nb * cos o) + (na * nb * sin o) * (na * nb * sin o)) with ((na * nb) * (na * nb) * (sin o * sin o + cos o * cos o)) by ring. rewrite SC. ring. }
    assert (9 / 10 * (9 / 10) <= (na * nb) * (na * nb)) by (apply Rmult_le_compat; lra). lra. }
  destruct (K NZ) as (_ & t & PT & ET). pose proof PT as (TR & TX & TY). apply Rabs_le_inv in ET. pose proof PI_tight as PI'.
  assert (T0 : 0 <= t).
  { apply Rnot_lt_le. intros C. set (r := sqrt (B2R x * B2R x + B2R y * B2R y)) in *. assert (RP : 0 < r). { apply sqrt_lt_R0. pose proof (Rle_0_sqr (B2R x)). pose proof (Rle_0_sqr (B2R y)). unfold Rsqr in *. destruct NZ as [Q|Q]; [assert (0 < B2R y * B2R y) by nra|assert (0 < B2R x * B2R x) by nra]; lra. }
    pose proof (sin_gt_0 (- t) ltac:(lra) ltac:(lra)) as SG. rewrite sin_neg in SG. nra. }
  pose proof (polar_closer _ _ t o (na * nb) (19 * u) PT ltac:(lra) O ltac:(lra) ltac:(lra) EX EY) as PCL. apply Rabs_le_inv in PCL. apply Rabs_le. lra.
Qed.
Print Assumptions C118_distance.
Theorem C118_approx_eq : forall fatan2 a b, accurate_atan2 fatan2 -> upper_atan2 fatan2 -> is_unit a = true -> is_unit b = true ->
  (point_approx_eq fatan2 a b = true -> angle_between (direction a) (direction b) <= B2R EPSILON + 1 / 2 ^ 47) /\
  (point_approx_eq fatan2 a b = false -> B2R EPSILON < angle_between (direction a) (direction b) + 1 / 2 ^ 47).
Proof.
  intros f a b A UP Ua Ub. destruct (C118_distance f a b A UP Ua Ub) as (F & _ & E). unfold point_approx_eq. fold (point_distance f a b). apply Rabs_le_inv in E.
  destruct (fle_R _ EPSILON F eq_refl) as [L|L]; split; intros H; try discriminate; lra.
Qed.
Print Assumptions C118_approx_eq.
Example C118_close : B2R EPSILON > 1 / 2 ^ 47.
Proof.
  assert (E : B2R EPSILON = 6338253001141147 * / 633825300114114700748351602688) by reflexivity. rewrite E. lra.
Qed.
(* a point is approximately equal to every point in the same direction *)
Theorem C118_reflexive : forall fatan2 a b, accurate_atan2 fatan2 -> upper_atan2 fatan2 -> is_unit a = true -> is_unit b = true -> direction a = direction b ->
  point_approx_eq fatan2 a b = true.
Proof.
  intros f a b A UP Ua Ub E. destruct (point_approx_eq f a b) eqn:Q; [reflexivity|]. apply (C118_approx_eq f a b A UP Ua Ub) in Q. pose proof C118_close as C.
  pose proof (unit_sphere _ Ua) as SA. destruct (angle_trig _ _ SA SA) as (O & CO & _). cbv zeta in *. rewrite <- E in Q. set (o := angle_between (direction a) (direction a)) in *.
  assert (CO1 : cos o = 1). { rewrite CO. unfold on_sphere, rdot in *. lra. }
  assert (o = 0). { apply Rle_antisym; [|lra]. apply Rnot_lt_le. intros P. pose proof (cos_decreasing_1 0 o ltac:(lra) ltac:(lra) ltac:(lra) ltac:(lra) P) as D. rewrite cos_0 in D. lra. }
  lra.
Qed.
Print Assumptions C118_reflexive.
(* the distance is symmetric, to the last bit *)
Lemma fmul_swap (x y : f64) : fmul x y = fmul y x.
Proof.
  apply B2SF_inj. destruct x as [s|s| |s m e B], y as [t|t| |t n k C]; try (destruct s; reflexivity); try (destruct t; reflexivity); try (destruct s, t; reflexivity); try reflexivity.
  unfold fmul, Bmult. rewrite !B2SF_SF2B. rewrite xorb_comm, Pos.mul_comm, Z.add_comm. reflexivity.
Qed.
Lemma fmul_opp_sq (x y : f64) : opposite x y -> fmul x x = fmul y y.
Proof.
  intros [->|[A B]].
  - apply B2SF_inj. destruct y as [s|s| |s m e B]; try (destruct s; reflexivity); try reflexivity. unfold fmul, Bmult, fneg, Bopp. rewrite !B2SF_SF2B. destruct s; reflexivity.
  - destruct x as [s| | |]; try discriminate. destruct y as [t| | |]; try discriminate. destruct s, t; reflexivity.
Qed.
Theorem C118_symmetric : forall fatan2 a b, point_distance fatan2 a b = point_distance fatan2 b a.
Proof.
  intros f a b. unfold point_distance, vangle. assert (D : dot a b = dot b a). { unfold dot. rewrite (fmul_swap (vx a)), (fmul_swap (vy a)), (fmul_swap (vz a)). reflexivity. }
  assert (N : norm2 (cross a b) = norm2 (cross b a)). { destruct (cross_swap a b) as (P & Q & R). unfold norm2, dot. rewrite (fmul_opp_sq _ _ P), (fmul_opp_sq _ _ Q), (fmul_opp_sq _ _ R). reflexivity. }
  unfold norm. rewrite D, N. reflexivity.
Qed.
Print Assumptions C118_symmetric.

(** ** C119: LatLng::distance *)
(* half the difference of two angles, and its sine *)
Lemma half_diff (a b : f64) : finite a -> finite b -> Rabs (B2R a) <= 4 -> Rabs (B2R b) <= 4 -> let x := fmul fhalf (fsub a b) in
  finite x /\ Rabs (B2R x - (B2R a - B2R b) / 2) <= u * (Rabs (B2R a - B2R b) / 2) + mu.
Proof.
  intros Fa Fb Ba Bb. cbv zeta. pose proof (abs_sub_le _ _ _ _ Ba Bb) as BD. destruct (result_val _ _ 3 ltac:(lia) (fsub_result _ _ Fa Fb) ltac:(change (pow2 3) with 8; lra)) as (F & V & _).
  pose proof (rnd_plus_rel a (fneg b)) as R. destruct (fneg_val b Fb) as [_ VN]. rewrite VN in R. change (B2R a + - B2R b) with (B2R a - B2R b) in R. rewrite <- V in R.
  destruct (half_mu _ F) as (Fh & _ & Eh). { pose proof (near_bound _ _ _ _ BD R). lra. }
  split; [exact Fh|]. apply Rabs_le_inv in R, Eh. apply Rabs_le. lra.
Qed.
Lemma sine_half fsin (a b : f64) m : accurate_sin fsin -> finite a -> finite b -> Rabs (B2R a) <= 4 -> Rabs (B2R b) <= 4 -> Rabs (B2R a - B2R b) <= m -> m <= 7 ->
  let s := fsin (fmul fhalf (fsub a b)) in finite s /\ Rabs (B2R s) <= 1 /\ Rabs (B2R s - sin ((B2R a - B2R b) / 2)) <= (8 + m / 2 + 1 / 100) * u.
Proof.
  intros AS Fa Fb Ba Bb BM M. cbv zeta. destruct (half_diff a b Fa Fb Ba Bb) as [Fx Ex]. cbv zeta in *. set (x := fmul fhalf (fsub a b)) in *. set (D := B2R a - B2R b) in *. pose proof mu_small as MS. pose proof mu_pos as MP.
  assert (P5 : pow2 (-500) <= u / 10000). { apply Rle_trans with (pow2 (-70)); [apply bpow_le; lia|]. change (pow2 (-70)) with (/ 1180591620717411303424). lra. }
  assert (BX : Rabs (B2R x) <= 4). { assert (Rabs (D / 2) <= 7 / 2) by (unfold Rdiv; rewrite Rabs_mult, (Rabs_pos_eq (/ 2)) by lra; lra). pose proof (near_bound _ _ _ _ H Ex). lra. }
  destruct (AS x Fx BX) as (Fs & B1 & Es). split; [exact Fs|]. split; [exact B1|]. pose proof (SIN_bound (B2R x)) as SB. assert (SA : Rabs (sin (B2R x)) <= 1) by (apply Rabs_le; lra).
  pose proof (sin_lip (B2R x) (D / 2)) as SL. assert (P10 : bpow radix2 (-1000) <= pow2 (-500)) by (apply bpow_le; lia).
  apply Rabs_le_inv in Es, SL. apply Rabs_le. lra.
Qed.
Lemma sign_mul (x y : f64) : Bsign x = false -> Bsign y = false -> finite (fmul x y) -> Bsign (fmul x y) = false.
Proof.
  intros Sx Sy F. unfold fmul in *. pose proof (Bmult_correct 53 1024 _ _ mode_NE x y) as H. destruct (Rlt_bool _ _) eqn:L.
  - destruct H as (_ & _ & S). rewrite S; [rewrite Sx, Sy; reflexivity|]. apply finite_number in F. exact F.
  - apply (f_equal is_finite_SF) in H. rewrite is_finite_SF_B2SF in H. fold f64 in *. rewrite F in H. discriminate H.
Qed.
(* a product of two numbers between 0 and 1 *)
Lemma mul_unit (x y : f64) r e K : finite x -> finite y -> 0 <= B2R x <= 1 -> 0 <= B2R y <= 1 -> 0 <= r -> Rabs (B2R x - r) <= e * r + K * mu -> 0 <= e <= 8 * u -> 0 <= K <= 100 ->
  finite (fmul x y) /\ 0 <= B2R (fmul x y) <= 1 /\ Rabs (B2R (fmul x y) - r * B2R y) <= (e + (1 + 1 / 1000) * u) * (r * B2R y) + (K + 2) * mu.
Proof.
  intros Fx Fy Bx By R E EB KP. set (a := B2R x) in *. set (b := B2R y) in *. assert (AB : 0 <= a * b <= 1) by (split; [apply Rmult_le_pos; lra|replace 1 with (1 * 1) by ring; apply Rmult_le_compat; lra]).
  destruct (result_rel _ _ (fmul_result x y Fx Fy)) as (F & V & Er). { fold a b. apply Rle_trans with 1000; [rewrite Rabs_pos_eq; lra|apply big_1000; lra]. }
  fold a b in V, Er. split; [exact F|]. split; [rewrite V; split; [apply rnd_nonneg; lra|destruct f1_val as [_ V1]; apply (rnd_upper f1); [exact V1|lra]]|].
  rewrite (Rabs_pos_eq (a * b)) in Er by lra. assert (E2 : Rabs (a * b - r * b) <= e * (r * b) + K * mu). { replace (a * b - r * b) with ((a - r) * b) by ring. rewrite Rabs_mult, (Rabs_pos_eq b) by lra.
    apply Rle_trans with ((e * r + K * mu) * b); [apply Rmult_le_compat_r; lra|]. pose proof mu_pos. assert (K * mu * b <= K * mu * 1) by (apply Rmult_le_compat_l; [apply Rmult_le_pos; lra|lra]). lra. }
  pose proof mu_pos as MP. set (km := K * mu) in *. assert (RB : 0 <= r * b) by (apply Rmult_le_pos; lra). assert (ER : e * (r * b) <= 8 * u * (r * b)) by (apply Rmult_le_compat_r; lra).
  apply Rabs_le_inv in Er, E2. apply Rabs_le. replace ((K + 2) * mu) with (km + 2 * mu) by (unfold km; ring). assert (KM : 0 <= km <= 100 * mu) by (unfold km; split; [apply Rmult_le_pos; lra|apply Rmult_le_compat_r; lra]). clearbody km. assert (E1 : e * (r * b) * u <= (r * b) * (8 * u) * u) by (apply Rmult_le_compat_r; lra). replace ((e + (1 + 1 / 1000) * u) * (r * b)) with (e * (r * b) + (1 + 1 / 1000) * u * (r * b)) by ring. split; lra.
Qed.

Lemma hav_err (s t c c' : f64) : finite s -> finite t -> finite c -> finite c' -> Rabs (B2R s) <= 1 -> Rabs (B2R t) <= 1 -> 0 < B2R c <= 1 -> 0 < B2R c' <= 1 ->
  let x := fadd (fmul s s) (fmul (fmul (fmul t t) c) c') in let X := B2R s * B2R s + B2R c * B2R c' * (B2R t * B2R t) in
  finite x /\ Bsign x = false /\ 0 <= X <= 2 /\ Rabs (B2R x - X) <= 5 * u * X + 20 * mu.
Proof.
  intros Fs Ft Fc Fc' Bs Bt Bc Bc'. cbv zeta. pose proof mu_pos as MP. pose proof mu_small as MS.
  assert (SG : forall z : f64, finite z -> 0 < B2R z -> Bsign z = false). { intros z Fz P. destruct (Bsign z) eqn:S; [|reflexivity]. pose proof (sign_true z Fz S). lra. }
  assert (SQ : forall z : f64, finite z -> Rabs (B2R z) <= 1 -> finite (fmul z z) /\ 0 <= B2R z * B2R z <= 1 /\ 0 <= B2R (fmul z z) <= 1 /\ Rabs (B2R (fmul z z) - B2R z * B2R z) <= u * (B2R z * B2R z) + 1 * mu).
  { intros z Fz Bz. assert (Q : 0 <= B2R z * B2R z <= 1). { split; [apply Rle_0_sqr|]. apply Rle_trans with (1 * 1); [apply sq_abs_le; lra|lra]. }
    destruct (result_rel _ _ (fmul_result z z Fz Fz)) as (F & V & Er). { apply Rle_trans with 1000; [rewrite Rabs_pos_eq; lra|apply big_1000; lra]. }
    rewrite (Rabs_pos_eq (B2R z * B2R z)) in Er by lra. split; [exact F|]. split; [exact Q|]. split; [|lra]. rewrite V. split; [apply rnd_nonneg; lra|]. destruct f1_val as [_ V1]. apply (rnd_upper f1); [exact V1|lra]. }
  destruct (SQ s Fs Bs) as (F1 & Q1 & B1 & E1). destruct (SQ t Ft Bt) as (F2 & Q2 & B2 & E2).
  destruct (mul_unit _ c (B2R t * B2R t) u 1 F2 Fc B2 ltac:(lra) ltac:(lra) E2 ltac:(lra) ltac:(lra)) as (F3 & B3 & E3).
  assert (TC : 0 <= B2R t * B2R t * B2R c) by (apply Rmult_le_pos; lra).
  destruct (mul_unit _ c' (B2R t * B2R t * B2R c) (u + (1 + 1 / 1000) * u) (1 + 2) F3 Fc' B3 ltac:(lra) TC E3 ltac:(lra) ltac:(lra)) as (F4 & B4 & E4).
  assert (TCC : 0 <= B2R t * B2R t * B2R c * B2R c' <= 1). { split; [apply Rmult_le_pos; lra|]. assert (B2R t * B2R t * B2R c <= 1 * 1) by (apply Rmult_le_compat; lra). apply Rle_trans with (1 * 1); [apply Rmult_le_compat; lra|lra]. }
  set (p := fmul s s) in *. set (q := fmul (fmul (fmul t t) c) c') in *.
  destruct (result_val _ _ 2 ltac:(lia) (fadd_result p q F1 F4) ltac:(change (pow2 2) with 4; rewrite Rabs_pos_eq; lra)) as (F5 & V5 & _).
  pose proof (rnd_plus_rel p q) as R5. rewrite <- V5 in R5. rewrite (Rabs_pos_eq (B2R p + B2R q)) in R5 by lra.
  split; [exact F5|]. split. { apply sign_add; auto; [apply sign_sq; exact F1|]. apply sign_mul; [apply sign_mul; [apply sign_sq; exact F2|apply SG; auto; lra|exact F3]|apply SG; auto; lra|exact F4]. }
  replace (B2R c * B2R c' * (B2R t * B2R t)) with (B2R t * B2R t * B2R c * B2R c') by ring. split; [lra|]. set (S := B2R s * B2R s) in *. set (T := B2R t * B2R t * B2R c * B2R c') in *.
  apply Rabs_le_inv in E1, E4, R5. apply Rabs_le. split; lra.
Qed.
Lemma norm2d a b a' b' : Rabs (sqrt (a * a + b * b) - sqrt (a' * a' + b' * b')) <= Rabs (a - a') + Rabs (b - b').
Proof.
  set (P := Pos a b 0). set (Q := Pos a' b' 0). assert (EP : chd org P = sqrt (a * a + b * b)) by (unfold chd, dist2, org, P; cbn [px3 py3 pz3]; f_equal; ring). assert (EQ : chd org Q = sqrt (a' * a' + b' * b')) by (unfold chd, dist2, org, Q; cbn [px3 py3 pz3]; f_equal; ring).
  pose proof (chd_tri org P Q) as T1. pose proof (chd_tri org Q P) as T2. rewrite (chd_sym Q P) in T2. assert (D : chd P Q <= Rabs (a - a') + Rabs (b - b')). { eapply Rle_trans; [apply chd_parts|]. unfold P, Q. cbn [px3 py3 pz3]. rewrite Rminus_eq_0, Rabs_R0. lra. }
  rewrite <- EP, <- EQ. apply Rabs_le. lra.
Qed.
(* the cosine of a valid latitude *)
Lemma lat_cos fcos (a : f64) : accurate_cos fcos -> finite a -> Rabs (B2R a) <= pi / 2 ->
  let c := cos (B2R a) in let k := fcos a in 0 < c <= 1 /\ finite k /\ 0 < B2R k <= 1 /\ Rabs (B2R k - c) <= 8 * u * c + pow2 (-1000).
Proof.
  intros AC F B. cbv zeta. pose proof pi_bounds as PB. pose proof PI_tight as PT. destruct (AC a F ltac:(lra)) as (Fk & Bk & Ek). pose proof (COS_bound (B2R a)) as CB.
  assert (C0 : 1 / 2 ^ 57 <= cos (B2R a)).
  { apply Rabs_le_inv in B. rewrite pi_num in B. pose proof (Rabs_pos (B2R a)) as P0. set (z := PI / 2 - Rabs (B2R a)). assert (RB : Rabs (B2R a) <= pi / 2) by (rewrite pi_num; apply Rabs_le; lra). rewrite pi_num in RB.
    assert (E : cos (B2R a) = sin z). { unfold z. rewrite sin_shift. unfold Rabs. destruct (Rcase_abs (B2R a)); [rewrite cos_neg|]; reflexivity. } rewrite E. pose proof (sin_half z ltac:(unfold z; lra)) as S. unfold z in S at 1. lra. }
  assert (P10 : pow2 (-1000) <= 1 / 2 ^ 60). { apply Rle_trans with (pow2 (-60)); [apply bpow_le; lia|]. change (pow2 (-60)) with (/ 1152921504606846976). lra. } pose proof (bpow_gt_0 radix2 (-1000)) as PP.
  rewrite (Rabs_pos_eq (cos _)) in Ek by lra. split; [lra|]. split; [exact Fk|]. apply Rabs_le_inv in Ek as Ek'. apply Rabs_le_inv in Bk. split; [lra|]. lra.
Qed.
Lemma cos_mean c c' k k' : 0 < c <= 1 -> 0 < c' <= 1 -> 0 < k <= 1 -> 0 < k' <= 1 -> Rabs (k - c) <= 8 * u * c + pow2 (-1000) -> Rabs (k' - c') <= 8 * u * c' + pow2 (-1000) ->
  Rabs (sqrt (k * k') - sqrt (c * c')) <= 17 * u * sqrt (c * c') + pow2 (-490).
Proof.
  intros C C' K K' E E'. pose proof (bpow_gt_0 radix2 (-1000)) as PP. pose proof (bpow_gt_0 radix2 (-490)) as P4. assert (CC : 0 <= c * c') by (apply Rmult_le_pos; lra). assert (KK : 0 <= k * k') by (apply Rmult_le_pos; lra).
  apply sqrt_err; auto; [lra|lra|]. set (t := pow2 (-1000)) in *. assert (T4 : 8 * t <= pow2 (-490) * pow2 (-490)). { change 8 with (pow2 3). unfold t. rewrite <- !bpow_plus. apply bpow_le. lia. }
  assert (T1 : t <= 1). { unfold t. apply Rle_trans with (pow2 0); [apply bpow_le; lia|simpl; lra]. }
  replace (k * k' - c * c') with ((k - c) * k' + c * (k' - c')) by ring.
  assert (A1 : Rabs ((k - c) * k') <= 8 * u * (c * k') + t). { rewrite Rabs_mult, (Rabs_pos_eq k') by lra. apply Rle_trans with ((8 * u * c + t) * k'); [apply Rmult_le_compat_r; lra|]. assert (t * k' <= t * 1) by (apply Rmult_le_compat_l; lra). lra. }
  assert (A2 : Rabs (c * (k' - c')) <= 8 * u * (c * c') + t). { rewrite Rabs_mult, (Rabs_pos_eq c) by lra. apply Rle_trans with (c * (8 * u * c' + t)); [apply Rmult_le_compat_l; lra|]. assert (c * t <= 1 * t) by (apply Rmult_le_compat_r; lra). lra. }
  assert (A3 : c * k' <= c * c' + 8 * u * (c * c') + t). { apply Rabs_le_inv in E'. apply Rle_trans with (c * (c' + (8 * u * c' + t))); [apply Rmult_le_compat_l; lra|]. assert (c * t <= 1 * t) by (apply Rmult_le_compat_r; lra). lra. }
  apply Rabs_le_inv in A1, A2. set (m := c * c') in *. set (w := c * k') in *. apply Rabs_le. lra.
Qed.
(* the square root of the haversine *)
Lemma hav_root fsin fcos a b : accurate_sin fsin -> accurate_cos fcos -> ll_is_valid a = true -> ll_is_valid b = true ->
  let dlat := fsin (fmul fhalf (fsub (lat b) (lat a))) in let dlng := fsin (fmul fhalf (fsub (lng b) (lng a))) in
  let x := fadd (fmul dlat dlat) (fmul (fmul (fmul dlng dlng) (fcos (lat a))) (fcos (lat b))) in
  finite x /\ Bsign x = false /\ Rabs (sqrt (B2R x) - chd (place a) (place b) / 2) <= 45 * u.
Proof.
  intros AS AC Va Vb. cbv zeta. apply valid_ll in Va, Vb. destruct Va as (Fa1 & Fa2 & Ba1 & Ba2). destruct Vb as (Fb1 & Fb2 & Bb1 & Bb2). pose proof pi_bounds as PB.
  pose proof (abs_sub_le _ _ _ _ Bb1 Ba1) as M1. pose proof (abs_sub_le _ _ _ _ Bb2 Ba2) as M2.
  destruct (sine_half fsin (lat b) (lat a) (32 / 10) AS Fb1 Fa1 ltac:(lra) ltac:(lra) ltac:(lra) ltac:(lra)) as (Fs & Bs & Es). destruct (sine_half fsin (lng b) (lng a) (64 / 10) AS Fb2 Fa2 ltac:(lra) ltac:(lra) ltac:(lra) ltac:(lra)) as (Ft & Bt & Et).
  destruct (lat_cos fcos (lat a) AC Fa1 Ba1) as (C1 & Fk & K1 & Ek). destruct (lat_cos fcos (lat b) AC Fb1 Bb1) as (C2 & Fk' & K2 & Ek'). cbv zeta in *.
  set (s := fsin (fmul fhalf (fsub (lat b) (lat a)))) in *. set (t := fsin (fmul fhalf (fsub (lng b) (lng a)))) in *. set (k := fcos (lat a)) in *. set (k' := fcos (lat b)) in *.
  destruct (hav_err s t k k' Fs Ft Fk Fk' Bs Bt K1 K2) as (Fx & Sx & BX & Ex). cbv zeta in *. set (x := fadd (fmul s s) _) in *. split; [exact Fx|]. split; [exact Sx|].
  set (c := cos (B2R (lat a))) in *. set (c' := cos (B2R (lat b))) in *. set (S := sin ((B2R (lat b) - B2R (lat a)) / 2)) in *. set (T := sin ((B2R (lng b) - B2R (lng a)) / 2)) in *.
  pose proof (cos_mean c c' _ _ C1 C2 K1 K2 Ek Ek') as EG. set (g := sqrt (c * c')) in *. set (gk := sqrt (B2R k * B2R k')) in *.
  assert (G2 : g * g = c * c') by (apply sqrt_sqrt, Rmult_le_pos; lra). assert (GK2 : gk * gk = B2R k * B2R k') by (apply sqrt_sqrt, Rmult_le_pos; lra).
  assert (GB : 0 <= g <= 1). { split; [apply sqrt_pos|]. unfold g. rewrite <- sqrt_1. apply sqrt_le_1_alt. replace 1 with (1 * 1) by ring. apply Rmult_le_compat; lra. }
  assert (GKB : 0 <= gk <= 1). { split; [apply sqrt_pos|]. unfold gk. rewrite <- sqrt_1. apply sqrt_le_1_alt. replace 1 with (1 * 1) by ring. apply Rmult_le_compat; lra. }
  assert (CH : chd (place a) (place b) / 2 = sqrt (S * S + (T * g) * (T * g))).
  { rewrite chd_sym. unfold chd, place. rewrite haversine. fold S T c c'. replace (4 * (S * S) + 4 * (c' * c * (T * T))) with (4 * (S * S + T * g * (T * g))) by (replace (T * g * (T * g)) with (T * T * (g * g)) by ring; rewrite G2; ring).
    rewrite sqrt_mult_alt by lra. replace 4 with (2 * 2) by ring. rewrite sqrt_square by lra. field. }
  assert (XH : B2R s * B2R s + B2R k * B2R k' * (B2R t * B2R t) = B2R s * B2R s + (B2R t * gk) * (B2R t * gk)) by (rewrite <- GK2; ring). rewrite XH in *. set (XX := B2R s * B2R s + B2R t * gk * (B2R t * gk)) in *.
  pose proof (sign_false _ Fx Sx) as X0. pose proof mu_pos as MP.
  assert (M20 : 20 * mu <= pow2 (-500) * pow2 (-500)). { apply Rle_trans with (pow2 5 * mu); [change (pow2 5) with 32; lra|]. replace (pow2 5 * mu) with (pow2 (5 + -1050)) by apply bpow_plus. rewrite <- bpow_plus. apply bpow_le. lia. }
  pose proof (sqrt_err (B2R x) XX (5 * u) (pow2 (-500)) X0 ltac:(lra) ltac:(lra) ltac:(apply bpow_ge_0) ltac:(eapply Rle_trans; [exact Ex|lra])) as ER.
  assert (XR : sqrt XX <= 15 / 10). { rewrite <- (sqrt_square (15 / 10)) by lra. apply sqrt_le_1_alt. lra. }
  assert (P5 : pow2 (-490) <= u / 1000). { apply Rle_trans with (pow2 (-70)); [apply bpow_le; lia|]. change (pow2 (-70)) with (/ 1180591620717411303424). lra. }
  assert (P6 : pow2 (-500) <= pow2 (-490)) by (apply bpow_le; lia).
  pose proof (norm2d (B2R s) (B2R t * gk) S (T * g)) as ND. fold XX in ND. rewrite <- CH in ND.
  assert (TG : Rabs (B2R t * gk - T * g) <= (8 + 64 / 10 / 2 + 1 / 100) * u + 18 * u).
  { replace (B2R t * gk - T * g) with ((B2R t - T) * gk + T * (gk - g)) by ring. eapply Rle_trans; [apply Rabs_triang|]. apply Rplus_le_compat.
    - rewrite Rabs_mult, (Rabs_pos_eq gk) by lra. rewrite <- (Rmult_1_r ((8 + 64 / 10 / 2 + 1 / 100) * u)). apply Rmult_le_compat; try lra; try apply Rabs_pos.
    - rewrite Rabs_mult. pose proof (SIN_bound ((B2R (lng b) - B2R (lng a)) / 2)) as SB. fold T in SB. assert (Rabs T <= 1) by (apply Rabs_le; lra). rewrite <- (Rmult_1_l (18 * u)). apply Rmult_le_compat; try lra; try apply Rabs_pos. }
  pose proof (chd_range (place a) (place b) (place_on a) (place_on b)) as CR.
  apply Rabs_le_inv in ER, ND. apply Rabs_le. pose proof (sqrt_pos XX). assert (sqrt XX <= 101 / 100) by lra. split; lra.
Qed.

Lemma sqr_near a b e : 0 <= a <= 11 / 10 -> 0 <= b <= 11 / 10 -> Rabs (a - b) <= e -> Rabs (a * a - b * b) <= 22 / 10 * e.
Proof.
  intros A B E. replace (a * a - b * b) with ((a - b) * (a + b)) by ring. rewrite Rabs_mult, (Rabs_pos_eq (a + b)) by lra. rewrite (Rmult_comm _ e). apply Rmult_le_compat; try lra. apply Rabs_pos.
Qed.
Lemma ll_half fsin fcos fatan2 a b : accurate_sin fsin -> accurate_cos fcos -> accurate_atan2 fatan2 -> upper_atan2 fatan2 -> ll_is_valid a = true -> ll_is_valid b = true ->
  let d := ll_distance fsin fcos fatan2 a b in finite d /\ 0 <= B2R d <= pi /\ Rabs (sin (B2R d / 2) - chd (place a) (place b) / 2) <= 152 * u.
Proof.
  intros AS AC AT UP Va Vb. cbv zeta. unfold ll_distance. destruct (hav_root fsin fcos a b AS AC Va Vb) as (Fx & Sx & E). cbv zeta in *. set (x := fadd (fmul _ _) _) in *.
  pose proof (chd_range (place a) (place b) (place_on a) (place_on b)) as CR. set (H := chd (place a) (place b) / 2) in *. assert (HB : 0 <= H <= 1) by (unfold H; lra). clearbody H.
  pose proof (sign_false _ Fx Sx) as X0. set (s := sqrt (B2R x)) in *. assert (SS : s * s = B2R x) by (apply sqrt_sqrt; exact X0). assert (S0 : 0 <= s) by apply sqrt_pos. apply Rabs_le_inv in E as E'.
  assert (XB : B2R x <= 1 + 91 * u). { rewrite <- SS. apply Rle_trans with ((1 + 45 * u) * (1 + 45 * u)); [apply Rmult_le_compat; lra|lra]. }
  assert (HT : h <= u / 1000). { apply Rle_trans with (pow2 (-70)); [apply bpow_le; lia|]. change (pow2 (-70)) with (/ 1180591620717411303424). lra. }
  destruct (sqrt_val_err x Fx ltac:(lra)) as [Fy Ey]. fold s in Ey. pose proof (sign_sqrt x Fy Sx) as Sy. set (y := fsqrt x) in *. pose proof (sign_false _ Fy Sy) as Y0.
  destruct f1_val as [F1 V1]. assert (BX : Rabs (B2R f1 - B2R x) <= 1 + 91 * u) by (rewrite V1; apply Rabs_le; lra).
  destruct (result_val _ _ 1 ltac:(lia) (fsub_result f1 x F1 Fx) ltac:(change (pow2 1) with 2; lra)) as (Fs & Vs & _). pose proof (rnd_plus_rel f1 (fneg x)) as R. destruct (fneg_val x Fx) as [_ VN]. rewrite VN in R. change (B2R f1 + - B2R x) with (B2R f1 - B2R x) in R. rewrite <- Vs in R. rewrite V1 in *.
  destruct (fmax_R (fsub f1 x) f0 Fs eq_refl) as [Fw Vw]. change (B2R f0) with 0 in Vw. set (w := fmax (fsub f1 x) f0) in *. set (q := B2R (fsub f1 x)) in *.
  assert (QE : Rabs (q - (1 - B2R x)) <= 11 / 10 * u). { eapply Rle_trans; [exact R|]. apply Rle_trans with (u * (1 + 91 * u)); [apply Rmult_le_compat_l; lra|lra]. } apply Rabs_le_inv in QE.
  assert (W : 0 <= B2R w <= 1 + 2 * u /\ Rabs (B2R w - (1 - B2R x)) <= 91 * u). { rewrite Vw. unfold Rmax. destruct (Rle_dec q 0); (split; [lra|]); apply Rabs_le; lra. } destruct W as [W0 WE].
  assert (SW : Bsign w = false \/ B2R w = 0). { destruct (Bsign w) eqn:G; [right|left; reflexivity]. pose proof (sign_true w Fw G). lra. }
  destruct (sqrt_val_err w Fw ltac:(lra)) as [Fz Ez]. set (r := sqrt (B2R w)) in *. assert (RR : r * r = B2R w) by (apply sqrt_sqrt; lra). assert (R0 : 0 <= r) by apply sqrt_pos. assert (R1 : r <= 101 / 100). { apply Rnot_lt_le. intros C. assert (101 / 100 * (101 / 100) <= r * r) by (apply Rmult_le_compat; lra). lra. }
  set (z := fsqrt w) in *. assert (S1 : s <= 101 / 100) by lra.
  assert (EY : Rabs (B2R y - s) <= 12 / 10 * u). { eapply Rle_trans; [exact Ey|]. assert (u * s <= u * (101 / 100)) by (apply Rmult_le_compat_l; lra). lra. }
  assert (EZ : Rabs (B2R z - r) <= 12 / 10 * u). { eapply Rle_trans; [exact Ez|]. assert (u * r <= u * (101 / 100)) by (apply Rmult_le_compat_l; lra). lra. }
  apply Rabs_le_inv in EY as EY'. apply Rabs_le_inv in EZ as EZ'.
  assert (Z0 : 0 <= B2R z). { unfold z. destruct (fsqrt_val w Fw ltac:(lra)) as [_ ->]. apply rnd_nonneg, sqrt_pos. }
  pose proof (sqr_near (B2R y) s _ ltac:(lra) ltac:(lra) EY) as Y2. pose proof (sqr_near (B2R z) r _ ltac:(lra) ltac:(lra) EZ) as Z2. rewrite SS in Y2. rewrite RR in Z2. apply Rabs_le_inv in Y2, Z2, WE.
  destruct (AT y z Fy Fz) as (Ff & Bf & K). pose proof (UP y z Fy Fz Sy) as UF. set (f := fatan2 y z) in *. clearbody f.
  assert (NZ : B2R y <> 0 \/ B2R z <> 0). { destruct (Req_dec (B2R y) 0) as [C|C]; [right|left; exact C]. intros D. rewrite C, D in *. lra. }
  destruct (K NZ) as (K1 & t & (TR & TX & TY) & ET). specialize (K1 Z0). rewrite Rabs_pos_eq in K1 by exact UF. pose proof pi_bounds as PB.
  destruct (twice_exact f Ff) as [Fd Vd]. { rewrite Rabs_pos_eq by exact UF. lra. } split; [exact Fd|]. rewrite Vd. split; [lra|]. replace (2 * B2R f / 2) with (B2R f) by field.
  set (m := sqrt (B2R z * B2R z + B2R y * B2R y)) in *. assert (MM : m * m = B2R z * B2R z + B2R y * B2R y) by (apply sqrt_sqrt; nra). assert (M0 : 0 <= m) by apply sqrt_pos.
  assert (M1 : Rabs (m - 1) <= 97 * u). { apply Rabs_le. assert (-97 * u <= m * m - 1 <= 97 * u) by lra. split; apply Rnot_lt_le; intros C; [assert (m * m <= (1 - 97 * u) * 1) by (apply Rmult_le_compat; lra)|assert ((1 + 97 * u) * 1 <= m * m) by (apply Rmult_le_compat; lra)]; lra. }
  assert (ST : Rabs (B2R y - sin t) <= 97 * u). { rewrite TY. replace (m * sin t - sin t) with (sin t * (m - 1)) by ring. eapply Rle_trans; [apply prod1; apply Rabs_le, SIN_bound|exact M1]. }
  pose proof (sin_lip (B2R f) t) as SL. apply Rabs_le_inv in ST, ET, SL. assert (AB : Rabs (B2R f - t) <= 8 * u) by (apply Rabs_le; lra). apply Rabs_le. lra.
Qed.
Theorem C119_chord : forall fsin fcos fatan2 a b, accurate_sin fsin -> accurate_cos fcos -> accurate_atan2 fatan2 -> upper_atan2 fatan2 -> ll_is_valid a = true -> ll_is_valid b = true ->
  let d := ll_distance fsin fcos fatan2 a b in finite d /\ 0 <= B2R d <= pi /\ Rabs (2 * sin (B2R d / 2) - apart (place a) (place b)) <= 1 / 2 ^ 44.
Proof.
  intros fs fc ft a b AS AC AT UP Va Vb. cbv zeta. destruct (ll_half fs fc ft a b AS AC AT UP Va Vb) as (F & B & E). cbv zeta in *. split; [exact F|]. split; [exact B|]. rewrite apart_chd. apply Rabs_le_inv in E. apply Rabs_le. lra.
Qed.
Print Assumptions C119_chord.
Lemma sine_gap p q e : 0 <= p <= PI / 2 -> 0 <= q <= PI / 2 -> Rabs (sin p - sin q) <= e -> (p - q) * (p - q) <= 8 * e /\ (q <= 5 / 4 -> Rabs (p - q) <= 26 * e).
Proof.
  intros P Q E. pose proof PI_tight as PT. set (D := Rabs (p - q)). assert (D0 : 0 <= D) by apply Rabs_pos. assert (DB : D <= 8 / 5) by (apply Rabs_le; lra).
  assert (SD : D / 4 <= sin (D / 2)) by (pose proof (sin_half (D / 2) ltac:(lra)); lra).
  assert (F : Rabs (sin p - sin q) = 2 * (cos ((p + q) / 2) * sin (D / 2))).
  { rewrite form4. rewrite !Rabs_mult, (Rabs_pos_eq 2) by lra. rewrite (Rabs_pos_eq (cos _)) by (apply cos_ge_0; lra). rewrite Rmult_assoc. do 2 f_equal. unfold D, Rabs at 2. destruct (Rcase_abs (p - q)) as [N|N].
    - replace (- (p - q) / 2) with (- ((p - q) / 2)) by field. rewrite sin_neg. apply Rabs_left1. assert (0 <= sin (- ((p - q) / 2))) by (apply sin_ge_0; lra). rewrite sin_neg in *. lra.
    - apply Rabs_pos_eq. apply sin_ge_0; lra. }
  rewrite F in E. set (m := (p + q) / 2) in *. assert (C : cos m = sin (PI / 2 - m)) by (rewrite sin_shift; reflexivity). pose proof (sin_half (PI / 2 - m) ltac:(unfold m; lra)) as CM. rewrite <- C in CM.
  assert (MD : D / 2 <= PI / 2 - m). { unfold D, Rabs, m. destruct (Rcase_abs (p - q)); lra. } split.
  - assert (D * D = (p - q) * (p - q)) as <- by (unfold D, Rabs; destruct (Rcase_abs _); ring). assert (D / 4 * (D / 4) <= cos m * sin (D / 2)) by (apply Rmult_le_compat; lra). lra.
  - intros L. fold D. assert (16 / 200 * (D / 4) <= cos m * sin (D / 2)) by (apply Rmult_le_compat; unfold m in *; lra). lra.
Qed.
Theorem C119_distance : forall fsin fcos fatan2 a b, accurate_sin fsin -> accurate_cos fcos -> accurate_atan2 fatan2 -> upper_atan2 fatan2 -> ll_is_valid a = true -> ll_is_valid b = true ->
  let d := ll_distance fsin fcos fatan2 a b in let angle := angle_between (place a) (place b) in
  Rabs (B2R d - angle) <= 1 / 2 ^ 20 /\ (angle <= 5 / 2 -> Rabs (B2R d - angle) <= 1 / 2 ^ 40).
Proof.
  intros fs fc ft a b AS AC AT UP Va Vb. cbv zeta. destruct (ll_half fs fc ft a b AS AC AT UP Va Vb) as (F & B & E). cbv zeta in *. set (d := ll_distance fs fc ft a b) in *. pose proof pi_PI as PP.
  pose proof (chd_range (place a) (place b) (place_on a) (place_on b)) as CR. unfold angle_between. fold (chd (place a) (place b)). set (H := chd (place a) (place b) / 2) in *. assert (HB : 0 <= H <= 1) by (unfold H; lra). clearbody H.
  pose proof (asin_bound H) as AB. assert (A0 : 0 <= asin H). { apply Rnot_lt_le. intros C. pose proof (sin_gt_0 (- asin H) ltac:(lra) ltac:(lra)) as G. rewrite sin_neg, sin_asin in G by lra. lra. }
  rewrite <- (sin_asin H) in E by lra. destruct (sine_gap (B2R d / 2) (asin H) _ ltac:(lra) ltac:(lra) E) as [G1 G2]. set (p := B2R d / 2) in *. set (q := asin H) in *. replace (B2R d) with (2 * p) by (unfold p; field). split.
  - assert (Q : Rabs (p - q) <= 1 / 2 ^ 21). { apply sq_le_abs; [lra|]. eapply Rle_trans; [exact G1|lra]. } apply Rabs_le_inv in Q. apply Rabs_le. lra.
  - intros L. specialize (G2 ltac:(lra)). apply Rabs_le_inv in G2. apply Rabs_le. lra.
Qed.
Print Assumptions C119_distance.

(** Witnesses. *)
Lemma cut_atan2_upper : upper_atan2 cut_atan2.
Proof.
  intros y x Fy Fx S. pose proof (sign_false _ Fy S) as Y. destruct (atan2_real_range (B2R y) (B2R x)) as [R1 _]. pose proof PI_tight as PT. unfold cut_atan2.
  assert (T : 0 <= atan2_real (B2R y) (B2R x)). { unfold atan2_real. destruct (Req_EM_T _ _); [lra|]. destruct (Rle_dec 0 (B2R y)); [apply acos_bound|lra]. }
  set (t := atan2_real _ _) in *. destruct (cut_val 51 t ltac:(lia)) as (_ & V & _). { rewrite Rabs_mult. change (bpow radix2 51) with 2251799813685248. rewrite (Rabs_pos_eq 2251799813685248) by lra. lra. }
  rewrite V. apply Rmult_le_pos; [|apply bpow_ge_0]. assert (Q : 0 <= t * bpow radix2 51) by (apply Rmult_le_pos; [exact T|apply bpow_ge_0]). rewrite Ztrunc_floor by exact Q. apply IZR_le, Zfloor_lub. exact Q.
Qed.

Definition near_cos (x : f64) : f64 := of_real (cos (B2R x)).
Lemma near_cos_ok : accurate_cos near_cos.
Proof.
  intros x _ _. unfold near_cos. set (s := cos (B2R x)). assert (B : Rabs s <= 1) by (apply Rabs_le, COS_bound). destruct (of_real_val s B) as [F V]. split; [exact F|]. rewrite V.
  destruct f1_val as [_ V1]. split.
  - apply Rabs_le_inv in B. apply Rabs_le. split; [|apply (rnd_upper f1); [exact V1|lra]].
    assert (E : B2R (fneg f1) = -1) by (destruct (fneg_val f1 eq_refl) as [_ E]; rewrite E, V1; lra). pose proof (rnd_fix (fneg f1)) as E'. rewrite E in E'. apply Rle_trans with (rnd (-1)); [lra|]. apply rnd_le. lra.
  - eapply Rle_trans; [apply ChordProofs.rnd_rel|]. pose proof (Rabs_pos s). apply Rplus_le_compat; [apply Rmult_le_compat_r; [lra|]|apply bpow_le; lia]. lra.
Qed.
Example C118_example : accurate_atan2 cut_atan2 /\ upper_atan2 cut_atan2 /\ is_unit (Vec f1 f0 f0) = true /\ is_unit (Vec f0 f1 f0) = true.
Proof. split; [exact cut_atan2_ok|]. split; [exact cut_atan2_upper|]. split; vm_compute; reflexivity. Qed.
Example C119_example : accurate_sin near_sin /\ accurate_cos near_cos /\ accurate_atan2 cut_atan2 /\ upper_atan2 cut_atan2 /\ ll_is_valid (LL f1 f2) = true /\ ll_is_valid (LL (fneg f1) f1) = true.
Proof. split; [exact near_sin_ok|]. split; [exact near_cos_ok|]. split; [exact cut_atan2_ok|]. split; [exact cut_atan2_upper|]. split; vm_compute; reflexivity. Qed.
