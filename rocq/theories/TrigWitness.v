(** Functions on doubles that meet the accuracy assumed of sin, cos and atan2. *)
From Coq Require Import ZArith Reals Lra Lia Psatz Machin.
From Flocq Require Import Core.
From Verif Require Import F64 F64Facts IntervalSpec F64Arith F64Error S1Proofs AngleProofs TrigSpec.
Open Scope R_scope.

Lemma PI_tight : 3141592653589793238 / 1000000000000000000 < PI < 3141592653589793239 / 1000000000000000000.
Proof.
  destruct (PI_2_3_7_ineq 10) as [L U]. change (2 * 10)%nat with 20%nat in *.
  cbn [sum_f_R0] in *. unfold tg_alt, PI_2_3_7_tg, Ratan_seq in *. rewrite !INR_IZR_INZ in *.
  cbn [Nat.mul Nat.add pow Z.of_nat Pos.of_succ_nat Pos.succ] in *. split; lra.
Qed.
(* the double PI *)
Lemma pi_PI : pi < PI < pi + 1 / 2 ^ 52.
Proof. pose proof PI_tight. rewrite pi_num. lra. Qed.

Lemma Ztrunc_near x : Rabs (IZR (Ztrunc x) - x) <= 1 /\ Rabs (IZR (Ztrunc x)) <= Rabs x.
Proof.
  destruct (Rle_dec 0 x) as [P|P].
  - rewrite Ztrunc_floor by exact P. pose proof (Zfloor_lb x). pose proof (Zfloor_ub x). assert (0 <= IZR (Zfloor x)) by (apply IZR_le; apply Zfloor_lub; exact P).
    rewrite (Rabs_pos_eq (IZR (Zfloor x))), (Rabs_pos_eq x) by lra. split; [apply Rabs_le|]; lra.
  - rewrite Ztrunc_ceil by lra. pose proof (Zceil_ub x) as U. pose proof (Zceil_lb x) as L. assert (IZR (Zceil x) <= 0) by (apply IZR_le; apply Zceil_glb; lra).
    rewrite (Rabs_left1 (IZR (Zceil x))), (Rabs_left1 x) by lra. split; [apply Rabs_le|]; lra.
Qed.

(* cut off after k binary digits *)
Definition cut (k : Z) (x : R) : f64 := lit (Ztrunc (x * bpow radix2 k)) (- k).
Lemma cut_val k x : (0 <= k <= 100)%Z -> Rabs (x * bpow radix2 k) <= 9007199254740992 ->
  finite (cut k x) /\ B2R (cut k x) = IZR (Ztrunc (x * bpow radix2 k)) * bpow radix2 (- k) /\ Rabs (B2R (cut k x) - x) <= bpow radix2 (- k) /\ Rabs (B2R (cut k x)) <= Rabs x.
Proof.
  intros K B. destruct (Ztrunc_near (x * bpow radix2 k)) as [T1 T2].
  destruct (lit_val (Ztrunc (x * bpow radix2 k)) (- k)) as [F V]; [|lia|].
  { apply le_IZR. rewrite abs_IZR. change (IZR (2 ^ 53)) with 9007199254740992. lra. }
  split; [exact F|]. unfold cut. rewrite V. split; [reflexivity|]. pose proof (bpow_gt_0 radix2 (- k)) as P. pose proof (bpow_gt_0 radix2 k) as P'.
  assert (E : bpow radix2 k * bpow radix2 (- k) = 1) by (rewrite <- bpow_plus, Z.add_opp_diag_r; reflexivity).
  assert (EX : x = x * bpow radix2 k * bpow radix2 (- k)) by (rewrite Rmult_assoc, E; ring). split.
  - rewrite EX at 2. rewrite <- Rmult_minus_distr_r, Rabs_mult, (Rabs_pos_eq (bpow radix2 (- k))) by lra. rewrite <- (Rmult_1_l (bpow radix2 (- k))) at 2. apply Rmult_le_compat_r; lra.
  - rewrite EX at 2. rewrite !(Rabs_mult _ (bpow radix2 (- k))). apply Rmult_le_compat_r; [apply Rabs_pos|exact T2].
Qed.

Definition cut_sin (x : f64) : f64 := cut 52 (sin (B2R x)).
Definition cut_cos (x : f64) : f64 := cut 52 (cos (B2R x)).
Lemma cut_unit r : Rabs r <= 1 -> finite (cut 52 r) /\ Rabs (B2R (cut 52 r) - r) <= 1 / 2 ^ 50.
Proof.
  intros B. destruct (cut_val 52 r ltac:(lia)) as (F & _ & D & _).
  { rewrite Rabs_mult, (Rabs_pos_eq (bpow radix2 52)) by apply bpow_ge_0. change (bpow radix2 52) with 4503599627370496. lra. }
  split; [exact F|]. change (bpow radix2 (- (52))) with (/ 4503599627370496) in D. lra.
Qed.
Lemma cut_sin_ok : accurate cut_sin sin.
Proof. intros x _ _. apply cut_unit, Rabs_le, SIN_bound. Qed.
Lemma cut_cos_ok : accurate cut_cos cos.
Proof. intros x _ _. apply cut_unit, Rabs_le, COS_bound. Qed.

Definition atan2_real (y x : R) : R :=
  let t := acos (x / sqrt (x * x + y * y)) in
  if Req_EM_T (x * x + y * y) 0 then 0 else if Rle_dec 0 y then t else - t.
Definition cut_atan2 (y x : f64) : f64 := cut 51 (atan2_real (B2R y) (B2R x)).
Lemma atan2_real_ok y x : x * x + y * y <> 0 -> polar_angle y x (atan2_real y x).
Proof.
  intros N. assert (P : 0 < x * x + y * y) by (pose proof (Rle_0_sqr x); pose proof (Rle_0_sqr y); unfold Rsqr in *; lra).
  pose proof (sqrt_lt_R0 _ P) as R0. pose proof (sqrt_sqrt _ (Rlt_le _ _ P)) as RR. unfold atan2_real, polar_angle. set (r := sqrt (x * x + y * y)) in *.
  destruct (Req_EM_T _ _) as [C|_]; [contradiction|].
  assert (B : -1 <= x / r <= 1). { split; apply Rmult_le_reg_r with r; try lra; unfold Rdiv; rewrite Rmult_assoc, Rinv_l by lra; nra. }
  pose proof (acos_bound (x / r)) as AB. pose proof (cos_acos (x / r) B) as CA. pose proof (sin_acos (x / r) B) as SA.
  assert (SY : sqrt (1 - (x / r)²) = Rabs y / r).
  { replace (1 - (x / r)²) with ((Rabs y / r) * (Rabs y / r)); [apply sqrt_square; apply Rmult_le_pos; [apply Rabs_pos|apply Rlt_le, Rinv_0_lt_compat; lra]|].
    unfold Rsqr. replace (Rabs y / r * (Rabs y / r)) with (Rabs y * Rabs y / (r * r)) by (field; lra). replace (Rabs y * Rabs y) with (y * y) by (unfold Rabs; destruct (Rcase_abs y); ring).
    replace (x / r * (x / r)) with (x * x / (r * r)) by (field; lra). rewrite RR. field. lra. }
  rewrite SY in SA. destruct (Rle_dec 0 y) as [Y|Y].
  - split; [lra|]. rewrite CA, SA, (Rabs_pos_eq y) by lra. split; field; lra.
  - split; [lra|]. rewrite cos_neg, sin_neg, CA, SA, (Rabs_left y) by lra. split; field; lra.
Qed.
Lemma atan2_real_range y x : Rabs (atan2_real y x) <= PI /\ (0 <= x -> Rabs (atan2_real y x) <= PI / 2).
Proof.
  pose proof PI_RGT_0 as PP. destruct (Req_dec (x * x + y * y) 0) as [E|E].
  - unfold atan2_real. destruct (Req_EM_T _ _) as [_|C]; [|contradiction]. rewrite Rabs_R0. split; [lra|intros; lra].
  - destruct (atan2_real_ok y x E) as (B & C & _). split; [apply Rabs_le; lra|]. intros X. set (t := atan2_real y x) in *.
    assert (P : 0 < x * x + y * y) by (pose proof (Rle_0_sqr x); pose proof (Rle_0_sqr y); unfold Rsqr in *; lra).
    pose proof (sqrt_lt_R0 _ P) as R0. set (r := sqrt (x * x + y * y)) in *. assert (CT : 0 <= cos t) by (apply Rmult_le_reg_l with r; lra).
    apply Rabs_le. split; apply Rnot_lt_le; intros L.
    + pose proof (cos_lt_0 (- t) ltac:(lra) ltac:(lra)) as CL. rewrite cos_neg in CL. lra.
    + pose proof (cos_lt_0 t ltac:(lra) ltac:(lra)). lra.
Qed.
Lemma cut_atan2_ok : accurate_atan2 cut_atan2.
Proof.
  intros y x Fy Fx. destruct (atan2_real_range (B2R y) (B2R x)) as [R1 R2]. pose proof PI_tight as PT. unfold cut_atan2. set (t := atan2_real _ _) in *.
  assert (P51 : bpow radix2 51 = 2251799813685248) by reflexivity.
  destruct (cut_val 51 t ltac:(lia)) as (F & V & D & L). { rewrite Rabs_mult, P51, (Rabs_pos_eq 2251799813685248) by lra. lra. }
  change (bpow radix2 (- (51))) with (/ 2251799813685248) in *. destruct (Ztrunc_near (t * bpow radix2 51)) as [_ TN]. rewrite P51 in *.
  rewrite Rabs_mult, (Rabs_pos_eq 2251799813685248) in TN by lra. set (m := Ztrunc _) in *.
  assert (BD : forall n : BinInt.Z, Rabs t * 2251799813685248 < IZR n + 1 -> Rabs (B2R (cut 51 t)) <= IZR n * / 2251799813685248).
  { intros n Hn. rewrite V, Rabs_mult, (Rabs_pos_eq (/ 2251799813685248)) by lra. apply Rmult_le_compat_r; [lra|]. rewrite <- abs_IZR in *. apply IZR_le.
    apply Z.lt_succ_r. apply lt_IZR. rewrite succ_IZR. lra. }
  split; [exact F|]. split.
  - rewrite pi_num. eapply Rle_trans; [apply (BD 7074237752028440%Z); lra|lra].
  - intros NZ. split.
    + intros X. specialize (R2 X). rewrite pi_num. eapply Rle_trans; [apply (BD 3537118876014220%Z); lra|lra].
    + exists t. split; [apply atan2_real_ok|lra]. intros E. pose proof (Rle_0_sqr (B2R x)). pose proof (Rle_0_sqr (B2R y)). unfold Rsqr in *. destruct NZ as [K|K]; apply K; nra.
Qed.
