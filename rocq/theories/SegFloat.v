(** The computations of interior_dist against real vectors. *)
From Coq Require Import ZArith Reals Lra Lia Psatz Bool.
From Flocq Require Import Core.
From Verif Require Import Base Spec F64 F64Facts IntervalSpec F64Arith F64Error F64Neg R1Proofs S1Proofs VectorModel PredicatesFloat PredicatesError PredicatesStable PredicatesSound PredicatesProofs NormProofs PropsNorm CapSpec CapModel CapError CapEdgeFloat CapEdgeMain
  AngleModel AngleProofs ExpandProofs CapProofs CircleProofs StuvError ChordProofs PropsCap TrigModel TrigSpec TrigProofs TrigWitness RegionModel RegionSpec PropsRegion PropsCap2 PropsDist CellLattice CrossProofs PointModel PointSpec PropsPoint Near PropsFrame2 SegModel SegProofs.
Open Scope R_scope.

Lemma rdot_len a b : Rabs (rdot a b) <= len a * len b.
Proof.
  apply sq_le_abs; [apply Rmult_le_pos; apply len_pos|]. replace (len a * len b * (len a * len b)) with ((len a * len a) * (len b * len b)) by ring. rewrite !len_sq. unfold rdot. apply cauchy.
Qed.
Lemma dot_near p q p' q' : Rabs (rdot p q - rdot p' q') <= len (psub p p') * len q + len p' * len (psub q q').
Proof.
  replace (rdot p q - rdot p' q') with (rdot (psub p p') q + rdot p' (psub q q')) by (unfold rdot, psub; cbn [px3 py3 pz3]; ring).
  eapply Rle_trans; [apply Rabs_triang|]. apply Rplus_le_compat; apply rdot_len.
Qed.
(* the computed scalar product *)
Lemma dot_rel p q : fvec p -> fvec q -> len (RV p) <= 3 -> len (RV q) <= 3 ->
  finite (dot p q) /\ Rabs (B2R (dot p q) - rdot (RV p) (RV q)) <= 4 * u * (len (RV p) * len (RV q)) + 8 * h.
Proof.
  intros (P1 & P2 & P3) (Q1 & Q2 & Q3) LP LQ. set (M := len (RV p) * len (RV q)). pose proof (len_pos (RV p)) as GP. pose proof (len_pos (RV q)) as GQ. assert (M0 : 0 <= M) by (apply Rmult_le_pos; assumption). assert (M9 : M <= 9) by (replace 9 with (3 * 3) by ring; apply Rmult_le_compat; assumption).
  assert (S : Rabs (X p * X q) + Rabs (Y p * Y q) + Rabs (Z p * Z q) <= M).
  { rewrite !Rabs_mult. pose proof (rdot_len (Pos (Rabs (X p)) (Rabs (Y p)) (Rabs (Z p))) (Pos (Rabs (X q)) (Rabs (Y q)) (Rabs (Z q)))) as C.
    assert (L : forall v, len (Pos (Rabs (X v)) (Rabs (Y v)) (Rabs (Z v))) = len (RV v)) by (intros v; unfold len; f_equal; unfold rdot, RV; cbn [px3 py3 pz3]; rewrite !sqr_abs; reflexivity).
    rewrite !L in C. fold M in C. apply Rabs_le_inv in C. destruct C as [_ C]. unfold rdot in C. cbn [px3 py3 pz3] in C. exact C. }
  pose proof (Rabs_pos (X p * X q)) as A1. pose proof (Rabs_pos (Y p * Y q)) as A2. pose proof (Rabs_pos (Z p * Z q)) as A3. pose proof h_tiny as HT. pose proof h_pos as HP. assert (PW : pow2 4 = 16) by reflexivity.
  destruct (result_val _ _ 4 ltac:(lia) (fmul_result _ _ P1 Q1) ltac:(lra)) as (F1 & V1 & _). destruct (result_val _ _ 4 ltac:(lia) (fmul_result _ _ P2 Q2) ltac:(lra)) as (F2 & V2 & _). destruct (result_val _ _ 4 ltac:(lia) (fmul_result _ _ P3 Q3) ltac:(lra)) as (F3 & V3 & _).
  pose proof (PredicatesError.rnd_rel (X p * X q)) as R1. pose proof (PredicatesError.rnd_rel (Y p * Y q)) as R2. pose proof (PredicatesError.rnd_rel (Z p * Z q)) as R3. rewrite <- V1 in R1. rewrite <- V2 in R2. rewrite <- V3 in R3.
  unfold dot. set (m1 := fmul (vx p) (vx q)) in *. set (m2 := fmul (vy p) (vy q)) in *. set (m3 := fmul (vz p) (vz q)) in *.
  assert (B12 : Rabs (B2R m1 + B2R m2) <= Rabs (X p * X q) + Rabs (Y p * Y q) + u * M + 2 * h).
  { replace (B2R m1 + B2R m2) with ((X p * X q) + (Y p * Y q) + ((B2R m1 - X p * X q) + (B2R m2 - Y p * Y q))) by ring. eapply Rle_trans; [apply Rabs_triang|]. pose proof (Rabs_triang (X p * X q) (Y p * Y q)). pose proof (Rabs_triang (B2R m1 - X p * X q) (B2R m2 - Y p * Y q)). lra. }
  destruct (result_val _ _ 4 ltac:(lia) (fadd_result _ _ F1 F2) ltac:(lra)) as (F4 & V4 & _). pose proof (PredicatesError.rnd_rel (B2R m1 + B2R m2)) as R4. rewrite <- V4 in R4. set (m4 := fadd m1 m2) in *.
  assert (B43 : Rabs (B2R m4 + B2R m3) <= M + 3 * u * M + 5 * h).
  { replace (B2R m4 + B2R m3) with ((B2R m4 - (B2R m1 + B2R m2)) + (B2R m1 + B2R m2) + (Z p * Z q) + (B2R m3 - Z p * Z q)) by ring. pose proof (Rabs_triang ((B2R m4 - (B2R m1 + B2R m2)) + (B2R m1 + B2R m2) + (Z p * Z q)) (B2R m3 - Z p * Z q)) as T1. pose proof (Rabs_triang ((B2R m4 - (B2R m1 + B2R m2)) + (B2R m1 + B2R m2)) (Z p * Z q)) as T2. pose proof (Rabs_triang (B2R m4 - (B2R m1 + B2R m2)) (B2R m1 + B2R m2)) as T3. lra. }
  destruct (result_val _ _ 4 ltac:(lia) (fadd_result _ _ F4 F3) ltac:(lra)) as (F5 & V5 & _). pose proof (PredicatesError.rnd_rel (B2R m4 + B2R m3)) as R5. rewrite <- V5 in R5. set (m5 := fadd m4 m3) in *.
  split; [exact F5|]. unfold rdot, RV. cbn [px3 py3 pz3].
  replace (B2R m5 - (X p * X q + Y p * Y q + Z p * Z q)) with ((B2R m5 - (B2R m4 + B2R m3)) + (B2R m4 - (B2R m1 + B2R m2)) + ((B2R m1 - X p * X q) + (B2R m2 - Y p * Y q)) + (B2R m3 - Z p * Z q)) by ring.
  pose proof (Rabs_triang ((B2R m5 - (B2R m4 + B2R m3)) + (B2R m4 - (B2R m1 + B2R m2)) + ((B2R m1 - X p * X q) + (B2R m2 - Y p * Y q))) (B2R m3 - Z p * Z q)) as T1.
  pose proof (Rabs_triang ((B2R m5 - (B2R m4 + B2R m3)) + (B2R m4 - (B2R m1 + B2R m2))) ((B2R m1 - X p * X q) + (B2R m2 - Y p * Y q))) as T2. pose proof (Rabs_triang (B2R m5 - (B2R m4 + B2R m3)) (B2R m4 - (B2R m1 + B2R m2))) as T3. pose proof (Rabs_triang (B2R m1 - X p * X q) (B2R m2 - Y p * Y q)) as T4.
  assert (u * Rabs (B2R m4 + B2R m3) <= u * (M + 3 * u * M + 5 * h)) by (apply Rmult_le_compat_l; lra). assert (u * Rabs (B2R m1 + B2R m2) <= u * (Rabs (X p * X q) + Rabs (Y p * Y q) + u * M + 2 * h)) by (apply Rmult_le_compat_l; lra).
  lra.
Qed.
(* a quotient of values relative to r *)
Lemma quot_near n d r q e f : 0 < r -> Rabs (n - r * q) <= e * r -> Rabs (d - r) <= f * r -> 0 <= e -> 0 <= f <= 1 / 1000 -> Rabs (n / d - q) <= (e + f * Rabs q) * (1 + 2 * f).
Proof.
  intros R N D E F. apply Rabs_le_inv in D. assert (FR : f * r <= 1 / 1000 * r) by (apply Rmult_le_compat_r; lra). assert (DP : 0 < d) by lra.
  replace (n / d - q) with ((n - r * q + q * (r - d)) * / d) by (field; lra). rewrite Rabs_mult, (Rabs_pos_eq (/ d)) by (apply Rlt_le, Rinv_0_lt_compat; exact DP).
  apply (Rmult_le_reg_r d); [exact DP|]. rewrite Rmult_assoc, Rinv_l, Rmult_1_r by lra.
  assert (A : Rabs (n - r * q + q * (r - d)) <= (e + f * Rabs q) * r). { eapply Rle_trans; [apply Rabs_triang|]. rewrite Rabs_mult. assert (Rabs (r - d) <= f * r) by (apply Rabs_le; lra). assert (Rabs q * Rabs (r - d) <= Rabs q * (f * r)) by (apply Rmult_le_compat_l; [apply Rabs_pos|assumption]). lra. }
  eapply Rle_trans; [exact A|]. rewrite Rmult_assoc. apply Rmult_le_compat_l. { pose proof (Rmult_le_pos f (Rabs q) ltac:(lra) (Rabs_pos q)). lra. }
  assert (r * (1 - f) * (1 + 2 * f) <= d * (1 + 2 * f)) by (apply Rmult_le_compat_r; lra). assert (0 <= r * (f * (1 - 2 * f))) by (apply Rmult_le_pos; [lra|apply Rmult_le_pos; lra]). lra.
Qed.
(* the square root of a value with a small relative error *)
Lemma root_near q p e k : 0 <= p -> 0 <= k -> 0 <= e <= 1 / 2 -> 0 <= q -> Rabs (q - p * p) <= e * (p * p) + k * k -> Rabs (sqrt q - p) <= e * p + k.
Proof.
  intros P K E Q H. apply Rabs_le_inv in H. pose proof (sqrt_sqrt q Q) as SS. pose proof (sqrt_pos q) as S0. set (s := sqrt q) in *. clearbody s.
  assert (EP : 0 <= e * p) by (apply Rmult_le_pos; lra). apply Rabs_le. split.
  - apply Rnot_lt_le. intros C. assert (Z : 0 <= p - (e * p + k)) by lra. assert (s * s < (p - (e * p + k)) * (p - (e * p + k))) by (apply Rmult_le_0_lt_compat; lra).
    assert (0 <= (p - (e * p + k)) * (e * p)) by (apply Rmult_le_pos; lra). assert (0 <= (p - (e * p + k)) * k) by (apply Rmult_le_pos; lra). assert (0 <= e * p * k) by (apply Rmult_le_pos; lra).
    assert (0 <= e * p * (e * p)) by (apply Rmult_le_pos; lra). assert (X : k * k <= (p - e * p) * k) by (apply Rmult_le_compat_r; lra). lra.
  - apply Rnot_lt_le. intros C. assert (B : (p + (e * p + k)) * (p + (e * p + k)) < s * s) by (apply Rmult_le_0_lt_compat; lra). assert (0 <= e * p * p) by (apply Rmult_le_pos; lra). assert (0 <= p * k) by (apply Rmult_le_pos; lra). assert (0 <= e * p * k) by (apply Rmult_le_pos; lra). assert (0 <= e * p * (e * p)) by (apply Rmult_le_pos; lra). lra.
Qed.
Lemma norm2_ge v : finite (norm2 v) -> 0 <= B2R (norm2 v).
Proof.
  intros F. destruct (clip_range _ (nn_norm2 v)) as [_ G]. destruct c4_val as [F4 V4]. destruct (fmin_R c4 (norm2 v) F4 F) as [_ E]. rewrite E in G. pose proof (Rmin_r (B2R c4) (B2R (norm2 v))). lra.
Qed.
Lemma len_RV_unit v : is_unit v = true -> fvec v /\ 0 < sqn v /\ Rabs (len (RV v) - 1) <= KR /\ len (psub (RV v) (direction v)) <= KR.
Proof.
  intros U. destruct (unit_norm v U) as (F & S & H). rewrite <- len_RV in *. pose proof (Rabs_le_inv _ _ H) as H'. unfold KR in H'. assert (P : 0 < sqn v) by (rewrite S; apply Rmult_lt_0_compat; lra).
  split; [exact F|]. split; [exact P|]. split; [exact H|]. rewrite dir_gap by exact P. exact H.
Qed.
(* the normal of the edge *)
Lemma seg_normal a b : is_unit a = true -> is_unit b = true -> let o := angle_between (direction a) (direction b) in 1 / 2 ^ 16 <= sin o ->
  let c := point_cross a b in let n := pmul (/ sin o) (rcross (direction a) (direction b)) in
  fvec c /\ 1 / 2 ^ 17 <= len (RV c) <= 5 / 2 /\ len n = 1 /\ len (psub (pmul (/ len (RV c)) (RV c)) n) <= 22 * u.
Proof.
  intros UA UB o SO c n. destruct (len_RV_unit a UA) as (FA & PA & HA & _). destruct (len_RV_unit b UB) as (FB & PB & HB & _). pose proof (unit_sphere a UA) as SA. pose proof (unit_sphere b UB) as SB. destruct (angle_trig _ _ SA SB) as (O & CO & SI). cbv zeta in O, CO, SI. fold o in O, CO, SI.
  pose proof (SIN_bound o) as SBD. assert (LC : len (rcross (direction a) (direction b)) = sin o). { rewrite SI. unfold len. rewrite cross_dot, (proj1 (sphere_len _) SA), (proj1 (sphere_len _) SB). f_equal. ring. }
  assert (LN : len n = 1). { unfold n. rewrite len_mul, LC, Rabs_pos_eq by (apply Rlt_le, Rinv_0_lt_compat; lra). field. lra. }
  destruct (stable_cross a b FA FB HA HB) as [FV EV]. cbv zeta in *. set (v := cross (vadd a b) (vsub b a)) in *. set (N := pmul 2 (rcross (RV a) (RV b))) in *. unfold KR in HA, HB. apply Rabs_le_inv in HA, HB.
  set (k := 2 * (len (RV a) * len (RV b)) * sin o). assert (LL : 999 / 1000 <= len (RV a) * len (RV b) <= 1001 / 1000). { split; [apply Rle_trans with (9999 / 10000 * (9999 / 10000)); [lra|apply Rmult_le_compat; lra]|apply Rle_trans with (10001 / 10000 * (10001 / 10000)); [apply Rmult_le_compat; lra|lra]]. }
  assert (KB : 1998 / 1000 * sin o <= k <= 2002 / 1000 * sin o). { unfold k. split; apply Rmult_le_compat_r; lra. }
  assert (NE : N = pmul k n). { unfold N, k, n. rewrite !dir_scaled by assumption. assert (0 < len (RV a)) by lra. assert (0 < len (RV b)) by lra. apply pos_eq; unfold pmul, rcross; cbn [px3 py3 pz3]; field; lra. }
  assert (LNk : len N = k). { rewrite NE, len_mul, LN, Rabs_pos_eq by lra. ring. } rewrite LNk in EV. pose proof h_tiny as HT. pose proof h_pos as HP.
  assert (EV' : len (psub (RV v) N) <= 11 * u * k) by lra. pose proof (len_sub (RV v) N) as LS. rewrite LNk in LS. apply Rabs_le_inv in LS. assert (LV : 1 / 2 ^ 17 <= len (RV v) <= 5 / 2) by lra.
  assert (CV : c = v). { unfold c, point_cross. fold v. destruct (PointModel.is_zero v) eqn:ZZ; [|reflexivity]. exfalso. apply (is_zero_RV v FV) in ZZ. rewrite ZZ in LV. replace (len org) with 0 in LV; [lra|]. symmetry. unfold len. replace (rdot org org) with 0 by (unfold rdot, org; cbn [px3 py3 pz3]; ring). apply sqrt_0. }
  rewrite CV. split; [exact FV|]. split; [exact LV|]. split; [exact LN|]. pose proof (unit_close (RV v) N ltac:(lra) ltac:(lra)) as UC. rewrite LNk in UC.
  replace (pmul (/ k) N) with n in UC by (rewrite NE; apply pos_eq; unfold pmul; cbn [px3 py3 pz3]; field; lra). eapply Rle_trans; [exact UC|]. apply (Rmult_le_reg_r k); [lra|]. unfold Rdiv. rewrite Rmult_assoc, Rinv_l, Rmult_1_r by lra. lra.
Qed.
(* the distance to the great circle *)
Lemma seg_circle x c n : is_unit x = true -> fvec c -> 1 / 2 ^ 17 <= len (RV c) <= 5 / 2 -> len n = 1 -> len (psub (pmul (/ len (RV c)) (RV c)) n) <= 22 * u ->
  let cx := cross c x in let m := rcross n (direction x) in let c2 := norm2 c in let xc := dot x c in
  let qr := fsub f1 (fsqrt (fdiv (norm2 cx) c2)) in
  fvec cx /\ len (RV cx) <= 3 /\ len (psub (pmul (/ len (RV c)) (RV cx)) m) <= 31 / 1000000000000000 /\
  near (fadd (fdiv (fmul xc xc) c2) (fmul qr qr)) (2 - 2 * len m) (1 / 2 ^ 42) /\ 0 <= B2R (fadd (fdiv (fmul xc xc) c2) (fmul qr qr)).
Proof.
  intros UX FC LC LN EC. cbv zeta. destruct (len_RV_unit x UX) as (FX & PX & HX & GX). pose proof (unit_sphere x UX) as SX. pose proof (len1 _ SX) as LX. set (r := len (RV c)) in *. set (d := direction x) in *. unfold KR in *. apply Rabs_le_inv in HX. pose proof h_tiny as HT. pose proof h_pos as HP. assert (RP : 0 < r) by lra.
  set (C := pmul (/ r) (RV c)) in *. assert (LC1 : len C = 1) by (apply len_scaled; fold r; lra). assert (CE : RV c = pmul r C) by (unfold C; apply pos_eq; unfold pmul; cbn [px3 py3 pz3]; field; lra).
  (* the product with the point *)
  destruct (cross_rel c x FC FX ltac:(fold r; lra) ltac:(lra)) as [FK EK]. fold r in EK. split; [exact FK|]. set (cx := cross c x) in *. set (m := rcross n d) in *.
  assert (HR : h <= u / 1000 * r). { apply Rle_trans with (u * u); [exact HT|]. assert (u * u <= u / 1000 * (1 / 2 ^ 17)) by lra. assert (u / 1000 * (1 / 2 ^ 17) <= u / 1000 * r) by (apply Rmult_le_compat_l; lra). lra. }
  assert (RX : r * len (RV x) <= 1001 / 1000 * r) by (rewrite (Rmult_comm r); apply Rmult_le_compat_r; lra).
  assert (EK' : len (psub (RV cx) (rcross (RV c) (RV x))) <= 6 * u * r) by lra.
  assert (K1 : len (psub (pmul (/ r) (RV cx)) m) <= 31 / 1000000000000000).
  { replace (psub (pmul (/ r) (RV cx)) m) with (padd (pmul (/ r) (psub (RV cx) (rcross (RV c) (RV x)))) (psub (rcross C (RV x)) m)) by (rewrite CE; apply pos_eq; unfold psub, padd, pmul, rcross; cbn [px3 py3 pz3]; field; lra).
    eapply Rle_trans; [apply len_tri|]. rewrite len_mul, Rabs_pos_eq by (apply Rlt_le, Rinv_0_lt_compat; exact RP). assert (/ r * len (psub (RV cx) (rcross (RV c) (RV x))) <= 6 * u). { apply (Rmult_le_reg_l r); [exact RP|]. rewrite <- Rmult_assoc, Rinv_r, Rmult_1_l by lra. lra. }
    pose proof (cross_near C (RV x) n d) as CN. rewrite LN in CN. assert (len (psub C n) * len (RV x) <= 22 * u * (1001 / 1000)) by (apply Rmult_le_compat; try apply len_pos; lra). fold m in CN. lra. }
  assert (MB : 0 <= len m <= 1). { split; [apply len_pos|]. unfold m. pose proof (len_cross n d) as Q. rewrite LN, LX in Q. lra. }
  set (p := / r * len (RV cx)). assert (PE : len (RV cx) = r * p) by (unfold p; field; lra). assert (P0 : 0 <= p) by (apply Rmult_le_pos; [apply Rlt_le, Rinv_0_lt_compat; exact RP|apply len_pos]).
  assert (PM : Rabs (p - len m) <= 31 / 1000000000000000). { pose proof (len_sub (pmul (/ r) (RV cx)) m) as Q. rewrite len_mul, (Rabs_pos_eq (/ r)) in Q by (apply Rlt_le, Rinv_0_lt_compat; exact RP). fold p in Q. lra. }
  pose proof (Rabs_le_inv _ _ PM) as PM'. assert (LX3 : len (RV cx) <= 3). { rewrite PE. apply Rle_trans with (5 / 2 * (11 / 10)); [apply Rmult_le_compat; lra|lra]. }
  split; [exact LX3|]. split; [exact K1|].
  (* the squared length of the normal *)
  assert (SMALL : forall v, fvec v -> len (RV v) <= 3 -> finite (norm2 v)). { intros v Fv Lv. destruct (norm2_small v) as [F _]; [|exact F]. split; [exact Fv|]. change (pow2 2) with 4. destruct (len_comp (RV v)) as (A1 & A2 & A3). unfold RV in A1, A2, A3. cbn [px3 py3 pz3] in A1, A2, A3. fold (RV v) in *. repeat split; lra. }
  pose proof (SMALL c FC ltac:(fold r; lra)) as F2. pose proof (norm2_near c F2) as E2. assert (R2 : sqn c = r * r) by (unfold r; rewrite len_sq; reflexivity). rewrite R2 in E2. set (c2 := norm2 c) in *. set (r2 := r * r) in *.
  assert (HR2 : h <= u / 1000 * r2). { apply Rle_trans with (u * u); [exact HT|]. assert (B : 1 / 2 ^ 17 * (1 / 2 ^ 17) <= r2) by (apply Rmult_le_compat; lra). assert (u * u <= u / 1000 * (1 / 2 ^ 17 * (1 / 2 ^ 17))) by lra. assert (u / 1000 * (1 / 2 ^ 17 * (1 / 2 ^ 17)) <= u / 1000 * r2) by (apply Rmult_le_compat_l; lra). lra. }
  assert (R2P : 0 < r2) by (apply Rmult_lt_0_compat; exact RP). assert (E2' : Rabs (B2R c2 - r2) <= 5 * u * r2) by lra. pose proof (Rabs_le_inv _ _ E2') as E2''. assert (N2 : B2R c2 <> 0) by lra.
  (* the component along the normal *)
  destruct (dot_rel x c FX FC ltac:(lra) ltac:(fold r; lra)) as [FD ED]. fold r in ED. set (xc := dot x c) in *. set (z := rdot d n).
  assert (ZB : Rabs z <= 1). { pose proof (rdot_len d n) as Q. fold z in Q. rewrite LX, LN in Q. lra. }
  assert (ED' : Rabs (B2R xc - rdot (RV x) (RV c)) <= 5 * u * r) by lra.
  set (y := / r * B2R xc). assert (YE : B2R xc = r * y) by (unfold y; field; lra).
  assert (YZ : Rabs (y - z) <= 31 / 1000000000000000).
  { replace (y - z) with (/ r * (B2R xc - rdot (RV x) (RV c)) + (rdot (RV x) C - rdot d n)) by (rewrite CE; unfold y, z; unfold rdot, pmul; cbn [px3 py3 pz3]; field; lra).
    eapply Rle_trans; [apply Rabs_triang|]. rewrite Rabs_mult, (Rabs_pos_eq (/ r)) by (apply Rlt_le, Rinv_0_lt_compat; exact RP). assert (/ r * Rabs (B2R xc - rdot (RV x) (RV c)) <= 5 * u). { apply (Rmult_le_reg_l r); [exact RP|]. rewrite <- Rmult_assoc, Rinv_r, Rmult_1_l by lra. lra. }
    pose proof (dot_near (RV x) C d n) as Q. rewrite LC1, LX in Q. lra. }
  assert (XB : Rabs (B2R xc) <= 3). { rewrite YE, Rabs_mult, (Rabs_pos_eq r) by lra. apply Rle_trans with (5 / 2 * (11 / 10)); [|lra]. apply Rmult_le_compat; try lra; [apply Rabs_pos|]. replace y with (z + (y - z)) by ring. eapply Rle_trans; [apply Rabs_triang|lra]. }
  assert (PW : pow2 4 = 16) by reflexivity. pose proof (sq_abs_le (B2R xc) 3 ltac:(lra) XB) as XQ. pose proof (Rle_0_sqr (B2R xc)) as XQ0. unfold Rsqr in XQ0.
  destruct (result_val _ _ 4 ltac:(lia) (fmul_result _ _ FD FD) ltac:(rewrite Rabs_pos_eq by exact XQ0; lra)) as (FS & VS & _). pose proof (PredicatesError.rnd_rel (B2R xc * B2R xc)) as RS. rewrite <- VS in RS. rewrite (Rabs_pos_eq (B2R xc * B2R xc)) in RS by exact XQ0. set (xc2 := fmul xc xc) in *.
  pose proof (prod_near y y z z _ _ 1 1 YZ YZ ZB ZB) as YQ. assert (Y2 : y * y <= 11 / 10). { pose proof (sq_abs_le z 1 ltac:(lra) ZB). apply Rabs_le_inv in YQ. lra. } pose proof (Rle_0_sqr y) as Y20. unfold Rsqr in Y20.
  assert (ES : Rabs (B2R xc2 - r2 * (z * z)) <= 64 / 1000000000000000 * r2).
  { replace (B2R xc2 - r2 * (z * z)) with ((B2R xc2 - B2R xc * B2R xc) + r2 * (y * y - z * z)) by (rewrite YE; unfold r2; ring). eapply Rle_trans; [apply Rabs_triang|]. rewrite (Rabs_mult r2), (Rabs_pos_eq r2) by lra.
    assert (XY : B2R xc * B2R xc <= 11 / 10 * r2). { rewrite YE. replace (r * y * (r * y)) with (y * y * r2) by (unfold r2; ring). apply Rmult_le_compat_r; lra. }
    assert (r2 * Rabs (y * y - z * z) <= r2 * (625 / 10000000000000000)) by (apply Rmult_le_compat_l; lra). lra. }
  assert (Z2 : 0 <= z * z <= 1). { pose proof (sq_abs_le z 1 ltac:(lra) ZB). pose proof (Rle_0_sqr z) as Q. unfold Rsqr in Q. lra. }
  pose proof (quot_near _ _ _ _ _ (5 * u) R2P ES E2' ltac:(lra) ltac:(lra)) as Q1. rewrite (Rabs_pos_eq (z * z)) in Q1 by lra. assert (Q1' : Rabs (B2R xc2 / B2R c2 - z * z) <= 66 / 1000000000000000) by lra.
  destruct (half2 _ _ (fdiv_result _ _ FS F2 N2)) as (FQ1 & VQ1 & EQ1). { apply Rabs_le_inv in Q1'. apply Rabs_le. lra. }
  assert (NQ1 : near (fdiv xc2 c2) (z * z) (68 / 1000000000000000)). { split; [exact FQ1|]. apply Rabs_le_inv in Q1'. apply Rabs_le. lra. }
  (* the length of the projection *)
  pose proof (SMALL cx FK LX3) as FN. pose proof (norm2_near cx FN) as EN. assert (N2' : sqn cx = r2 * (p * p)). { replace (sqn cx) with (len (RV cx) * len (RV cx)) by (rewrite len_sq; reflexivity). rewrite PE. unfold r2. ring. } rewrite N2' in EN. set (nx := norm2 cx) in *.
  assert (PP : 0 <= p * p <= 11 / 10). { split; [apply Rmult_le_pos; exact P0|]. apply Rle_trans with (1001 / 1000 * (1001 / 1000)); [apply Rmult_le_compat; lra|lra]. }
  set (k := pow2 (-500)). assert (K0 : 0 < k) by apply bpow_gt_0. assert (KS : k <= u). { unfold k. change (/ 9007199254740992) with (pow2 (-53)). apply bpow_le. lia. } assert (KH : 16 * h <= k * k / 4 * r2 /\ 4 * h <= k * k).
  { unfold k, h. rewrite <- bpow_plus. assert (B : pow2 (-34) <= r2). { replace (pow2 (-34)) with (1 / 2 ^ 17 * (1 / 2 ^ 17)) by (change (pow2 (-34)) with (/ 17179869184); lra). apply Rmult_le_compat; lra. }
    assert (B2 : 64 * pow2 (-1074) <= pow2 (-500 + -500) * pow2 (-34)). { change 64 with (pow2 6). rewrite <- !bpow_plus. apply bpow_le. lia. } pose proof (bpow_gt_0 radix2 (-500 + -500)) as B3.
    assert (pow2 (-500 + -500) * pow2 (-34) <= pow2 (-500 + -500) * r2) by (apply Rmult_le_compat_l; lra). split; [lra|]. change 4 with (pow2 2). rewrite <- bpow_plus. apply bpow_le. lia. }
  assert (EN' : Rabs (B2R nx - r2 * (p * p)) <= (4 * u * (p * p) + k * k / 8) * r2) by lra.
  assert (KK : 0 <= k * k <= u * u). { split; [apply Rmult_le_pos; lra|apply Rmult_le_compat; lra]. }
  pose proof (quot_near _ _ _ _ _ (5 * u) R2P EN' E2' ltac:(lra) ltac:(lra)) as Q2. rewrite (Rabs_pos_eq (p * p)) in Q2 by lra. set (q := B2R nx / B2R c2) in *.
  assert (Q2' : Rabs (q - p * p) <= 10 * u * (p * p) + k * k / 4) by lra. pose proof (Rabs_le_inv _ _ Q2') as Q2''.
  assert (QA : Rabs q <= 12 / 10) by (apply Rabs_le; lra). destruct (result_val _ _ 4 ltac:(lia) (fdiv_result _ _ FN F2 N2) ltac:(fold q; lra)) as (FQ & VQ & _). fold q in VQ. pose proof (PredicatesError.rnd_rel q) as RQ. rewrite <- VQ in RQ. set (fq := fdiv nx c2) in *.
  assert (QB : Rabs (B2R fq - p * p) <= 12 * u * (p * p) + k * k).
  { replace (B2R fq - p * p) with ((B2R fq - q) + (q - p * p)) by ring. eapply Rle_trans; [apply Rabs_triang|]. assert (Rabs q <= p * p + (10 * u * (p * p) + k * k / 4)) by (apply Rabs_le; lra). assert (u * Rabs q <= u * (p * p + (10 * u * (p * p) + k * k / 4))) by (apply Rmult_le_compat_l; lra). lra. }
  assert (QN : 0 <= B2R fq).
  { rewrite VQ. assert (0 <= q). { unfold q. pose proof (norm2_ge cx FN) as G. fold nx in G. apply Rmult_le_pos; [assumption|]. apply Rlt_le, Rinv_0_lt_compat. lra. }
    pose proof (rnd_le 0 q ltac:(assumption)) as L0. pose proof (rnd_fix f0) as L1. change (B2R f0) with 0 in L1. rewrite L1 in L0. exact L0. }
  pose proof (root_near _ p (12 * u) k P0 ltac:(lra) ltac:(lra) QN QB) as RN. destruct (fsqrt_val fq FQ QN) as [FR VR]. pose proof (PredicatesError.rnd_rel (sqrt (B2R fq))) as RR. rewrite <- VR in RR. apply Rabs_le_inv in RN. rewrite (Rabs_pos_eq (sqrt (B2R fq))) in RR by apply sqrt_pos. apply Rabs_le_inv in RR.
  assert (NR : near (fsqrt fq) (len m) (34 / 1000000000000000)). { split; [exact FR|]. apply Rabs_le. lra. }
  (* the sum *)
  destruct StuvError.f1_val as [F1 V1]. assert (N1 : near f1 1 0) by (split; [exact F1|rewrite V1, Rminus_diag_eq, Rabs_R0 by reflexivity; lra]).
  pose proof (near_sub _ _ _ _ _ _ N1 NR ltac:(rewrite Rabs_pos_eq by lra; lra)) as NT. apply (near_weak _ _ _ (36 / 1000000000000000)) in NT; [|lra]. set (qr := fsub f1 (fsqrt fq)) in *.
  pose proof (near_mul _ _ _ _ _ _ 1 1 NT NT ltac:(rewrite Rabs_pos_eq; lra) ltac:(rewrite Rabs_pos_eq; lra) ltac:(lra)) as NM. apply (near_weak _ _ _ (75 / 1000000000000000)) in NM; [|lra].
  assert (PY : z * z + len m * len m = 1). { rewrite len_sq. unfold m. rewrite cross_dot. assert (A : rdot n n = 1) by (rewrite <- len_sq, LN; ring). assert (B : rdot d d = 1) by exact SX. rewrite A, B. unfold z. replace (rdot n d) with (rdot d n) by (unfold rdot; ring). ring. }
  assert (M2 : 0 <= (1 - len m) * (1 - len m) <= 1). { split; [apply Rmult_le_pos; lra|]. apply Rle_trans with (1 * 1); [apply Rmult_le_compat; lra|lra]. }
  pose proof (near_add _ _ _ _ _ _ NQ1 NM ltac:(rewrite Rabs_pos_eq; lra)) as NS. replace (z * z + (1 - len m) * (1 - len m)) with (2 - 2 * len m) in NS by lra. split; [apply (near_weak _ _ _ _ NS); lra|].
  assert (RZ : forall t, 0 <= t -> 0 <= rnd t). { intros t T. pose proof (rnd_le 0 t T) as L0. pose proof (rnd_fix f0) as L1. change (B2R f0) with 0 in L1. rewrite L1 in L0. exact L0. }
  assert (G1 : 0 <= B2R (fdiv xc2 c2)). { rewrite VQ1. apply RZ. apply Rmult_le_pos; [rewrite VS; apply RZ; exact XQ0|]. apply Rlt_le, Rinv_0_lt_compat. lra. }
  assert (G2 : 0 <= B2R (fmul qr qr)). { destruct NT as [FT ET]. destruct (half2 _ _ (fmul_result _ _ FT FT)) as (_ & V & _). { rewrite Rabs_pos_eq by apply Rle_0_sqr. apply Rle_trans with (1001 / 1000 * (1001 / 1000)); [|lra]. apply sq_abs_le; [lra|]. apply Rabs_le_inv in ET. apply Rabs_le. lra. } rewrite V. apply RZ, Rle_0_sqr. }
  pose proof NQ1 as [FA EA]. pose proof NM as [FB EB]. apply Rabs_le_inv in EA, EB. destruct (half4 _ _ (fadd_result _ _ FA FB)) as (_ & V & _). { apply Rabs_le. lra. } rewrite V. apply RZ. lra.
Qed.
(* the side of the plane through the point and the normal an end of the edge is on *)
Lemma seg_wedge a x cx r m : is_unit a = true -> is_unit x = true -> fvec cx -> len (RV cx) <= 3 -> 1 / 2 ^ 17 <= r -> len (psub (pmul (/ r) (RV cx)) m) <= 31 / 1000000000000000 -> len m <= 1 -> rdot (direction x) m = 0 ->
  finite (dot (vsub a x) cx) /\ Rabs (/ r * B2R (dot (vsub a x) cx) - rdot (direction a) m) <= 1 / 2 ^ 42.
Proof.
  intros UA UX FK LK R EK LM OM. destruct (len_RV_unit a UA) as (FA & PA & HA & GA). destruct (len_RV_unit x UX) as (FX & PX & HX & GX). unfold KR in *. apply Rabs_le_inv in HA, HX. pose proof h_tiny as HT. pose proof h_pos as HP. assert (RP : 0 < r) by lra.
  destruct (sub_rel a x FA FX ltac:(lra) ltac:(lra)) as [FS ES]. set (s := vsub a x) in *. pose proof (len_psub (RV a) (RV x)) as LP. pose proof (len_sub (RV s) (psub (RV a) (RV x))) as LS. apply Rabs_le_inv in LS.
  assert (LS3 : len (RV s) <= 201 / 100) by lra. destruct (dot_rel s cx FS FK ltac:(lra) LK) as [FD ED]. split; [exact FD|].
  set (K := pmul (/ r) (RV cx)) in *. assert (KE : RV cx = pmul r K) by (unfold K; apply pos_eq; unfold pmul; cbn [px3 py3 pz3]; field; lra). pose proof (len_sub K m) as LKM. apply Rabs_le_inv in LKM. assert (LKB : len K <= 1001 / 1000) by lra. pose proof (len_pos K) as K0.
  assert (LCX : len (RV cx) = r * len K) by (rewrite KE, len_mul, Rabs_pos_eq by lra; reflexivity). rewrite LCX in ED.
  assert (HR : h <= u / 1000 * r). { apply Rle_trans with (u * u); [exact HT|]. assert (u * u <= u / 1000 * (1 / 2 ^ 17)) by lra. assert (u / 1000 * (1 / 2 ^ 17) <= u / 1000 * r) by (apply Rmult_le_compat_l; lra). lra. }
  assert (ED' : Rabs (B2R (dot s cx) - rdot (RV s) (RV cx)) <= 9 * u * r).
  { assert (len (RV s) * (r * len K) <= 201 / 100 * (r * (1001 / 1000))). { apply Rmult_le_compat; try apply len_pos; try lra; [apply Rmult_le_pos; lra|apply Rmult_le_compat_l; lra]. } lra. }
  set (D := psub (direction a) (direction x)). assert (DM : rdot D m = rdot (direction a) m). { transitivity (rdot (direction a) m - rdot (direction x) m); [unfold D, rdot, psub; cbn [px3 py3 pz3]; ring|rewrite OM; ring]. } rewrite <- DM.
  assert (SD : len (psub (RV s) D) <= 55 / 1000000000000000).
  { replace (psub (RV s) D) with (padd (psub (RV s) (psub (RV a) (RV x))) (psub (psub (RV a) (direction a)) (psub (RV x) (direction x)))) by (unfold D; apply pos_eq; unfold psub, padd; cbn [px3 py3 pz3]; ring). eapply Rle_trans; [apply len_tri|]. pose proof (len_psub (psub (RV a) (direction a)) (psub (RV x) (direction x))). lra. }
  assert (LD : len D <= 2). { unfold D. pose proof (len_psub (direction a) (direction x)) as Q. rewrite (len1 _ (unit_sphere a UA)), (len1 _ (unit_sphere x UX)) in Q. lra. }
  replace (/ r * B2R (dot s cx) - rdot D m) with (/ r * (B2R (dot s cx) - rdot (RV s) (RV cx)) + (rdot (RV s) K - rdot D m)) by (rewrite KE; unfold rdot, pmul; cbn [px3 py3 pz3]; field; lra).
  eapply Rle_trans; [apply Rabs_triang|]. rewrite Rabs_mult, (Rabs_pos_eq (/ r)) by (apply Rlt_le, Rinv_0_lt_compat; exact RP). assert (/ r * Rabs (B2R (dot s cx) - rdot (RV s) (RV cx)) <= 9 * u). { apply (Rmult_le_reg_l r); [exact RP|]. rewrite <- Rmult_assoc, Rinv_r, Rmult_1_l by lra. lra. }
  pose proof (dot_near (RV s) K D m) as Q. assert (len (psub (RV s) D) * len K <= 55 / 1000000000000000 * (1001 / 1000)) by (apply Rmult_le_compat; try apply len_pos; lra). assert (len D * len (psub K m) <= 2 * (31 / 1000000000000000)) by (apply Rmult_le_compat; try apply len_pos; lra). lra.
Qed.
(* the computed squared distances *)
Lemma norm2_dist x a : is_unit x = true -> is_unit a = true -> near (norm2 (vsub x a)) (2 - 2 * rdot (direction x) (direction a)) (1 / 2 ^ 42).
Proof.
  intros UX UA. destruct (unit_norm x UX) as (_ & Sp & Np). destruct (unit_norm a UA) as (_ & Sq & Nq). pose proof (dist2_range _ _ (unit_sphere x UX) (unit_sphere a UA)) as D.
  destruct (norm2_sub x a (unit_vbound x UX) (unit_vbound a UA)) as [F N]. apply Rabs_le_inv in Np, Nq. unfold KR in *. rewrite <- dist2_dot by (apply unit_sphere; assumption).
  assert (Pp : 0 < sqn x) by (rewrite Sp; apply Rmult_lt_0_compat; lra). assert (Pq : 0 < sqn a) by (rewrite Sq; apply Rmult_lt_0_compat; lra).
  rewrite d2_dist in N by auto. pose proof h_tiny as HT. pose proof h_pos as HP. clear Sp Sq. split; [exact F|].
  set (r := sqrt (sqn x)) in *. set (s := sqrt (sqn a)) in *. set (d := dist2 (direction x) (direction a)) in *.
  assert (DD : 0 <= (r - s) * (r - s) <= 54 / 1000000000000000 * (54 / 1000000000000000)).
  { rewrite <- (sqr_abs (r - s)). pose proof (Rabs_pos (r - s)). assert (Rabs (r - s) <= 54 / 1000000000000000) by (apply Rabs_le; lra). split; [apply Rmult_le_pos; auto|apply Rmult_le_compat; auto]. }
  assert (RS : 1 - 541 / 10000000000000000 <= r * s <= 1 + 541 / 10000000000000000).
  { split; [apply Rle_trans with ((1 - 27 / 1000000000000000) * (1 - 27 / 1000000000000000)); [lra|apply Rmult_le_compat; lra]|apply Rle_trans with ((1 + 27 / 1000000000000000) * (1 + 27 / 1000000000000000)); [apply Rmult_le_compat; lra|lra]]. }
  assert (RSD : (1 - 541 / 10000000000000000) * d <= r * s * d <= (1 + 541 / 10000000000000000) * d) by (split; apply Rmult_le_compat_r; lra).
  set (n := B2R (norm2 (vsub x a))) in *. set (e := (r - s) * (r - s)) in *. set (t := r * s * d) in *. apply Rabs_le. lra.
Qed.
(* the allowance of the planar test *)
Lemma planar_error_near (p q r : f64) a b c : near p a (1 / 2 ^ 42) -> near q b (1 / 2 ^ 42) -> near r c (1 / 2 ^ 42) -> 0 <= a <= 4 -> 0 <= b <= 4 -> 0 <= c <= 4 -> near (planar_error p q r) 0 (1 / 2 ^ 45).
Proof.
  intros P Q R A B C. unfold planar_error. pose proof (near_add _ _ _ _ _ _ P Q ltac:(rewrite Rabs_pos_eq; lra)) as S1. pose proof (near_add _ _ _ _ _ _ S1 R ltac:(rewrite Rabs_pos_eq; lra)) as S2.
  set (k := fmul (lit 19 (-2)) DBL_EPSILON). assert (NK : near k (19 / 4 / 2 ^ 52) 0).
  { assert (FK : finite k) by (vm_compute; reflexivity). split; [exact FK|]. destruct (lit_val 19 (-54) ltac:(lia) ltac:(lia)) as [FL VL]. rewrite (feq_B2R k (lit 19 (-54)) FK FL ltac:(vm_compute; reflexivity)), VL. change (bpow radix2 (-54)) with (/ 18014398509481984). rewrite Rabs_pos_eq; lra. }
  set (l := fmul (fmul (lit 8 0) DBL_EPSILON) DBL_EPSILON). assert (NL : near l 0 (1 / 2 ^ 100)).
  { assert (FK : finite l) by (vm_compute; reflexivity). split; [exact FK|]. destruct (lit_val 1 (-101) ltac:(lia) ltac:(lia)) as [FL VL]. rewrite (feq_B2R l (lit 1 (-101)) FK FL ltac:(vm_compute; reflexivity)), VL. change (bpow radix2 (-101)) with (/ 2535301200456458802993406410752). rewrite Rabs_pos_eq; lra. }
  clearbody k l. pose proof (near_mul _ _ _ _ _ _ (19 / 4 / 2 ^ 52) 12 NK S2 ltac:(rewrite Rabs_pos_eq; lra) ltac:(rewrite Rabs_pos_eq; lra) ltac:(lra)) as M.
  assert (SM : 0 <= a + b + c <= 12) by lra. set (t := a + b + c) in *. clearbody t. pose proof (near_move _ _ 0 _ (12 * (19 / 4 / 2 ^ 52)) M ltac:(rewrite Rminus_0_r, Rabs_pos_eq by (apply Rmult_le_pos; lra); rewrite Rmult_comm; apply Rmult_le_compat; lra)) as M'.
  pose proof (near_add _ _ _ _ _ _ M' NL ltac:(rewrite Rplus_0_r, Rabs_R0; lra)) as W. rewrite Rplus_0_r in W. apply (near_weak _ _ _ _ W). lra.
Qed.
