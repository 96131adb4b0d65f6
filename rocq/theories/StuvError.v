(** Rounding errors of the maps between (s,t) and (u,v). *)
From Coq Require Import Reals Lra Lia.
From Flocq Require Import Core Mult_error.
From Verif Require Import F64 F64Facts IntervalSpec F64Arith F64Error S1Proofs StuvModel.
Open Scope R_scope.

Notation eps := (/ 9007199254740992). (* 2^-53 *)
Notation pow2 := (bpow radix2).

(* the error is at most half of the spacing below 2^k *)
Lemma rnd_half z k : (-1000 <= k)%Z -> Rabs z <= pow2 k -> Rabs (rnd z - z) <= pow2 (k - 54).
Proof.
  intros Hk Hz. destruct (Rle_lt_or_eq_dec _ _ Hz) as [L|E].
  - eapply Rle_trans; [apply error_le_half_ulp; apply FLT_exp_valid; reflexivity|].
    assert (U : ulp radix2 (FLT_exp (-1074) 53) z <= pow2 (k - 53)).
    { destruct (Req_dec z 0) as [->|N].
      - unfold ulp. rewrite Req_bool_true by reflexivity.
        destruct (negligible_exp_FLT (-1074) 53) as (n & -> & Hn). apply bpow_le. unfold FLT_exp. lia.
      - rewrite ulp_neq_0 by auto. apply bpow_le. unfold cexp, FLT_exp. pose proof (mag_le_bpow radix2 z k N L). lia. }
    replace (k - 53)%Z with (1 + (k - 54))%Z in U by lia. rewrite bpow_plus in U. change (pow2 1) with 2 in U. lra.
  - assert (rnd z = z) as ->.
    { unfold Rabs in E. destruct (Rcase_abs z).
      - replace z with (- pow2 k) by lra. rewrite rnd_opp, rnd_bpow by lia. reflexivity.
      - rewrite E. apply rnd_bpow. lia. }
    rewrite Rminus_eq_0, Rabs_R0. apply bpow_ge_0.
Qed.

Lemma rnd_lower (c : f64) r v : B2R c = v -> v <= r -> v <= rnd r.
Proof. intros <- H. rewrite <- (rnd_fix c). apply rnd_le, H. Qed.
Lemma rnd_upper (c : f64) r v : B2R c = v -> r <= v -> rnd r <= v.
Proof. intros <- H. rewrite <- (rnd_fix c). apply rnd_le, H. Qed.

(* z is the rounding of r, which is at most 2^k *)
Lemma result_half z r k : (-1000 <= k <= 1000)%Z -> result z r -> Rabs r <= pow2 k ->
  finite z /\ B2R z = rnd r /\ Rabs (B2R z - r) <= pow2 (k - 54).
Proof.
  intros Hk Hr Hb. destruct (result_near z r k Hk Hr Hb) as (F & V & _). split; [exact F|]. split; [exact V|].
  rewrite V. apply rnd_half; [lia|exact Hb].
Qed.

Lemma rnd_scale (x : f64) k : (0 <= k)%Z -> rnd (B2R x * pow2 k) = B2R x * pow2 k.
Proof.
  intros H. apply round_generic; [apply valid_rnd_N|]. apply mult_bpow_pos_exact_FLT; auto.
  apply (generic_format_B2R 53 1024).
Qed.

Lemma f1_val : finite f1 /\ B2R f1 = 1. Proof. exact (of_int_val 1 ltac:(lia)). Qed.
Lemma f3_val : finite f3 /\ B2R f3 = 3. Proof. exact (of_int_val 3 ltac:(lia)). Qed.
Lemma f4_val : finite f4 /\ B2R f4 = 4. Proof. exact (of_int_val 4 ltac:(lia)). Qed.
Lemma f0_val : finite f0 /\ B2R f0 = 0. Proof. split; reflexivity. Qed.
Lemma fhalf_val : finite fhalf /\ B2R fhalf = / 2.
Proof. destruct (lit_val 1 (-1) ltac:(lia) ltac:(lia)) as [F V]. split; [exact F|]. unfold fhalf. rewrite V. change (bpow radix2 (-1)) with (/ 2). lra. Qed.
Lemma third_val : finite third /\ B2R third = 6004799503160661 / 18014398509481984.
Proof.
  assert (E : feq third (lit 6004799503160661 (-54)) = true) by (vm_compute; reflexivity).
  assert (F : finite third) by (vm_compute; reflexivity).
  destruct (lit_val 6004799503160661 (-54) ltac:(lia) ltac:(lia)) as [F' V]. split; [exact F|].
  assert (B2R third = B2R (lit 6004799503160661 (-54))) as ->.
  { revert E. clear V. destruct (feq_R _ _ F F'); [auto|discriminate]. }
  rewrite V. change (bpow radix2 (-54)) with (/ 18014398509481984). lra.
Qed.

(** ** The exact maps *)
Definition UU (s : R) : R := if Rle_dec (1 / 2) s then (4 * s * s - 1) / 3 else (1 - 4 * (1 - s) * (1 - s)) / 3.

Lemma UU_hi s : 1 / 2 <= s -> UU s = (4 * s * s - 1) / 3.
Proof. intros H. unfold UU. destruct (Rle_dec _ _); [reflexivity|lra]. Qed.
Lemma UU_lo s : s <= 1 / 2 -> UU s = (1 - 4 * (1 - s) * (1 - s)) / 3.
Proof.
  intros H. unfold UU. destruct (Rle_dec _ _); [|reflexivity]. replace s with (1 / 2) by lra. lra.
Qed.
(* slope at least 4/3 everywhere between 0 and 1, and at most 8/3 *)
Lemma UU_slope s t : 0 <= s -> t <= 1 -> s <= t -> 4 / 3 * (t - s) <= UU t - UU s <= 8 / 3 * (t - s).
Proof.
  intros Hs Ht L. destruct (Rle_dec (1 / 2) s).
  - rewrite !UU_hi by lra. nra.
  - destruct (Rle_dec (1 / 2) t).
    + rewrite (UU_hi t), (UU_lo s) by lra. nra.
    + rewrite !UU_lo by lra. nra.
Qed.

(** ** uv_to_st *)
Lemma sqrt_part (x : f64) : finite x -> 0 <= B2R x <= 1 ->
  let r := fsqrt (fadd f1 (fmul f3 x)) in
  finite r /\ 1 <= B2R r <= 2 /\ Rabs (B2R r * B2R r - (1 + 3 * B2R x)) <= 81 / 10 * eps.
Proof.
  intros F B r. destruct f1_val as [F1 V1]. destruct f3_val as [F3 V3].
  pose proof (fmul_result f3 x F3 F) as R1. rewrite V3 in R1.
  destruct (result_half _ _ 2 ltac:(lia) R1 ltac:(rewrite Rabs_pos_eq; [change (pow2 2) with 4; lra|lra])) as (Fm & Vm & Em).
  assert (Bm : 0 <= B2R (fmul f3 x) <= 3).
  { rewrite Vm. split; [rewrite <- rnd_0; apply rnd_le; lra|]. rewrite <- V3 at 2. rewrite <- (rnd_fix f3). apply rnd_le. rewrite V3. lra. }
  pose proof (fadd_result f1 _ F1 Fm) as R2. rewrite V1 in R2.
  destruct (result_half _ _ 2 ltac:(lia) R2 ltac:(rewrite Rabs_pos_eq; [change (pow2 2) with 4; lra|lra])) as (Fw & Vw & Ew).
  set (w := fadd f1 (fmul f3 x)) in *.
  assert (Bw : 1 <= B2R w <= 4).
  { rewrite Vw. split.
    - rewrite <- V1 at 1. rewrite <- (rnd_fix f1). apply rnd_le. rewrite V1. lra.
    - destruct f4_val as [_ V4]. rewrite <- V4. rewrite <- (rnd_fix f4). apply rnd_le. rewrite V4. lra. }
  destruct (fsqrt_val w Fw ltac:(lra)) as [Fr Vr]. fold r in Fr, Vr.
  assert (Bq : 1 <= sqrt (B2R w) <= 2).
  { split; [rewrite <- sqrt_1; apply sqrt_le_1; lra|]. rewrite <- (sqrt_square 2) by lra. apply sqrt_le_1; lra. }
  pose proof (rnd_half (sqrt (B2R w)) 1 ltac:(lia) ltac:(rewrite Rabs_pos_eq; [change (pow2 1) with 2; lra|lra])) as Er. rewrite <- Vr in Er.
  assert (Br : 1 <= B2R r <= 2).
  { rewrite Vr. split.
    - rewrite <- V1 at 1. rewrite <- (rnd_fix f1). apply rnd_le. rewrite V1. lra.
    - change 2 with (pow2 1). rewrite <- (rnd_bpow 1) by lia. apply rnd_le. change (pow2 1) with 2. lra. }
  split; [exact Fr|]. split; [exact Br|].
  assert (SQ : sqrt (B2R w) * sqrt (B2R w) = B2R w) by (apply sqrt_sqrt; lra).
  change (2 - 54)%Z with (-52)%Z in *. change (1 - 54)%Z with (-53)%Z in Er.
  change (pow2 (-52)) with (/ 4503599627370496) in *. change (pow2 (-53)) with eps in Er.
  apply Rabs_le_inv in Em, Ew, Er. revert SQ Em Ew Er Bq. generalize (sqrt (B2R w)). intros q SQ Em Ew Er Bq.
  assert (RQ : Rabs (B2R r * B2R r - q * q) <= 4 * eps).
  { replace (B2R r * B2R r - q * q) with ((B2R r - q) * (B2R r + q)) by ring. rewrite Rabs_mult.
    replace (4 * eps) with (eps * 4) by ring. apply Rmult_le_compat; try apply Rabs_pos; [apply Rabs_le; lra|]. rewrite Rabs_pos_eq; lra. }
  apply Rabs_le_inv in RQ. apply Rabs_le. lra.
Qed.

Lemma half_val x : finite x -> -2 <= B2R x <= 2 -> finite (fmul fhalf x) /\ Rabs (B2R (fmul fhalf x) - / 2 * B2R x) <= pow2 (0 - 54).
Proof.
  intros F B. destruct fhalf_val as [Fh Vh]. pose proof (fmul_result fhalf x Fh F) as R. rewrite Vh in R.
  destruct (result_half _ _ 0 ltac:(lia) R) as (Fz & _ & E); [|auto]. apply Rabs_le. change (pow2 0) with 1. lra.
Qed.
Lemma half_exact x : finite x -> 1 <= B2R x <= 2 -> finite (fmul fhalf x) /\ B2R (fmul fhalf x) = / 2 * B2R x.
Proof.
  intros F B. destruct (half_val x F ltac:(lra)) as [Fz _]. split; [exact Fz|].
  destruct fhalf_val as [Fh Vh]. pose proof (fmul_result fhalf x Fh F) as R. rewrite Vh in R. 
  destruct (result_half _ _ 0 ltac:(lia) R) as (_ & V & _); [apply Rabs_le; change (pow2 0) with 1; lra|]. rewrite V.
  apply round_generic; [apply valid_rnd_N|]. rewrite Rmult_comm. change (/ 2) with (pow2 (-1)). 
  apply mult_bpow_exact_FLT; [apply (generic_format_B2R 53 1024)|].
  assert (1 <= mag radix2 (B2R x))%Z by (apply mag_ge_bpow; change (pow2 (1 - 1)) with 1; rewrite Rabs_pos_eq; lra). lia.
Qed.

Lemma uv_to_st_err x : finite x -> -1 <= B2R x <= 1 ->
  finite (uv_to_st x) /\ 0 <= B2R (uv_to_st x) <= 1 /\ Rabs (UU (B2R (uv_to_st x)) - B2R x) <= 4 * eps.
Proof.
  intros F B. unfold uv_to_st, fge. destruct (fle_R f0 x eq_refl F) as [P|P]; change (B2R f0) with 0 in P.
  - destruct (sqrt_part x F ltac:(lra)) as (Fr & Br & E). destruct (half_exact _ Fr Br) as [Fh Vh]. split; [exact Fh|]. rewrite Vh.
    split; [lra|]. rewrite UU_hi by lra. apply Rabs_le_inv in E. apply Rabs_le. lra.
  - destruct f1_val as [F1 V1]. destruct f3_val as [F3 V3].
    destruct (fneg_val x F) as [Fn Vn]. destruct (sqrt_part (fneg x) Fn ltac:(lra)) as (Fr & Br & E).
    assert (Eq : B2R (fsub f1 (fmul f3 x)) = B2R (fadd f1 (fmul f3 (fneg x))) /\ finite (fsub f1 (fmul f3 x)) /\ 0 <= B2R (fadd f1 (fmul f3 (fneg x)))).
    { pose proof (fmul_result f3 x F3 F) as R1. rewrite V3 in R1. pose proof (fmul_result f3 _ F3 Fn) as R2. rewrite V3, Vn in R2.
      destruct (result_half _ _ 2 ltac:(lia) R1) as (Fm & Vm & Em); [apply Rabs_le; change (pow2 2) with 4; lra|].
      destruct (result_half _ _ 2 ltac:(lia) R2) as (Fm' & Vm' & Em'); [apply Rabs_le; change (pow2 2) with 4; lra|].
      assert (EE : B2R (fmul f3 (fneg x)) = - B2R (fmul f3 x)).
      { rewrite Vm, Vm', <- rnd_opp. f_equal. ring. }
      change (pow2 (2 - 54)) with (/ 4503599627370496) in *. apply Rabs_le_inv in Em, Em'.
      pose proof (fsub_result f1 _ F1 Fm) as R3. rewrite V1 in R3. pose proof (fadd_result f1 _ F1 Fm') as R4. rewrite V1, EE in R4.
      destruct (result_half _ _ 3 ltac:(lia) R3) as (Fs & Vs & _); [apply Rabs_le; change (pow2 3) with 8; lra|].
      destruct (result_half _ _ 3 ltac:(lia) R4) as (Fs' & Vs' & _); [apply Rabs_le; change (pow2 3) with 8; lra|].
      rewrite Vs, Vs'. split; [f_equal; ring|]. split; [exact Fs|]. rewrite <- rnd_0. apply rnd_le. lra. }
    destruct Eq as (Eq & Fw & Pw).
    destruct (fsqrt_val _ Fw ltac:(lra)) as [Fr' Vr'].
    assert (Vr : B2R (fsqrt (fsub f1 (fmul f3 x))) = B2R (fsqrt (fadd f1 (fmul f3 (fneg x))))).
    { rewrite Vr', Eq. destruct (fsqrt_val (fadd f1 (fmul f3 (fneg x)))) as [_ ->]; auto.
      destruct (fmul_result f3 (fneg x) F3 Fn) as [(Fm & _)|(s & _ & L & _)].
      - destruct (fadd_result f1 _ F1 Fm) as [(Fz & _)|(s & E' & _)]; [exact Fz|]. rewrite E' in Br. cbn [fsqrt B2R] in Br.
        destruct s; cbn in Br; lra.
      - exfalso. rewrite V3, Vn in L. pose proof (rnd_half (3 * - B2R x) 2 ltac:(lia) ltac:(apply Rabs_le; change (pow2 2) with 4; lra)) as H.
        change (pow2 (2 - 54)) with (/ 4503599627370496) in *. assert (pow2 3 < pow2 1024) by (apply bpow_lt; lia). change (pow2 3) with 8 in H0.
        apply Rabs_le_inv in H. revert L. unfold Rabs. destruct (Rcase_abs _); lra. }
    rewrite <- Vr in Br, E. destruct (half_exact _ Fr' Br) as [Fh Vh]. set (r := fsqrt (fsub f1 (fmul f3 x))) in *.
    pose proof (fsub_result f1 _ F1 Fh) as R5. rewrite V1 in R5.
    destruct (result_half _ _ (-1) ltac:(lia) R5) as (Fs & Vs & Es); [apply Rabs_le; change (pow2 (-1)) with (/ 2); lra|].
    split; [exact Fs|]. set (s := fsub f1 (fmul fhalf r)) in *.
    assert (Bs : 0 <= B2R s <= 1 / 2).
    { rewrite Vs. split; [rewrite <- rnd_0; apply rnd_le; lra|]. replace (1 / 2) with (pow2 (-1)) by (change (pow2 (-1)) with (/ 2); lra).
      rewrite <- (rnd_bpow (-1)) by lia. apply rnd_le. change (pow2 (-1)) with (/ 2). lra. }
    split; [lra|]. rewrite UU_lo by lra. change (pow2 (-1 - 54)) with (/ 36028797018963968) in Es. rewrite Vh in Es. rewrite Vn in E.
    apply Rabs_le_inv in E, Es. set (a := 1 - B2R s) in *. 
    assert (A : Rabs (4 * a * a - B2R r * B2R r) <= 21 / 10 * eps).
    { replace (4 * a * a - B2R r * B2R r) with ((2 * a - B2R r) * (2 * a + B2R r)) by ring. rewrite Rabs_mult.
      replace (21 / 10 * eps) with (eps / 2 * (42 / 10)) by lra. apply Rmult_le_compat; try apply Rabs_pos.
      - apply Rabs_le. unfold a. lra.
      - rewrite Rabs_pos_eq; unfold a; lra. }
    apply Rabs_le_inv in A. apply Rabs_le. lra.
Qed.

(** ** st_to_uv *)
Lemma four_mul (x : f64) : finite x -> -1 <= B2R x <= 1 -> finite (fmul f4 x) /\ B2R (fmul f4 x) = 4 * B2R x.
Proof.
  intros F B. destruct f4_val as [F4 V4]. pose proof (fmul_result f4 x F4 F) as R. rewrite V4 in R.
  destruct (result_half _ _ 2 ltac:(lia) R) as (Fz & V & _); [apply Rabs_le; change (pow2 2) with 4; lra|].
  split; [exact Fz|]. rewrite V, (Rmult_comm 4). change 4 with (pow2 2). apply rnd_scale. lia.
Qed.
(* 4 a a, for 1/2 <= a <= 1 *)
Lemma four_sq (a : f64) : finite a -> 1 / 2 <= B2R a <= 1 ->
  let m := fmul (fmul f4 a) a in
  finite m /\ B2R m = rnd (4 * B2R a * B2R a) /\ 1 <= B2R m <= 4 /\ Rabs (B2R m - 4 * B2R a * B2R a) <= 2 * eps.
Proof.
  intros F B m. destruct (four_mul a F ltac:(lra)) as [F4a V4a]. pose proof (fmul_result _ a F4a F) as R. fold m in R. rewrite V4a in R.
  assert (Bq : 1 <= 4 * B2R a * B2R a <= 4) by nra.
  destruct (result_half _ _ 2 ltac:(lia) R) as (Fm & Vm & Em); [apply Rabs_le; change (pow2 2) with 4; lra|].
  split; [exact Fm|]. split; [exact Vm|]. split.
  - rewrite Vm. destruct f1_val as [_ V1]. destruct f4_val as [_ V4]. split.
    + apply (rnd_lower f1); [exact V1|lra].
    + apply (rnd_upper f4); [exact V4|lra].
  - change (pow2 (2 - 54)) with (/ 4503599627370496) in Em. lra.
Qed.
Lemma third_mul (d : f64) : finite d -> -3 <= B2R d <= 3 ->
  finite (fmul third d) /\ B2R (fmul third d) = rnd (B2R third * B2R d) /\ Rabs (B2R (fmul third d) - B2R d / 3) <= eps.
Proof.
  intros F B. destruct third_val as [Ft Vt]. pose proof (fmul_result _ d Ft F) as R.
  destruct (result_half _ _ 0 ltac:(lia) R) as (Fm & Vm & Em); [apply Rabs_le; rewrite Vt; change (pow2 0) with 1; lra|].
  split; [exact Fm|]. split; [exact Vm|]. rewrite Vt in Em. change (pow2 (0 - 54)) with (/ 18014398509481984) in Em.
  apply Rabs_le_inv in Em. apply Rabs_le. lra.
Qed.
Lemma minus_one (m : f64) : finite m -> 1 <= B2R m <= 4 ->
  finite (fsub m f1) /\ finite (fsub f1 m) /\ B2R (fsub m f1) = rnd (B2R m - 1) /\ B2R (fsub f1 m) = - B2R (fsub m f1) /\
  0 <= B2R (fsub m f1) <= 3 /\ Rabs (B2R (fsub m f1) - (B2R m - 1)) <= 2 * eps.
Proof.
  intros F B. destruct f1_val as [F1 V1]. destruct f3_val as [F3 V3]. 
  pose proof (fsub_result m f1 F F1) as R. pose proof (fsub_result f1 m F1 F) as R'. rewrite V1 in R, R'.
  destruct (result_half _ _ 2 ltac:(lia) R) as (Fm & Vm & Em); [apply Rabs_le; change (pow2 2) with 4; lra|].
  destruct (result_half _ _ 2 ltac:(lia) R') as (Fm' & Vm' & _); [apply Rabs_le; change (pow2 2) with 4; lra|].
  change (pow2 (2 - 54)) with (/ 4503599627370496) in Em.
  split; [exact Fm|]. split; [exact Fm'|]. split; [exact Vm|]. split; [rewrite Vm, Vm', <- rnd_opp; f_equal; ring|]. split; [|lra].
  rewrite Vm. split; [rewrite <- rnd_0; apply rnd_le; lra|]. apply (rnd_upper f3); [exact V3|lra].
Qed.
Lemma st_to_uv_err s : finite s -> 0 <= B2R s <= 1 ->
  finite (st_to_uv s) /\ Rabs (B2R (st_to_uv s) - UU (B2R s)) <= 4 * eps.
Proof.
  intros F B. destruct fhalf_val as [Fh Vh]. destruct f1_val as [F1 V1].
  unfold st_to_uv, fge. destruct (fle_R fhalf s Fh F) as [P|P]; rewrite Vh in P.
  - destruct (four_sq s F ltac:(lra)) as (Fm & _ & Bm & Em). destruct (minus_one _ Fm Bm) as (Fd & _ & _ & _ & Bd & Ed).
    destruct (third_mul _ Fd ltac:(lra)) as (Fz & _ & Ez). split; [exact Fz|]. rewrite UU_hi by lra.
    apply Rabs_le_inv in Em, Ed, Ez. apply Rabs_le. lra.
  - pose proof (fsub_result f1 s F1 F) as R. rewrite V1 in R.
    destruct (result_half _ _ 0 ltac:(lia) R) as (Fa & Va & Ea); [apply Rabs_le; change (pow2 0) with 1; lra|].
    set (a := fsub f1 s) in *.
    assert (Ba : 1 / 2 <= B2R a <= 1).
    { rewrite Va. split.
      - replace (1 / 2) with (pow2 (-1)) by (change (pow2 (-1)) with (/ 2); lra). rewrite <- (rnd_bpow (-1)) by lia. apply rnd_le. change (pow2 (-1)) with (/ 2). lra.
      - apply (rnd_upper f1); [exact V1|lra]. }
    destruct (four_sq a Fa Ba) as (Fm & _ & Bm & Em). destruct (minus_one _ Fm Bm) as (_ & Fd & _ & Vd & Bd & Ed).
    destruct (third_mul _ Fd ltac:(lra)) as (Fz & _ & Ez). split; [exact Fz|]. rewrite UU_lo by lra. rewrite Vd in Ez.
    change (pow2 (0 - 54)) with (/ 18014398509481984) in Ea.
    assert (A : Rabs (4 * B2R a * B2R a - 4 * (1 - B2R s) * (1 - B2R s)) <= 4 * eps).
    { replace (4 * B2R a * B2R a - 4 * (1 - B2R s) * (1 - B2R s)) with ((B2R a - (1 - B2R s)) * (4 * (B2R a + (1 - B2R s)))) by ring.
      rewrite Rabs_mult. replace (4 * eps) with (/ 18014398509481984 * 8) by lra. apply Rmult_le_compat; try apply Rabs_pos; [exact Ea|].
      rewrite Rabs_pos_eq; lra. }
    apply Rabs_le_inv in Em, Ed, Ez, A. apply Rabs_le. lra.
Qed.

(** ** Both are monotone *)
Lemma sqrt_part_mono (x y : f64) : finite x -> finite y -> 0 <= B2R x -> B2R x <= B2R y -> B2R y <= 1 ->
  B2R (fsqrt (fadd f1 (fmul f3 x))) <= B2R (fsqrt (fadd f1 (fmul f3 y))).
Proof.
  assert (V : forall z, finite z -> 0 <= B2R z <= 1 -> B2R (fsqrt (fadd f1 (fmul f3 z))) = rnd (sqrt (rnd (1 + rnd (3 * B2R z))))).
  { intros z F B. destruct f1_val as [F1 V1]. destruct f3_val as [F3 V3].
    pose proof (fmul_result f3 z F3 F) as R1. rewrite V3 in R1.
    destruct (result_half _ _ 2 ltac:(lia) R1 ltac:(rewrite Rabs_pos_eq; [change (pow2 2) with 4; lra|lra])) as (Fm & Vm & Em).
    change (pow2 (2 - 54)) with (/ 4503599627370496) in Em. apply Rabs_le_inv in Em.
    assert (0 <= B2R (fmul f3 z)) by (rewrite Vm, <- rnd_0; apply rnd_le; lra).
    pose proof (fadd_result f1 _ F1 Fm) as R2. rewrite V1 in R2.
    destruct (result_half _ _ 3 ltac:(lia) R2 ltac:(rewrite Rabs_pos_eq; [change (pow2 3) with 8; lra|lra])) as (Fw & Vw & _).
    destruct (fsqrt_val _ Fw) as [_ ->]; [|rewrite Vw, Vm; reflexivity]. rewrite Vw, <- rnd_0. apply rnd_le. lra. }
  intros Fx Fy P L U. rewrite !V by (auto; lra). apply rnd_le. apply sqrt_le_1_alt. apply rnd_le. apply Rplus_le_compat_l. apply rnd_le. lra.
Qed.
Lemma half_mono (x y : f64) : finite x -> finite y -> 1 <= B2R x <= 2 -> 1 <= B2R y <= 2 -> B2R x <= B2R y -> B2R (fmul fhalf x) <= B2R (fmul fhalf y).
Proof. intros Fx Fy Bx By L. destruct (half_exact x Fx Bx) as [_ ->]. destruct (half_exact y Fy By) as [_ ->]. lra. Qed.
Lemma opp_part (x : f64) : finite x -> -1 <= B2R x <= 0 ->
  finite (fsqrt (fsub f1 (fmul f3 x))) /\ B2R (fsqrt (fsub f1 (fmul f3 x))) = B2R (fsqrt (fadd f1 (fmul f3 (fneg x)))).
Proof.
  intros F B. destruct f1_val as [F1 V1]. destruct f3_val as [F3 V3]. destruct (fneg_val x F) as [Fn Vn].
  pose proof (fmul_result f3 x F3 F) as R1. rewrite V3 in R1. pose proof (fmul_result f3 _ F3 Fn) as R2. rewrite V3, Vn in R2.
  destruct (result_half _ _ 2 ltac:(lia) R1) as (Fm & Vm & Em); [apply Rabs_le; change (pow2 2) with 4; lra|].
  destruct (result_half _ _ 2 ltac:(lia) R2) as (Fm' & Vm' & Em'); [apply Rabs_le; change (pow2 2) with 4; lra|].
  assert (EE : B2R (fmul f3 (fneg x)) = - B2R (fmul f3 x)).
  { rewrite Vm, Vm', <- rnd_opp. f_equal. ring. }
  change (pow2 (2 - 54)) with (/ 4503599627370496) in *. apply Rabs_le_inv in Em, Em'.
  pose proof (fsub_result f1 _ F1 Fm) as R3. rewrite V1 in R3. pose proof (fadd_result f1 _ F1 Fm') as R4. rewrite V1, EE in R4.
  destruct (result_half _ _ 3 ltac:(lia) R3) as (Fs & Vs & _); [apply Rabs_le; change (pow2 3) with 8; lra|].
  destruct (result_half _ _ 3 ltac:(lia) R4) as (Fs' & Vs' & _); [apply Rabs_le; change (pow2 3) with 8; lra|].
  assert (0 <= rnd (1 - B2R (fmul f3 x))) by (rewrite <- rnd_0; apply rnd_le; lra).
  destruct (fsqrt_val _ Fs ltac:(rewrite Vs; auto)) as [Fq Vq]. split; [exact Fq|]. rewrite Vq.
  destruct (fsqrt_val _ Fs' ltac:(rewrite Vs'; unfold Rminus in *; auto)) as [_ ->]. rewrite Vs, Vs'. reflexivity.
Qed.
Lemma uv_to_st_mono x y : finite x -> finite y -> -1 <= B2R x -> B2R x <= B2R y -> B2R y <= 1 -> B2R (uv_to_st x) <= B2R (uv_to_st y).
Proof.
  intros Fx Fy P L U. destruct f1_val as [F1 V1]. unfold uv_to_st, fge.
  destruct (fle_R f0 x eq_refl Fx) as [X|X]; change (B2R f0) with 0 in X;
  (destruct (fle_R f0 y eq_refl Fy) as [Y|Y]; change (B2R f0) with 0 in Y); try lra.
  - destruct (sqrt_part x Fx ltac:(lra)) as (Fr & Br & _). destruct (sqrt_part y Fy ltac:(lra)) as (Fr' & Br' & _).
    apply half_mono; auto. apply sqrt_part_mono; auto.
  - destruct (sqrt_part y Fy ltac:(lra)) as (Fr' & Br' & _). destruct (half_exact _ Fr' Br') as [_ ->].
    destruct (fneg_val x Fx) as [Fn Vn]. destruct (sqrt_part (fneg x) Fn ltac:(lra)) as (_ & Br & _).
    destruct (opp_part x Fx ltac:(lra)) as [Fq Vq]. rewrite <- Vq in Br. destruct (half_exact _ Fq Br) as [Fh Vh].
    pose proof (fsub_result f1 _ F1 Fh) as R. rewrite V1 in R.
    destruct (result_half _ _ 0 ltac:(lia) R) as (_ & V & _); [apply Rabs_le; change (pow2 0) with 1; lra|]. rewrite V.
    apply Rle_trans with (/ 2); [|lra]. destruct fhalf_val as [_ Vf]. apply (rnd_upper fhalf); [exact Vf|lra].
  - destruct (fneg_val x Fx) as [Fn Vn]. destruct (sqrt_part (fneg x) Fn ltac:(lra)) as (_ & Br & _).
    destruct (opp_part x Fx ltac:(lra)) as [Fq Vq].
    destruct (fneg_val y Fy) as [Fn' Vn']. destruct (sqrt_part (fneg y) Fn' ltac:(lra)) as (_ & Br' & _).
    destruct (opp_part y Fy ltac:(lra)) as [Fq' Vq'].
    pose proof (sqrt_part_mono (fneg y) (fneg x) Fn' Fn ltac:(lra) ltac:(lra) ltac:(lra)) as M. rewrite <- Vq, <- Vq' in M. rewrite <- Vq in Br. rewrite <- Vq' in Br'.
    destruct (half_exact _ Fq Br) as [Fh Vh]. destruct (half_exact _ Fq' Br') as [Fh' Vh'].
    pose proof (fsub_result f1 _ F1 Fh) as R. pose proof (fsub_result f1 _ F1 Fh') as R'. rewrite V1 in R, R'.
    destruct (result_half _ _ 0 ltac:(lia) R) as (_ & V & _); [apply Rabs_le; change (pow2 0) with 1; lra|].
    destruct (result_half _ _ 0 ltac:(lia) R') as (_ & V' & _); [apply Rabs_le; change (pow2 0) with 1; lra|].
    rewrite V, V'. apply rnd_le. lra.
Qed.

Lemma st_hi s : finite s -> / 2 <= B2R s <= 1 ->
  finite (st_to_uv s) /\ B2R (st_to_uv s) = rnd (B2R third * rnd (rnd (4 * B2R s * B2R s) - 1)).
Proof.
  intros F B. destruct fhalf_val as [Fh Vh]. unfold st_to_uv, fge. destruct (fle_R fhalf s Fh F) as [P|P]; [|lra].
  destruct (four_sq s F ltac:(lra)) as (Fm & Vm & Bm & _). destruct (minus_one _ Fm Bm) as (Fd & _ & Vd & _ & Bd & _).
  destruct (third_mul _ Fd ltac:(lra)) as (Fz & Vz & _). split; [exact Fz|]. rewrite Vz, Vd, Vm. reflexivity.
Qed.
Lemma one_minus s : finite s -> 0 <= B2R s < / 2 -> finite (fsub f1 s) /\ B2R (fsub f1 s) = rnd (1 - B2R s) /\ 1 / 2 <= B2R (fsub f1 s) <= 1.
Proof.
  intros F B. destruct f1_val as [F1 V1]. destruct fhalf_val as [Fh Vh]. pose proof (fsub_result f1 s F1 F) as R. rewrite V1 in R.
  destruct (result_half _ _ 0 ltac:(lia) R) as (Fa & Va & _); [apply Rabs_le; change (pow2 0) with 1; lra|].
  split; [exact Fa|]. split; [exact Va|]. rewrite Va. split.
  - apply (rnd_lower fhalf); lra.
  - apply (rnd_upper f1); [exact V1|lra].
Qed.
Lemma st_lo s : finite s -> 0 <= B2R s < / 2 ->
  finite (st_to_uv s) /\ B2R (st_to_uv s) = - rnd (B2R third * rnd (rnd (4 * rnd (1 - B2R s) * rnd (1 - B2R s)) - 1)).
Proof.
  intros F B. destruct fhalf_val as [Fh Vh]. unfold st_to_uv, fge. destruct (fle_R fhalf s Fh F) as [P|P]; [lra|].
  destruct (one_minus s F B) as (Fa & Va & Ba).
  destruct (four_sq _ Fa Ba) as (Fm & Vm & Bm & _). destruct (minus_one _ Fm Bm) as (Fd' & Fd & Vd & Vo & Bd & _).
  destruct (third_mul _ Fd ltac:(lra)) as (Fz & Vz & _). split; [exact Fz|]. rewrite Vz, Vo, Vd, Vm, Va.
  rewrite Ropp_mult_distr_r_reverse. apply rnd_opp.
Qed.
Lemma third_pos : 0 < B2R third. Proof. destruct third_val as [_ ->]. lra. Qed.
Lemma core_mono a b : 1 / 2 <= a -> a <= b -> 
  0 <= rnd (B2R third * rnd (rnd (4 * a * a) - 1)) <= rnd (B2R third * rnd (rnd (4 * b * b) - 1)).
Proof.
  intros A L. pose proof third_pos. split.
  - rewrite <- rnd_0. apply rnd_le. apply Rmult_le_pos; [lra|]. rewrite <- rnd_0. apply rnd_le.
    assert (1 <= rnd (4 * a * a)); [|lra]. destruct f1_val as [_ V1]. apply (rnd_lower f1); [exact V1|nra].
  - apply rnd_le, Rmult_le_compat_l; [lra|]. apply rnd_le. apply Rplus_le_compat_r. apply rnd_le. nra.
Qed.
Lemma st_to_uv_mono s t : finite s -> finite t -> 0 <= B2R s -> B2R s <= B2R t -> B2R t <= 1 -> B2R (st_to_uv s) <= B2R (st_to_uv t).
Proof.
  intros Fs Ft P L U. destruct (Rle_lt_dec (/ 2) (B2R s)) as [S|S]; destruct (Rle_lt_dec (/ 2) (B2R t)) as [T|T]; try lra.
  - destruct (st_hi s Fs ltac:(lra)) as [_ ->]. destruct (st_hi t Ft ltac:(lra)) as [_ ->]. apply core_mono; lra.
  - destruct (st_lo s Fs ltac:(lra)) as [_ ->]. destruct (st_hi t Ft ltac:(lra)) as [_ ->].
    destruct (one_minus s Fs ltac:(lra)) as (_ & Va & Ba). rewrite Va in Ba.
    pose proof (core_mono _ _ (proj1 Ba) (Rle_refl _)). pose proof (core_mono (B2R t) _ ltac:(lra) (Rle_refl _)). lra.
  - destruct (st_lo s Fs ltac:(lra)) as [_ ->]. destruct (st_lo t Ft ltac:(lra)) as [_ ->]. apply Ropp_le_contravar.
    destruct (one_minus t Ft ltac:(lra)) as (_ & Va & Ba). rewrite Va in Ba. apply core_mono; [apply Ba|]. apply rnd_le. lra.
Qed.
Lemma st_to_uv_range s : finite s -> 0 <= B2R s <= 1 -> -1 <= B2R (st_to_uv s) <= 1.
Proof.
  intros F B. destruct f1_val as [F1 V1]. 
  assert (E1 : feq (st_to_uv f1) f1 = true) by (vm_compute; reflexivity).
  assert (E0 : feq (st_to_uv f0) (fneg f1) = true) by (vm_compute; reflexivity).
  destruct (fneg_val f1 F1) as [Fn Vn].
  assert (G1 : finite (st_to_uv f1)) by (vm_compute; reflexivity). assert (G0 : finite (st_to_uv f0)) by (vm_compute; reflexivity).
  assert (W1 : B2R (st_to_uv f1) = 1) by (rewrite <- V1; revert E1; destruct (feq_R _ _ G1 F1); [auto|discriminate]).
  assert (W0 : B2R (st_to_uv f0) = -1). { replace (-1) with (B2R (fneg f1)) by lra; revert E0; destruct (feq_R _ _ G0 Fn); [auto|discriminate]. }
  split.
  - rewrite <- W0. apply st_to_uv_mono; auto; try reflexivity; change (B2R f0) with 0; lra.
  - rewrite <- W1. apply st_to_uv_mono; auto; lra.
Qed.
