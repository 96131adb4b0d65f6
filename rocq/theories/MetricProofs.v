(** Proofs about the metrics. *)
From Coq Require Import ZArith Reals Lra Lia List.
From Flocq Require Import Core.
From Verif Require Import Base F64 F64Facts IntervalSpec F64Arith F64Error S1Proofs MetricModel.
Open Scope R_scope.

Notation format := (generic_format radix2 (FLT_exp (-1074) 53)).
Notation pow2 := (bpow radix2).

Global Instance flt_valid : Valid_exp (FLT_exp (-1074) 53).
Proof. apply FLT_exp_valid. reflexivity. Qed.

Lemma B2R_format (x : f64) : format (B2R x).
Proof. apply (generic_format_B2R 53 1024). Qed.

(* the gap below a normal double is more than 2^-53 of it *)
Lemma gap_below x y : format x -> format y -> pow2 (-1000) <= y -> x < y ->
  x <= y * (1 - pow2 (-53)).
Proof.
  intros Fx Fy Hy L. assert (P : 0 < y) by (pose proof (bpow_gt_0 radix2 (-1000)); lra).
  pose proof (pred_ge_gt radix2 (FLT_exp (-1074) 53) x y Fx Fy L) as H.
  rewrite pred_eq_pos in H by lra. unfold pred_pos in H.
  assert (M : (-1000 < mag radix2 y)%Z) by (apply mag_gt_bpow; rewrite Rabs_pos_eq; lra).
  destruct (Req_bool_spec y (pow2 (mag radix2 y - 1))) as [E|E].
  - assert (pow2 (FLT_exp (-1074) 53 (mag radix2 y - 1)) = y * pow2 (-53)).
    { transitivity (pow2 (mag radix2 y - 1) * pow2 (-53)); [|rewrite <- E; reflexivity].
      rewrite <- bpow_plus. f_equal. unfold FLT_exp. lia. }
    lra.
  - rewrite ulp_neq_0 in H by lra. unfold cexp in H.
    assert (pow2 (FLT_exp (-1074) 53 (mag radix2 y)) = pow2 (mag radix2 y) * pow2 (-53)).
    { rewrite <- bpow_plus. f_equal. unfold FLT_exp. lia. }
    pose proof (bpow_mag_gt radix2 y) as G. rewrite Rabs_pos_eq in G by lra.
    pose proof (bpow_gt_0 radix2 (-53)). nra.
Qed.

(* so rounding a quotient of doubles never crosses a power of two *)
Lemma quotient_cross x d k : format x -> 0 < d -> format (d * pow2 k) -> (x < d * pow2 k -> pow2 (-1000) <= d * pow2 k) ->
  (-900 <= k)%Z -> (pow2 k <= rnd (x / d) <-> d * pow2 k <= x).
Proof.
  intros Fx Hd Fy Hy Hk. pose proof (bpow_gt_0 radix2 k) as Pk. split; intros H.
  - apply Rnot_lt_le. intros L. pose proof (gap_below _ _ Fx Fy (Hy L) L) as G.
    assert (Q : x / d <= pow2 k * (1 - pow2 (-53))).
    { apply Rmult_le_reg_r with d; auto. unfold Rdiv. rewrite Rmult_assoc, Rinv_l, Rmult_1_r by lra. lra. }
    apply rnd_le in Q.
    assert (E : rnd (pow2 k * (1 - pow2 (-53))) = pow2 k * (1 - pow2 (-53))).
    { apply round_generic; [apply valid_rnd_N|]. apply generic_format_FLT.
      exists (Float radix2 (2 ^ 53 - 1) (k - 53)); [|reflexivity|cbn [Fexp]; lia].
      unfold F2R. cbn [Fnum Fexp]. rewrite minus_IZR. change (IZR (2 ^ 53)) with (pow2 53).
      replace (k - 53)%Z with (k + -53)%Z by lia. rewrite bpow_plus.
      assert (B : pow2 53 * pow2 (-53) = 1) by (rewrite <- bpow_plus; reflexivity).
      transitivity (pow2 k * (1 - pow2 (-53)) + pow2 k * (pow2 53 * pow2 (-53) - 1)); [|ring].
      rewrite B. ring. }
    rewrite E in Q. pose proof (bpow_gt_0 radix2 (-53)). nra.
  - rewrite <- (rnd_bpow k) by lia. apply rnd_le.
    apply Rmult_le_reg_r with d; auto. unfold Rdiv. rewrite Rmult_assoc, Rinv_l, Rmult_1_r by lra. lra.
Qed.

Lemma ilogb_spec (z : f64) : finite z -> 0 < B2R z -> pow2 (ilogb z) <= B2R z < pow2 (ilogb z + 1).
Proof.
  destruct z as [s|s| |s m e B]; try discriminate; cbn [B2R]; intros _ H; [lra|].
  destruct s; [exfalso; cbn [cond_Zopp] in H; pose proof (F2R_lt_0 radix2 (Float radix2 (- Zpos m) e) eq_refl); cbn in *; lra|].
  cbn [cond_Zopp ilogb]. unfold F2R. cbn [Fnum Fexp].
  pose proof (Z.log2_spec (Zpos m) eq_refl) as [L U]. pose proof (Z.log2_nonneg (Zpos m)).
  apply IZR_le in L. apply IZR_lt in U. rewrite !(IZR_Zpower radix2) in * by lia.
  replace (Z.log2 (Zpos m) + e + 1)%Z with (Z.succ (Z.log2 (Zpos m)) + e)%Z by lia. rewrite !bpow_plus.
  pose proof (bpow_gt_0 radix2 e). split; [apply Rmult_le_compat_r; lra|apply Rmult_lt_compat_r; lra].
Qed.
Lemma ilogb_ge (z : f64) k : finite z -> 0 < B2R z -> ((k <= ilogb z)%Z <-> pow2 k <= B2R z).
Proof.
  intros F P. destruct (ilogb_spec z F P) as [L U]. split; intros H.
  - apply Rle_trans with (2 := L). apply bpow_le, H.
  - assert (k < ilogb z + 1)%Z; [|lia]. apply (lt_bpow radix2). lra.
Qed.
Lemma ilogb_range (z : f64) : finite z -> 0 < B2R z -> (-1074 <= ilogb z < 1024)%Z.
Proof.
  intros F P. destruct (ilogb_spec z F P) as [L U]. split.
  - destruct z as [s|s| |s m e B]; try discriminate; cbn [B2R] in P; [lra|]. cbn [ilogb].
    pose proof (finite_emin m e B). pose proof (Z.log2_nonneg (Zpos m)). lia.
  - apply (lt_bpow radix2). apply Rle_lt_trans with (1 := L). pose proof (B2R_max z) as M.
    rewrite Rabs_pos_eq in M by lra. exact M.
Qed.

(** A metric of the kind the library has. *)
Definition Good (m : metric) : Prop :=
  (m_dim m = 1 \/ m_dim m = 2)%Z /\ finite (m_deriv m) /\ pow2 (-1) <= B2R (m_deriv m) <= pow2 2.

Lemma format_scale (x : f64) k : (0 <= k)%Z -> format (B2R x * pow2 k).
Proof.
  intros H. pose proof (B2R_format x) as F.
  destruct (Req_dec (B2R x) 0) as [->|N]; [rewrite Rmult_0_l; apply generic_format_0|].
  apply generic_format_FLT. apply FLT_format_generic in F; [|reflexivity].
  destruct F as [f E L G]. exists (Float radix2 (Fnum f) (Fexp f + k)); auto; cbn [Fexp]; try lia.
  rewrite E. unfold F2R. cbn [Fnum Fexp]. rewrite bpow_plus. ring.
Qed.
Lemma format_deriv m k : Good m -> (-900 <= k)%Z -> format (B2R (m_deriv m) * pow2 k).
Proof.
  intros (_ & F & L & U) Hk. pose proof (B2R_format (m_deriv m)) as G.
  apply generic_format_FLT. apply FLT_format_generic in G; [|reflexivity].
  assert (E : (exists f : float radix2, B2R (m_deriv m) = F2R f /\ (Z.abs (Fnum f) < radix2 ^ 53)%Z /\ (-53 <= Fexp f)%Z)).
  { pose proof (B2R_format (m_deriv m)) as G'. red in G'. eexists. split; [exact G'|]. split.
    - destruct G as [f E0 L0 _]. cbn [Fnum]. apply lt_IZR. rewrite (IZR_Zpower radix2) by lia.
      rewrite abs_IZR, <- scaled_mantissa_generic by apply B2R_format.
      unfold scaled_mantissa. rewrite Rabs_mult, (Rabs_pos_eq (pow2 _)) by apply bpow_ge_0.
      apply Rmult_lt_reg_r with (pow2 (cexp radix2 (FLT_exp (-1074) 53) (B2R (m_deriv m)))); [apply bpow_gt_0|].
      rewrite Rmult_assoc, <- !bpow_plus. replace (- _ + _)%Z with 0%Z by lia. cbn [bpow]. rewrite Rmult_1_r.
      apply Rlt_le_trans with (1 := bpow_mag_gt radix2 _). apply bpow_le. unfold cexp, FLT_exp. lia.
    - cbn [Fexp]. unfold cexp, FLT_exp.
      assert (-1 < mag radix2 (B2R (m_deriv m)))%Z; [|lia].
      apply mag_gt_bpow. rewrite Rabs_pos_eq; auto. pose proof (bpow_gt_0 radix2 (-1)); lra. }
  destruct E as (f & E & L1 & G1). exists (Float radix2 (Fnum f) (Fexp f + k)); auto; cbn [Fexp]; try lia.
  rewrite E. unfold F2R. cbn [Fnum Fexp]. rewrite bpow_plus. ring.
Qed.

Lemma value_val m L : Good m -> (0 <= L <= 255)%Z ->
  finite (value m L) /\ B2R (value m L) = B2R (m_deriv m) * pow2 (- m_dim m * L).
Proof.
  intros Hm HL. pose proof Hm as (Hd & F & Lo & Up). unfold value, ldexp.
  set (k := (- m_dim m * L)%Z) in *. assert (K : (-510 <= k <= 0)%Z) by (subst k; lia).
  pose proof (Bldexp_correct 53 1024 _ _ mode_NE (m_deriv m) k) as H.
  change (round radix2 (SpecFloat.fexp 53 1024) (round_mode mode_NE) (B2R (m_deriv m) * pow2 k))
    with (rnd (B2R (m_deriv m) * pow2 k)) in H.
  assert (E : rnd (B2R (m_deriv m) * pow2 k) = B2R (m_deriv m) * pow2 k).
  { apply round_generic; [apply valid_rnd_N|]. apply format_deriv; auto. lia. }
  rewrite E in H. rewrite Rlt_bool_true in H.
  - destruct H as (V & Fi & _). split; auto. unfold finite. fold f64 in *. rewrite Fi. exact F.
  - pose proof (bpow_gt_0 radix2 k). pose proof (bpow_gt_0 radix2 (-1)).
    rewrite Rabs_pos_eq by (apply Rmult_le_pos; lra).
    apply Rle_lt_trans with (pow2 2 * pow2 0).
    + apply Rmult_le_compat; try lra. apply bpow_le. lia.
    + rewrite <- bpow_plus. apply bpow_lt. lia.
Qed.

Lemma clamp_spec l : (0 <= clamp_level l <= 30)%Z /\
  forall L, (0 <= L <= 30)%Z -> ((l <= L)%Z -> (clamp_level l <= L)%Z) /\ ((L <= l)%Z -> (L <= clamp_level l)%Z) /\
  ((clamp_level l = 30 \/ l <= clamp_level l) /\ (clamp_level l = 0 \/ clamp_level l <= l))%Z.
Proof. unfold clamp_level. destruct (Z.gtb_spec l 30); [|destruct (Z.ltb_spec l 0)]; (split; [lia|intros L HL; repeat split; intros; lia]). Qed.

Lemma deriv_pos m : Good m -> exists mm e B, m_deriv m = B754_finite false mm e B.
Proof.
  intros (_ & F & L & _). pose proof (bpow_gt_0 radix2 (-1)). unfold finite in F.
  destruct (m_deriv m) as [s|s| |s mm e B]; try discriminate; cbn [B2R] in L; [lra|].
  destruct s; eauto. exfalso. pose proof (F2R_lt_0 radix2 (Float radix2 (- Zpos mm) e) eq_refl). cbn [cond_Zopp] in L. lra.
Qed.

Lemma div_pos a b : 0 < a -> 0 < b -> 0 < a / b.
Proof. intros. apply Rmult_lt_0_compat; auto. apply Rinv_0_lt_compat; auto. Qed.

Lemma le_div a b c : 0 < b -> (c <= a / b <-> c * b <= a).
Proof.
  intros H. split; intros K.
  - apply Rmult_le_compat_r with (r := b) in K; [|lra]. unfold Rdiv in K. rewrite Rmult_assoc, Rinv_l, Rmult_1_r in K by lra. exact K.
  - apply Rmult_le_reg_r with b; auto. unfold Rdiv. rewrite Rmult_assoc, Rinv_l, Rmult_1_r by lra. exact K.
Qed.

Lemma min_key m val k : Good m -> finite val -> pow2 (-1000) <= B2R val -> (-100 <= k <= 0)%Z ->
  (-1074 <= ilogb (fdiv val (m_deriv m)) <= 2 ^ 31 - 1)%Z /\
  ((k <= ilogb (fdiv val (m_deriv m)))%Z <-> B2R (m_deriv m) * pow2 k <= B2R val).
Proof.
  intros Hm Fv Pv K. pose proof Hm as (Hd & Fd & Lo & Up).
  pose proof (bpow_gt_0 radix2 (-1)) as P1. pose proof (bpow_gt_0 radix2 (-1000)) as P2.
  assert (Q : pow2 k <= rnd (B2R val / B2R (m_deriv m)) <-> B2R (m_deriv m) * pow2 k <= B2R val).
  { apply quotient_cross; try lia; try lra.
    - apply B2R_format.
    - apply format_deriv; auto; lia. }
  assert (Hp : pow2 (-1002) <= rnd (B2R val / B2R (m_deriv m))).
  { rewrite <- (rnd_bpow (-1002)) by lia. apply rnd_le. apply le_div; [lra|].
    apply Rle_trans with (pow2 (-1002) * pow2 2); [apply Rmult_le_compat_l; [apply bpow_ge_0|lra]|].
    rewrite <- bpow_plus. exact Pv. }
  pose proof (bpow_gt_0 radix2 (-1002)) as P3.
  destruct (fdiv_result val (m_deriv m) Fv Fd ltac:(lra)) as [(Fz & Vz & _)|(s & Ez & Bz & Sz)].
  - pose proof (ilogb_range _ Fz ltac:(lra)). split; [lia|]. rewrite ilogb_ge by (auto; lra). rewrite Vz. exact Q.
  - rewrite Ez. cbn [ilogb]. split; [lia|]. split; [intros _|lia]. apply Q.
    rewrite Rabs_pos_eq in Bz by lra. apply Rle_trans with (2 := Bz). apply bpow_le. lia.
Qed.

Lemma max_key m val L : Good m -> finite val -> 0 < B2R val -> (0 <= L <= 30)%Z ->
  ((m_dim m * L <= ilogb (fdiv (m_deriv m) val))%Z <-> B2R val <= B2R (m_deriv m) * pow2 (- m_dim m * L)).
Proof.
  intros Hm Fv Pv HL. pose proof Hm as (Hd & Fd & Lo & Up).
  replace (- m_dim m * L)%Z with (- (m_dim m * L))%Z by ring.
  set (k := (m_dim m * L)%Z). assert (K : (0 <= k <= 60)%Z) by (subst k; lia).
  pose proof (bpow_gt_0 radix2 (-1)) as P1.
  assert (Q : pow2 k <= rnd (B2R (m_deriv m) / B2R val) <-> B2R val * pow2 k <= B2R (m_deriv m)).
  { apply quotient_cross; try lia; try lra.
    - apply B2R_format.
    - apply format_scale; lia.
    - intros G. apply Rle_trans with (pow2 (-1)); [apply bpow_le; lia|lra]. }
  assert (Q2 : B2R val * pow2 k <= B2R (m_deriv m) <-> B2R val <= B2R (m_deriv m) * pow2 (- k)).
  { pose proof (bpow_gt_0 radix2 k). pose proof (bpow_gt_0 radix2 (- k)).
    assert (E : pow2 k * pow2 (- k) = 1) by (rewrite <- bpow_plus; replace (k + - k)%Z with 0%Z by lia; reflexivity).
    split; intros G.
    - apply Rmult_le_reg_r with (pow2 k); auto. rewrite Rmult_assoc, (Rmult_comm (pow2 (- k))), E. lra.
    - apply Rmult_le_reg_r with (pow2 (- k)); auto. rewrite Rmult_assoc, E. lra. }
  rewrite <- Q2, <- Q.
  assert (Hp : pow2 (-1025) <= rnd (B2R (m_deriv m) / B2R val)).
  { rewrite <- (rnd_bpow (-1025)) by lia. apply rnd_le. apply le_div; [lra|].
    apply Rle_trans with (pow2 (-1025) * pow2 1024).
    - apply Rmult_le_compat_l; [apply bpow_ge_0|]. pose proof (B2R_max val) as M. rewrite Rabs_pos_eq in M; lra.
    - rewrite <- bpow_plus. exact Lo. }
  pose proof (bpow_gt_0 radix2 (-1025)) as P3.
  destruct (fdiv_result (m_deriv m) val Fd Fv ltac:(lra)) as [(Fz & Vz & _)|(s & Ez & Bz & Sz)].
  - rewrite ilogb_ge by (auto; lra). rewrite Vz. reflexivity.
  - rewrite Ez. cbn [ilogb]. split; [intros _|lia].
    rewrite Rabs_pos_eq in Bz by lra. apply Rle_trans with (2 := Bz). apply bpow_le. lia.
Qed.

Lemma shiftr_le a n L : (0 <= n)%Z -> (L <= Z.shiftr a n <-> 2 ^ n * L <= a)%Z.
Proof.
  intros H. rewrite Z.shiftr_div_pow2 by auto. pose proof (Z.pow_pos_nonneg 2 n ltac:(lia) H).
  split; intros K.
  - pose proof (Z.mul_div_le a (2 ^ n) ltac:(lia)). nia.
  - apply Z.div_le_lower_bound; lia.
Qed.

Lemma chk_i32_ok a : (- 2 ^ 31 <= a < 2 ^ 31)%Z -> chk_i32 a = Some a.
Proof. intros H. unfold chk_i32. destruct (Z.leb_spec (- 2 ^ 31) a), (Z.ltb_spec a (2 ^ 31)); auto; lia. Qed.

(* what min_level computes *)
Lemma min_level_spec m val : Good m -> finite val -> pow2 (-1000) <= B2R val ->
  exists L, min_level m val = Some L /\ (0 <= L <= 30)%Z /\
    (forall L', (0 <= L' <= 30)%Z -> B2R (value m L') <= B2R val -> (L <= L')%Z) /\
    ((L = 30)%Z \/ B2R (value m L) <= (if (m_dim m =? 1)%Z then 1 else 2) * B2R val).
Proof.
  intros Hm Fv Pv. pose proof Hm as (Hd & Fd & Lo & Up).
  pose proof (bpow_gt_0 radix2 (-1000)) as P2.
  unfold min_level. destruct (flt_R val f0 Fv eq_refl) as [E|E]; [exfalso; cbn [f0 B2R] in E; change (B2R f0) with 0 in E; lra|].
  pose proof (fun k => min_key m val k Hm Fv Pv) as K.
  set (e := ilogb (fdiv val (m_deriv m))) in *.
  destruct (K 0%Z ltac:(lia)) as [R _].
  rewrite chk_i32_ok by lia.
  assert (S : shift_dim (- e) (m_dim m) = Some (Z.shiftr (- e) (m_dim m - 1))).
  { unfold shift_dim. destruct Hd as [-> | ->]; reflexivity. }
  cbv beta iota. rewrite S. set (l := Z.shiftr (- e) (m_dim m - 1)) in *.
  destruct (clamp_spec l) as [C1 C2]. exists (clamp_level l). split; [reflexivity|]. split; [auto|].
  assert (V : forall L, (0 <= L <= 30)%Z -> B2R (value m L) = B2R (m_deriv m) * pow2 (- m_dim m * L)).
  { intros L HL. apply value_val; auto. lia. }
  split.
  - intros L' HL' G. rewrite V in G by auto. apply K in G; [|lia]. apply (C2 L' HL').
    subst l. destruct Hd as [D|D]; rewrite D in *.
    + rewrite Z.shiftr_0_r. lia.
    + change (2 - 1)%Z with 1%Z. apply Z.lt_succ_r. apply Z.nle_gt. intros H. apply shiftr_le in H; lia.
  - destruct (C2 (clamp_level l) C1) as (_ & _ & A & _). destruct A as [A|A]; [left; auto|right].
    rewrite V by auto. subst l. destruct Hd as [D|D]; rewrite D in *.
    + cbn [Z.eqb Pos.eqb]. rewrite Rmult_1_l. apply K; [lia|]. change (1 - 1)%Z with 0%Z in *. rewrite Z.shiftr_0_r in *. lia.
    + cbn [Z.eqb Pos.eqb].
      change (2 - 1)%Z with 1%Z in *.
      assert (G : (- (2) * clamp_level (Z.shiftr (- e) 1) - 1 <= e)%Z).
      {
        assert (~ (clamp_level (Z.shiftr (- e) 1) + 1 <= Z.shiftr (- e) 1)%Z) by lia.
        rewrite shiftr_le in H by lia. lia. }
      apply K in G; [|lia]. unfold Z.sub in G. rewrite bpow_plus in G.
      change (pow2 (- (1))) with (/ 2) in G. lra.
Qed.

Lemma max_level_spec m val : Good m -> finite val -> 0 < B2R val ->
  exists L, max_level m val = Some L /\ (0 <= L <= 30)%Z /\
    (forall L', (0 <= L' <= 30)%Z -> B2R val <= B2R (value m L') -> (L' <= L)%Z) /\
    ((L = 0)%Z \/ B2R val <= B2R (value m L)).
Proof.
  intros Hm Fv Pv. pose proof Hm as (Hd & Fd & Lo & Up).
  unfold max_level. destruct (fle_R val f0 Fv eq_refl) as [E|E]; [exfalso; change (B2R f0) with 0 in E; lra|].
  pose proof (fun L => max_key m val L Hm Fv Pv) as K.
  set (e := ilogb (fdiv (m_deriv m) val)) in *.
  assert (S : shift_dim e (m_dim m) = Some (Z.shiftr e (m_dim m - 1))).
  { unfold shift_dim. destruct Hd as [-> | ->]; reflexivity. }
  rewrite S. cbv beta iota. set (l := Z.shiftr e (m_dim m - 1)) in *.
  assert (Sl : forall L, (L <= l <-> m_dim m * L <= e)%Z).
  { intros L. subst l. rewrite shiftr_le by lia. destruct Hd as [-> | ->]; cbn; lia. }
  destruct (clamp_spec l) as [C1 C2]. exists (clamp_level l). split; [reflexivity|]. split; [auto|].
  assert (V : forall L, (0 <= L <= 30)%Z -> B2R (value m L) = B2R (m_deriv m) * pow2 (- m_dim m * L)).
  { intros L HL. apply value_val; auto. lia. }
  split.
  - intros L' HL' G. rewrite V in G by auto. apply K in G; [|lia]. apply (C2 L' HL'). apply Sl, G.
  - destruct (C2 (clamp_level l) C1) as (_ & _ & _ & A). destruct A as [A|A]; [left; auto|right].
    rewrite V by auto. apply K; auto. apply Sl, A.
Qed.

(* values too small to matter: every level is too coarse *)
Lemma min_level_tiny m val : Good m -> finite val -> pow2 (-1072) <= B2R val -> B2R val < pow2 (-1000) ->
  min_level m val = Some 30%Z.
Proof.
  intros Hm Fv Pv Uv. pose proof Hm as (Hd & Fd & Lo & Up).
  pose proof (bpow_gt_0 radix2 (-1072)) as P2. pose proof (bpow_gt_0 radix2 (-1)) as P1.
  unfold min_level. destruct (flt_R val f0 Fv eq_refl) as [E|E]; [exfalso; change (B2R f0) with 0 in E; lra|].
  assert (Hp : pow2 (-1074) <= rnd (B2R val / B2R (m_deriv m))).
  { rewrite <- (rnd_bpow (-1074)) by lia. apply rnd_le. apply le_div; [lra|].
    apply Rle_trans with (pow2 (-1074) * pow2 2); [apply Rmult_le_compat_l; [apply bpow_ge_0|lra]|].
    rewrite <- bpow_plus. exact Pv. }
  assert (Hq : rnd (B2R val / B2R (m_deriv m)) <= pow2 (-999)).
  { rewrite <- (rnd_bpow (-999)) by lia. apply rnd_le. apply Rmult_le_reg_r with (B2R (m_deriv m)); [lra|].
    unfold Rdiv. rewrite Rmult_assoc, Rinv_l, Rmult_1_r by lra.
    apply Rle_trans with (pow2 (-999) * pow2 (-1)); [|apply Rmult_le_compat_l; [apply bpow_ge_0|lra]].
    rewrite <- bpow_plus. apply Rlt_le, Uv. }
  pose proof (bpow_gt_0 radix2 (-1074)) as P3.
  destruct (fdiv_result val (m_deriv m) Fv Fd ltac:(lra)) as [(Fz & Vz & _)|(s & Ez & Bz & Sz)].
  - pose proof (ilogb_range _ Fz ltac:(lra)) as R.
    assert (I : ~ (-100 <= ilogb (fdiv val (m_deriv m)))%Z).
    { rewrite ilogb_ge by (auto; lra). rewrite Vz. intros H.
      assert (pow2 (-999) < pow2 (-100)) by (apply bpow_lt; lia). lra. }
    set (e := ilogb (fdiv val (m_deriv m))) in *.
    rewrite chk_i32_ok by lia. cbv beta iota.
    assert (Hs : exists l, shift_dim (- e) (m_dim m) = Some l /\ (30 < l)%Z).
    { unfold shift_dim. destruct Hd as [-> | ->].
      - exists (- e)%Z. split; [reflexivity|lia].
      - exists (Z.shiftr (- e) 1). split; [reflexivity|]. assert (31 <= Z.shiftr (- e) 1)%Z; [|lia].
        apply shiftr_le; lia. }
    destruct Hs as (l & -> & Hl). cbv beta iota. unfold clamp_level. destruct (Z.gtb_spec l 30); [reflexivity|lia].
  - exfalso. rewrite Rabs_pos_eq in Bz by lra. assert (pow2 (-999) < pow2 1024) by (apply bpow_lt; lia). lra.
Qed.

Lemma value_ge m L : Good m -> (0 <= L <= 30)%Z -> pow2 (-100) <= B2R (value m L).
Proof.
  intros Hm HL. destruct (value_val m L Hm ltac:(lia)) as [_ ->]. destruct Hm as (Hd & _ & Lo & _).
  apply Rle_trans with (pow2 (-1) * pow2 (- m_dim m * L)); [rewrite <- bpow_plus; apply bpow_le; lia|].
  apply Rmult_le_compat_r; [apply bpow_ge_0|lra].
Qed.

Lemma min_level_inf m : Good m -> min_level m inf = Some 0%Z.
Proof.
  intros Hm. destruct (deriv_pos m Hm) as (mm & e & B & E). destruct Hm as (Hd & _).
  unfold min_level. rewrite E. change (flt inf f0) with false. cbv iota.
  change (fdiv inf (B754_finite false mm e B)) with inf.
  change (chk_i32 (- ilogb inf)) with (Some (1 - 2 ^ 31)%Z). cbv iota. destruct Hd as [-> | ->]; reflexivity.
Qed.
Lemma min_level_zero m : Good m -> min_level m f0 = None.
Proof.
  intros Hm. destruct (deriv_pos m Hm) as (mm & e & B & E).
  unfold min_level. rewrite E. change (flt f0 f0) with false. cbv iota.
  change (fdiv f0 (B754_finite false mm e B)) with f0. reflexivity.
Qed.
Lemma max_level_inf m : Good m -> max_level m inf = Some 0%Z.
Proof.
  intros Hm. destruct (deriv_pos m Hm) as (mm & e & B & E). destruct Hm as (Hd & _).
  unfold max_level. rewrite E. change (fle inf f0) with false. cbv iota.
  change (fdiv (B754_finite false mm e B) inf) with (B754_zero false : f64).
  destruct Hd as [-> | ->]; reflexivity.
Qed.
Lemma fle_inf_r x : number x -> fle x inf = true.
Proof. destruct x as [s|[]| |[] ? ? ?]; intros H; try discriminate; reflexivity. Qed.
Lemma fle_inf_l x : finite x -> fle inf x = false.
Proof. destruct x as [s|[]| |[] ? ? ?]; intros H; try discriminate; reflexivity. Qed.
