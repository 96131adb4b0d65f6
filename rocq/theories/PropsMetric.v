(** C54: the levels the metrics of src/s2/metric.rs select. *)
From Coq Require Import ZArith Reals Lra Lia List.
From Flocq Require Import Core.
From Verif Require Import Base F64 F64Facts IntervalSpec F64Arith F64Error S1Proofs MetricModel MetricProofs.
Import ListNotations.
Open Scope Z_scope.

(** ** Specification *)

(* one or two dimensional, with a scale between 1/2 and 4; every metric of the library is *)
Definition reasonable (m : metric) : Prop :=
  (m_dim m = 1 \/ m_dim m = 2) /\ fle (lit 1 (-1)) (m_deriv m) = true /\ fle (m_deriv m) (of_int 4) = true.

Example library_metrics_reasonable : Forall reasonable all_metrics.
Proof. unfold all_metrics. repeat constructor; (now left) || (now right) || (vm_compute; reflexivity). Qed.

(* the least / greatest level of a set of levels; [d] when the set is empty *)
Definition least_level (P : Z -> Prop) (d L : Z) : Prop :=
  0 <= L <= 30 /\ (forall l, 0 <= l <= 30 -> P l -> L <= l) /\
  (P L \/ L = d /\ forall l, 0 <= l <= 30 -> ~ P l).
Definition greatest_level (P : Z -> Prop) (d L : Z) : Prop :=
  0 <= L <= 30 /\ (forall l, 0 <= l <= 30 -> P l -> l <= L) /\
  (P L \/ L = d /\ forall l, 0 <= l <= 30 -> ~ P l).

Lemma reasonable_good m : reasonable m -> Good m.
Proof.
  intros (D & A & B). split; [exact D|].
  assert (F : finite (m_deriv m)).
  { destruct (m_deriv m) as [s|[]| |s mm e Bd]; try discriminate; reflexivity. }
  destruct (of_int_val 4 ltac:(lia)) as [F4 V4]. destruct (lit_val 1 (-1) ltac:(lia) ltac:(lia)) as [F1 V1].
  split; [exact F|]. destruct (fle_R (lit 1 (-1)) (m_deriv m) F1 F) as [G|G]; try discriminate.
  destruct (fle_R (m_deriv m) (of_int 4) F F4) as [K|K]; try discriminate.
  rewrite V4 in K. rewrite V1 in G. change (bpow radix2 2) with 4%R. lra.
Qed.

(** ** The value of a metric is exact: it halves (or quarters) from level to level *)
Theorem C54_value m L : reasonable m -> 0 <= L <= 255 ->
  is_finite (value m L) = true /\
  B2R (value m L) = (B2R (m_deriv m) / IZR (2 ^ (m_dim m * L)))%R.
Proof.
  intros H HL. apply reasonable_good in H. destruct (value_val m L H HL) as [F V]. split; [exact F|].
  rewrite V. unfold Rdiv. f_equal.
  replace (- m_dim m * L) with (- (m_dim m * L)) by ring. rewrite bpow_opp. f_equal.
  symmetry. apply (IZR_Zpower radix2). destruct H as ([-> | ->] & _); lia.
Qed.
Print Assumptions C54_value.
Example C54_value_ex : feq (value AVG_ANGLE_SPANMETRIC 1) (fdiv PI64 (of_int 4)) = true /\
  feq (value MIN_AREAMETRIC 2) (fdiv (m_deriv MIN_AREAMETRIC) (of_int 16)) = true.
Proof. split; vm_compute; reflexivity. Qed.

(** ** max_level is right for every value that is not NaN *)
Theorem C54_max_level m val : reasonable m -> is_nan val = false ->
  exists L, max_level m val = Some L /\
    greatest_level (fun l => fge (value m l) val = true) 0 L.
Proof.
  intros Hr N. pose proof (reasonable_good m Hr) as Hm.
  assert (FV : forall l, 0 <= l <= 30 -> finite (value m l)) by (intros; apply value_val; auto; lia).
  assert (PV : forall l, 0 <= l <= 30 -> (0 < B2R (value m l))%R).
  { intros l Hl. pose proof (value_ge m l Hm Hl). pose proof (bpow_gt_0 radix2 (-100)). lra. }
  unfold fge. destruct (fle val f0) eqn:E.
  - exists 30. unfold max_level. rewrite E. split; [reflexivity|].
    assert (A : forall l, 0 <= l <= 30 -> fle val (value m l) = true).
    { intros l Hl. pose proof (finite_number _ (FV l Hl)) as Nl.
      rewrite fle_rank in E by (assumption || reflexivity). rewrite fle_rank by assumption. apply Z.leb_le in E. apply Z.leb_le.
      change (rank f0) with 0 in E. pose proof (PV l Hl) as P. rewrite rank_R in P by apply (FV l Hl).
      pose proof bpow_m1074_pos. assert (0 < IZR (rank (value m l)))%R by (apply Rnot_le_lt; intros Q; nra).
      apply lt_IZR in H0. lia. }
    repeat split; try lia. left. apply A. lia.
  - destruct val as [s|s| |s mm e B]; try discriminate.
    + destruct s; [discriminate|]. exists 0. split; [apply max_level_inf; auto|].
      assert (A : forall l, 0 <= l <= 30 -> fle inf (value m l) <> true).
      { intros l Hl. rewrite fle_inf_l by (apply FV; auto). discriminate. }
      repeat split; try lia.
      * intros l Hl H. destruct (A l Hl H).
      * right. split; auto.
    + set (val := B754_finite s mm e B : f64) in *. assert (Fv : finite val) by reflexivity.
      destruct (fle_R val f0 Fv eq_refl) as [G|G]; try discriminate. change (B2R f0) with 0%R in G.
      destruct (max_level_spec m val Hm Fv ltac:(lra)) as (L & EL & RL & Mx & Mn).
      exists L. split; [exact EL|].
      assert (I : forall l, 0 <= l <= 30 -> (fle val (value m l) = true <-> (B2R val <= B2R (value m l))%R)).
      { intros l Hl. destruct (fle_R val (value m l) Fv (FV l Hl)); split; auto; try discriminate; tauto. }
      repeat split; try lia.
      * intros l Hl H. apply I in H; auto.
      * destruct Mn as [-> | Mn]; [|left; apply I; auto].
        destruct (fle val (value m 0)) eqn:E0; [left; reflexivity|right]. split; [reflexivity|].
        intros l Hl H. pose proof (Mx l Hl ltac:(apply I; auto)). assert (l = 0) by lia. congruence.
Qed.
Print Assumptions C54_max_level.
Example C54_max_level_ex : max_level MIN_WIDTHMETRIC (value MIN_WIDTHMETRIC 12) = Some 12 /\
  max_level MIN_AREAMETRIC (value MIN_AREAMETRIC 7) = Some 7 /\ max_level MIN_AREAMETRIC (of_int 50) = Some 0.
Proof. repeat split; vm_compute; reflexivity. Qed.

(** ** min_level is right for one dimensional metrics and values that are negative or at least 2^-1072.
    Missing: areas, and 0, NaN and the few values below 2^-1072; see below. *)
Theorem C54_min_level_partial m val : reasonable m -> m_dim m = 1 ->
  flt val f0 = true \/ fge val (lit 1 (-1072)) = true ->
  exists L, min_level m val = Some L /\
    least_level (fun l => fle (value m l) val = true) 30 L.
Proof.
  intros Hr D Hv. pose proof (reasonable_good m Hr) as Hm.
  assert (FV : forall l, 0 <= l <= 30 -> finite (value m l)) by (intros; apply value_val; auto; lia).
  assert (PV : forall l, 0 <= l <= 30 -> (0 < B2R (value m l))%R).
  { intros l Hl. pose proof (value_ge m l Hm Hl). pose proof (bpow_gt_0 radix2 (-100)). lra. }
  assert (N : number val).
  { unfold fge in Hv. destruct val as [s|s| |s mm e B]; try reflexivity. destruct Hv; discriminate. }
  destruct (flt val f0) eqn:E.
  - exists 30. unfold min_level. rewrite E. split; [reflexivity|].
    assert (A : forall l, 0 <= l <= 30 -> fle (value m l) val <> true).
    { intros l Hl H. pose proof (finite_number _ (FV l Hl)) as Nl.
      rewrite flt_rank in E by (assumption || reflexivity). rewrite fle_rank in H by assumption. apply Z.ltb_lt in E. apply Z.leb_le in H.
      change (rank f0) with 0 in E. pose proof (PV l Hl) as P. rewrite rank_R in P by apply (FV l Hl).
      pose proof bpow_m1074_pos. assert (0 < IZR (rank (value m l)))%R by (apply Rnot_le_lt; intros Q; nra).
      apply lt_IZR in H1. lia. }
    split; [lia|]. split.
    + intros l Hl H. destruct (A l Hl H).
    + right. split; auto.
  - destruct Hv as [|Hv]; [discriminate|]. unfold fge in Hv.
    destruct (lit_val 1 (-1072) ltac:(lia) ltac:(lia)) as [F1 V1].
    assert (T : (finite val /\ (bpow radix2 (-1072) <= B2R val)%R) \/ val = inf).
    { destruct val as [s|s| |s mm e B]; try discriminate.
      - destruct s; [discriminate|right; reflexivity].
      - left. split; [reflexivity|]. destruct (fle_R (lit 1 (-1072)) (B754_finite s mm e B) F1 eq_refl) as [G|G]; try discriminate.
        rewrite V1 in G. lra. }
    destruct T as [[Fv Pv] | ->].
    + assert (I : forall l, 0 <= l <= 30 -> (fle (value m l) val = true <-> (B2R (value m l) <= B2R val)%R)).
      { intros l Hl. destruct (fle_R (value m l) val (FV l Hl) Fv); split; auto; try discriminate; tauto. }
      destruct (Rle_or_lt (bpow radix2 (-1000)) (B2R val)) as [G|G].
      * destruct (min_level_spec m val Hm Fv G) as (L & EL & RL & Mx & Mn). rewrite D in Mn. change (1 =? 1) with true in Mn.
        cbv iota in Mn. rewrite Rmult_1_l in Mn. exists L. split; [exact EL|]. split; [lia|]. split.
        -- intros l Hl H. apply I in H; auto.
        -- destruct Mn as [-> | Mn]; [|left; apply I; auto].
           destruct (fle (value m 30) val) eqn:E0; [left; reflexivity|right]. split; [reflexivity|].
           intros l Hl H. pose proof (Mx l Hl ltac:(apply I; auto)). assert (l = 30) by lia. congruence.
      * exists 30. split; [apply min_level_tiny; auto|].
        assert (A : forall l, 0 <= l <= 30 -> fle (value m l) val <> true).
        { intros l Hl H. apply I in H; auto. pose proof (value_ge m l Hm Hl).
          assert (bpow radix2 (-1000) < bpow radix2 (-100))%R by (apply bpow_lt; lia). lra. }
        split; [lia|]. split.
        -- intros l Hl H. destruct (A l Hl H).
        -- right. split; auto.
    + exists 0. split; [apply min_level_inf; auto|].
      assert (A : fle (value m 0) inf = true) by (apply fle_inf_r, finite_number, FV; lia).
      split; [lia|]. split; [lia|]. left. exact A.
Qed.
Print Assumptions C54_min_level_partial.
Example C54_min_level_partial_ex :
  reasonable MAX_DIAGMETRIC /\ m_dim MAX_DIAGMETRIC = 1 /\ fge (lit 1 (-10)) (lit 1 (-1072)) = true /\
  min_level MAX_DIAGMETRIC (lit 1 (-10)) = Some 12 /\
  min_level MAX_DIAGMETRIC (value MAX_DIAGMETRIC 12) = Some 12.
Proof. repeat split; try (now left); vm_compute; reflexivity. Qed.

(** For areas min_level never overshoots, and the level it returns has at most twice the
    requested value, unless it is 30.  Missing: "at most the requested value", which is false. *)
Theorem C54_min_level_area_partial m val : reasonable m ->
  fge val (lit 1 (-1000)) = true -> is_finite val = true ->
  exists L, min_level m val = Some L /\ 0 <= L <= 30 /\
    (forall l, 0 <= l <= 30 -> fle (value m l) val = true -> L <= l) /\
    (L = 30 \/ (B2R (value m L) <= 2 * B2R val)%R).
Proof.
  intros Hr Hv Fv. pose proof (reasonable_good m Hr) as Hm. unfold fge in Hv.
  destruct (lit_val 1 (-1000) ltac:(lia) ltac:(lia)) as [F1 V1].
  destruct (fle_R (lit 1 (-1000)) val F1 Fv) as [G|G]; try discriminate. rewrite V1 in G.
  pose proof (bpow_gt_0 radix2 (-1000)) as P.
  destruct (min_level_spec m val Hm Fv ltac:(lra)) as (L & EL & RL & Mx & Mn).
  exists L. split; [exact EL|]. split; [exact RL|]. split.
  - intros l Hl H. apply Mx; auto. assert (FV : finite (value m l)) by (apply value_val; auto; lia).
    destruct (fle_R (value m l) val FV Fv); auto; discriminate.
  - destruct Mn as [-> | Mn]; [left; reflexivity|right]. destruct (m_dim m =? 1); lra.
Qed.
Print Assumptions C54_min_level_area_partial.
Example C54_min_level_area_partial_ex :
  reasonable AVG_AREAMETRIC /\ min_level AVG_AREAMETRIC (fdiv (m_deriv AVG_AREAMETRIC) (of_int 16)) = Some 2.
Proof. repeat split; try (now right); vm_compute; reflexivity. Qed.

(** ** Where min_level is wrong *)

(* the unary minus binds tighter than the shift, so odd exponents are rounded the wrong way:
   asking for cells of at most half of the area of a face returns level 0, the faces themselves *)
Theorem C54_min_level_area_refuted :
  let m := AVG_AREAMETRIC in let val := fdiv (value m 0) f2 in
  In m all_metrics /\ min_level m val = Some 0 /\ fle (value m 0) val = false /\ fle (value m 1) val = true.
Proof.
  cbv zeta. split; [|split; [|split]]; [|vm_compute; reflexivity..].
  unfold all_metrics. do 10 right. left. reflexivity.
Qed.
Print Assumptions C54_min_level_area_refuted.

(* with overflow checks, min_level(0.) panics for every metric: - i32::MIN *)
Theorem C54_min_level_zero_refuted m : reasonable m -> min_level m f0 = None.
Proof. intros H. apply min_level_zero, reasonable_good, H. Qed.
Print Assumptions C54_min_level_zero_refuted.
Example C54_min_level_zero_ex : min_level MAX_DIAGMETRIC (lit 1 (-1074)) = None.
Proof. vm_compute. reflexivity. Qed.
