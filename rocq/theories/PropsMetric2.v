(** C109: the level a metric calls closest. *)
From Coq Require Import ZArith Reals Lra Lia Psatz List.
From Flocq Require Import Core Relative.
From Verif Require Import Base F64 F64Facts IntervalSpec F64Arith F64Error S1Proofs ChordProofs MetricModel MetricProofs PropsMetric.
Import ListNotations.
Open Scope R_scope.

Lemma sqrt2_num : 141421356237309504 / 100000000000000000 < sqrt 2 < 141421356237309505 / 100000000000000000.
Proof. pose proof (sqrt_sqrt 2 ltac:(lra)). pose proof (sqrt_pos 2). split; nra. Qed.
Lemma SQRT_2_val : finite SQRT_2 /\ B2R SQRT_2 = 6369051672525773 / 4503599627370496.
Proof. destruct (lit_val 0x16A09E667F3BCD (-52) ltac:(lia) ltac:(lia)) as [F V]. split; [exact F|]. unfold SQRT_2. rewrite V. change (bpow radix2 (-52)) with (/ 4503599627370496). reflexivity. Qed.

(* the factor of the code: the square root of the ratio of the values at neighbouring levels *)
Definition root_ratio (m : metric) : R := if (m_dim m =? 2)%Z then 2 else sqrt 2.
Lemma closest_arg m val : reasonable m -> finite val -> bpow radix2 (-900) <= B2R val <= bpow radix2 900 ->
  let z := fmul (if (m_dim m =? 2)%Z then f2 else SQRT_2) val in
  finite z /\ Rabs (B2R z - root_ratio m * B2R val) <= B2R val / 2 ^ 51.
Proof.
  intros _ Fv [B1 B2]. cbv zeta. pose proof (bpow_gt_0 radix2 (-900)) as P0. set (x := if (m_dim m =? 2)%Z then f2 else SQRT_2).
  assert (HX : finite x /\ 1 <= B2R x <= 2 /\ Rabs (B2R x - root_ratio m) <= / 2 ^ 53).
  { unfold x, root_ratio. destruct (m_dim m =? 2)%Z.
    - destruct f2_val as [F V]. rewrite V. split; [exact F|]. split; [lra|]. replace (2 - 2) with 0 by ring. rewrite Rabs_R0. lra.
    - destruct SQRT_2_val as [F V]. rewrite V. split; [exact F|]. pose proof sqrt2_num. split; [lra|apply Rabs_le; lra]. }
  destruct HX as (Fx & BX & EX). pose proof (fmul_result x val Fx Fv) as R.
  assert (PX : 0 < B2R x * B2R val <= bpow radix2 901). { change (bpow radix2 901) with (bpow radix2 (1 + 900)). rewrite bpow_plus. change (bpow radix2 1) with 2. nra. }
  assert (RE : Rabs (rnd (B2R x * B2R val) - B2R x * B2R val) <= / 2 ^ 53 * (B2R x * B2R val)).
  { pose proof (relative_error_N_FLT radix2 (-1074) 53 ltac:(lia) (fun x => negb (Z.even x)) (B2R x * B2R val)) as E. change (/ 2 * bpow radix2 (- (53) + 1)) with (/ 2 * / 4503599627370496) in E.
    eapply Rle_trans; [apply E|rewrite (Rabs_pos_eq (B2R x * B2R val)) by lra; lra]. rewrite Rabs_pos_eq by lra. apply Rle_trans with (bpow radix2 (-900)); [apply bpow_le; lia|nra]. }
  assert (OV : Rabs (rnd (B2R x * B2R val)) < bpow radix2 1024).
  { apply Rle_lt_trans with (bpow radix2 902); [|apply bpow_lt; lia]. change (bpow radix2 902) with (bpow radix2 (1 + 901)). rewrite bpow_plus. change (bpow radix2 1) with 2. apply Rabs_le_inv in RE. apply Rabs_le. lra. }
  destruct R as [(F & V & _)|(s & _ & C & _)]; [|lra]. split; [exact F|]. rewrite V. apply Rabs_le_inv in RE, EX. apply Rabs_le. split; nra.
Qed.

Lemma level_step m l : reasonable m -> (1 <= l <= 30)%Z -> B2R (value m (l - 1)) = root_ratio m * root_ratio m * B2R (value m l).
Proof.
  intros R H. destruct (C54_value m l R ltac:(lia)) as [_ V]. destruct (C54_value m (l - 1) R ltac:(lia)) as [_ V']. rewrite V, V'. destruct R as (D & _). unfold root_ratio.
  assert (PW : IZR (2 ^ (m_dim m * (l - 1))) <> 0) by (apply not_0_IZR; apply Z.pow_nonzero; lia).
  replace (2 ^ (m_dim m * l))%Z with (2 ^ m_dim m * 2 ^ (m_dim m * (l - 1)))%Z by (rewrite <- Z.pow_add_r by lia; f_equal; lia). rewrite mult_IZR.
  destruct D as [D | D]; rewrite D in *; cbn [Z.eqb Pos.eqb]; [rewrite sqrt_sqrt by lra; change (IZR (2 ^ 1)) with 2|change (IZR (2 ^ 2)) with 4]; field; exact PW.
Qed.

(* For lengths the value at the level returned is within a factor of the square root of two
   of the value asked for, unless that is below the value at level 30 or above that at 0. *)
Theorem C109_closest_partial : forall m val, reasonable m -> m_dim m = 1%Z -> is_finite val = true -> bpow radix2 (-900) <= B2R val <= bpow radix2 900 ->
  exists L, closest_level m val = Some L /\ (0 <= L <= 30)%Z /\
    (L = 30%Z \/ B2R (value m L) <= sqrt 2 * B2R val * (1 + 1 / 2 ^ 51)) /\
    (L = 0%Z \/ B2R val * (1 - 1 / 2 ^ 51) <= sqrt 2 * B2R (value m L)).
Proof.
  intros m val R D Fv B. destruct (closest_arg m val R Fv B) as [F E]. cbv zeta in *. unfold closest_level. unfold root_ratio in E. rewrite D in *. cbn [Z.eqb Pos.eqb] in *. set (z := fmul SQRT_2 val) in *.
  apply Rabs_le_inv in E. pose proof sqrt2_num as S. pose proof (bpow_gt_0 radix2 (-900)) as P0.
  destruct (min_level_spec m z (reasonable_good m R) F) as (L & EL & RL & Mn & Mx). { apply Rle_trans with (bpow radix2 (-900)); [apply bpow_le; lia|nra]. }
  rewrite D in Mx. cbn [Z.eqb Pos.eqb] in Mx. exists L. split; [exact EL|]. split; [exact RL|]. split.
  - destruct Mx as [M|M]; [left; exact M|right; nra].
  - destruct (Z.eq_dec L 0) as [Z0|Z0]; [left; exact Z0|right]. pose proof (level_step m L R ltac:(lia)) as ST. unfold root_ratio in ST. rewrite D in ST. cbn [Z.eqb Pos.eqb] in ST. rewrite sqrt_sqrt in ST by lra.
    assert (G : B2R z < B2R (value m (L - 1))) by (apply Rnot_le_lt; intros C; specialize (Mn (L - 1)%Z ltac:(lia) C); lia).
    rewrite ST in G. pose proof (sqrt_sqrt 2 ltac:(lra)) as SS. apply Rmult_le_reg_l with (sqrt 2); [lra|]. replace (sqrt 2 * (sqrt 2 * B2R (value m L))) with (2 * B2R (value m L)) by (rewrite <- Rmult_assoc, SS; ring). nra.
Qed.
Print Assumptions C109_closest_partial.
(* In particular the closest level to the value at a level is that level. *)
Theorem C109_closest_own_partial : forall m l, reasonable m -> m_dim m = 1%Z -> (0 <= l <= 30)%Z -> closest_level m (value m l) = Some l.
Proof.
  intros m l R D Hl. destruct (C54_value m l R ltac:(lia)) as [Fv V]. pose proof (reasonable_good m R) as (_ & _ & G1 & G2).
  assert (P : forall k, (0 <= k <= 30)%Z -> 0 < B2R (value m k)).
  { intros k Hk. destruct (C54_value m k R ltac:(lia)) as [_ ->]. apply Rdiv_lt_0_compat; [pose proof (bpow_gt_0 radix2 (-1)); lra|]. apply IZR_lt, Z.pow_pos_nonneg; lia. }
  assert (SM : forall j k, (0 <= j < k)%Z -> (k <= 30)%Z -> 2 * B2R (value m k) <= B2R (value m j)).
  { intros j k Hj Hk. replace k with (j + 1 + Z.of_nat (Z.to_nat (k - j - 1)))%Z by lia. assert (K : (j + 1 + Z.of_nat (Z.to_nat (k - j - 1)) <= 30)%Z) by lia. revert K. induction (Z.to_nat (k - j - 1)) as [|n IH]; intros K.
    - pose proof (level_step m (j + 1) R ltac:(lia)) as ST. unfold root_ratio in ST. rewrite D in ST. cbn [Z.eqb Pos.eqb] in ST. rewrite sqrt_sqrt in ST by lra. replace (j + 1 - 1)%Z with j in ST by lia. replace (j + 1 + Z.of_nat 0)%Z with (j + 1)%Z by lia. lra.
    - specialize (IH ltac:(lia)). pose proof (level_step m (j + 1 + Z.of_nat (S n)) R ltac:(lia)) as ST. unfold root_ratio in ST. rewrite D in ST. cbn [Z.eqb Pos.eqb] in ST. rewrite sqrt_sqrt in ST by lra.
      replace (j + 1 + Z.of_nat (S n) - 1)%Z with (j + 1 + Z.of_nat n)%Z in ST by lia. pose proof (P (j + 1 + Z.of_nat (S n))%Z ltac:(lia)). lra. }
  assert (B : bpow radix2 (-900) <= B2R (value m l) <= bpow radix2 900).
  { pose proof (value_ge m l (reasonable_good m R) Hl) as LB. split; [eapply Rle_trans; [|exact LB]; apply bpow_le; lia|].
    rewrite V. apply Rle_trans with (bpow radix2 2); [|apply bpow_le; lia]. assert (1 <= IZR (2 ^ (m_dim m * l))) by (apply IZR_le; rewrite D; pose proof (Z.pow_pos_nonneg 2 (1 * l)); lia).
    apply Rmult_le_reg_r with (IZR (2 ^ (m_dim m * l))); [lra|]. unfold Rdiv. rewrite Rmult_assoc, Rinv_l by lra. pose proof (bpow_gt_0 radix2 2). nra. }
  destruct (C109_closest_partial m (value m l) R D Fv B) as (L & E & RL & U & Lo). rewrite E. f_equal. pose proof sqrt2_num as S.
  destruct (Z.lt_trichotomy L l) as [C|[C|C]]; [|exact C|]; exfalso.
  - destruct U as [U|U]; [lia|]. pose proof (SM L l ltac:(lia) ltac:(lia)) as Q. pose proof (P l Hl). nra.
  - destruct Lo as [Lo|Lo]; [lia|]. pose proof (SM l L ltac:(lia) ltac:(lia)) as Q. pose proof (P L RL). nra.
Qed.
Print Assumptions C109_closest_own_partial.
(* For areas it is false of the code: by the order of the shift and the minus in min_level,
   half of the levels are never found; the closest level to the area at level 1 is said to be 0. *)
Theorem C109_closest_area_refuted : In AVG_AREAMETRIC all_metrics /\ m_dim AVG_AREAMETRIC = 2%Z /\
  closest_level AVG_AREAMETRIC (value AVG_AREAMETRIC 1) = Some 0%Z.
Proof. split; [unfold all_metrics; do 10 right; left; reflexivity|]. split; [reflexivity|]. vm_compute. reflexivity. Qed.
Print Assumptions C109_closest_area_refuted.
Theorem C109_closest_area_partial : forall m val, reasonable m -> m_dim m = 2%Z -> is_finite val = true -> bpow radix2 (-900) <= B2R val <= bpow radix2 900 ->
  exists L, closest_level m val = Some L /\ (0 <= L <= 30)%Z /\
    (L = 30%Z \/ B2R (value m L) <= 4 * B2R val * (1 + 1 / 2 ^ 51)) /\ (L = 0%Z \/ B2R val * (1 - 1 / 2 ^ 51) <= 2 * B2R (value m L)).
Proof.
  intros m val R D Fv B. destruct (closest_arg m val R Fv B) as [F E]. cbv zeta in *. unfold closest_level. unfold root_ratio in E. rewrite D in *. cbn [Z.eqb Pos.eqb] in *. set (z := fmul f2 val) in *.
  apply Rabs_le_inv in E. pose proof (bpow_gt_0 radix2 (-900)) as P0.
  destruct (min_level_spec m z (reasonable_good m R) F) as (L & EL & RL & Mn & Mx). { apply Rle_trans with (bpow radix2 (-900)); [apply bpow_le; lia|nra]. }
  rewrite D in Mx. cbn [Z.eqb Pos.eqb] in Mx. exists L. split; [exact EL|]. split; [exact RL|]. split.
  - destruct Mx as [M|M]; [left; exact M|right; nra].
  - destruct (Z.eq_dec L 0) as [Z0|Z0]; [left; exact Z0|right]. pose proof (level_step m L R ltac:(lia)) as ST. unfold root_ratio in ST. rewrite D in ST. cbn [Z.eqb Pos.eqb] in ST.
    assert (G : B2R z < B2R (value m (L - 1))) by (apply Rnot_le_lt; intros C; specialize (Mn (L - 1)%Z ltac:(lia) C); lia). rewrite ST in G. nra.
Qed.
Print Assumptions C109_closest_area_partial.
Example C109_hyps : reasonable AVG_EDGEMETRIC /\ m_dim AVG_EDGEMETRIC = 1%Z /\ is_finite (lit 1 (-4)) = true /\ bpow radix2 (-900) <= B2R (lit 1 (-4)) <= bpow radix2 900 /\
  closest_level AVG_EDGEMETRIC (lit 1 (-4)) = Some 5%Z.
Proof.
  split; [unfold reasonable; split; [left; reflexivity|split; vm_compute; reflexivity]|]. split; [reflexivity|]. split; [reflexivity|]. split; [|vm_compute; reflexivity].
  destruct (lit_val 1 (-4) ltac:(lia) ltac:(lia)) as [_ ->]. rewrite Rmult_1_l. split; apply bpow_le; lia.
Qed.
