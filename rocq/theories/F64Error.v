(** Rounding errors of the f64 operators, conversions and floor. *)
From Coq Require Import Reals Lra Lia.
From Flocq Require Import Core.
From Verif Require Import F64 F64Facts IntervalSpec F64Arith StuvModel.
Open Scope R_scope.

Lemma rnd_bpow k : (-1074 <= k)%Z -> rnd (bpow radix2 k) = bpow radix2 k.
Proof.
  intros H. apply round_generic; [apply valid_rnd_N|].
  apply generic_format_bpow. unfold FLT_exp. lia.
Qed.
Lemma rnd_opp x : rnd (- x) = - rnd x.
Proof. apply round_NE_opp. Qed.

Lemma rnd_err z k : (-1000 <= k)%Z -> Rabs z <= bpow radix2 k -> Rabs (rnd z - z) <= bpow radix2 (k - 53).
Proof.
  intros Hk Hz.
  destruct (Rle_lt_or_eq_dec _ _ Hz) as [L|E].
  - eapply Rle_trans; [apply error_le_half_ulp; apply FLT_exp_valid; reflexivity|].
    assert (U : ulp radix2 (FLT_exp (-1074) 53) z <= bpow radix2 (k - 52)).
    { destruct (Req_dec z 0) as [->|N].
      - unfold ulp. rewrite Req_bool_true by reflexivity.
        destruct (negligible_exp_FLT (-1074) 53) as (n & -> & Hn). apply bpow_le. unfold FLT_exp. lia.
      - rewrite ulp_neq_0 by auto. apply bpow_le. unfold cexp, FLT_exp.
        pose proof (mag_le_bpow radix2 z k N L). lia. }
    replace (k - 52)%Z with (1 + (k - 53))%Z in U by lia. rewrite bpow_plus in U.
    change (bpow radix2 1) with 2 in U. lra.
  - assert (rnd z = z) as ->.
    { unfold Rabs in E. destruct (Rcase_abs z).
      - replace z with (- bpow radix2 k) by lra. rewrite rnd_opp, rnd_bpow by lia. reflexivity.
      - rewrite E. apply rnd_bpow. lia. }
    rewrite Rminus_eq_0, Rabs_R0. apply bpow_ge_0.
Qed.

(* an operation whose exact value is at most 2^k returns it with error at most 2^(k-53) *)
Lemma result_near z r k : (-1000 <= k <= 1000)%Z -> result z r -> Rabs r <= bpow radix2 k ->
  finite z /\ B2R z = rnd r /\ Rabs (B2R z - r) <= bpow radix2 (k - 53).
Proof.
  intros Hk Hr Hb. pose proof (rnd_err r k ltac:(lia) Hb) as E.
  destruct Hr as [(F & V & _)|(s & _ & L & _)].
  - rewrite V. auto.
  - exfalso. assert (Rabs (rnd r) <= bpow radix2 k + bpow radix2 (k - 53)).
    { replace (rnd r) with ((rnd r - r) + r) by ring. eapply Rle_trans; [apply Rabs_triang|]. lra. }
    assert (bpow radix2 (k - 53) <= bpow radix2 k) by (apply bpow_le; lia).
    assert (bpow radix2 (1 + k) <= bpow radix2 1001) by (apply bpow_le; lia).
    rewrite bpow_plus in H1. change (bpow radix2 1) with 2 in H1.
    assert (bpow radix2 1001 < bpow radix2 1024) by (apply bpow_lt; lia). lra.
Qed.

(* exact results *)
Lemma result_exact z r (x : f64) : result z r -> r = B2R x -> finite z /\ B2R z = r.
Proof.
  intros Hr ->. destruct Hr as [(F & V & _)|(s & _ & L & _)].
  - rewrite V. split; auto. apply rnd_fix.
  - exfalso. rewrite rnd_fix in L. pose proof (B2R_max x). lra.
Qed.
Lemma result_format z r m e : result z r -> (Z.abs m <= 2 ^ 53)%Z -> (-1074 <= e <= 900)%Z ->
  r = IZR m * bpow radix2 e -> finite z /\ B2R z = r.
Proof.
  intros Hr Hm He ->.
  assert (G : rnd (IZR m * bpow radix2 e) = IZR m * bpow radix2 e).
  { destruct (Z.eq_dec (Z.abs m) (2 ^ 53)) as [E|N].
    - assert (m = 2 ^ 53 \/ m = - 2 ^ 53)%Z as [-> | ->] by lia.
      + change (IZR (2 ^ 53)) with (bpow radix2 53). rewrite <- bpow_plus. apply rnd_bpow. lia.
      + change (IZR (- 2 ^ 53)) with (- bpow radix2 53). rewrite Ropp_mult_distr_l_reverse, <- bpow_plus.
        rewrite rnd_opp, rnd_bpow by lia. reflexivity.
    - apply round_generic; [apply valid_rnd_N|]. apply generic_format_FLT.
      exists (Float radix2 m e); [reflexivity|cbn [Fnum]; change (radix2 ^ 53)%Z with (2 ^ 53)%Z; lia|cbn [Fexp]; lia]. }
  destruct Hr as [(F & V & _)|(s & _ & L & _)]; [rewrite V; auto|exfalso].
  rewrite G in L. rewrite Rabs_mult, <- abs_IZR in L. rewrite (Rabs_pos_eq (bpow _ _)) in L by apply bpow_ge_0.
  apply IZR_le in Hm. change (IZR (2 ^ 53)) with (bpow radix2 53) in Hm.
  assert (IZR (Z.abs m) * bpow radix2 e <= bpow radix2 53 * bpow radix2 900).
  { apply Rmult_le_compat; auto; [apply IZR_le; lia|apply bpow_ge_0|apply bpow_le; lia]. }
  rewrite <- bpow_plus in H. assert (bpow radix2 (53 + 900) < bpow radix2 1024) by (apply bpow_lt; lia). lra.
Qed.

Lemma lit_val m e : (Z.abs m <= 2 ^ 53)%Z -> (-1074 <= e <= 900)%Z ->
  finite (lit m e) /\ B2R (lit m e) = IZR m * bpow radix2 e.
Proof.
  intros Hm He. apply (result_format (lit m e) _ m e); auto.
  unfold lit, result. pose proof (binary_normalize_correct 53 1024 _ _ mode_NE m e false) as H. cbv zeta in H.
  change (F2R {| Fnum := m; Fexp := e |}) with (IZR m * bpow radix2 e) in H.
  change (round radix2 (SpecFloat.fexp 53 1024) (round_mode mode_NE) (IZR m * bpow radix2 e))
    with (rnd (IZR m * bpow radix2 e)) in H.
  destruct (Rlt_bool_spec (Rabs (rnd (IZR m * bpow radix2 e))) (bpow radix2 1024)) as [L|L].
  - left. destruct H as (A & B & _). fold f64 in *. unfold finite. rewrite A, B. auto.
  - right. apply B2SF_inf in H. pose proof (bpow_ge_0 radix2 e) as P. destruct (Rlt_bool_spec (IZR m * bpow radix2 e) 0).
    + exists true. repeat split; auto. lra.
    + exists false. repeat split; auto.
Qed.
Lemma of_int_val n : (Z.abs n <= 2 ^ 53)%Z -> finite (of_int n) /\ B2R (of_int n) = IZR n.
Proof. intros H. destruct (lit_val n 0 H ltac:(lia)) as [F V]. split; auto. unfold of_int. rewrite V. cbn. lra. Qed.

Lemma fneg_val x : finite x -> finite (fneg x) /\ B2R (fneg x) = - B2R x.
Proof. intros F. unfold finite, fneg in *. rewrite is_finite_Bopp. split; auto. apply B2R_Bopp. Qed.
Lemma fabs_val x : finite x -> finite (fabs x) /\ B2R (fabs x) = Rabs (B2R x).
Proof. intros F. unfold finite, fabs in *. rewrite is_finite_Babs. split; auto. apply B2R_Babs. Qed.

Lemma ffloor_val x : finite x -> finite (ffloor x) /\ B2R (ffloor x) = IZR (Zfloor (B2R x)).
Proof.
  intros F. unfold finite, ffloor in *. destruct (Bnearbyint_correct 53 1024 _ mode_DN x) as (V & E & _).
  fold f64 in *. rewrite E. split; auto. rewrite V. unfold round, scaled_mantissa, cexp, FIX_exp, F2R. cbn [Fnum Fexp bpow Z.opp round_mode].
  rewrite !Rmult_1_r. reflexivity.
Qed.
Lemma to_int_val lo hi x n : finite x -> B2R x = IZR n -> (lo <= n <= hi)%Z -> to_int lo hi x = n.
Proof.
  intros F V H. assert (E : Btrunc x = n).
  { apply eq_IZR. rewrite (Btrunc_correct 53 1024 _), V. unfold round, scaled_mantissa, cexp, FIX_exp, F2R. cbn [Fnum Fexp bpow Z.opp].
    rewrite !Rmult_1_r. f_equal. apply Ztrunc_IZR. }
  unfold to_int, finite in *. destruct x; try discriminate; rewrite E; lia.
Qed.
