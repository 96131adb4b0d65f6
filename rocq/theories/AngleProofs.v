(** Remainders are exact; angles, fixed-point degrees and normalised coordinates. *)
From Coq Require Import Reals Lra Psatz.
From Flocq Require Import Core Relative Plus_error.
From Verif Require Import F64 F64Facts IntervalSpec F64Arith F64Error R1Model S1Model R1Proofs S1Proofs StuvError AngleModel.
Open Scope Z_scope.

(** ** Doubles as integers *)

Definition ranked (r : Z) : Prop := exists m a, r = m * 2 ^ a /\ Z.abs m < 2 ^ 53 /\ 0 <= a.

Lemma rank_ranked x : is_finite x = true -> ranked (rank x).
Proof.
  destruct x as [s|s| |s m e H]; cbn [is_finite]; try discriminate; intros _.
  - exists 0, 0. cbn. lia.
  - exists (cond_Zopp s (Zpos m)), (e + 1074). pose proof (finite_emin m e H). repeat split; [|lia].
    unfold SpecFloat.bounded in H. apply andb_prop in H. destruct H as [H _].
    pose proof (canonical_canonical_mantissa 53 1024 false m e H) as C.
    assert (Z.pos m < 2 ^ 53).
    { unfold SpecFloat.canonical_mantissa in H. apply Zeq_bool_eq in H. unfold SpecFloat.fexp, SpecFloat.emin in H.
      rewrite Digits.Zpos_digits2_pos in H.
      pose proof (Digits.Zpower_gt_Zdigits radix2 53 (Z.pos m)) as G. change (Zpower radix2 53) with (2 ^ 53) in G.
      assert (Z.abs (Z.pos m) < 2 ^ 53) by (apply G; lia). lia. }
    destruct s; cbn [cond_Zopp]; lia.
Qed.

Lemma lit_rank r : ranked r -> Z.abs r < 2 ^ 2098 -> finite (lit r (-1074)) /\ B2R (lit r (-1074)) = (IZR r * bpow radix2 (-1074))%R.
Proof.
  intros (m & a & -> & Hm & Ha) B.
  assert (E : (IZR (m * 2 ^ a) * bpow radix2 (-1074) = IZR m * bpow radix2 (a - 1074))%R).
  { rewrite mult_IZR. change (2 ^ a) with (Zpower radix2 a). rewrite IZR_Zpower by lia. rewrite Rmult_assoc, <- bpow_plus. reflexivity. }
  unfold lit. pose proof (binary_normalize_correct 53 1024 _ _ mode_NE (m * 2 ^ a) (-1074) false) as H. cbv zeta in H.
  change (F2R {| Fnum := m * 2 ^ a; Fexp := -1074 |}) with (IZR (m * 2 ^ a) * bpow radix2 (-1074))%R in H.
  change (round radix2 (SpecFloat.fexp 53 1024) (round_mode mode_NE) (IZR (m * 2 ^ a) * bpow radix2 (-1074)))
    with (rnd (IZR (m * 2 ^ a) * bpow radix2 (-1074))) in H.
  assert (G : rnd (IZR (m * 2 ^ a) * bpow radix2 (-1074)) = (IZR (m * 2 ^ a) * bpow radix2 (-1074))%R).
  { rewrite E. apply round_generic; [apply valid_rnd_N|]. apply generic_format_FLT.
    exists (Float radix2 m (a - 1074)); [reflexivity|cbn [Fnum]; change (radix2 ^ 53) with (2 ^ 53); lia|cbn [Fexp]; lia]. }
  rewrite G in H. destruct (Rlt_bool_spec (Rabs (IZR (m * 2 ^ a) * bpow radix2 (-1074))) (bpow radix2 1024)) as [L|L].
  - destruct H as (A & F & _). fold f64 in *. split; auto.
  - exfalso. rewrite Rabs_mult, <- abs_IZR, (Rabs_pos_eq (bpow _ _)) in L by apply bpow_ge_0.
    apply IZR_lt in B. change (2 ^ 2098) with (Zpower radix2 2098) in B. rewrite IZR_Zpower in B by lia.
    replace (bpow radix2 1024) with (bpow radix2 2098 * bpow radix2 (-1074))%R in L by (rewrite <- bpow_plus; reflexivity).
    pose proof bpow_m1074_pos. nra.
Qed.

Lemma rank_top x : is_finite x = true -> Z.abs (rank x) < 2 ^ 2098.
Proof.
  intros F. pose proof (abs_B2R_lt_emax 53 1024 x) as B. rewrite rank_R in B by auto.
  pose proof bpow_m1074_pos as P. rewrite Rabs_mult, (Rabs_pos_eq (bpow _ _)), <- abs_IZR in B by lra.
  replace (bpow radix2 1024) with (bpow radix2 2098 * bpow radix2 (-1074))%R in B by (rewrite <- bpow_plus; reflexivity).
  apply Rmult_lt_reg_r in B; auto. change (2 ^ 2098) with (Zpower radix2 2098). apply lt_IZR. rewrite IZR_Zpower by lia. exact B.
Qed.

(* X - n Y is a double when it is small enough *)
Lemma combine_ranked X Y n : ranked X -> ranked Y -> Z.abs (X - n * Y) <= Z.abs X -> Z.abs (X - n * Y) <= Z.abs Y -> ranked (X - n * Y).
Proof.
  intros (m & a & -> & Hm & Ha) (m' & b & -> & Hm' & Hb) H1 H2. destruct (Z.le_gt_cases a b) as [L|L].
  - assert (E : m * 2 ^ a - n * (m' * 2 ^ b) = (m - n * m' * 2 ^ (b - a)) * 2 ^ a).
    { replace b with (b - a + a) at 1 by lia. rewrite Z.pow_add_r by lia. ring. }
    exists (m - n * m' * 2 ^ (b - a)), a. split; [exact E|]. split; [|lia].
    rewrite E, !Z.abs_mul in H1. pose proof (Z.pow_pos_nonneg 2 a ltac:(lia) Ha). rewrite (Z.abs_eq (2 ^ a)) in H1 by lia. nia.
  - assert (E : m * 2 ^ a - n * (m' * 2 ^ b) = (m * 2 ^ (a - b) - n * m') * 2 ^ b).
    { replace a with (a - b + b) at 1 by lia. rewrite Z.pow_add_r by lia. ring. }
    exists (m * 2 ^ (a - b) - n * m'), b. split; [exact E|]. split; [|lia].
    rewrite E, !Z.abs_mul in H2. pose proof (Z.pow_pos_nonneg 2 b ltac:(lia) Hb). rewrite (Z.abs_eq (2 ^ b)) in H2 by lia. nia.
Qed.

(** ** The two remainders *)

Lemma rem_even_spec X Y : Y <> 0 -> exists n, rem_even X Y = X - n * Y /\
  2 * Z.abs (rem_even X Y) <= Z.abs Y /\ Z.abs (rem_even X Y) <= Z.abs X /\
  (2 * Z.abs (rem_even X Y) = Z.abs Y -> Z.even n = true).
Proof.
  intros H. unfold rem_even. cbv zeta. set (A := Z.abs Y). assert (HA : 0 < A) by (unfold A; lia).
  pose proof (Z.div_mod X A ltac:(lia)) as E. pose proof (Z.mod_pos_bound X A HA) as B.
  set (q := X / A) in *. set (r := X mod A) in *.
  assert (S : exists s, (s = 1 \/ s = -1) /\ A = s * Y) by (unfold A; destruct (Z.le_gt_cases 0 Y); [exists 1|exists (-1)]; split; auto; lia).
  destruct S as (s & Hs & ES).
  assert (EV : forall k, Z.even (k * s) = Z.even k) by (intros k; destruct Hs as [-> | ->]; rewrite Z.even_mul; cbn; apply orb_false_r).
  assert (R1 : r = X - (q * s) * Y) by (rewrite E at 1; rewrite ES at 1; ring_simplify; lia).
  assert (R2 : r - A = X - ((q + 1) * s) * Y) by (rewrite ES at 1; rewrite R1; ring).
  assert (X1 : 0 <= q -> r <= Z.abs X) by nia.
  assert (X2 : q < 0 -> A - r <= Z.abs X) by nia.
  assert (X3 : 0 <= q -> A <= 2 * r -> A - r <= Z.abs X) by nia.
  assert (X4 : q < 0 -> 2 * r <= A -> r <= Z.abs X) by nia.
  destruct (Z.compare_spec (2 * r) A) as [C|C|C]; [destruct (Z.even q) eqn:Q| |].
  - exists (q * s). split; [exact R1|]. rewrite (Z.abs_eq r) by lia. fold A. rewrite EV. repeat split; auto; lia.
  - exists ((q + 1) * s). split; [exact R2|]. fold A. rewrite (Z.abs_neq (r - A)) by lia. rewrite EV, Z.even_add, Q. repeat split; auto; lia.
  - exists (q * s). split; [exact R1|]. rewrite (Z.abs_eq r) by lia. fold A. repeat split; lia.
  - exists ((q + 1) * s). split; [exact R2|]. fold A. rewrite (Z.abs_neq (r - A)) by lia. repeat split; lia.
Qed.

Lemma with_rank_val x r : is_finite x = true -> ranked r -> Z.abs r < 2 ^ 2098 ->
  finite (with_rank x r) /\ B2R (with_rank x r) = (IZR r * bpow radix2 (-1074))%R.
Proof.
  intros F R B. unfold with_rank. destruct (Z.eqb_spec r 0) as [-> |N]; [|apply lit_rank; auto].
  split; [reflexivity|]. cbn [B2R]. lra.
Qed.

Lemma IZR_even n : Z.even n = true -> exists k, n = 2 * k.
Proof. intros H. apply Z.even_spec in H. exact H. Qed.

Open Scope R_scope.
Lemma rank_nz y : finite y -> B2R y <> 0 -> rank y <> 0%Z.
Proof. intros F H E. apply H. rewrite rank_R by auto. rewrite E. lra. Qed.

(* the IEEE remainder: an exact multiple of y away from x, and no further than half of y *)
Lemma fremainder_spec x y : finite x -> finite y -> B2R y <> 0 ->
  finite (fremainder x y) /\
  exists n : Z, B2R (fremainder x y) = B2R x - IZR n * B2R y /\
    2 * Rabs (B2R (fremainder x y)) <= Rabs (B2R y) /\ Rabs (B2R (fremainder x y)) <= Rabs (B2R x) /\
    (2 * Rabs (B2R (fremainder x y)) = Rabs (B2R y) -> Z.even n = true).
Proof.
  intros Fx Fy Ny. pose proof (rank_nz y Fy Ny) as Ry. unfold fremainder. unfold finite in Fx, Fy.
  rewrite Fx. replace (is_nan y) with false by (destruct y; try discriminate; auto).
  destruct (Z.eqb_spec (rank y) 0) as [|_]; [contradiction|]. cbn [negb orb]. rewrite Fy. cbn [negb].
  destruct (rem_even_spec (rank x) (rank y) Ry) as (n & E & H1 & H2 & H3).
  assert (RK : ranked (rem_even (rank x) (rank y))).
  { rewrite E. apply combine_ranked; try (apply rank_ranked; assumption); rewrite <- E; lia. }
  destruct (with_rank_val x _ Fx RK) as (F & V); [pose proof (rank_top x Fx); lia|].
  split; [exact F|]. exists n. rewrite V, !rank_R, E by assumption. rewrite minus_IZR, mult_IZR.
  pose proof bpow_m1074_pos as P.
  rewrite !Rabs_mult, (Rabs_pos_eq (bpow _ _)) by lra. rewrite <- mult_IZR, <- minus_IZR, <- E, <- !abs_IZR.
  apply IZR_le in H1, H2. rewrite mult_IZR in H1. split; [rewrite E, minus_IZR, mult_IZR; ring|].
  split; [nra|]. split; [nra|]. intros Q. apply H3. apply eq_IZR. rewrite mult_IZR. nra.
Qed.

(* fmod: truncated quotient *)
Lemma fmod_spec x y : finite x -> finite y -> B2R y <> 0 ->
  finite (fmod x y) /\
  exists n : Z, B2R (fmod x y) = B2R x - IZR n * B2R y /\ Rabs (B2R (fmod x y)) < Rabs (B2R y) /\
    Rabs (B2R (fmod x y)) <= Rabs (B2R x) /\ 0 <= B2R x * B2R (fmod x y).
Proof.
  intros Fx Fy Ny. pose proof (rank_nz y Fy Ny) as Ry. unfold fmod. unfold finite in Fx, Fy.
  rewrite Fx. replace (is_nan y) with false by (destruct y; try discriminate; auto).
  destruct (Z.eqb_spec (rank y) 0) as [|_]; [contradiction|]. cbn [negb orb]. rewrite Fy. cbn [negb].
  set (r := Z.rem (rank x) (rank y)).
  assert (E : (r = rank x - Z.quot (rank x) (rank y) * rank y)%Z).
  { unfold r. pose proof (Z.quot_rem' (rank x) (rank y)). lia. }
  assert (H1 : (Z.abs r < Z.abs (rank y))%Z) by (unfold r; apply Z.rem_bound_abs; auto).
  assert (H4 : (0 <= rank x * r)%Z).
  { unfold r. pose proof (Z.rem_sign_mul (rank x) (rank y) Ry). lia. }
  assert (H2 : (Z.abs r <= Z.abs (rank x))%Z).
  { unfold r. rewrite <- Z.rem_abs by auto. apply Z.rem_le; lia. }
  assert (RK : ranked r) by (rewrite E; apply combine_ranked; try (apply rank_ranked; assumption); rewrite <- E; lia).
  destruct (with_rank_val x _ Fx RK) as (F & V); [pose proof (rank_top x Fx); lia|].
  split; [exact F|]. exists (Z.quot (rank x) (rank y)). rewrite V, !rank_R by assumption.
  pose proof bpow_m1074_pos as P. rewrite !Rabs_mult, (Rabs_pos_eq (bpow _ _)) by lra. rewrite <- !abs_IZR.
  split; [rewrite E, minus_IZR, mult_IZR; ring|]. apply IZR_lt in H1. apply IZR_le in H2, H4. rewrite mult_IZR in H4.
  split; [nra|]. split; [nra|]. assert (0 < bpow radix2 (-1074) * bpow radix2 (-1074)) by nra. nra.
Qed.

(** ** Constants *)

Lemma pi_num : pi = 884279719003555 / 281474976710656.
Proof.
  rewrite <- pi_val. destruct (lit_val 7074237752028440 (-51) ltac:(lia) ltac:(lia)) as [_ V]. fold PI64 in V. rewrite V.
  change (bpow radix2 (-51)) with (/ 2251799813685248). lra.
Qed.
Lemma pi_bounds : 314159265358979 / 100000000000000 < pi < 314159265358980 / 100000000000000.
Proof. rewrite pi_num. lra. Qed.
Lemma f2_val' : finite f2 /\ B2R f2 = 2. Proof. exact (of_int_val 2 ltac:(lia)). Qed.
Lemma two_pi_lit : finite (lit 884279719003555 (-47)) /\ B2R (lit 884279719003555 (-47)) = 2 * pi.
Proof.
  destruct (lit_val 884279719003555 (-47) ltac:(lia) ltac:(lia)) as [F V]. split; auto. rewrite V, pi_num.
  change (bpow radix2 (-47)) with (/ 140737488355328). lra.
Qed.
Lemma TWOPI_val : finite TWOPI /\ B2R TWOPI = 2 * pi.
Proof.
  destruct f2_val' as [F2 V2]. pose proof (fmul_result f2 PI64 F2 PI64_finite) as R. rewrite V2, pi_val in R.
  destruct two_pi_lit as [_ V]. rewrite <- V in R |- *. exact (result_exact _ _ _ R eq_refl).
Qed.
Lemma TWOPI_val' : finite (fmul PI64 f2) /\ B2R (fmul PI64 f2) = 2 * pi.
Proof.
  destruct f2_val' as [F2 V2]. pose proof (fmul_result PI64 f2 PI64_finite F2) as R. rewrite V2, pi_val in R.
  destruct two_pi_lit as [_ V]. rewrite (Rmult_comm pi 2), <- V in R. rewrite <- V. exact (result_exact _ _ _ R eq_refl).
Qed.
Lemma half_pi_lit : finite (lit 884279719003555 (-49)) /\ B2R (lit 884279719003555 (-49)) = pi / 2.
Proof.
  destruct (lit_val 884279719003555 (-49) ltac:(lia) ltac:(lia)) as [F V]. split; auto. rewrite V, pi_num.
  change (bpow radix2 (-49)) with (/ 562949953421312). lra.
Qed.
Lemma FRAC_PI_2_val : finite FRAC_PI_2 /\ B2R FRAC_PI_2 = pi / 2.
Proof.
  destruct f2_val' as [F2 V2]. pose proof (fdiv_result PI64 f2 PI64_finite F2 ltac:(rewrite V2; lra)) as R. rewrite V2, pi_val in R.
  destruct half_pi_lit as [_ V]. rewrite <- V in R |- *. exact (result_exact _ _ _ R eq_refl).
Qed.

(** ** Angle::normalized *)

Lemma angle_normalized_spec a : finite a ->
  finite (angle_normalized a) /\ 0 <= B2R (angle_normalized a) <= 2 * pi /\
  (exists n : Z, Rabs (B2R (angle_normalized a) - (B2R a - 2 * pi * IZR n)) <= bpow radix2 (-51) /\
     (0 <= B2R a -> B2R (angle_normalized a) = B2R a - 2 * pi * IZR n /\ B2R (angle_normalized a) < 2 * pi)) /\
  (0 <= B2R a < 2 * pi -> B2R (angle_normalized a) = B2R a).
Proof.
  intros Fa. destruct TWOPI_val as [FT VT]. pose proof pi_bounds as PB.
  destruct (fmod_spec a TWOPI Fa FT ltac:(rewrite VT; lra)) as (F & n & E & H1 & H2 & H3). rewrite VT in E, H1.
  rewrite (Rabs_pos_eq (2 * pi)) in H1 by lra. apply Rabs_def2 in H1.
  unfold angle_normalized. cbv zeta. set (r := fmod a TWOPI) in *.
  destruct (flt_R r f0 F eq_refl) as [L|L]; change (B2R f0) with 0 in L.
  - pose proof (fadd_result r TWOPI F FT) as R. rewrite VT in R.
    assert (A8 : Rabs (B2R r + 2 * pi) <= pow2 3) by (change (pow2 3) with 8; rewrite Rabs_pos_eq; lra).
    destruct (result_half _ _ 3 ltac:(lia) R A8) as (Fz & Vz & Ez).
    assert (NEG : ~ 0 <= B2R a).
    { intros Pa. rewrite (Rabs_left (B2R r)) in H2 by lra. rewrite Rabs_pos_eq in H2 by lra. nra. }
    destruct two_pi_lit as [_ V2]. split; [exact Fz|]. split; [|split].
    + rewrite Vz. split; [apply (rnd_lower f0); [reflexivity|lra]|apply (rnd_upper _ _ _ V2); lra].
    + exists (n - 1)%Z. rewrite minus_IZR. split.
      * replace (B2R (fadd r TWOPI) - (B2R a - 2 * pi * (IZR n - 1))) with (B2R (fadd r TWOPI) - (B2R r + 2 * pi)) by (rewrite E; ring).
        change (3 - 54)%Z with (-51)%Z in Ez. exact Ez.
      * intros Pa. exfalso. apply NEG. exact Pa.
    + intros Pa. exfalso. apply NEG. lra.
  - split; [exact F|]. split; [lra|]. split.
    + exists n. replace (B2R r - (B2R a - 2 * pi * IZR n)) with 0 by (rewrite E; ring). rewrite Rabs_R0. split; [apply bpow_ge_0|].
      intros _. split; [rewrite E; ring|lra].
    + intros Pa. assert (n = 0)%Z as ->; [|rewrite E; lra].
      assert (-1 < IZR n < 1) by nra. destruct H as [A B]. apply lt_IZR in A, B. lia.
Qed.

(** ** Fixed point *)

Lemma fround_val x : finite x -> finite (fround x) /\ B2R (fround x) = IZR (ZnearestA (B2R x)).
Proof.
  intros F. unfold finite, fround in *. destruct (Bnearbyint_correct 53 1024 _ mode_NA x) as (V & E & _).
  fold f64 in *. rewrite E. split; auto. rewrite V. unfold round, scaled_mantissa, cexp, FIX_exp, F2R. cbn [Fnum Fexp bpow Z.opp round_mode].
  rewrite !Rmult_1_r. reflexivity.
Qed.
Lemma fround_inf s : fround (B754_infinity s) = B754_infinity s.
Proof. reflexivity. Qed.
Lemma to_int_sat lo hi x n : finite x -> B2R x = IZR n -> to_int lo hi x = Z.max lo (Z.min hi n).
Proof.
  intros F V. assert (E : Btrunc x = n).
  { apply eq_IZR. rewrite (Btrunc_correct 53 1024 _), V. unfold round, scaled_mantissa, cexp, FIX_exp, F2R. cbn [Fnum Fexp bpow Z.opp].
    rewrite !Rmult_1_r. f_equal. apply Ztrunc_IZR. }
  unfold to_int, finite in *. destruct x; try discriminate; rewrite E; reflexivity.
Qed.

Definition unit_ok (mul : f64) : Prop := finite mul /\ pow2 (-40) <= B2R mul <= 1.

Lemma near_half z : Rabs (IZR (ZnearestA z) - z) <= / 2.
Proof. rewrite Rabs_minus_sym. apply Znearest_half. Qed.

(* the nearest integer to a / mul, up to the rounding of the division; out of range it saturates *)
Lemma to_e_spec mul a : unit_ok mul -> finite a -> let t := B2R a / B2R mul in
  (Rabs t <= 2147483647 -> Rabs (IZR (to_e mul a) - t) <= / 2 + pow2 (-22)) /\
  (2147483648 <= t -> to_e mul a = i32_max) /\ (t <= -2147483649 -> to_e mul a = i32_min) /\
  (i32_min <= to_e mul a <= i32_max)%Z.
Proof.
  intros (Fm & Bm) Fa t. assert (P40 : 0 < pow2 (-40)) by apply bpow_gt_0.
  pose proof (fdiv_result a mul Fa Fm ltac:(lra)) as R. fold t in R. unfold to_e, i32_max, i32_min.
  assert (RG : forall z, number z -> (- 2 ^ 31 <= to_int (- 2 ^ 31) (2 ^ 31 - 1) z <= 2 ^ 31 - 1)%Z).
  { intros z _. unfold to_int. destruct z as [|[|]| |]; lia. }
  assert (RN : number (fround (fdiv a mul))).
  { destruct R as [(F & _)|(s & -> & _)]; [apply finite_number, fround_val, F|destruct s; reflexivity]. }
  destruct R as [(F & V & L)|(s & EQ & L & S)].
  - destruct (fround_val _ F) as (Fr & Vr). rewrite (to_int_sat _ _ _ _ Fr Vr).
    pose proof (near_half (B2R (fdiv a mul))) as NH. set (N := ZnearestA (B2R (fdiv a mul))) in *. rewrite V in NH.
    split; [|split; [|split]].
    + intros B. pose proof (rnd_half t 31 ltac:(lia)) as H.
      assert (Rabs t <= pow2 31) by (change (pow2 31) with 2147483648; lra). specialize (H H0). change (31 - 54)%Z with (-23)%Z in H.
      assert (E22 : pow2 (-23) + pow2 (-23) = pow2 (-22)) by (change (pow2 (-23)) with (/ 8388608); change (pow2 (-22)) with (/ 4194304); lra).
      assert (P23 : 0 < pow2 (-23)) by apply bpow_gt_0.
      apply Rabs_le_inv in NH, H, B.
      assert (B1 : -2147483648 < IZR N < 2147483648).
      { assert (pow2 (-23) < / 2) by (change (pow2 (-23)) with (/ 8388608); lra). lra. }
      destruct B1 as [B1 B2]. apply lt_IZR in B1, B2.
      replace (Z.max (- 2 ^ 31) (Z.min (2 ^ 31 - 1) N)) with N by lia. apply Rabs_le. lra.
    + intros B. destruct (of_int_val 2147483648 ltac:(lia)) as [_ VL]. pose proof (rnd_lower _ _ _ VL B) as H.
      apply Rabs_le_inv in NH. assert (2147483647 < IZR N) by lra. apply lt_IZR in H0. lia.
    + intros B. destruct (of_int_val (-2147483649) ltac:(lia)) as [_ VL]. pose proof (rnd_upper _ _ _ VL B) as H.
      apply Rabs_le_inv in NH. assert (IZR N < -2147483648) by lra. apply lt_IZR in H0. lia.
    + lia.
  - rewrite EQ, fround_inf. assert (BIG : pow2 31 < Rabs t).
    { destruct (Rle_or_lt (Rabs t) (pow2 31)) as [G|G]; auto. exfalso.
      pose proof (rnd_half t 31 ltac:(lia) G) as H. assert (Rabs (rnd t) <= pow2 31 + pow2 (31 - 54)).
      { replace (rnd t) with ((rnd t - t) + t) by ring. eapply Rle_trans; [apply Rabs_triang|]. lra. }
      assert (pow2 (31 - 54) <= pow2 31) by (apply bpow_le; lia). assert (pow2 31 + pow2 31 = pow2 32) by (change (pow2 31) with 2147483648; change (pow2 32) with 4294967296; lra).
      assert (pow2 32 < pow2 1024) by (apply bpow_lt; lia). change (bpow radix2) with pow2 in L. lra. }
    change (pow2 31) with 2147483648 in BIG. cbn [to_int].
    assert (S' : if s then t <= 0 else 0 <= t).
    { destruct s; lra. }
    destruct s.
    + rewrite Rabs_left1 in BIG by lra. split; [intros B; rewrite Rabs_left1 in B by lra; lra|]. split; [intros; lra|]. split; [reflexivity|lia].
    + rewrite Rabs_pos_eq in BIG by lra. split; [intros B; rewrite Rabs_pos_eq in B by lra; lra|]. split; [reflexivity|]. split; [intros; lra|lia].
Qed.

Lemma to_e_near mul a N : unit_ok mul -> finite a -> (i32_min <= N <= i32_max)%Z ->
  Rabs (B2R a / B2R mul - IZR N) <= / 4 -> to_e mul a = N.
Proof.
  intros (Fm & Bm) Fa HN H. unfold i32_min, i32_max in *. assert (P40 : 0 < pow2 (-40)) by apply bpow_gt_0.
  pose proof (fdiv_result a mul Fa Fm ltac:(lra)) as R. set (t := B2R a / B2R mul) in *.
  assert (BN : -2147483648 <= IZR N <= 2147483647) by (split; apply IZR_le; lia).
  apply Rabs_le_inv in H.
  assert (B : Rabs t <= pow2 32) by (change (pow2 32) with 4294967296; apply Rabs_le; lra).
  destruct (result_half _ _ 32 ltac:(lia) R B) as (F & V & E). change (32 - 54)%Z with (-22)%Z in E.
  assert (pow2 (-22) < / 4) by (change (pow2 (-22)) with (/ 4194304); lra). apply Rabs_le_inv in E.
  destruct (fround_val _ F) as (Fr & Vr). unfold to_e, i32_min, i32_max. rewrite (to_int_sat _ _ _ _ Fr Vr).
  rewrite (Znearest_imp _ _ N); [lia|]. apply Rabs_def1; lra.
Qed.

Lemma from_e_val mul n : unit_ok mul -> (Z.abs n <= 2 ^ 40)%Z ->
  finite (from_e mul n) /\ Rabs (B2R (from_e mul n) - IZR n * B2R mul) <= eps * (1 + eps) * Rabs (IZR n * B2R mul).
Proof.
  intros (Fm & Bm) Hn. assert (P40 : 0 < pow2 (-40)) by apply bpow_gt_0.
  destruct (of_int_val n ltac:(lia)) as [Fn Vn]. pose proof (fmul_result (of_int n) mul Fn Fm) as R. rewrite Vn in R.
  assert (An : Rabs (IZR n) <= pow2 40) by (rewrite <- abs_IZR; change (pow2 40) with (IZR (2 ^ 40)); apply IZR_le; lia).
  assert (B : Rabs (IZR n * B2R mul) <= pow2 40).
  { rewrite Rabs_mult, (Rabs_pos_eq (B2R mul)) by lra. pose proof (Rabs_pos (IZR n)). nra. }
  destruct (result_near _ _ 40 ltac:(lia) R B) as (F & V & _). split; [exact F|]. unfold from_e. rewrite V.
  destruct (Z.eq_dec n 0) as [-> |Z0].
  - rewrite Rmult_0_l, rnd_0, Rminus_0_r, !Rabs_R0. lra.
  - destruct (error_N_FLT radix2 (-1074) 53 ltac:(lia) (fun x => negb (Z.even x)) (IZR n * B2R mul)) as (d & e & Hd & He & _ & E).
    change (round radix2 (FLT_exp (-1074) 53) (Znearest (fun x => negb (Z.even x))) (IZR n * B2R mul)) with (rnd (IZR n * B2R mul)) in E. rewrite E.
    set (x := IZR n * B2R mul) in *. replace (x * (1 + d) + e - x) with (x * d + e) by ring. eapply Rle_trans; [apply Rabs_triang|]. rewrite Rabs_mult.
    assert (Rabs d <= eps) by (change (pow2 (- (53) + 1)) with (/ 4503599627370496) in Hd; lra).
    assert (X : pow2 (-40) <= Rabs x).
    { unfold x. rewrite Rabs_mult, (Rabs_pos_eq (B2R mul)) by lra. assert (1 <= Rabs (IZR n)) by (rewrite <- abs_IZR; apply IZR_le; lia). nra. }
    assert (Rabs e <= eps * eps * pow2 (-40)).
    { eapply Rle_trans; [exact He|]. change (eps * eps * pow2 (-40)) with (pow2 (-53) * pow2 (-53) * pow2 (-40)).
      rewrite <- !bpow_plus. assert (pow2 (-1074) <= pow2 (-53 + -53 + -40)) by (apply bpow_le; lia). pose proof (bpow_gt_0 radix2 (-1074)). lra. }
    pose proof (Rabs_pos x). nra.
Qed.

(* the value of a constant expression *)
Lemma value_is x m e r : finite x -> feq x (lit m e) = true -> (Z.abs m <= 2 ^ 53)%Z -> (-1074 <= e <= 900)%Z ->
  IZR m * pow2 e = r -> B2R x = r.
Proof.
  intros F H Hm He E. destruct (lit_val m e Hm He) as [FL VL]. destruct (feq_R x (lit m e) F FL) as [V|]; [|discriminate].
  rewrite V, VL. exact E.
Qed.
Ltac constval m e := apply (value_is _ m e); [vm_compute; reflexivity|vm_compute; reflexivity|lia|lia|cbn [bpow]; reflexivity].
Definition factor (k : unit_e) : R := match k with UE5 => 100000 | UE6 => 1000000 | UE7 => 10000000 end.

Lemma DEG_val : finite DEG /\ Rabs (B2R DEG - pi / 180) <= eps * (pi / 180).
Proof.
  split; [vm_compute; reflexivity|]. assert (V : B2R DEG = IZR 5030569068109113 * pow2 (-58)) by constval constr:(5030569068109113%Z) constr:((-58)%Z).
  rewrite V, pi_num. change (pow2 (-58)) with (/ 288230376151711744). apply Rabs_le. lra.
Qed.
Lemma rad_e_val k : unit_ok (rad_e k) /\ Rabs (B2R (rad_e k) - pi / 180 / factor k) <= 2 * eps * (pi / 180 / factor k).
Proof.
  unfold unit_ok. rewrite pi_num. change (pow2 (-40)) with (/ 1099511627776). destruct k; cbn [factor].
  - assert (V : B2R (rad_e UE5) = IZR 6593667488951977 * pow2 (-75)) by constval constr:(6593667488951977%Z) constr:((-75)%Z).
    rewrite V. change (pow2 (-75)) with (/ 37778931862957161709568). split; [split; [vm_compute; reflexivity|lra]|apply Rabs_le; lra].
  - assert (V : B2R (rad_e UE6) = IZR 5274933991161581 * pow2 (-78)) by constval constr:(5274933991161581%Z) constr:((-78)%Z).
    rewrite V. change (pow2 (-78)) with (/ 302231454903657293676544). split; [split; [vm_compute; reflexivity|lra]|apply Rabs_le; lra].
  - assert (V : B2R (rad_e UE7) = IZR 8439894385858530 * pow2 (-82)) by constval constr:(8439894385858530%Z) constr:((-82)%Z).
    rewrite V. change (pow2 (-82)) with (/ 4835703278458516698824704). split; [split; [vm_compute; reflexivity|lra]|apply Rabs_le; lra].
Qed.
Lemma deg_e_val k : unit_ok (deg_e k) /\ Rabs (B2R (deg_e k) - 1 / factor k) <= eps * (1 / factor k).
Proof.
  unfold unit_ok. change (pow2 (-40)) with (/ 1099511627776). destruct k; cbn [factor].
  - assert (V : B2R (deg_e UE5) = IZR 5902958103587057 * pow2 (-69)) by constval constr:(5902958103587057%Z) constr:((-69)%Z).
    rewrite V. change (pow2 (-69)) with (/ 590295810358705651712). split; [split; [vm_compute; reflexivity|lra]|apply Rabs_le; lra].
  - assert (V : B2R (deg_e UE6) = IZR 4722366482869645 * pow2 (-72)) by constval constr:(4722366482869645%Z) constr:((-72)%Z).
    rewrite V. change (pow2 (-72)) with (/ 4722366482869645213696). split; [split; [vm_compute; reflexivity|lra]|apply Rabs_le; lra].
  - assert (V : B2R (deg_e UE7) = IZR 7555786372591432 * pow2 (-76)) by constval constr:(7555786372591432%Z) constr:((-76)%Z).
    rewrite V. change (pow2 (-76)) with (/ 75557863725914323419136). split; [split; [vm_compute; reflexivity|lra]|apply Rabs_le; lra].
Qed.

Definition i32 (n : Z) : Prop := (- 2 ^ 31 <= n <= 2 ^ 31 - 1)%Z.
Lemma i32_bound n : i32 n -> Rabs (IZR n) <= 2147483648.
Proof. intros H. unfold i32 in H. rewrite <- abs_IZR. apply IZR_le. lia. Qed.

(* reading back any angle that is n units, up to a few roundings *)
Lemma to_e_close mul U a n : unit_ok mul -> finite a -> i32 n -> 0 < U ->
  Rabs (B2R mul - U) <= 2 * eps * U -> Rabs (B2R a - IZR n * U) <= 100 * eps * (Rabs (IZR n) * U) -> to_e mul a = n.
Proof.
  intros Um Fa Hn PU HM HA. pose proof (i32_bound n Hn) as BN. destruct Um as (Fm & Bm). assert (P40 : 0 < pow2 (-40)) by apply bpow_gt_0.
  apply to_e_near; [split; auto|auto|exact Hn|]. set (M := B2R mul) in *. set (A := B2R a) in *.
  assert (E : A / M - IZR n = (A - IZR n * M) / M) by (field; lra). rewrite E. unfold Rdiv. rewrite Rabs_mult, Rabs_inv, (Rabs_pos_eq M) by lra.
  assert (MU : U <= 2 * M) by (apply Rabs_le_inv in HM; nra).
  assert (Rabs (A - IZR n * M) <= / 4 * M).
  { replace (A - IZR n * M) with ((A - IZR n * U) + IZR n * (U - M)) by ring. eapply Rle_trans; [apply Rabs_triang|]. rewrite Rabs_mult, (Rabs_minus_sym U M).
    pose proof (Rabs_pos (IZR n)). pose proof (Rabs_pos (M - U)).
    assert (Rabs (IZR n) * Rabs (M - U) <= 2 * eps * U * 2147483648) by nra.
    assert (100 * eps * (Rabs (IZR n) * U) <= 100 * eps * 2147483648 * U) by nra. nra. }
  apply Rmult_le_reg_r with M; [lra|]. rewrite Rmult_assoc, Rinv_l, Rmult_1_r by lra. exact H.
Qed.

Lemma factor_pos k : 0 < factor k <= 10000000 /\ 100000 <= factor k.
Proof. destruct k; cbn; lra. Qed.
Lemma UR_pos k : 0 < pi / 180 / factor k.
Proof. destruct (factor_pos k) as [[A _] _]. pose proof pi_bounds. apply Rdiv_lt_0_compat; lra. Qed.
Lemma UD_pos k : 0 < 1 / factor k.
Proof. destruct (factor_pos k) as [[A _] _]. apply Rdiv_lt_0_compat; lra. Qed.

Lemma from_e_acc mul U n : unit_ok mul -> i32 n -> 0 < U -> Rabs (B2R mul - U) <= 2 * eps * U ->
  finite (from_e mul n) /\ Rabs (B2R (from_e mul n) - IZR n * U) <= 4 * eps * (Rabs (IZR n) * U).
Proof.
  intros Um Hn PU HM. destruct (from_e_val mul n Um) as (F & E); [unfold i32 in Hn; lia|]. split; [exact F|].
  destruct Um as (Fm & Bm). assert (P40 : 0 < pow2 (-40)) by apply bpow_gt_0. set (M := B2R mul) in *.
  replace (B2R (from_e mul n) - IZR n * U) with ((B2R (from_e mul n) - IZR n * M) + IZR n * (M - U)) by ring.
  eapply Rle_trans; [apply Rabs_triang|]. rewrite Rabs_mult in E |- *. rewrite (Rabs_pos_eq M) in E by lra. apply Rabs_le_inv in HM as HM'.
  pose proof (Rabs_pos (IZR n)) as PN. set (N := Rabs (IZR n)) in *.
  assert (N * Rabs (M - U) <= N * (2 * eps * U)) by nra.
  assert (M <= U * (1 + 2 * eps)) by lra. assert (N * M <= N * U * (1 + 2 * eps)) by nra. nra.
Qed.

(* degrees to radians and back, for a magnitude far from underflow and overflow *)
Lemma rel_mul d c C k : finite d -> finite c -> 0 < C <= 1 -> Rabs (B2R c - C) <= eps * C -> pow2 (-10) <= C ->
  (pow2 (-900) <= Rabs (B2R d) <= pow2 k)%R -> (k <= 900)%Z -> (0 <= k)%Z ->
  finite (fmul d c) /\ Rabs (B2R (fmul d c) - B2R d * C) <= 3 * eps * (Rabs (B2R d) * C).
Proof.
  intros Fd Fc HC Hc LC Bd Hk Hk0. pose proof (fmul_result d c Fd Fc) as R. apply Rabs_le_inv in Hc as Hc'.
  assert (Bc : Rabs (B2R c) <= 2) by (apply Rabs_le; lra).
  assert (B : Rabs (B2R d * B2R c) <= pow2 (k + 1)).
  { rewrite Rabs_mult, bpow_plus. change (pow2 1) with 2. pose proof (Rabs_pos (B2R d)). pose proof (Rabs_pos (B2R c)). nra. }
  destruct (result_near _ _ (k + 1) ltac:(lia) R B) as (F & V & _). split; [exact F|]. rewrite V.
  set (x := B2R d * B2R c) in *. set (D := B2R d) in *.
  destruct (error_N_FLT radix2 (-1074) 53 ltac:(lia) (fun x => negb (Z.even x)) x) as (dd & e & Hd & He & _ & E).
  change (round radix2 (FLT_exp (-1074) 53) (Znearest (fun x => negb (Z.even x))) x) with (rnd x) in E. rewrite E.
  assert (H1 : Rabs dd <= eps) by (change (pow2 (- (53) + 1)) with (/ 4503599627370496) in Hd; lra).
  assert (H2 : Rabs e <= / 4 * eps * (Rabs D * C)).
  { eapply Rle_trans; [exact He|]. apply Rle_trans with (/ 4 * eps * (pow2 (-900) * pow2 (-10))).
    - replace (/ 4 * eps) with (pow2 (-55)) by (change (pow2 (-55)) with (/ 36028797018963968); lra).
      rewrite <- !bpow_plus. assert (pow2 (-1074) <= pow2 (-55 + (-900 + -10))) by (apply bpow_le; lia). pose proof (bpow_gt_0 radix2 (-1074)). lra.
    - pose proof (bpow_gt_0 radix2 (-900)). pose proof (bpow_gt_0 radix2 (-10)).
      assert (pow2 (-900) * pow2 (-10) <= Rabs D * C) by (apply Rmult_le_compat; lra). lra. }
  replace (x * (1 + dd) + e - D * C) with (D * (B2R c - C) + x * dd + e) by (unfold x; ring).
  assert (T : Rabs (D * (B2R c - C) + x * dd + e) <= Rabs D * (eps * C) + (Rabs D * (C * (1 + eps))) * eps + / 4 * eps * (Rabs D * C)).
  { eapply Rle_trans; [apply Rabs_triang|]. apply Rplus_le_compat; [|exact H2]. eapply Rle_trans; [apply Rabs_triang|]. apply Rplus_le_compat.
    - rewrite Rabs_mult. pose proof (Rabs_pos D). nra.
    - rewrite Rabs_mult. unfold x. rewrite Rabs_mult. apply Rmult_le_compat; [apply Rmult_le_pos; apply Rabs_pos|apply Rabs_pos| |exact H1].
      apply Rmult_le_compat_l; [apply Rabs_pos|]. rewrite Rabs_pos_eq; lra. }
  assert (0 <= Rabs D * C) by (pose proof (Rabs_pos D); nra). lra.
Qed.

Lemma rel_div a c C k : finite a -> finite c -> 0 < C <= 1 -> Rabs (B2R c - C) <= eps * C -> pow2 (-10) <= C ->
  (pow2 (-900) <= Rabs (B2R a) <= pow2 k)%R -> (k <= 900)%Z -> (0 <= k)%Z ->
  finite (fdiv a c) /\ Rabs (B2R (fdiv a c) - B2R a / C) <= 3 * eps * (Rabs (B2R a) / C).
Proof.
  intros Fa Fc HC Hc LC Bd Hk Hk0. apply Rabs_le_inv in Hc as Hc'. assert (P10 : 0 < pow2 (-10)) by apply bpow_gt_0.
  assert (Pc : 0 < B2R c) by nra.
  pose proof (fdiv_result a c Fa Fc ltac:(lra)) as R. set (A := B2R a) in *. set (c' := B2R c) in *.
  set (y := A / C) in *. set (x := A / c') in *.
  assert (AX : Rabs x = Rabs A / c') by (unfold x, Rdiv; rewrite Rabs_mult, Rabs_inv, (Rabs_pos_eq c') by lra; reflexivity).
  assert (AY : Rabs y = Rabs A / C) by (unfold y, Rdiv; rewrite Rabs_mult, Rabs_inv, (Rabs_pos_eq C) by lra; reflexivity).
  pose proof (Rabs_pos A) as PA.
  assert (XY : x - y = - (y * ((c' - C) / c'))) by (unfold x, y; field; lra).
  assert (Q : Rabs ((c' - C) / c') <= 101 / 100 * eps).
  { unfold Rdiv. rewrite Rabs_mult, Rabs_inv, (Rabs_pos_eq c') by lra. apply Rmult_le_reg_r with c'; [lra|]. rewrite Rmult_assoc, Rinv_l, Rmult_1_r by lra. nra. }
  assert (DX : Rabs (x - y) <= 101 / 100 * eps * Rabs y).
  { rewrite XY, Rabs_Ropp, Rabs_mult. pose proof (Rabs_pos y). nra. }
  assert (LX : Rabs x <= 101 / 100 * Rabs y).
  { replace x with ((x - y) + y) by ring. eapply Rle_trans; [apply Rabs_triang|]. pose proof (Rabs_pos y). lra. }
  assert (GY : Rabs A <= Rabs y).
  { rewrite AY. apply Rmult_le_reg_r with C; [lra|]. unfold Rdiv. rewrite Rmult_assoc, Rinv_l, Rmult_1_r by lra. nra. }
  assert (UY : Rabs y <= pow2 (k + 10)).
  { rewrite AY, bpow_plus. apply Rmult_le_reg_r with C; [lra|]. unfold Rdiv. rewrite Rmult_assoc, Rinv_l, Rmult_1_r by lra.
    assert (1 <= pow2 10 * C). { replace 1 with (pow2 10 * pow2 (-10)) by (rewrite <- bpow_plus; reflexivity). apply Rmult_le_compat_l; [apply bpow_ge_0|lra]. }
    assert (0 <= pow2 k) by apply bpow_ge_0. nra. }
  assert (B : Rabs x <= pow2 (k + 11)).
  { replace (k + 11)%Z with ((k + 10) + 1)%Z by lia. rewrite bpow_plus. change (pow2 1) with 2. pose proof (Rabs_pos y). lra. }
  destruct (result_near _ _ (k + 11) ltac:(lia) R B) as (F & V & _). split; [exact F|]. rewrite V, <- AY.
  destruct (error_N_FLT radix2 (-1074) 53 ltac:(lia) (fun x => negb (Z.even x)) x) as (dd & e & Hd & He & _ & E).
  change (round radix2 (FLT_exp (-1074) 53) (Znearest (fun x => negb (Z.even x))) x) with (rnd x) in E. rewrite E.
  assert (H1 : Rabs dd <= eps) by (change (pow2 (- (53) + 1)) with (/ 4503599627370496) in Hd; lra).
  assert (H2 : Rabs e <= / 4 * eps * Rabs y).
  { eapply Rle_trans; [exact He|]. apply Rle_trans with (/ 4 * eps * pow2 (-900)).
    - replace (/ 4 * eps) with (pow2 (-55)) by (change (pow2 (-55)) with (/ 36028797018963968); lra).
      rewrite <- !bpow_plus. assert (pow2 (-1074) <= pow2 (-55 + -900)) by (apply bpow_le; lia). pose proof (bpow_gt_0 radix2 (-1074)). lra.
    - lra. }
  replace (x * (1 + dd) + e - y) with ((x - y) + x * dd + e) by ring.
  eapply Rle_trans; [apply Rabs_triang|]. assert (Rabs (x - y + x * dd) <= 101 / 100 * eps * Rabs y + 101 / 100 * Rabs y * eps).
  { eapply Rle_trans; [apply Rabs_triang|]. apply Rplus_le_compat; [exact DX|]. rewrite Rabs_mult. apply Rmult_le_compat; try apply Rabs_pos; auto. }
  pose proof (Rabs_pos y). lra.
Qed.
Lemma ang_deg d : finite d -> pow2 (-900) <= Rabs (B2R d) <= pow2 900 ->
  finite (angle_of_deg d) /\ Rabs (B2R (angle_of_deg d) - B2R d * (pi / 180)) <= 3 * eps * (Rabs (B2R d) * (pi / 180)).
Proof.
  intros F B. destruct DEG_val as [FD VD]. pose proof pi_bounds. apply (rel_mul d DEG (pi / 180) 900); auto; try lra; try lia.
  change (pow2 (-10)) with (/ 1024). lra.
Qed.
Lemma deg_ang a : finite a -> pow2 (-900) <= Rabs (B2R a) <= pow2 900 ->
  finite (deg_of_angle a) /\ Rabs (B2R (deg_of_angle a) - B2R a / (pi / 180)) <= 3 * eps * (Rabs (B2R a) / (pi / 180)).
Proof.
  intros F B. destruct DEG_val as [FD VD]. pose proof pi_bounds. apply (rel_div a DEG (pi / 180) 900); auto; try lra; try lia.
  change (pow2 (-10)) with (/ 1024). lra.
Qed.

(** ** LatLng::normalized *)

Lemma mhalf_val : finite (fneg FRAC_PI_2) /\ B2R (fneg FRAC_PI_2) = - (pi / 2).
Proof. destruct FRAC_PI_2_val as [F V]. destruct (fneg_val _ F) as [F' V']. rewrite V', V. auto. Qed.

Lemma rem_turn x : finite x -> finite (fremainder x (fmul PI64 f2)) /\ - pi <= B2R (fremainder x (fmul PI64 f2)) <= pi /\
  (exists n : Z, B2R (fremainder x (fmul PI64 f2)) = B2R x - 2 * pi * IZR n) /\
  (- pi <= B2R x <= pi -> B2R (fremainder x (fmul PI64 f2)) = B2R x).
Proof.
  intros F. destruct TWOPI_val' as [FT VT]. pose proof pi_bounds.
  destruct (fremainder_spec x _ F FT ltac:(rewrite VT; lra)) as (Fr & n & E & H1 & H2 & H3). rewrite VT in E, H1, H3.
  rewrite (Rabs_pos_eq (2 * pi)) in H1, H3 by lra. assert (B : - pi <= B2R (fremainder x (fmul PI64 f2)) <= pi) by (apply Rabs_le_inv; lra).
  split; [exact Fr|]. split; [exact B|]. split; [exists n; rewrite E; ring|].
  intros Bx. set (r := B2R (fremainder x (fmul PI64 f2))) in *.
  assert (N : -1 <= IZR n <= 1) by nra. destruct N as [N1 N2]. apply le_IZR in N1, N2.
  assert (n = 0 \/ n = 1 \/ n = -1)%Z as [-> |[-> | ->]] by lia.
  - lra.
  - exfalso. assert (2 * Rabs r = 2 * pi) as Q by (rewrite Rabs_left1; lra). discriminate (H3 Q).
  - exfalso. assert (2 * Rabs r = 2 * pi) as Q by (rewrite Rabs_pos_eq; lra). discriminate (H3 Q).
Qed.
Lemma rem_turn2 x : finite x -> finite (fremainder x TWOPI) /\ - pi <= B2R (fremainder x TWOPI) <= pi /\
  (exists n : Z, B2R (fremainder x TWOPI) = B2R x - 2 * pi * IZR n) /\
  (- pi <= B2R x <= pi -> B2R (fremainder x TWOPI) = B2R x).
Proof.
  intros F. destruct TWOPI_val as [FT VT]. pose proof pi_bounds.
  destruct (fremainder_spec x _ F FT ltac:(rewrite VT; lra)) as (Fr & n & E & H1 & H2 & H3). rewrite VT in E, H1, H3.
  rewrite (Rabs_pos_eq (2 * pi)) in H1, H3 by lra. assert (B : - pi <= B2R (fremainder x TWOPI) <= pi) by (apply Rabs_le_inv; lra).
  split; [exact Fr|]. split; [exact B|]. split; [exists n; rewrite E; ring|].
  intros Bx. set (r := B2R (fremainder x TWOPI)) in *.
  assert (N : -1 <= IZR n <= 1) by nra. destruct N as [N1 N2]. apply le_IZR in N1, N2.
  assert (n = 0 \/ n = 1 \/ n = -1)%Z as [-> |[-> | ->]] by lia.
  - lra.
  - exfalso. assert (2 * Rabs r = 2 * pi) as Q by (rewrite Rabs_left1; lra). discriminate (H3 Q).
  - exfalso. assert (2 * Rabs r = 2 * pi) as Q by (rewrite Rabs_pos_eq; lra). discriminate (H3 Q).
Qed.

Lemma fle_abs_R x c : finite x -> finite c -> BoolSpec (Rabs (B2R x) <= B2R c) (~ Rabs (B2R x) <= B2R c) (fle (fabs x) c).
Proof. intros Fx Fc. destruct (fabs_val x Fx) as [Fa Va]. rewrite <- Va. apply fle_R; auto. Qed.

Definition valid_ll (p : latlng) : Prop := finite (lat p) /\ finite (lng p) /\ Rabs (B2R (lat p)) <= pi / 2 /\ Rabs (B2R (lng p)) <= pi.

Lemma fle_finite_abs x c : finite c -> fle (fabs x) c = true -> finite x.
Proof. intros Fc H. destruct x as [s|s| |s m e b]; try reflexivity; destruct c; try discriminate; destruct s; discriminate. Qed.

Lemma ll_is_valid_spec p : ll_is_valid p = true <-> valid_ll p.
Proof.
  destruct FRAC_PI_2_val as [FH VH]. unfold ll_is_valid, valid_ll. rewrite andb_true_iff. split.
  - intros [A B]. pose proof (fle_finite_abs _ _ FH A) as FA. pose proof (fle_finite_abs _ _ PI64_finite B) as FB.
    destruct (fle_abs_R _ _ FA FH) as [H1|]; [|discriminate]. destruct (fle_abs_R _ _ FB PI64_finite) as [H2|]; [|discriminate].
    rewrite VH in H1. rewrite pi_val in H2. auto.
  - intros (FA & FB & H1 & H2). destruct (fle_abs_R _ _ FA FH) as [_|N]; [|rewrite VH in N; contradiction].
    destruct (fle_abs_R _ _ FB PI64_finite) as [_|N]; [|rewrite pi_val in N; contradiction]. auto.
Qed.
