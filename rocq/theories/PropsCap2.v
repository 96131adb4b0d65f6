(** C113-C117: chord angles from angles; caps by angle, height and area. *)
From Coq Require Import ZArith Reals Lra Lia Psatz Bool.
From Flocq Require Import Core Relative Operations Mult_error.
From Verif Require Import F64 F64Facts IntervalSpec F64Arith F64Error S1Proofs StuvError VectorModel AngleModel AngleProofs CapSpec CapModel ChordProofs CapProofs CapError PredicatesFloat PropsCap RegionSpec RegionModel CapEdgeMain
  TrigModel TrigSpec TrigProofs TrigWitness PropsTrig R1Proofs F64Neg PredicatesProofs.
Open Scope R_scope.
Local Notation Z := BinInt.Z.

(* half of a double is exact but for underflow *)
Lemma half_mu (a : f64) : finite a -> Rabs (B2R a) <= 1000 -> finite (fmul fhalf a) /\ B2R (fmul fhalf a) = rnd (/ 2 * B2R a) /\ Rabs (B2R (fmul fhalf a) - B2R a / 2) <= mu.
Proof.
  intros F B. destruct fhalf_val as [Fh Vh]. pose proof (fmul_result fhalf a Fh F) as R. rewrite Vh in R.
  destruct (result_half _ _ 10 ltac:(lia) R) as (Fm & Vm & _). { change (pow2 10) with 1024. rewrite Rabs_mult, (Rabs_pos_eq (/ 2)) by lra. lra. }
  split; [exact Fm|]. split; [exact Vm|]. replace (B2R a / 2) with (/ 2 * B2R a) by field. rewrite Vm.
  destruct (Rle_dec (pow2 (-1000)) (Rabs (B2R a))) as [L|L].
  - assert (RF : rnd (/ 2 * B2R a) = / 2 * B2R a).
    { apply round_generic; [apply valid_rnd_N|]. rewrite Rmult_comm. change (/ 2) with (bpow radix2 (-1)). apply mult_bpow_exact_FLT; [apply (generic_format_B2R 53 1024)|].
      pose proof (mag_ge_bpow radix2 (B2R a) (-999)) as H. change (-999 - 1)%Z with (-1000)%Z in H. specialize (H L). lia. }
    rewrite RF, Rminus_eq_0, Rabs_R0. left. apply mu_pos.
  - eapply Rle_trans; [apply (rnd_err _ (-1000)); [lia|]|].
    + rewrite Rabs_mult, (Rabs_pos_eq (/ 2)) by lra. pose proof (Rabs_pos (B2R a)). lra.
    + apply bpow_le. lia.
Qed.
(* twice a double is exact *)
Lemma twice_exact (a : f64) : finite a -> Rabs (B2R a) <= 1000 -> finite (fmul f2 a) /\ B2R (fmul f2 a) = 2 * B2R a.
Proof.
  intros F B. destruct f2_val as [F2 V2]. pose proof (fmul_result f2 a F2 F) as R. rewrite V2 in R.
  destruct (result_half _ _ 11 ltac:(lia) R) as (Fm & Vm & _). { change (pow2 11) with 2048. rewrite Rabs_mult, (Rabs_pos_eq 2) by lra. lra. }
  split; [exact Fm|]. rewrite Vm. apply round_generic; [apply valid_rnd_N|]. rewrite Rmult_comm. change 2 with (bpow radix2 1). apply mult_bpow_pos_exact_FLT; [apply (generic_format_B2R 53 1024)|lia].
Qed.

(** ** C113: ChordAngle::from(Angle) *)
Lemma chord_cap a : 0 <= a -> let m := Rmin a pi in 0 <= m <= pi /\ 0 <= chord (Rmin PI a) - chord m <= 1 / 2 ^ 100 * chord (Rmin PI a).
Proof.
  intros A. cbv zeta. pose proof pi_PI as P. assert (PP : 3 < pi) by (rewrite pi_num; lra). split; [unfold Rmin; destruct Rle_dec; lra|].
  unfold Rmin. destruct (Rle_dec a pi) as [L|L].
  - destruct (Rle_dec PI a); [lra|]. pose proof (chord_range a). rewrite Rminus_eq_0. nra.
  - assert (E : forall t, pi <= t <= PI -> 4 - 1 / 2 ^ 103 <= chord t <= 4).
    { intros t T. split; [|apply chord_range]. replace t with (PI - (PI - t)) by ring. rewrite chord_supplement. pose proof (half_sq (PI - t)) as Q. fold (chord (PI - t)) in Q.
      assert ((PI - t) * (PI - t) <= 1 / 2 ^ 52 * (1 / 2 ^ 52)) by (apply Rmult_le_compat; lra). lra. }
    pose proof (E pi ltac:(lra)) as E1. destruct (Rle_dec PI a) as [M|M].
    + rewrite chord_PI. lra.
    + pose proof (E a ltac:(lra)). pose proof (chord_incr pi a ltac:(lra) ltac:(lra) ltac:(lra)). lra.
Qed.
Lemma sq_rel l T k h : 0 <= T <= 2 -> 0 <= k <= 1 / 1000000 -> 0 <= h <= 1 / 1000000 -> Rabs (l - T) <= k * T + h -> Rabs (l * l - T * T) <= (21 / 10 * k) * (T * T) + 5 * h.
Proof.
  intros HT Hk Hh E. replace (l * l - T * T) with ((l - T) * (l + T)) by ring. rewrite Rabs_mult.
  assert (S : Rabs (l + T) <= 2 * T + (k * T + h)). { replace (l + T) with (2 * T + (l - T)) by ring. eapply Rle_trans; [apply Rabs_triang|]. rewrite (Rabs_pos_eq (2 * T)) by lra. lra. }
  apply Rle_trans with ((k * T + h) * (2 * T + (k * T + h))); [apply Rmult_le_compat; auto; apply Rabs_pos|].
  assert (K1 : 0 <= k * T) by (apply Rmult_le_pos; lra). assert (K2 : 0 <= T * T) by (apply Rmult_le_pos; lra). assert (K3 : k * k * (T * T) <= k * (1 / 1000000) * (T * T)) by (apply Rmult_le_compat_r; [lra|apply Rmult_le_compat_l; lra]).
  assert (K4 : k * T * h <= 1 / 1000000 * 2 * h) by (apply Rmult_le_compat_r; [lra|apply Rmult_le_compat; lra]). assert (K5 : h * h <= 1 / 1000000 * h) by (apply Rmult_le_compat_r; lra). assert (K6 : h * T <= h * 2) by (apply Rmult_le_compat_l; lra).
  replace ((k * T + h) * (2 * T + (k * T + h))) with (2 * k * (T * T) + 2 * (h * T) + k * k * (T * T) + 2 * (k * T * h) + h * h) by ring.
  assert (K7 : 0 <= k * (T * T)) by (apply Rmult_le_pos; lra). lra.
Qed.
Lemma p999 : 0 < pow2 (-1000) <= / 1000000000000. Proof. split; [apply bpow_gt_0|]. apply Rle_trans with (pow2 (-40)); [apply bpow_le; lia|]. change (pow2 (-40)) with (/ 1099511627776). lra. Qed.
Lemma mu_1000 : mu <= pow2 (-1000) / 1000000.
Proof. change (-1050)%Z with (-1000 + -50)%Z. rewrite bpow_plus. change (pow2 (-50)) with (/ 1125899906842624). pose proof p999. nra. Qed.
Theorem C113_of_angle : forall fsin (a : f64), accurate_sin fsin -> finite a -> 0 <= B2R a ->
  let r := chord_of_angle fsin a in finite r /\ 0 <= B2R r <= 4 /\ Rabs (B2R r - chord (Rmin PI (B2R a))) <= 1 / 2 ^ 47 * chord (Rmin PI (B2R a)) + pow2 (-900).
Proof.
  intros fsin a AS F A. cbv zeta. destruct (chord_cap (B2R a) A) as [M D]. cbv zeta in *. set (m := Rmin (B2R a) pi) in *.
  unfold chord_of_angle. destruct (flt_R a f0 F eq_refl) as [K|_]; [change (B2R f0) with 0 in K; lra|]. replace (is_infinite a) with false by (destruct a; try discriminate F; reflexivity).
  destruct (fmin_R a PI64 F eq_refl) as [Fm Vm]. rewrite pi_val in Vm. fold m in Vm. assert (PP : pi < 4) by (rewrite pi_num; lra).
  destruct (half_mu _ Fm) as (Fx & Vx & Ex); [rewrite Vm; apply Rabs_le; lra|]. rewrite Vm in *. set (x := fmul fhalf (fmin a PI64)) in *.
  pose proof p999 as P9. pose proof mu_1000 as M9. pose proof mu_pos as MP.
  assert (Bx : Rabs (B2R x) <= 4) by (apply Rabs_le_inv in Ex; apply Rabs_le; lra).
  destruct (AS x Fx Bx) as (Fg & Bg & Eg). set (g := fsin x) in *. destruct (half_pos m ltac:(pose proof pi_PI; lra)) as [S0 _]. pose proof (SIN_bound (m / 2)) as [_ S1]. set (S := sin (m / 2)) in *.
  pose proof (sin_lip (B2R x) (m / 2)) as L. fold S in L. assert (L' : Rabs (sin (B2R x) - S) <= mu) by lra.
  assert (EG : Rabs (B2R g - S) <= 1 / 2 ^ 50 * S + 2 * pow2 (-1000)).
  { assert (Rabs (sin (B2R x)) <= S + mu). { replace (sin (B2R x)) with (S + (sin (B2R x) - S)) by ring. eapply Rle_trans; [apply Rabs_triang|]. rewrite (Rabs_pos_eq S) by lra. lra. }
    apply Rabs_le_inv in Eg. apply Rabs_le_inv in L'. apply Rabs_le. split; lra. }
  destruct (twice_exact g Fg ltac:(lra)) as [Fl Vl]. set (l := fmul f2 g) in *.
  assert (EL : Rabs (B2R l - 2 * S) <= 1 / 2 ^ 50 * (2 * S) + 4 * pow2 (-1000)) by (rewrite Vl; apply Rabs_le_inv in EG; apply Rabs_le; lra).
  assert (Bl : Rabs (B2R l) <= 2) by (rewrite Vl; apply Rabs_le_inv in Bg; apply Rabs_le; lra).
  pose proof (fmul_result l l Fl Fl) as R. assert (Q0 : 0 <= B2R l * B2R l <= 4) by (apply Rabs_le_inv in Bl; nra).
  destruct (result_rel _ _ R) as (Fr & Vr & Er). { rewrite Rabs_pos_eq by lra. apply big_1000. lra. }
  split; [exact Fr|]. split. { rewrite Vr. split; [apply rnd_nonneg; lra|]. destruct c4_val as [_ V4]. apply (rnd_upper c4); [exact V4|lra]. }
  pose proof (sq_rel (B2R l) (2 * S) (1 / 2 ^ 50) (4 * pow2 (-1000)) ltac:(lra) ltac:(lra) ltac:(lra) EL) as Q. assert (EC : 2 * S * (2 * S) = chord m) by (unfold chord, S; ring). rewrite EC in Q.
  rewrite (Rabs_pos_eq (B2R l * B2R l)) in Er by lra. set (C := chord (Rmin PI (B2R a))) in *. pose proof (chord_range m) as CM.
  assert (P90 : 30 * pow2 (-1000) <= pow2 (-900)).
  { change (-900)%Z with (100 + -1000)%Z. rewrite bpow_plus. apply Rmult_le_compat_r; [lra|]. apply Rle_trans with (pow2 5); [change (pow2 5) with 32; lra|apply bpow_le; lia]. }
  apply Rabs_le_inv in Er. apply Rabs_le_inv in Q. apply Rabs_le. split; lra.
Qed.
Print Assumptions C113_of_angle.
(* negative angles give the negative chord angle, infinite ones the infinite chord angle *)
Theorem C113_special : forall fsin (a : f64),
  (flt a f0 = true -> B2R (chord_of_angle fsin a) = -1 /\ finite (chord_of_angle fsin a)) /\ chord_of_angle fsin (B754_infinity false) = B754_infinity false.
Proof.
  intros fsin a. split; [|reflexivity]. intros H. unfold chord_of_angle. rewrite H. destruct f1_val as [F1 V1]. destruct (fneg_val f1 F1) as [F V]. unfold NEGATIVE. rewrite V, V1. split; [lra|exact F].
Qed.
Print Assumptions C113_special.
(* the two conversions undo each other, up to rounding, for angles up to 2 radians *)
Lemma cos_12 t : 0 <= t <= 6 / 5 -> 1 / 3 <= cos t.
Proof.
  intros T. pose proof PI_tight. apply Rle_trans with (cos (6 / 5)); [|apply cos_decr_1; lra].
  destruct (cos_bound (6 / 5) 1 ltac:(lra) ltac:(lra)) as [L _]. unfold cos_approx, cos_term in L. cbn in L. lra.
Qed.
Lemma sin_inj s t : 0 <= s <= 6 / 5 -> 0 <= t <= 6 / 5 -> Rabs (s - t) <= 6 * Rabs (sin s - sin t).
Proof.
  assert (W : forall s t, 0 <= t -> t <= s -> s <= 6 / 5 -> s - t <= 6 * (sin s - sin t)).
  { clear. intros s t T ST S. rewrite form4. pose proof (cos_12 ((s + t) / 2) ltac:(lra)) as C. pose proof (sin_half ((s - t) / 2) ltac:(lra)) as H.
    assert (L : 1 / 3 * ((s - t) / 2 / 2) <= cos ((s + t) / 2) * sin ((s - t) / 2)) by (apply Rmult_le_compat; lra). lra. }
  intros S T. destruct (Rle_dec t s) as [L|L].
  - pose proof (W s t ltac:(lra) L ltac:(lra)). rewrite (Rabs_pos_eq (s - t)) by lra. pose proof (Rle_abs (sin s - sin t)). lra.
  - pose proof (W t s ltac:(lra) ltac:(lra) ltac:(lra)). rewrite (Rabs_left1 (s - t)) by lra. rewrite Rabs_minus_sym. pose proof (Rle_abs (sin t - sin s)). lra.
Qed.
Lemma rad_near fasin (r : f64) : accurate_asin fasin -> finite r -> 0 <= B2R r <= 4 ->
  exists x, 0 <= x <= 1 /\ Rabs (x - sqrt (B2R r) / 2) <= 1 / 2 ^ 51 /\ finite (chord_to_angle fasin r) /\ Rabs (B2R (chord_to_angle fasin r) - 2 * asin x) <= 1 / 2 ^ 49.
Proof.
  intros A F R. unfold chord_to_angle. destruct (flt_R r f0 F eq_refl) as [K|_]; [change (B2R f0) with 0 in K; lra|].
  assert (I : is_infinite r = false) by (destruct r; [reflexivity|discriminate F|discriminate F|reflexivity]). rewrite I.
  destruct (fsqrt_val r F ltac:(lra)) as [Fs Vs]. set (s := sqrt (B2R r)) in *.
  assert (S : 0 <= s <= 2).
  { split; [apply sqrt_pos|]. unfold s. replace 2 with (sqrt 4) by (replace 4 with (2 * 2) by ring; apply sqrt_square; lra). apply sqrt_le_1_alt. lra. }
  pose proof (rnd_err s 1 ltac:(lia) ltac:(change (bpow radix2 1) with 2; rewrite Rabs_pos_eq; lra)) as E1. change (bpow radix2 (1 - 53)) with (/ 4503599627370496) in E1.
  assert (S2 : 0 <= rnd s <= 2) by (split; [apply rnd_nonneg; lra|]; destruct f2_val as [F2 V2]; apply (rnd_upper f2); [exact V2|lra]).
  destruct (half_mu (fsqrt r) Fs) as (Fx & Vx & Ex). { rewrite Vs, Rabs_pos_eq; lra. } rewrite Vs in *. set (x := fmul fhalf (fsqrt r)) in *.
  assert (X1 : 0 <= B2R x <= 1). { rewrite Vx. split; [apply rnd_nonneg; lra|]. destruct f1_val as [F1 V1]. apply (rnd_upper f1); [exact V1|lra]. }
  destruct (A x Fx X1) as [FA VA]. pose proof (asin_bound (B2R x)) as AB. pose proof PI_4 as PB.
  destruct (twice_exact (fasin x) FA) as [FT VT]. { apply Rabs_le_inv in VA. apply Rabs_le. lra. }
  exists (B2R x). split; [exact X1|]. pose proof mu_small as MS. split; [apply Rabs_le_inv in E1; apply Rabs_le_inv in Ex; apply Rabs_le; lra|]. split; [exact FT|]. rewrite VT. apply Rabs_le_inv in VA. apply Rabs_le. lra.
Qed.
Theorem C113_round_trip : forall fsin fasin (a : f64), accurate_sin fsin -> accurate_asin fasin -> finite a -> 0 <= B2R a <= 2 ->
  Rabs (B2R (chord_to_angle fasin (chord_of_angle fsin a)) - B2R a) <= 1 / 2 ^ 43.
Proof.
  intros fsin fasin a AS AA F A. destruct (C113_of_angle fsin a AS F ltac:(lra)) as (Fr & Br & Er). cbv zeta in *. pose proof PI_tight as PT. rewrite Rmin_right in Er by lra.
  set (r := chord_of_angle fsin a) in *. destruct (rad_near fasin r AA Fr Br) as (x & X & Ex & Fc & Ec). set (t := B2R a / 2) in *.
  assert (S : 0 <= sin t) by (apply sin_ge_0; unfold t; lra). pose proof (SIN_bound t) as [_ S1].
  assert (C : chord (B2R a) = (2 * sin t) * (2 * sin t)) by (unfold chord, t; ring). rewrite C in Er.
  assert (Q : Rabs (sqrt (B2R r) - sqrt (2 * sin t * (2 * sin t))) <= 1 / 2 ^ 47 * sqrt (2 * sin t * (2 * sin t)) + pow2 (-450)).
  { apply sqrt_err; [lra|apply Rmult_le_pos; lra|lra|apply bpow_ge_0|]. rewrite <- bpow_plus. exact Er. }
  rewrite sqrt_square in Q by lra.
  assert (P4 : pow2 (-450) <= 1 / 2 ^ 60). { apply Rle_trans with (pow2 (-60)); [apply bpow_le; lia|]. change (pow2 (-60)) with (/ 1152921504606846976). lra. }
  assert (XS : Rabs (x - sin t) <= 9 / 8 / 2 ^ 47) by (apply Rabs_le_inv in Ex; apply Rabs_le_inv in Q; apply Rabs_le; split; lra).
  assert (SA : sin (asin x) = x) by (apply sin_asin; lra).
  assert (U : asin x <= 6 / 5).
  { apply Rnot_lt_le. intros L. pose proof (asin_bound x) as AB. assert (sin (6 / 5) < sin (asin x)) by (apply sin_increasing_1; lra).
    assert (sin t <= sin 1) by (apply sin_incr_1; unfold t; lra).
    assert (Z : sin (6 / 5) - sin 1 >= 1 / 100). { rewrite form4. pose proof (cos_12 ((6 / 5 + 1) / 2) ltac:(lra)). pose proof (sin_half ((6 / 5 - 1) / 2) ltac:(lra)). assert (1 / 3 * (1 / 20) <= cos ((6 / 5 + 1) / 2) * sin ((6 / 5 - 1) / 2)) by (apply Rmult_le_compat; lra). lra. }
    apply Rabs_le_inv in XS. lra. }
  assert (L0 : 0 <= asin x). { apply Rnot_lt_le. intros L. pose proof (asin_bound x). pose proof (sin_lt_0_var (asin x) ltac:(lra) L). lra. }
  pose proof (sin_inj (asin x) t ltac:(lra) ltac:(unfold t; lra)) as I. rewrite SA in I. replace (B2R a) with (2 * t) by (unfold t; lra).
  apply Rabs_le_inv in Ec. apply Rabs_le_inv in XS. assert (I' : Rabs (asin x - t) <= 6 * (9 / 8 / 2 ^ 47)) by (eapply Rle_trans; [exact I|]; apply Rmult_le_compat_l; [lra|apply Rabs_le; lra]).
  apply Rabs_le_inv in I'. apply Rabs_le. lra.
Qed.
Print Assumptions C113_round_trip.

(** ** C114: caps from a centre and an angle *)
Lemma nearly_is_unit v : nearly_unit v -> is_unit v = true /\ 0 < sqn v.
Proof.
  intros (F1 & F2 & F3 & L). change (length3 v) with (sqrt (sqn v)) in L. apply Rabs_le_inv in L.
  assert (S : 0 < sqn v). { apply Rnot_le_lt. intros C. rewrite sqrt_neg_0 in L by auto. lra. }
  split; [|exact S]. apply unit_intro; [repeat split; assumption|]. pose proof (sqrt_sqrt (sqn v) ltac:(lra)) as SS. rewrite <- SS. set (q := sqrt (sqn v)) in *.
  replace (q * q - 1) with ((q - 1) * (q + 1)) by ring. rewrite Rabs_mult. apply Rle_trans with (2 / 2 ^ 52 * 3); [|lra]. apply Rmult_le_compat; try apply Rabs_pos; apply Rabs_le; lra.
Qed.
Lemma apart_sq d e : on_sphere d -> on_sphere e -> 0 <= apart d e <= 2 /\ apart d e * apart d e = dist2 d e.
Proof.
  intros D E. pose proof (dist2_range d e D E) as R. unfold apart. split; [|apply sqrt_sqrt; lra]. split; [apply sqrt_pos|].
  replace 2 with (sqrt 4) by (replace 4 with (2 * 2) by ring; apply sqrt_square; lra). apply sqrt_le_1_alt. lra.
Qed.
(* the points of the cap are those whose chord from the centre is at most that of the angle *)
Theorem C114_from_angle : forall fsin c p (a : f64), accurate_sin fsin -> nearly_unit c -> nearly_unit p -> finite a -> 0 <= B2R a ->
  let cp := cap_from_center_angle fsin c a in let t := Rmin PI (B2R a) in
  valid_cap cp /\ cap_is_empty cp = false /\
  (cap_contains_point cp p = true -> apart (direction c) (direction p) <= 2 * sin (t / 2) + 1 / 2 ^ 45) /\
  (cap_contains_point cp p = false -> 2 * sin (t / 2) < apart (direction c) (direction p) + 1 / 2 ^ 45).
Proof.
  intros fsin c p a AS Nc Np F A. cbv zeta. destruct (C113_of_angle fsin a AS F A) as (Fr & Br & Er). cbv zeta in *. set (r := chord_of_angle fsin a) in *. set (t := Rmin PI (B2R a)) in *.
  destruct (nearly_is_unit c Nc) as [Uc Pc]. destruct (nearly_is_unit p Np) as [Up Pp]. pose proof (unit_sphere c Uc) as Sc. pose proof (unit_sphere p Up) as Sp.
  destruct (apart_sq _ _ Sc Sp) as [AR AE]. set (d := apart (direction c) (direction p)) in *.
  assert (T : 0 <= t <= PI) by (unfold t; pose proof PI_RGT_0; unfold Rmin; destruct Rle_dec; lra).
  destruct (half_pos t T) as [S0 _]. pose proof (SIN_bound (t / 2)) as [_ S1]. set (S := sin (t / 2)) in *. assert (EC : chord t = 2 * S * (2 * S)) by (unfold chord, S; ring). rewrite EC in Er.
  pose proof (C81_point_error_partial c p Nc Np) as E. cbv zeta in E. rewrite <- AE in E. destruct (chordangle_range c p) as [Fx Bx].
  split. { split; [|exact Fr]. unfold cap_is_valid, cap_from_center_angle. cbn [center radius]. rewrite Uc. cbn [andb]. fold r. destruct c4_val as [F4 V4]. unfold STRAIGHT. destruct (fle_R r c4 Fr F4) as [|K]; [reflexivity|]. lra. }
  split. { unfold cap_is_empty, cap_from_center_angle. cbn [radius]. fold r. destruct (flt_R r f0 Fr eq_refl) as [K|K]; [change (B2R f0) with 0 in K; lra|reflexivity]. }
  assert (Q1 : Rabs (sqrt (B2R r) - sqrt (2 * S * (2 * S))) <= 1 / 2 ^ 47 * sqrt (2 * S * (2 * S)) + pow2 (-450)).
  { apply sqrt_err; [lra|apply Rmult_le_pos; lra|lra|apply bpow_ge_0|]. rewrite <- bpow_plus. exact Er. }
  assert (Q2 : Rabs (sqrt (B2R (chordangle c p)) - sqrt (d * d)) <= 9 / 2 ^ 52 * sqrt (d * d) + 5 / 2 ^ 52).
  { apply sqrt_err; [lra|apply Rmult_le_pos; lra|lra|lra|]. eapply Rle_trans; [exact E|]. apply Rplus_le_compat_l. lra. }
  rewrite sqrt_square in Q1 by lra. rewrite sqrt_square in Q2 by lra.
  assert (P4 : pow2 (-450) <= 1 / 2 ^ 60). { apply Rle_trans with (pow2 (-60)); [apply bpow_le; lia|]. change (pow2 (-60)) with (/ 1152921504606846976). lra. }
  apply Rabs_le_inv in Q1. apply Rabs_le_inv in Q2. unfold cap_contains_point, cap_from_center_angle. cbn [center radius]. fold r.
  destruct (fle_R _ _ Fx Fr) as [L|L]; split; intros K; try discriminate K.
  - apply sqrt_le_1_alt in L. lra.
  - assert (L' : B2R r <= B2R (chordangle c p)) by lra. apply sqrt_le_1_alt in L'. lra.
Qed.
Print Assumptions C114_from_angle.
(* negative angles give the empty cap; angles of PI and more the full cap, if sin (PI/2) is 1 *)
Theorem C114_extremes : forall fsin c (a : f64),
  (flt a f0 = true -> cap_is_empty (cap_from_center_angle fsin c a) = true) /\
  (finite a -> pi <= B2R a -> B2R (fsin (fmul fhalf PI64)) = 1 -> finite (fsin (fmul fhalf PI64)) -> cap_is_full (cap_from_center_angle fsin c a) = true).
Proof.
  intros fsin c a. split.
  - intros H. unfold cap_is_empty, cap_from_center_angle. cbn [radius]. destruct (proj1 (C113_special fsin a) H) as [V F]. destruct (flt_R _ f0 F eq_refl) as [|K]; [reflexivity|]. change (B2R f0) with 0 in K. lra.
  - intros F A V G. unfold cap_is_full, cap_from_center_angle, chord_of_angle. cbn [radius]. assert (P3 : 3 < pi) by (rewrite pi_num; lra).
    destruct (flt_R a f0 F eq_refl) as [K|_]; [change (B2R f0) with 0 in K; lra|]. replace (is_infinite a) with false by (destruct a; try discriminate F; reflexivity).
    assert (E : fmin a PI64 = PI64).
    { unfold fmin. rewrite (finite_number a F). change (is_nan PI64) with false. destruct (fle_R PI64 a eq_refl F) as [L|L]; [reflexivity|]. rewrite pi_val in L. lra. }
    rewrite E. set (g := fsin (fmul fhalf PI64)) in *. destruct (twice_exact g G ltac:(rewrite V, Rabs_pos_eq; lra)) as [F2 V2]. rewrite V, Rmult_1_r in V2.
    destruct c4_val as [F4 V4]. pose proof (fmul_result _ _ F2 F2) as R. rewrite V2 in R. destruct (result_exact _ _ c4 R ltac:(rewrite V4; lra)) as [FR VR].
    unfold STRAIGHT. destruct (feq_R _ _ FR F4) as [|K]; [reflexivity|]. rewrite VR, V4 in K. lra.
Qed.
Print Assumptions C114_extremes.

(** ** C115: caps from a height or an area *)
Theorem C115_height : forall c (h : f64), finite h ->
  let cp := cap_from_center_height c h in center cp = c /\
  (B2R h < 0 -> cap_is_empty cp = true) /\ (2 <= B2R h -> cap_is_full cp = true) /\
  (0 <= B2R h < 2 -> finite (radius cp) /\ B2R (radius cp) = 2 * B2R h /\ finite (cap_height cp) /\ B2R (cap_height cp) = B2R h).
Proof.
  intros c h F. cbv zeta. split; [reflexivity|]. unfold cap_is_empty, cap_is_full, cap_height, cap_from_center_height, from_squared_length, fgt. cbn [radius]. destruct f2_val as [F2 V2]. destruct c4_val as [F4 V4].
  pose proof (fmul_result f2 h F2 F) as R. rewrite V2 in R.
  destruct (Rle_dec (Rabs (B2R h)) 1000) as [B|B].
  - destruct (twice_exact h F B) as [Fl Vl]. destruct (flt_R c4 (fmul f2 h) F4 Fl) as [L|L]; rewrite ?V4, Vl in L.
    + split; [intros; lra|]. split; [intros _; unfold STRAIGHT; destruct (feq_R c4 c4 F4 F4) as [|N]; [reflexivity|elim N; reflexivity]|intros; lra].
    + split; [|split].
      * intros H. destruct (flt_R _ f0 Fl eq_refl) as [|K]; [reflexivity|]. change (B2R f0) with 0 in K. lra.
      * intros H. unfold STRAIGHT. destruct (feq_R _ _ Fl F4) as [|K]; [reflexivity|]. rewrite Vl, V4 in K. lra.
      * intros H. split; [exact Fl|]. split; [exact Vl|]. destruct (half_mu _ Fl) as (Fx & Vx & _); [rewrite Vl; apply Rabs_le; lra|]. split; [exact Fx|]. rewrite Vx, Vl. replace (/ 2 * (2 * B2R h)) with (B2R h) by field. apply (rnd_fix h).
  - assert (D : (1000 < B2R h) \/ (B2R h < - 1000)). { unfold Rabs in B. destruct (Rcase_abs (B2R h)); lra. }
    assert (X : forall k, 2 * B2R h <= k \/ k <= 2 * B2R h) by (intros; lra).
    assert (M : (1000 < B2R h -> flt c4 (fmul f2 h) = true) /\ (B2R h < - 1000 -> flt c4 (fmul f2 h) = false /\ flt (fmul f2 h) f0 = true)).
    { assert (K4 : 1000 < B2R h -> 8 <= rnd (2 * B2R h)). { intros H. destruct (of_int_val 8 ltac:(lia)) as [_ V8]. rewrite <- V8, <- (rnd_fix (of_int 8)), V8. apply rnd_le. lra. }
      assert (K5 : B2R h < - 1000 -> rnd (2 * B2R h) <= -8). { intros H. destruct (of_int_val (-8) ltac:(lia)) as [_ V8]. apply (rnd_upper (of_int (-8))); [exact V8|lra]. }
      destruct R as [(P & Q & _)|(s & P & Q & K)].
      - split; intros H.
        + specialize (K4 H). destruct (flt_R c4 (fmul f2 h) F4 P) as [|L]; [reflexivity|]. rewrite Q, V4 in L. lra.
        + specialize (K5 H). split; [destruct (flt_R c4 (fmul f2 h) F4 P) as [L|L]; [rewrite Q, V4 in L; lra|reflexivity]|]. destruct (flt_R _ f0 P eq_refl) as [|L]; [reflexivity|]. rewrite Q in L. change (B2R f0) with 0 in L. lra.
      - rewrite P. destruct s; split; intros H; try lra; vm_compute; auto. }
    destruct M as [M1 M2]. destruct D as [D|D].
    + rewrite M1 by exact D. split; [intros; lra|]. split; [intros _; unfold STRAIGHT; destruct (feq_R c4 c4 F4 F4) as [|N]; [reflexivity|elim N; reflexivity]|intros; lra].
    + destruct (M2 D) as [M3 M4]. rewrite M3. split; [intros _; exact M4|]. split; intros; lra.
Qed.
Print Assumptions C115_height.
(* the points of the cap are those no farther from the centre, along the axis, than the height *)
Theorem C115_height_points : forall c p (h : f64), is_unit c = true -> is_unit p = true -> finite h -> 0 <= B2R h < 2 ->
  let cp := cap_from_center_height c h in let depth := 1 - rdot (direction c) (direction p) in
  (cap_contains_point cp p = true -> depth <= B2R h + 1 / 2 ^ 42) /\ (cap_contains_point cp p = false -> B2R h < depth + 1 / 2 ^ 42).
Proof.
  intros c p h Uc Up F H. cbv zeta. destruct (C115_height c h F) as (_ & _ & _ & G). destruct (G H) as (Fr & Vr & _).
  assert (V : valid_cap (cap_from_center_height c h)).
  { split; [|exact Fr]. unfold cap_is_valid. apply andb_true_iff. split; [exact Uc|]. destruct c4_val as [F4 V4]. unfold STRAIGHT. destruct (fle_R _ _ Fr F4) as [|K]; [reflexivity|]. rewrite Vr, V4 in K. lra. }
  destruct (C78_contains_point _ p V Up) as [P Q]. rewrite Vr in P, Q. change (center (cap_from_center_height c h)) with c in *. rewrite dist2_dot in P, Q by (apply unit_sphere; assumption).
  split; intros K; [specialize (P K)|specialize (Q K)]; lra.
Qed.
Print Assumptions C115_height_points.
Lemma two_pi : finite (fmul f2 PI64) /\ B2R (fmul f2 PI64) = 2 * pi.
Proof. rewrite <- pi_val. apply twice_exact; [reflexivity|]. rewrite pi_val, pi_num. rewrite Rabs_pos_eq; lra. Qed.
(* the area of a cap of angle alpha on the unit sphere is 2 PI (1 - cos alpha) *)
Theorem C115_area : forall cp, valid_cap cp ->
  (cap_is_empty cp = true -> B2R (cap_area cp) = 0) /\
  (forall alpha, angle_of (radius cp) alpha -> Rabs (B2R (cap_area cp) - 2 * PI * (1 - cos alpha)) <= 1 / 2 ^ 51 * (2 * PI * (1 - cos alpha)) + pow2 (-1000)).
Proof.
  intros cp V. destruct (valid_cap_facts cp V) as (_ & _ & Fr & Br). destruct two_pi as [F2 V2]. split.
  - intros E. unfold cap_area, cap_height. destruct (empty_R cp Fr) as [N|]; [|discriminate].
    assert (Z0 : fle (fmul fhalf (radius cp)) f0 = true /\ is_nan (fmul fhalf (radius cp)) = false).
    { destruct fhalf_val as [Fh Vh]. pose proof (fmul_result fhalf _ Fh Fr) as R. rewrite Vh in R. destruct R as [(P & Q & _)|(s & P & Q & K)].
      - split; [|apply finite_number, P]. destruct (fle_R _ f0 P eq_refl) as [|L]; [reflexivity|]. rewrite Q in L. change (B2R f0) with 0 in L. elim L. rewrite <- rnd_0. apply rnd_le. lra.
      - rewrite P. destruct s; [split; vm_compute; reflexivity|lra]. }
    destruct Z0 as [Z0 Z1]. unfold fmax. rewrite Z1. change (is_nan f0) with false. rewrite Z0.
    pose proof (fmul_result (fmul f2 PI64) f0 F2 eq_refl) as R. change (B2R f0) with 0 in R. rewrite Rmult_0_r in R. destruct (result_rel _ _ R) as (_ & Q & _); [rewrite Rabs_R0; apply big_1000; lra|]. rewrite Q. apply rnd_0.
  - intros alpha [HA EA]. pose proof (chord_range alpha) as CR. rewrite EA in CR.
    assert (EC : 2 * PI * (1 - cos alpha) = PI * B2R (radius cp)). { rewrite <- EA, cos_half. unfold chord. field. }
    rewrite EC. unfold cap_area, cap_height. destruct (half_mu (radius cp) Fr) as (Fh & Vh & Eh); [apply Rabs_le; lra|]. set (x := fmul fhalf (radius cp)) in *.
    assert (X0 : 0 <= B2R x) by (rewrite Vh; apply rnd_nonneg; lra).
    destruct (fmax_R x f0 Fh eq_refl) as [Fm Vm]. change (B2R f0) with 0 in Vm. rewrite Rmax_left in Vm by exact X0. set (m := fmax x f0) in *.
    pose proof (fmul_result (fmul f2 PI64) m F2 Fm) as R. rewrite V2, Vm in R. pose proof pi_PI as PP. assert (PN : 3 < pi < 4) by (rewrite pi_num; lra). pose proof mu_small as MS. pose proof mu_pos as MP. apply Rabs_le_inv in Eh.
    assert (XB : 0 <= 2 * pi * B2R x <= 100) by (split; [apply Rmult_le_pos; lra|apply Rle_trans with (8 * 3); [apply Rmult_le_compat; lra|lra]]).
    destruct (result_rel _ _ R) as (_ & _ & E). { rewrite Rabs_pos_eq by lra. apply big_1000. lra. } rewrite (Rabs_pos_eq (2 * pi * B2R x)) in E by lra.
    set (r := B2R (radius cp)) in *. pose proof p999 as P9. pose proof mu_1000 as M9.
    assert (D1 : Rabs (2 * pi * B2R x - PI * r) <= 1 / 2 ^ 53 * (PI * r) + 8 * mu).
    { replace (2 * pi * B2R x - PI * r) with (2 * pi * (B2R x - r / 2) - (PI - pi) * r) by field. 
      assert (T1 : Rabs (2 * pi * (B2R x - r / 2)) <= 8 * mu). { rewrite Rabs_mult, (Rabs_pos_eq (2 * pi)) by lra. apply Rmult_le_compat; try lra; [apply Rabs_pos|apply Rabs_le; lra]. }
      assert (T2 : 0 <= (PI - pi) * r <= 1 / 2 ^ 53 * (PI * r)).
      { split; [apply Rmult_le_pos; lra|]. replace (1 / 2 ^ 53 * (PI * r)) with (1 / 2 ^ 53 * PI * r) by ring. apply Rmult_le_compat_r; [lra|]. pose proof PI_tight. assert (PI - pi <= 13 / 100000000000000000) by (rewrite pi_num; lra). lra. }
      apply Rabs_le_inv in T1. apply Rabs_le. lra. }
    apply Rabs_le_inv in D1. apply Rabs_le_inv in E. assert (PR : 0 <= PI * r) by (apply Rmult_le_pos; lra). set (K := PI * r) in *. apply Rabs_le. split; lra.
Qed.
Print Assumptions C115_area.
Theorem C115_from_area : forall c (a : f64), finite a ->
  let cp := cap_from_center_area c a in center cp = c /\
  (B2R a <= - pow2 (-1000) -> cap_is_empty cp = true) /\ (4 * PI <= B2R a -> cap_is_full cp = true) /\
  (0 <= B2R a <= 4 * pi -> finite (radius cp) /\ 0 <= B2R (radius cp) <= 4 /\ Rabs (PI * B2R (radius cp) - B2R a) <= 1 / 2 ^ 52 * B2R a + pow2 (-1000)).
Proof.
  intros c a F. cbv zeta. split; [reflexivity|]. pose proof pi_PI as PP. assert (PN : 3 < pi < 4) by (rewrite pi_num; lra). pose proof PI_tight as PT.
  assert (PD : PI - pi <= 13 / 100000000000000000) by (rewrite pi_num; lra).
  unfold cap_is_empty, cap_is_full, cap_from_center_area, from_squared_length, fgt. cbn [radius]. destruct c4_val as [F4 V4].
  pose proof (fdiv_result a PI64 F eq_refl) as R. rewrite pi_val in R. specialize (R ltac:(lra)). set (q := fdiv a PI64) in *.
  assert (IP : / 4 < / pi < / 3) by (split; apply Rinv_lt_contravar; lra). assert (AB : Rabs (B2R a) < bpow radix2 1024) by (apply abs_B2R_lt_emax).
  assert (Q : finite q /\ B2R q = rnd (B2R a / pi)).
  { destruct R as [(P & Q & _)|(s & _ & Q & _)]; [auto|]. exfalso. assert (L : Rabs (rnd (B2R a / pi)) <= Rabs (B2R a)).
    { apply abs_round_le_generic; [apply FLT_exp_valid; reflexivity|apply valid_rnd_N|apply generic_format_abs, (generic_format_B2R 53 1024)|].
      unfold Rdiv. rewrite Rabs_mult, (Rabs_pos_eq (/ pi)) by lra. rewrite <- (Rmult_1_r (Rabs (B2R a))) at 2. apply Rmult_le_compat_l; [apply Rabs_pos|lra]. }
    lra. }
  destruct Q as [Fq Vq]. destruct (flt_R c4 q F4 Fq) as [L|L]; rewrite V4, Vq in L.
  - assert (A4 : 4 * pi < B2R a). { apply Rnot_le_lt. intros K. assert (rnd (B2R a / pi) <= 4); [|lra]. apply (rnd_upper c4); [exact V4|]. apply Rmult_le_reg_r with pi; [lra|]. unfold Rdiv. rewrite Rmult_assoc, Rinv_l, Rmult_1_r by lra. exact K. }
    pose proof (bpow_gt_0 radix2 (-1000)). split; [intros; lra|]. split; [intros _; unfold STRAIGHT; destruct (feq_R c4 c4 F4 F4) as [|N]; [reflexivity|elim N; reflexivity]|intros; lra].
  - split; [|split].
    + intros H. destruct (flt_R q f0 Fq eq_refl) as [|K]; [reflexivity|]. rewrite Vq in K. change (B2R f0) with 0 in K. elim K.
      assert (T : B2R a / pi <= - pow2 (-1002)).
      { replace (pow2 (-1002)) with (pow2 (-1000) * / 4) by (change (/ 4) with (pow2 (-2)); rewrite <- bpow_plus; reflexivity). unfold Rdiv. pose proof (bpow_gt_0 radix2 (-1000)) as P0. nra. }
      assert (G : rnd (B2R a / pi) <= - pow2 (-1002)). { apply round_le_generic; [apply FLT_exp_valid; reflexivity|apply valid_rnd_N|apply generic_format_opp, generic_format_bpow; unfold FLT_exp; lia|exact T]. }
      pose proof (bpow_gt_0 radix2 (-1002)). lra.
    + intros H. unfold STRAIGHT. destruct (feq_R q c4 Fq F4) as [|K]; [reflexivity|]. elim K. rewrite Vq, V4. apply Rle_antisym; [lra|]. rewrite <- V4, <- (rnd_fix c4), V4. apply rnd_le.
      apply Rmult_le_reg_r with pi; [lra|]. unfold Rdiv. rewrite Rmult_assoc, Rinv_l, Rmult_1_r by lra. lra.
    + intros H. assert (T : 0 <= B2R a / pi <= 4). { split; [apply Rmult_le_pos; lra|]. apply Rmult_le_reg_r with pi; [lra|]. unfold Rdiv. rewrite Rmult_assoc, Rinv_l, Rmult_1_r by lra. lra. }
      split; [exact Fq|]. split; [rewrite Vq; split; [apply rnd_nonneg; lra|lra]|]. pose proof (rnd_rel (B2R a / pi)) as E. rewrite (Rabs_pos_eq (B2R a / pi)) in E by lra. rewrite Vq. set (r := rnd (B2R a / pi)) in *.
      set (t := B2R a / pi) in *. assert (EA : B2R a = pi * t) by (unfold t; field; lra). rewrite EA. pose proof mu_1000 as M9. pose proof p999 as P9. pose proof mu_pos as MP.
      replace (PI * r - pi * t) with (PI * (r - t) + (PI - pi) * t) by ring.
      assert (T1 : Rabs (PI * (r - t)) <= PI * (eps * t + mu)). { rewrite Rabs_mult, (Rabs_pos_eq PI) by lra. apply Rmult_le_compat_l; lra. }
      assert (T2 : 0 <= (PI - pi) * t <= 13 / 100000000000000000 * t) by (split; [apply Rmult_le_pos; lra|apply Rmult_le_compat_r; lra]).
      assert (T3 : PI * (eps * t + mu) <= (pi + 13 / 100000000000000000) * (eps * t) + 4 * mu).
      { replace (PI * (eps * t + mu)) with (PI * (eps * t) + PI * mu) by ring. apply Rplus_le_compat; [apply Rmult_le_compat_r; [apply Rmult_le_pos; lra|lra]|apply Rmult_le_compat_r; lra]. }
      assert (T4 : 3 * t <= pi * t) by (apply Rmult_le_compat_r; lra). apply Rabs_le_inv in T1. apply Rabs_le. split; lra.
Qed.
Print Assumptions C115_from_area.
(* a negative area whose quotient by PI underflows does not give an empty cap *)
Theorem C115_from_area_refuted : exists a : f64, finite a /\ flt a f0 = true /\ cap_is_empty (cap_from_center_area CENTER_POINT a) = false.
Proof. exists (lit (-1) (-1074)). repeat split; vm_compute; reflexivity. Qed.
Print Assumptions C115_from_area_refuted.
Example C115_example : is_unit CENTER_POINT = true /\ finite f1 /\ 0 <= B2R f1 < 2 /\ valid_cap (Cap CENTER_POINT f1) /\ exists alpha, angle_of (radius (Cap CENTER_POINT f1)) alpha.
Proof.
  destruct f1_val as [F V]. split; [vm_compute; reflexivity|]. split; [exact F|]. split; [lra|]. split; [split; vm_compute; reflexivity|]. destruct (chord_onto 1 ltac:(lra)) as (t & T & E). exists t. split; [exact T|]. cbn [radius]. lra.
Qed.

(** ** C116: sine and tangent of chord angles, and what is a chord angle *)
Theorem C116_sin : forall (a : f64) alpha, finite a -> 0 <= alpha <= PI -> B2R a = chord alpha ->
  finite (chord_sin a) /\ Rabs (B2R (chord_sin a) - sin alpha) <= 5 / 2 ^ 53 * sin alpha + pow2 (-500).
Proof.
  intros a alpha Fa HA VA. destruct (C74_sin2_cos a alpha Fa HA VA) as [E _]. pose proof (sin_ge_0 alpha ltac:(lra) ltac:(lra)) as S0. pose proof (SIN_bound alpha) as [_ S1]. pose proof (chord_range alpha) as CR.
  assert (G : finite (chord_sin2 a) /\ 0 <= B2R (chord_sin2 a)).
  { unfold chord_sin2. destruct quarter_val as [Fq Vq]. destruct f1_val as [F1 V1]. pose proof (fmul_result quarter a Fq Fa) as R1. rewrite Vq in R1.
    destruct (result_rel _ _ R1) as (G1 & V2 & _). { apply Rle_trans with 1000; [apply Rabs_le; lra|apply big_1000; lra]. }
    assert (B1 : 0 <= B2R (fmul quarter a) <= 1). { rewrite V2. split; [apply rnd_nonneg; lra|apply (rnd_upper f1); [exact V1|lra]]. }
    pose proof (fsub_result f1 _ F1 G1) as R2. rewrite V1 in R2. destruct (result_rel _ _ R2) as (G2 & V3 & _). { apply Rle_trans with 1000; [apply Rabs_le; lra|apply big_1000; lra]. }
    assert (B2 : 0 <= B2R (fsub f1 (fmul quarter a)) <= 1). { rewrite V3. split; [apply rnd_nonneg; lra|apply (rnd_upper f1); [exact V1|lra]]. }
    pose proof (fmul_result a _ Fa G2) as R3. assert (B3 : 0 <= B2R a * B2R (fsub f1 (fmul quarter a)) <= 4) by (split; [apply Rmult_le_pos; lra|apply Rle_trans with (4 * 1); [apply Rmult_le_compat; lra|lra]]).
    destruct (result_rel _ _ R3) as (G3 & V4 & _). { apply Rle_trans with 1000; [apply Rabs_le; lra|apply big_1000; lra]. } split; [exact G3|]. rewrite V4. apply rnd_nonneg. lra. }
  destruct G as [F2 P2]. unfold chord_sin. destruct (fsqrt_val _ F2 P2) as [Fs Vs]. split; [exact Fs|]. rewrite Vs.
  assert (Q : Rabs (sqrt (B2R (chord_sin2 a)) - sqrt (sin alpha * sin alpha)) <= 3 / 2 ^ 53 * sqrt (sin alpha * sin alpha) + pow2 (-520)).
  { apply sqrt_err; [exact P2|apply Rmult_le_pos; lra|lra|apply bpow_ge_0|]. rewrite <- bpow_plus. exact E. }
  rewrite sqrt_square in Q by exact S0. pose proof (rnd_rel (sqrt (B2R (chord_sin2 a)))) as E2. pose proof (sqrt_pos (B2R (chord_sin2 a))) as SP. rewrite (Rabs_pos_eq (sqrt (B2R (chord_sin2 a)))) in E2 by exact SP.
  assert (P5 : 3 * pow2 (-520) <= pow2 (-500)). { change (-500)%Z with (20 + -520)%Z. rewrite bpow_plus. pose proof (bpow_gt_0 radix2 (-520)). change (pow2 20) with 1048576. lra. }
  assert (P6 : mu <= pow2 (-520)) by (apply bpow_le; lia). pose proof (bpow_gt_0 radix2 (-520)) as P7. apply Rabs_le_inv in E2. apply Rabs_le_inv in Q. apply Rabs_le. split; lra.
Qed.
Print Assumptions C116_sin.
(* the tangent t of alpha satisfies t * cos alpha = sin alpha up to rounding *)
Theorem C116_tan : forall (a : f64) alpha, finite a -> 0 <= alpha <= PI -> B2R a = chord alpha ->
  let t := chord_tan a in finite t -> Rabs (B2R t * cos alpha - sin alpha) <= 1 / 2 ^ 49 * (1 + Rabs (B2R t)).
Proof.
  intros a alpha Fa HA VA. cbv zeta. destruct (C116_sin a alpha Fa HA VA) as [Fs Es]. destruct (C74_sin2_cos a alpha Fa HA VA) as [_ Ec]. pose proof (SIN_bound alpha) as SB. pose proof (sin_ge_0 alpha ltac:(lra) ltac:(lra)) as S0. pose proof (chord_range alpha) as CR.
  assert (Fc : finite (chord_cos a)).
  { unfold chord_cos in *. destruct (half_mu a Fa) as (Fh & Vh & _); [apply Rabs_le; lra|]. destruct f1_val as [F1 V1]. pose proof (fsub_result f1 _ F1 Fh) as R. rewrite V1 in R.
    assert (B : 0 <= B2R (fmul fhalf a) <= 2). { rewrite Vh. split; [apply rnd_nonneg; lra|]. destruct f2_val as [_ V2]. apply (rnd_upper f2); [exact V2|lra]. }
    destruct (result_rel _ _ R) as (Fc & _). { apply Rle_trans with 1000; [apply Rabs_le; lra|apply big_1000; lra]. } exact Fc. }
  unfold chord_tan. intros Ft.
  assert (NC : B2R (chord_cos a) <> 0).
  { destruct (chord_cos a) as [z|z| |z m e b]; try discriminate Fc.
    - exfalso. destruct (chord_sin a) as [y|y| |y m' e' b']; discriminate.
    - cbn [B2R]. intros Z0. apply eq_0_F2R in Z0. destruct z; discriminate Z0. }
  pose proof (fdiv_result _ _ Fs Fc NC) as R. set (t := fdiv (chord_sin a) (chord_cos a)) in *.
  assert (V : B2R t = rnd (B2R (chord_sin a) / B2R (chord_cos a))). { destruct R as [(_ & Q & _)|(z & Q & _)]; [exact Q|]. rewrite Q in Ft. discriminate Ft. }
  pose proof (rnd_rel (B2R (chord_sin a) / B2R (chord_cos a))) as E. rewrite <- V in E. set (s := B2R (chord_sin a)) in *. set (c := B2R (chord_cos a)) in *. set (T := B2R t) in *.
  assert (D : Rabs (c * (T - s / c)) <= eps * Rabs s + mu * Rabs c).
  { rewrite Rabs_mult. apply Rle_trans with (Rabs c * (eps * Rabs (s / c) + mu)); [apply Rmult_le_compat_l; [apply Rabs_pos|exact E]|].
    assert (X : Rabs c * Rabs (s / c) = Rabs s) by (rewrite <- Rabs_mult; f_equal; field; exact NC).
    replace (Rabs c * (eps * Rabs (s / c) + mu)) with (eps * (Rabs c * Rabs (s / c)) + mu * Rabs c) by ring. rewrite X. lra. }
  assert (W1 : Rabs (T * (cos alpha - c)) <= 2 / 2 ^ 53 * Rabs T). { rewrite Rabs_mult, Rmult_comm, (Rabs_minus_sym (cos alpha)). apply Rmult_le_compat_r; [apply Rabs_pos|exact Ec]. }
  pose proof (COS_bound alpha) as CB. pose proof mu_small as MS. pose proof mu_pos as MP.
  assert (P5 : pow2 (-500) <= 1 / 2 ^ 60). { apply Rle_trans with (pow2 (-60)); [apply bpow_le; lia|]. change (pow2 (-60)) with (/ 1152921504606846976). lra. }
  apply Rabs_le_inv in Es. apply Rabs_le_inv in Ec. assert (BS : Rabs s <= 2) by (apply Rabs_le; lra). assert (BC : Rabs c <= 2) by (apply Rabs_le; lra).
  assert (W2 : mu * Rabs c <= mu * 2) by (apply Rmult_le_compat_l; lra).
  replace (T * cos alpha - sin alpha) with (T * (cos alpha - c) + c * (T - s / c) + (s - sin alpha)) by (field; exact NC).
  apply Rabs_le_inv in W1. apply Rabs_le_inv in D. pose proof (Rabs_pos T) as PT. apply Rabs_le. split; lra.
Qed.
Print Assumptions C116_tan.
(* valid chord angles are those up to 4, negative ones included, and infinity; from_squared_length
   cuts off at 4 *)
Theorem C116_valid : forall l : f64, number l ->
  (chord_is_valid l = true <-> l = B754_infinity false \/ ele (ev l) (Fin 4)) /\
  (ele (ev l) (Fin 4) -> from_squared_length l = l) /\ (~ ele (ev l) (Fin 4) -> B2R (from_squared_length l) = 4 /\ finite (from_squared_length l)).
Proof.
  intros l N. destruct c4_val as [F4 V4]. assert (E4 : Fin 4 = ev c4) by (rewrite (ev_fin _ F4), V4; reflexivity).
  assert (L : fle l c4 = true <-> ele (ev l) (Fin 4)). { rewrite E4, (ev_rank l c4 N eq_refl), fle_rank by (exact N || reflexivity). apply Z.leb_le. }
  assert (G : fgt l c4 = negb (fle l c4)). { unfold fgt. rewrite flt_rank, fle_rank by (exact N || reflexivity). destruct (Z.ltb_spec (rank c4) (rank l)), (Z.leb_spec (rank l) (rank c4)); auto; exfalso; lia. }
  split; [|split].
  - unfold chord_is_valid, chord_is_special, fge. rewrite !orb_true_iff, andb_true_iff, L. destruct l as [z|z| |z m e b]; try discriminate N.
    + split; [right; tauto|]. intros _. left. split; [reflexivity|]. rewrite (ev_fin (B754_zero z) eq_refl). change (0 <= 4). lra.
    + split; [|intros _; right; right; reflexivity]. intros _. destruct z; [right; exact I|left; reflexivity].
    + set (x := B754_finite z m e b) in *. split; [intros [[_ H]|[H|H]]; [right; exact H| |discriminate H]|].
      * right. destruct (flt_R x f0 eq_refl eq_refl) as [K|K]; [|discriminate]. change (B2R f0) with 0 in K. rewrite (ev_fin x eq_refl). cbn [ele]. lra.
      * intros [H|H]; [discriminate H|]. destruct (flt_R x f0 eq_refl eq_refl) as [K|K]; [right; left; reflexivity|]. left. split; [|exact H]. destruct (fle_R f0 x eq_refl eq_refl) as [|J]; [reflexivity|]. change (B2R f0) with 0 in *. lra.
  - intros H. unfold from_squared_length. rewrite G. apply L in H. rewrite H. reflexivity.
  - intros H. unfold from_squared_length. rewrite G. destruct (fle l c4) eqn:K; [elim H; apply L; reflexivity|]. cbn [negb]. unfold STRAIGHT. auto.
Qed.
Print Assumptions C116_valid.

(** ** C117: interior_intersects, expanded and equality of caps *)
Theorem C117_interior_intersects : forall c o alpha beta, valid_cap c -> valid_cap o -> angle_of (radius c) alpha -> angle_of (radius o) beta ->
  (alpha = 0 -> cap_interior_intersects c o = false) /\
  (cap_interior_intersects c o = true -> dist2 (direction (center c)) (direction (center o)) <= chord (Rmin PI (alpha + beta)) + 1 / 2 ^ 40) /\
  (0 < alpha -> cap_interior_intersects c o = false -> chord (Rmin PI (alpha + beta)) < dist2 (direction (center c)) (direction (center o)) + 1 / 2 ^ 40).
Proof.
  intros c o alpha beta V W [HA EA] [HB EB]. destruct (valid_cap_facts c V) as (Uc & _ & Fc & Bc). destruct (valid_cap_facts o W) as (Uo & _ & Fo & Bo).
  pose proof (chord_range alpha). pose proof (chord_range beta). unfold cap_interior_intersects. destruct (empty_R o Fo) as [N|N]; [lra|]. rewrite orb_false_r.
  destruct (chordangle_range (center c) (center o)) as [G C]. destruct (chordangle_near _ _ Uc Uo) as (D & A & B).
  destruct (chord_add_cs _ _ Fc Fo ltac:(lra) ltac:(lra)) as (Fs & Bs & Es). rewrite <- EA, <- EB, cs_chord in Es by auto.
  change (pow2 (-47)) with (/ 140737488355328) in Es. unfold KC in *. abs_le. unfold fgt.
  destruct (fle_R (radius c) f0 Fc eq_refl) as [P|P]; change (B2R f0) with 0 in P.
  - split; [reflexivity|]. split; [discriminate|]. intros H1 _. pose proof (chord_incr_lt 0 alpha ltac:(lra) H1 ltac:(lra)) as K. rewrite chord_0 in K. lra.
  - split; [intros ->; rewrite chord_0 in EA; lra|]. destruct (flt_R _ _ G Fs) as [L|L]; split; intros; try discriminate; lra.
Qed.
Print Assumptions C117_interior_intersects.
(* no empty cap meets the interior of a cap, and an empty cap has no interior *)
Theorem C117_interior_empty : forall c o, cap_is_empty o = true \/ (finite (radius c) /\ cap_is_empty c = true) -> cap_interior_intersects c o = false.
Proof.
  intros c o [H|[F H]]; unfold cap_interior_intersects; [rewrite H, orb_true_r; reflexivity|]. destruct (empty_R c F) as [N|]; [|discriminate].
  destruct (fle_R (radius c) f0 F eq_refl) as [|P]; [reflexivity|]. change (B2R f0) with 0 in P. lra.
Qed.
Print Assumptions C117_interior_empty.
(* the expanded cap has every point within the angle of a point of the cap, and its radius is
   the sum of the angles *)
Theorem C117_expanded : forall fsin cp (d : f64) alpha, accurate_sin fsin -> valid_cap cp -> angle_of (radius cp) alpha -> finite d -> 0 <= B2R d ->
  let k := cap_expanded cp (chord_of_angle fsin d) in let delta := Rmin PI (B2R d) in
  valid_cap k /\ center k = center cp /\ Rabs (B2R (radius k) - chord (Rmin PI (alpha + delta))) <= 1 / 2 ^ 43 /\
  (forall p q, in_disc (center cp) (B2R (radius cp)) p -> on_sphere q -> dist2 p q <= chord delta -> in_disc (center k) (B2R (radius k) + 1 / 2 ^ 43) q).
Proof.
  intros fsin cp d alpha AS V [HA EA] F D. cbv zeta. destruct (valid_cap_facts cp V) as (Uc & _ & Fr & Br). destruct (C113_of_angle fsin d AS F D) as (Fd & Bd & Ed). cbv zeta in *. set (e := chord_of_angle fsin d) in *. set (delta := Rmin PI (B2R d)) in *.
  assert (T : 0 <= delta <= PI) by (unfold delta; pose proof PI_RGT_0; unfold Rmin; destruct Rle_dec; lra). pose proof (chord_range alpha) as CA. pose proof (chord_range delta) as CD.
  unfold cap_expanded. destruct (empty_R cp Fr) as [N|N]; [lra|]. cbn [center radius].
  destruct (chord_add_cs (radius cp) e Fr Fd ltac:(lra) Bd) as (Fs & Bs & Es). set (r := chord_add (radius cp) e) in *. change (pow2 (-47)) with (/ 140737488355328) in Es.
  assert (CC : forall a b, cs a b = cs b a). { intros a b. unfold cs. rewrite (Rplus_comm a b). destruct (Rle_dec (b + a) 4); [|reflexivity]. unfold csum. rewrite (Rplus_comm (a * _)), (Rmult_comm (a * _)). reflexivity. }
  assert (X : Rabs (cs (B2R (radius cp)) (B2R e) - chord (Rmin PI (alpha + delta))) <= 8 / 2 ^ 47 + pow2 (-898) + 4 * pow2 (-449)).
  { rewrite <- cs_chord by assumption. rewrite EA, !(CC (B2R (radius cp))). apply Rabs_le_inv in Ed. pose proof (bpow_gt_0 radix2 (-449)) as P0. pose proof (bpow_gt_0 radix2 (-900)) as P9. assert (E9 : pow2 (-449) * pow2 (-449) = pow2 (-898)) by (rewrite <- bpow_plus; reflexivity). assert (E8 : pow2 (-898) = 4 * pow2 (-900)) by (change 4 with (pow2 2); rewrite <- bpow_plus; reflexivity).
    pose proof (cs_step (B2R e) (chord delta) (B2R (radius cp)) (2 / 2 ^ 47) (pow2 (-449)) Bd CD ltac:(lra) ltac:(lra) ltac:(lra) ltac:(rewrite E9, E8; lra)) as S1.
    pose proof (cs_step (chord delta) (B2R e) (B2R (radius cp)) (2 / 2 ^ 47) (pow2 (-449)) CD Bd ltac:(lra) ltac:(lra) ltac:(lra) ltac:(rewrite E9, E8; lra)) as S2. rewrite E9 in *. apply Rabs_le. split; lra. }
  assert (P8 : pow2 (-898) + 4 * pow2 (-449) <= 5 / 2 ^ 60). { assert (pow2 (-898) <= pow2 (-60)) by (apply bpow_le; lia). assert (pow2 (-449) <= pow2 (-60)) by (apply bpow_le; lia). change (pow2 (-60)) with (/ 1152921504606846976) in *. lra. }
  assert (Y : Rabs (B2R r - chord (Rmin PI (alpha + delta))) <= 1 / 2 ^ 43). { apply Rabs_le_inv in Es. apply Rabs_le_inv in X. apply Rabs_le. split; lra. }
  split. { split; [|exact Fs]. unfold cap_is_valid. cbn [center radius]. rewrite Uc. destruct c4_val as [F4 V4]. unfold STRAIGHT. destruct (fle_R r c4 Fs F4); [reflexivity|lra]. }
  split; [reflexivity|]. split; [exact Y|]. intros p q [Sp Hp] Sq Hpq. split; [exact Sq|]. pose proof (unit_sphere _ Uc) as Sc.
  pose proof (sphere_triangle_cs _ _ _ (chord delta) Sc Sp Sq ltac:(lra)) as T1. pose proof (dist2_range _ _ Sc Sp).
  pose proof (cs_mono (dist2 (direction (center cp)) p) (chord delta) (B2R (radius cp)) (chord delta) ltac:(lra) ltac:(lra) ltac:(lra) ltac:(lra) ltac:(lra) ltac:(lra)) as T2.
  rewrite <- EA, cs_chord in T2 by assumption. apply Rabs_le_inv in Y. lra.
Qed.
Print Assumptions C117_expanded.
(* expanding by nothing but an empty cap is empty *)
Theorem C117_expanded_empty : forall c d, cap_is_empty c = true -> cap_is_empty (cap_expanded c d) = true.
Proof. intros c d E. unfold cap_expanded. rewrite E. reflexivity. Qed.
Print Assumptions C117_expanded_empty.
(* equal caps contain the same points and meet and contain the same caps; equality is an
   equivalence on caps with finite centres *)
Lemma fmin_same x y y' : same y y' -> same (fmin x y) (fmin x y').
Proof.
  intros S. unfold fmin. assert (N : is_nan y = is_nan y') by (destruct S as [->|[A B]]; [reflexivity|destruct y, y'; try discriminate; reflexivity]).
  rewrite <- N. destruct (is_nan x); [exact S|]. destruct (is_nan y); [apply same_refl|]. rewrite (fle_same y y' x x S (same_refl x)). destruct (fle y' x); [exact S|apply same_refl].
Qed.
Lemma chordangle_same u v p : vsame u v -> same (chordangle u p) (chordangle v p).
Proof.
  intros (A & B & C). unfold chordangle, norm2, dot, vsub. apply fmin_same. cbn [vx vy vz]. repeat (apply fadd_same || apply fmul_same || apply fsub_same); auto; apply same_refl.
Qed.
Theorem C117_equal_points : forall c o p, cap_eq c o = true -> cap_contains_point c p = cap_contains_point o p.
Proof.
  intros c o p H. unfold cap_eq in H. apply orb_true_iff in H as [H|H]; [apply orb_true_iff in H as [H|H]|]; apply andb_true_iff in H as [H1 H2]; unfold cap_contains_point.
  - apply feq_same in H1. apply veq_same in H2. apply fle_same; [apply chordangle_same, H2|exact H1].
  - unfold cap_is_empty in *.
    assert (K : forall r x : f64, flt r f0 = true -> finite x -> 0 <= B2R x -> fle x r = false).
    { intros r x L F X. destruct (is_finite r) eqn:G.
      - destruct (flt_R r f0 G eq_refl) as [Q|]; [|discriminate]. change (B2R f0) with 0 in Q. destruct (fle_R x r F G); [lra|reflexivity].
      - destruct r as [z|[|]| |z m e b]; try discriminate. destruct x as [[|]|z| |[|] m e b]; try discriminate F; reflexivity. }
    destruct (chordangle_range (center c) p) as [F1 B1]. destruct (chordangle_range (center o) p) as [F2 B2]. rewrite !K; auto; lra.
  - unfold cap_is_full, STRAIGHT in *. destruct c4_val as [F4 V4].
    assert (K : forall r x : f64, feq r c4 = true -> finite x -> B2R x <= 4 -> fle x r = true).
    { intros r x L F X. apply feq_same in L. rewrite (fle_same x x r c4 (same_refl x) L). destruct (fle_R x c4 F F4); [reflexivity|lra]. }
    destruct (chordangle_range (center c) p) as [F1 B1]. destruct (chordangle_range (center o) p) as [F2 B2]. rewrite !K; auto; lra.
Qed.
Print Assumptions C117_equal_points.
(* all empty caps are equal, all full ones are, and two other caps are equal if and only if
   centres and radii have the same values *)
Theorem C117_equal : forall c o, valid_cap c -> valid_cap o ->
  (cap_is_empty c = true -> cap_eq c o = cap_is_empty o) /\ (cap_is_full c = true -> cap_eq c o = cap_is_full o) /\
  (cap_is_empty c = false -> cap_is_full c = false ->
    (cap_eq c o = true <-> B2R (radius c) = B2R (radius o) /\ B2R (vx (center c)) = B2R (vx (center o)) /\ B2R (vy (center c)) = B2R (vy (center o)) /\ B2R (vz (center c)) = B2R (vz (center o)))).
Proof.
  intros c o V W. destruct (valid_cap_facts c V) as (_ & (F1 & F2 & F3) & Fr & _). destruct (valid_cap_facts o W) as (_ & (G1 & G2 & G3) & Gr & _). unfold cap_eq.
  split; [|split].
  - intros E. rewrite E. destruct (empty_R o Gr) as [N|N]; [rewrite orb_true_r; reflexivity|]. destruct (empty_R c Fr) as [M|]; [|discriminate].
    destruct (full_R c Fr) as [K|K]; [lra|]. destruct (feq_R (radius c) (radius o) Fr Gr); [lra|]. reflexivity.
  - intros E. rewrite E. destruct (full_R o Gr) as [N|N]; [rewrite orb_true_r; reflexivity|]. destruct (full_R c Fr) as [M|]; [|discriminate].
    destruct (empty_R c Fr) as [K|K]; [lra|]. destruct (feq_R (radius c) (radius o) Fr Gr); [lra|]. reflexivity.
  - intros -> ->. cbn [andb]. rewrite !orb_false_r. unfold veq. rewrite !andb_true_iff.
    destruct (feq_R (radius c) (radius o) Fr Gr), (feq_R _ _ F1 G1), (feq_R _ _ F2 G2), (feq_R _ _ F3 G3); split; intros HH; repeat split; auto; try (exfalso; destruct HH as [? (? & ? & ?)]; auto; fail); destruct HH as [? [[? ?] ?]]; discriminate.
Qed.
Print Assumptions C117_equal.

(** ** The hypotheses are met *)
(* the double nearest to a real number of absolute value at most 1 *)
Definition of_real (x : R) : f64 := let y := rnd x in if Req_EM_T y 0 then f0 else lit (Ztrunc (scaled_mantissa radix2 (FLT_exp (-1074) 53) y)) (cexp radix2 (FLT_exp (-1074) 53) y).
Lemma of_real_val x : Rabs x <= 1 -> finite (of_real x) /\ B2R (of_real x) = rnd x.
Proof.
  intros B. assert (GF : generic_format radix2 (FLT_exp (-1074) 53) (rnd x)) by (apply generic_format_round; [apply FLT_exp_valid; reflexivity|apply valid_rnd_N]).
  destruct f1_val as [_ V1]. assert (BY : Rabs (rnd x) <= 1).
  { apply Rabs_le_inv in B. apply Rabs_le. split; [|apply (rnd_upper f1); [exact V1|lra]].
    assert (E : B2R (fneg f1) = -1) by (destruct (fneg_val f1 eq_refl) as [_ E]; rewrite E, V1; lra). pose proof (rnd_fix (fneg f1)) as E'. rewrite E in E'. apply Rle_trans with (rnd (-1)); [lra|]. apply rnd_le. lra. }
  unfold of_real. set (y := rnd x) in *. set (fx := FLT_exp (-1074) 53) in *.
  destruct (Req_EM_T y 0) as [->|NZ]; [split; reflexivity|].
  assert (MG : (mag radix2 y <= 1)%Z). { apply mag_le_bpow; [exact NZ|]. change (bpow radix2 1) with 2. lra. }
  assert (CE : (cexp radix2 fx y = Z.max (mag radix2 y - 53) (-1074))%Z) by reflexivity.
  destruct (lit_val (Ztrunc (scaled_mantissa radix2 fx y)) (cexp radix2 fx y)) as [F V].
  - apply le_IZR. rewrite abs_IZR, <- (scaled_mantissa_generic radix2 fx y GF). pose proof (scaled_mantissa_lt_bpow radix2 fx y) as L.
    assert (L2 : bpow radix2 (mag radix2 y - cexp radix2 fx y) <= bpow radix2 53) by (apply bpow_le; rewrite CE; lia). change (bpow radix2 53) with 9007199254740992 in L2. change (2 ^ 53)%Z with 9007199254740992%Z. lra.
  - rewrite CE. lia.
  - split; [exact F|]. rewrite V, <- (scaled_mantissa_generic radix2 fx y GF). apply scaled_mantissa_mult_bpow.
Qed.
Definition near_sin (x : f64) : f64 := of_real (sin (B2R x)).
Lemma near_sin_ok : accurate_sin near_sin.
Proof.
  intros x _ _. unfold near_sin. set (s := sin (B2R x)). assert (B : Rabs s <= 1) by (apply Rabs_le, SIN_bound). destruct (of_real_val s B) as [F V]. split; [exact F|]. rewrite V.
  destruct f1_val as [_ V1]. split.
  - apply Rabs_le_inv in B. apply Rabs_le. split; [|apply (rnd_upper f1); [exact V1|lra]].
    assert (E : B2R (fneg f1) = -1) by (destruct (fneg_val f1 eq_refl) as [_ E]; rewrite E, V1; lra). pose proof (rnd_fix (fneg f1)) as E'. rewrite E in E'. apply Rle_trans with (rnd (-1)); [lra|]. apply rnd_le. lra.
  - eapply Rle_trans; [apply rnd_rel|]. pose proof (Rabs_pos s). apply Rplus_le_compat; [apply Rmult_le_compat_r; [lra|]|apply bpow_le; lia]. lra.
Qed.
Example C113_example : accurate_sin near_sin /\ finite f1 /\ 0 <= B2R f1 <= 2.
Proof. split; [exact near_sin_ok|]. destruct f1_val as [F V]. split; [exact F|lra]. Qed.
Example C116_example : exists alpha, finite f2 /\ 0 <= alpha <= PI /\ B2R f2 = chord alpha /\ finite (chord_tan f1).
Proof.
  destruct f2_val as [F V]. destruct (chord_onto 2 ltac:(lra)) as (t & T & E). exists t. split; [exact F|]. split; [exact T|]. split; [lra|]. vm_compute. reflexivity.
Qed.
Example C117_example : exists alpha, valid_cap (Cap CENTER_POINT f2) /\ angle_of (radius (Cap CENTER_POINT f2)) alpha /\ 0 < alpha /\ accurate_sin near_sin /\ finite f1 /\ 0 <= B2R f1.
Proof.
  destruct f2_val as [F V]. destruct (chord_onto 2 ltac:(lra)) as (t & T & E). exists t. split; [split; vm_compute; reflexivity|]. split; [split; [exact T|cbn [radius]; lra]|].
  split; [|split; [exact near_sin_ok|destruct f1_val as [F1 V1]; split; [exact F1|lra]]]. destruct (Req_dec t 0) as [->|]; [rewrite chord_0 in E|]; lra.
Qed.
Example C114_example : nearly_unit CENTER_POINT /\ accurate_sin near_sin /\ finite f1 /\ 0 <= B2R f1.
Proof. split; [exact C81_example|]. split; [exact near_sin_ok|]. destruct f1_val as [F V]. split; [exact F|lra]. Qed.
