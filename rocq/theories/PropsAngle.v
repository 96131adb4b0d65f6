(** Angles, fixed-point degrees and latitude/longitude pairs. *)
From Coq Require Import Reals Lra Psatz.
From Verif Require Import F64 F64Facts IntervalSpec F64Arith F64Error S1Proofs StuvError AngleModel AngleProofs.
Open Scope R_scope.

(** ** C85 Angle::normalized

    Promised: the equivalent angle in [0, 2 pi), where "equivalent" means a whole
    number of turns away; the code's turn is twice the double nearest to pi. *)

(** Proved: the result is in [0, 2 pi], and a whole number of turns away up to
    one rounding; it is exact and below 2 pi unless the angle is negative. *)
Theorem C85_normalized_partial : forall a : f64, finite a ->
  finite (angle_normalized a) /\ 0 <= B2R (angle_normalized a) <= 2 * pi /\
  (exists n : Z, Rabs (B2R (angle_normalized a) - (B2R a - 2 * pi * IZR n)) <= / 2251799813685248 (* 2^-51 *) /\
     (0 <= B2R a -> B2R (angle_normalized a) = B2R a - 2 * pi * IZR n /\ B2R (angle_normalized a) < 2 * pi)) /\
  (0 <= B2R a < 2 * pi -> B2R (angle_normalized a) = B2R a).
Proof. exact angle_normalized_spec. Qed.
Print Assumptions C85_normalized_partial.

(** Not in [0, 2 pi): a small negative angle becomes a full turn. *)
Theorem C85_normalized_refuted :
  ~ (forall a : f64, finite a -> 0 <= B2R (angle_normalized a) < 2 * pi) /\
  exists a : f64, finite a /\ B2R a = - / 1267650600228229401496703205376 /\ B2R (angle_normalized a) = 2 * pi.
Proof.
  assert (H : exists a : f64, finite a /\ B2R a = - / 1267650600228229401496703205376 /\ B2R (angle_normalized a) = 2 * pi).
  { exists (lit (-1) (-100)). destruct (lit_val (-1) (-100) ltac:(lia) ltac:(lia)) as [F V]. split; [exact F|]. split.
    - rewrite V. change (bpow radix2 (-100)) with (/ 1267650600228229401496703205376). lra.
    - destruct TWOPI_val as [FT VT]. rewrite <- VT. destruct (angle_normalized_spec _ F) as (FN & _).
      destruct (feq_R _ _ FN FT) as [E|N]; [exact E|]. exfalso. apply N.
      assert (Q : feq (angle_normalized (lit (-1) (-100))) TWOPI = true) by (vm_compute; reflexivity).
      destruct (feq_R _ _ FN FT) as [E|_]; [exact E|discriminate]. }
  split; [|exact H]. intros G. destruct H as (a & F & _ & E). specialize (G a F). lra.
Qed.
Print Assumptions C85_normalized_refuted.

Example C85_hyps : exists a, finite a /\ B2R a < 0 /\ flt (angle_normalized a) (of_int 3) = true /\ fgt (angle_normalized a) (of_int 2) = true.
Proof.
  exists (of_int (-16)). destruct (of_int_val (-16) ltac:(lia)) as [F V]. rewrite V. split; [exact F|]. split; [lra|]. vm_compute. auto.
Qed.

(** ** C86 Fixed-point degrees E5, E6, E7 *)

(** n units of 10^-5, 10^-6 or 10^-7 degrees, in radians and in degrees. *)
Definition units_rad (k : unit_e) (n : Z) : R := IZR n * (pi / 180 / match k with UE5 => 100000 | UE6 => 1000000 | UE7 => 10000000 end).
Definition units_deg (k : unit_e) (n : Z) : R := IZR n * (1 / match k with UE5 => 100000 | UE6 => 1000000 | UE7 => 10000000 end).
Definition int32 (n : Z) : Prop := (- 2 ^ 31 <= n <= 2 ^ 31 - 1)%Z.

Lemma close_mono U n m x y : 0 < U -> i32 n -> i32 m -> (n < m)%Z ->
  Rabs (x - IZR n * U) <= 4 * eps * (Rabs (IZR n) * U) -> Rabs (y - IZR m * U) <= 4 * eps * (Rabs (IZR m) * U) -> x < y.
Proof.
  intros PU Hn Hm L Hx Hy. apply i32_bound in Hn, Hm. apply Rabs_le_inv in Hx, Hy.
  assert (IZR n + 1 <= IZR m) by (rewrite <- plus_IZR; apply IZR_le; lia).
  assert (Rabs (IZR n) * U <= 2147483648 * U) by nra. assert (Rabs (IZR m) * U <= 2147483648 * U) by nra.
  assert (IZR n * U + U <= IZR m * U) by nra. lra.
Qed.

Theorem C86_from : forall (k : unit_e) (n : Z), int32 n ->
  finite (from_e (rad_e k) n) /\ Rabs (B2R (from_e (rad_e k) n) - units_rad k n) <= 4 * / 2 ^ 53 * Rabs (units_rad k n) /\
  finite (from_e (deg_e k) n) /\ Rabs (B2R (from_e (deg_e k) n) - units_deg k n) <= 4 * / 2 ^ 53 * Rabs (units_deg k n) /\
  (forall m, int32 m -> (n < m)%Z ->
     B2R (from_e (rad_e k) n) < B2R (from_e (rad_e k) m) /\ B2R (from_e (deg_e k) n) < B2R (from_e (deg_e k) m)).
Proof.
  intros k n Hn. destruct (rad_e_val k) as [UR VR]. destruct (deg_e_val k) as [UD VD].
  pose proof (UR_pos k) as PR. pose proof (UD_pos k) as PD.
  assert (VD' : Rabs (B2R (deg_e k) - 1 / factor k) <= 2 * eps * (1 / factor k)) by lra.
  assert (GR := fun m Hm => from_e_acc _ _ m UR Hm PR VR). assert (GD := fun m Hm => from_e_acc _ _ m UD Hm PD VD').
  destruct (GR n Hn) as [FR ER]. destruct (GD n Hn) as [FD ED].
  assert (E53 : / 2 ^ 53 = eps) by (f_equal; lra).
  assert (AR : Rabs (units_rad k n) = Rabs (IZR n) * (pi / 180 / factor k)).
  { change (units_rad k n) with (IZR n * (pi / 180 / factor k)). rewrite Rabs_mult, (Rabs_pos_eq (_ / _)) by lra. reflexivity. }
  assert (AD : Rabs (units_deg k n) = Rabs (IZR n) * (1 / factor k)).
  { change (units_deg k n) with (IZR n * (1 / factor k)). rewrite Rabs_mult, (Rabs_pos_eq (_ / _)) by lra. reflexivity. }
  rewrite E53, AR, AD. split; [exact FR|]. split; [exact ER|]. split; [exact FD|]. split; [exact ED|].
  intros m Hm L. destruct (GR m Hm) as [_ ER']. destruct (GD m Hm) as [_ ED']. split.
  - exact (close_mono _ n m _ _ PR Hn Hm L ER ER').
  - exact (close_mono _ n m _ _ PD Hn Hm L ED ED').
Qed.
Print Assumptions C86_from.

(** Converting to radians or degrees, and on between the two, and back is the identity. *)
Theorem C86_round_trip : forall (k : unit_e) (n : Z), int32 n ->
  to_e (rad_e k) (from_e (rad_e k) n) = n /\
  to_e (deg_e k) (from_e (deg_e k) n) = n /\
  to_e (rad_e k) (angle_of_deg (from_e (deg_e k) n)) = n /\
  to_e (deg_e k) (deg_of_angle (from_e (rad_e k) n)) = n.
Proof.
  intros k n Hn. destruct (rad_e_val k) as [UR VR]. destruct (deg_e_val k) as [UD VD].
  pose proof (UR_pos k) as PR. pose proof (UD_pos k) as PD. pose proof pi_bounds as PB. destruct (factor_pos k) as [FP FP'].
  assert (VD' : Rabs (B2R (deg_e k) - 1 / factor k) <= 2 * eps * (1 / factor k)) by lra.
  destruct (from_e_acc _ _ n UR Hn PR VR) as [FR ER]. destruct (from_e_acc _ _ n UD Hn PD VD') as [FD ED].
  set (A := B2R (from_e (rad_e k) n)) in *. set (D := B2R (from_e (deg_e k) n)) in *.
  set (ur := pi / 180 / factor k) in *. set (ud := 1 / factor k) in *.
  assert (RD : ur = ud * (pi / 180)) by (unfold ur, ud; field; lra).
  assert (DR : ud = ur / (pi / 180)) by (unfold ur, ud; field; lra).
  pose proof (Rabs_pos (IZR n)) as PN. set (N := Rabs (IZR n)) in *.
  assert (NU : 0 <= N * ur) by nra. assert (ND : 0 <= N * ud) by nra.
  split; [apply (to_e_close _ ur); auto; fold A; fold N; lra|]. split; [apply (to_e_close _ ud); auto; fold D; fold N; lra|].
  destruct (Z.eq_dec n 0) as [-> |Z0].
  { clear. split; destruct k; vm_compute; reflexivity. }
  assert (N1 : 1 <= N) by (unfold N; rewrite <- abs_IZR; apply IZR_le; lia).
  pose proof (i32_bound n Hn) as N2. fold N in N2.
  assert (ud5 : / 10000000 <= ud <= / 100000).
  { unfold ud, Rdiv. rewrite Rmult_1_l. split; apply Rinv_le; lra. }
  assert (ur5 : / 1000000000 <= ur <= 1) by (rewrite RD; assert (17 / 1000 < pi / 180 < 18 / 1000) by lra; split; nra).
  assert (ABS : forall U x, 0 < U -> Rabs (x - IZR n * U) <= 4 * eps * (N * U) -> / 2 * (N * U) <= Rabs x <= 2 * (N * U)).
  { intros U x PU H. assert (Q : Rabs (IZR n * U) = N * U) by (unfold N; rewrite Rabs_mult, (Rabs_pos_eq U) by lra; reflexivity).
    pose proof (Rabs_triang_inv x (IZR n * U)) as T1. pose proof (Rabs_triang_inv (IZR n * U) x) as T2. rewrite (Rabs_minus_sym (IZR n * U) x) in T2.
    assert (0 <= N * U) by nra. rewrite Q in T1, T2. lra. }
  assert (BIG : 4294967296 <= bpow radix2 900) by (change 4294967296 with (bpow radix2 32); apply bpow_le; lia).
  assert (SML : bpow radix2 (-900) <= / 1099511627776) by (change (/ 1099511627776) with (bpow radix2 (-40)); apply bpow_le; lia).
  split.
  - destruct (ABS ud D PD ED) as [L1 L2]. destruct (ang_deg _ FD) as [FA EA].
    { fold D. split; nra. }
    fold D in EA. apply (to_e_close _ ur); auto. fold N.
    replace (B2R (angle_of_deg (from_e (deg_e k) n)) - IZR n * ur)
      with ((B2R (angle_of_deg (from_e (deg_e k) n)) - D * (pi / 180)) + (D - IZR n * ud) * (pi / 180)) by (rewrite RD; ring).
    eapply Rle_trans; [apply Rabs_triang|]. rewrite Rabs_mult, (Rabs_pos_eq (pi / 180)) by lra.
    assert (Rabs D * (pi / 180) <= 2 * (N * ur)) by (rewrite RD; nra).
    assert (Rabs (D - IZR n * ud) * (pi / 180) <= 4 * eps * (N * ur)) by (rewrite RD; nra). lra.
  - destruct (ABS ur A PR ER) as [L1 L2]. destruct (deg_ang _ FR) as [FA EA].
    { fold A. split; nra. }
    fold A in EA. apply (to_e_close _ ud); auto. fold N.
    assert (IV : 0 < / (pi / 180)) by (apply Rinv_0_lt_compat; lra).
    replace (B2R (deg_of_angle (from_e (rad_e k) n)) - IZR n * ud)
      with ((B2R (deg_of_angle (from_e (rad_e k) n)) - A / (pi / 180)) + (A - IZR n * ur) * / (pi / 180)) by (rewrite DR; unfold Rdiv; ring).
    eapply Rle_trans; [apply Rabs_triang|]. rewrite Rabs_mult, (Rabs_pos_eq (/ (pi / 180))) by lra.
    assert (Rabs A / (pi / 180) <= 2 * (N * ud)) by (rewrite DR; unfold Rdiv at 1 3; nra).
    assert (Rabs (A - IZR n * ur) * / (pi / 180) <= 4 * eps * (N * ud)) by (rewrite DR; unfold Rdiv at 3; nra). lra.
Qed.
Print Assumptions C86_round_trip.

(** Between the three: 10^-5 degrees are ten times 10^-6 degrees, and so on. *)
Definition tens (k j : unit_e) : Z :=
  match k, j with UE5, UE6 => 10 | UE6, UE7 => 10 | UE5, UE7 => 100 | _, _ => 1 end.
Theorem C86_refine : forall (k j : unit_e) (n : Z), int32 n -> int32 (tens k j * n) ->
  (match k, j with UE6, UE5 | UE7, UE6 | UE7, UE5 => False | _, _ => True end) ->
  to_e (rad_e j) (from_e (rad_e k) n) = (tens k j * n)%Z /\ to_e (deg_e j) (from_e (deg_e k) n) = (tens k j * n)%Z.
Proof.
  intros k j n Hn Hm H. destruct (rad_e_val k) as [UR VR]. destruct (deg_e_val k) as [UD VD]. pose proof (UR_pos k) as PR. pose proof (UD_pos k) as PD.
  destruct (rad_e_val j) as [UR' VR']. destruct (deg_e_val j) as [UD' VD']. pose proof (UR_pos j) as PR'. pose proof (UD_pos j) as PD'.
  assert (WD : Rabs (B2R (deg_e k) - 1 / factor k) <= 2 * eps * (1 / factor k)) by lra.
  assert (WD' : Rabs (B2R (deg_e j) - 1 / factor j) <= 2 * eps * (1 / factor j)) by lra.
  destruct (from_e_acc _ _ n UR Hn PR VR) as [FR ER]. destruct (from_e_acc _ _ n UD Hn PD WD) as [FD ED].
  assert (T : IZR (tens k j) * (1 / factor j) = 1 / factor k) by (destruct k, j; try contradiction; cbn [factor tens]; lra).
  assert (TP : 0 < IZR (tens k j)) by (destruct k, j; cbn; lra).
  assert (T' : IZR (tens k j) * (pi / 180 / factor j) = pi / 180 / factor k).
  { replace (pi / 180 / factor j) with (pi / 180 * (1 / factor j)) by (unfold Rdiv; ring). replace (pi / 180 / factor k) with (pi / 180 * (1 / factor k)) by (unfold Rdiv; ring).
    rewrite <- T. ring. }
  assert (AB : Rabs (IZR (tens k j * n)) = IZR (tens k j) * Rabs (IZR n)) by (rewrite mult_IZR, Rabs_mult, (Rabs_pos_eq (IZR (tens k j))) by lra; reflexivity).
  split; [apply (to_e_close _ (pi / 180 / factor j)); auto|apply (to_e_close _ (1 / factor j)); auto]; rewrite AB, mult_IZR.
  - replace (IZR (tens k j) * IZR n * (pi / 180 / factor j)) with (IZR n * (pi / 180 / factor k)) by (rewrite <- T'; ring).
    replace (IZR (tens k j) * Rabs (IZR n) * (pi / 180 / factor j)) with (Rabs (IZR n) * (pi / 180 / factor k)) by (rewrite <- T'; ring).
    pose proof (Rabs_pos (IZR n)). assert (0 <= Rabs (IZR n) * (pi / 180 / factor k)) by nra. lra.
  - replace (IZR (tens k j) * IZR n * (1 / factor j)) with (IZR n * (1 / factor k)) by (rewrite <- T; ring).
    replace (IZR (tens k j) * Rabs (IZR n) * (1 / factor j)) with (Rabs (IZR n) * (1 / factor k)) by (rewrite <- T; ring).
    pose proof (Rabs_pos (IZR n)). assert (0 <= Rabs (IZR n) * (1 / factor k)) by nra. lra.
Qed.
Print Assumptions C86_refine.

(** The integer is the nearest one; beyond the range of i32 it is the end of the range. *)
Theorem C86_nearest : forall (k : unit_e) (a : f64), finite a ->
  (let t := B2R a / (pi / 180 / match k with UE5 => 100000 | UE6 => 1000000 | UE7 => 10000000 end) in
   (Rabs t <= 2147483646 -> Rabs (IZR (to_e (rad_e k) a) - t) <= / 2 + / 1000000) /\
   (2147483649 <= t -> to_e (rad_e k) a = 2147483647%Z) /\ (t <= -2147483650 -> to_e (rad_e k) a = (-2147483648)%Z)) /\
  (let t := B2R a / (1 / match k with UE5 => 100000 | UE6 => 1000000 | UE7 => 10000000 end) in
   (Rabs t <= 2147483646 -> Rabs (IZR (to_e (deg_e k) a) - t) <= / 2 + / 1000000) /\
   (2147483649 <= t -> to_e (deg_e k) a = 2147483647%Z) /\ (t <= -2147483650 -> to_e (deg_e k) a = (-2147483648)%Z)).
Proof.
  assert (G : forall mul U a, unit_ok mul -> 0 < U -> Rabs (B2R mul - U) <= 2 * eps * U -> finite a -> let t := B2R a / U in
    (Rabs t <= 2147483646 -> Rabs (IZR (to_e mul a) - t) <= / 2 + / 1000000) /\
    (2147483649 <= t -> to_e mul a = 2147483647%Z) /\ (t <= -2147483650 -> to_e mul a = (-2147483648)%Z)).
  { intros mul U a Um PU HM Fa t. destruct (to_e_spec mul a Um Fa) as (A & B & C & _). destruct Um as (Fm & Bm).
    assert (P40 : 0 < bpow radix2 (-40)) by apply bpow_gt_0. set (M := B2R mul) in *. set (t' := B2R a / M) in *.
    assert (TT : t - t' = t' * ((M - U) / U)) by (unfold t, t'; field; lra).
    assert (Q : Rabs ((M - U) / U) <= 2 * eps).
    { unfold Rdiv. rewrite Rabs_mult, Rabs_inv, (Rabs_pos_eq U) by lra. apply Rmult_le_reg_r with U; [lra|]. rewrite Rmult_assoc, Rinv_l, Rmult_1_r by lra. exact HM. }
    set (q := (M - U) / U) in *. apply Rabs_le_inv in Q.
    assert (T2 : t = t' * (1 + q)) by lra.
    assert (S22 : bpow radix2 (-22) = / 4194304) by reflexivity.
    split; [|split].
    - intros H. apply Rabs_le_inv in H. assert (Rabs t' <= 2147483647) by (apply Rabs_le; split; nra).
      specialize (A H0). rewrite S22 in A. apply Rabs_le_inv in A. apply Rabs_le_inv in H0. apply Rabs_le. assert (- / 2000000 <= t - t' <= / 2000000) by (rewrite TT; split; nra). lra.
    - intros H. apply B. nra.
    - intros H. apply C. nra. }
  intros k a Fa. destruct (rad_e_val k) as [UR VR]. destruct (deg_e_val k) as [UD VD]. split.
  - exact (G _ _ a UR (UR_pos k) VR Fa).
  - apply (G _ _ a UD (UD_pos k)); auto. pose proof (UD_pos k). fold (factor k). lra.
Qed.
Print Assumptions C86_nearest.

Example C86_hyps : int32 (-123456789) /\ int32 (tens UE5 UE7 * 4500000) /\
  fle (from_e (rad_e UE7) (-123456789)) f0 = true /\ to_e (rad_e UE7) (angle_of_deg (lit 371 (-2))) = 927500000%Z.
Proof. unfold int32. split; [lia|]. split; [cbn; lia|]. vm_compute. auto. Qed.

(** ** C87 LatLng::normalized *)

(** A valid position: latitude in [-pi/2, pi/2] and longitude in [-pi, pi]. *)
Definition position (p : latlng) : Prop :=
  finite (lat p) /\ finite (lng p) /\ - (pi / 2) <= B2R (lat p) <= pi / 2 /\ - pi <= B2R (lng p) <= pi.

Theorem C87_is_valid : forall p : latlng, ll_is_valid p = true <-> position p.
Proof.
  intros p. rewrite ll_is_valid_spec. unfold valid_ll, position. split; intros (A & B & C & D); (split; [exact A|split; [exact B|]]);
    [apply Rabs_le_inv in C, D; auto|split; apply Rabs_le; auto].
Qed.
Print Assumptions C87_is_valid.

Theorem C87_normalized : forall p : latlng, number (lat p) -> finite (lng p) ->
  let q := ll_normalized p in
  position q /\ ll_is_valid q = true /\
  (* the longitude is a whole number of turns away, exactly *)
  (exists n : Z, B2R (lng q) = B2R (lng p) - 2 * pi * IZR n) /\
  (* the latitude is the nearest one in range *)
  (finite (lat p) -> B2R (lat q) = Rmax (- (pi / 2)) (Rmin (pi / 2) (B2R (lat p)))) /\
  (position p -> B2R (lat q) = B2R (lat p) /\ B2R (lng q) = B2R (lng p)).
Proof.
  intros p NL FG q. destruct FRAC_PI_2_val as [FH VH]. destruct mhalf_val as [FM VM]. pose proof pi_bounds as PB.
  destruct (rem_turn (lng p) FG) as (FR & BR & (n & ER) & IR).
  assert (LAT : finite (lat q) /\ - (pi / 2) <= B2R (lat q) <= pi / 2 /\ (finite (lat p) -> B2R (lat q) = Rmax (- (pi / 2)) (Rmin (pi / 2) (B2R (lat p))))).
  { unfold q, ll_normalized. cbn [lat]. destruct (nan_false_cases _ NL) as [(s & EL)|FL].
    - rewrite EL. destruct s.
      + replace (fgt (B754_infinity true) FRAC_PI_2) with false by (vm_compute; reflexivity).
        replace (flt (B754_infinity true) (fneg FRAC_PI_2)) with true by (vm_compute; reflexivity). rewrite VM. split; [exact FM|]. split; [lra|discriminate].
      + replace (fgt (B754_infinity false) FRAC_PI_2) with true by (vm_compute; reflexivity). rewrite VH. split; [exact FH|]. split; [lra|discriminate].
    - unfold fgt. destruct (flt_R FRAC_PI_2 (lat p) FH FL) as [L|L]; rewrite VH in L;
      [rewrite VH; split; [exact FH|]; split; [lra|]; intros _; rewrite Rmin_left, Rmax_right; lra|].
      destruct (flt_R (lat p) (fneg FRAC_PI_2) FL FM) as [L'|L']; rewrite VM in L';
      [rewrite VM; split; [exact FM|]; split; [lra|]; intros _; rewrite Rmin_right, Rmax_left; lra|].
      split; [exact FL|]; split; [lra|]; intros _; rewrite Rmin_right, Rmax_right; lra. }
  destruct LAT as (FL & BL & EL).
  assert (PQ : position q) by (split; [exact FL|split; [exact FR|split; [exact BL|exact BR]]]).
  split; [exact PQ|]. split; [apply C87_is_valid, PQ|]. split; [exists n; exact ER|]. split; [exact EL|].
  intros (A & B & C & D). split; [|apply IR, D]. rewrite EL by exact A. rewrite Rmin_right, Rmax_right; lra.
Qed.
Print Assumptions C87_normalized.

(** With an infinite or undefined longitude there is nothing to normalise: the result is invalid. *)
Theorem C87_not_finite : forall p : latlng, ~ finite (lng p) \/ ~ number (lat p) -> ll_is_valid (ll_normalized p) = false.
Proof.
  intros p H. destruct (ll_is_valid (ll_normalized p)) eqn:E; auto. exfalso. apply C87_is_valid in E. destruct E as (A & B & _).
  destruct H as [H|H].
  - unfold ll_normalized in B. cbn [lng] in B. unfold fremainder, finite in *. destruct (is_finite (lng p)); [apply H; reflexivity|discriminate].
  - unfold ll_normalized, number in *. cbn [lat] in A. destruct (lat p); try (apply H; reflexivity). discriminate.
Qed.
Print Assumptions C87_not_finite.

Example C87_hyps : exists p, number (lat p) /\ finite (lng p) /\ ll_is_valid p = false /\
  feq (lat (ll_normalized p)) FRAC_PI_2 = true /\ fgt (lng (ll_normalized p)) (of_int (-2)) = true /\ flt (lng (ll_normalized p)) (of_int (-1)) = true.
Proof. exists (LL (of_int 2) (of_int 5)). vm_compute. auto 10. Qed.
