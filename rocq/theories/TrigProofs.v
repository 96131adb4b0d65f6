(** Positions, latitudes and longitudes: errors of the conversions. *)
From Coq Require Import ZArith Reals Lra Lia Psatz Bool.
From Flocq Require Import Core.
From Verif Require Import Base F64 F64Facts IntervalSpec F64Arith F64Error S1Proofs VectorModel AngleModel AngleProofs PredicatesModel PredicatesProofs
  PredicatesError PredicatesFloat PredicatesSound PredicatesStable StuvError CapSpec CapModel CapError CapEdgeFloat CapEdgeMain TrigModel TrigSpec.
Open Scope R_scope.

(** ** Real trigonometry *)
Lemma sin_abs x : Rabs (sin x) <= Rabs x.
Proof.
  assert (P : forall y, 0 <= y -> Rabs (sin y) <= y).
  { intros y H. destruct (Rle_lt_or_eq_dec 0 y H) as [L|E]; [|subst y; rewrite sin_0, Rabs_R0; lra].
    destruct (Rle_dec y 1) as [B|B].
    - pose proof (sin_lt_x y L). pose proof PI_RGT_0. assert (0 <= sin y). { apply sin_ge_0; [lra|]. pose proof PI2_3_2. lra. } rewrite Rabs_pos_eq; lra.
    - apply Rle_trans with 1; [|lra]. apply Rabs_le. apply SIN_bound. }
  destruct (Rle_dec 0 x) as [L|L]; [rewrite (Rabs_pos_eq x) by lra; auto|].
  rewrite <- (Ropp_involutive x) at 1. rewrite sin_neg, Rabs_Ropp, (Rabs_left x) by lra. apply P. lra.
Qed.
Lemma prod1 a b : Rabs a <= 1 -> Rabs (a * b) <= Rabs b.
Proof. intros H. rewrite Rabs_mult. pose proof (Rabs_pos b). nra. Qed.
Lemma sin_lip a b : Rabs (sin a - sin b) <= Rabs (a - b).
Proof.
  rewrite form4. replace (2 * cos ((a + b) / 2) * sin ((a - b) / 2)) with (cos ((a + b) / 2) * (2 * sin ((a - b) / 2))) by ring.
  eapply Rle_trans; [apply prod1, Rabs_le, COS_bound|]. rewrite Rabs_mult, (Rabs_pos_eq 2) by lra. pose proof (sin_abs ((a - b) / 2)) as S.
  unfold Rdiv in S. rewrite Rabs_mult, (Rabs_pos_eq (/ 2)) in S by lra. unfold Rdiv. lra.
Qed.
Lemma cos_lip a b : Rabs (cos a - cos b) <= Rabs (a - b).
Proof.
  rewrite form2. replace (-2 * sin ((a - b) / 2) * sin ((a + b) / 2)) with (sin ((a + b) / 2) * (- (2 * sin ((a - b) / 2)))) by ring.
  eapply Rle_trans; [apply prod1, Rabs_le, SIN_bound|]. rewrite Rabs_Ropp, Rabs_mult, (Rabs_pos_eq 2) by lra. pose proof (sin_abs ((a - b) / 2)) as S.
  unfold Rdiv in S. rewrite Rabs_mult, (Rabs_pos_eq (/ 2)) in S by lra. unfold Rdiv. lra.
Qed.

Lemma cos_half x : cos x = 1 - 2 * (sin (x / 2) * sin (x / 2)).
Proof. replace x with (2 * (x / 2)) at 1 by field. rewrite cos_2a_sin. ring. Qed.
(* the haversine formula *)
Lemma haversine a b a' b' : dist2 (sphere_at a b) (sphere_at a' b') =
  4 * (sin ((a - a') / 2) * sin ((a - a') / 2)) + 4 * (cos a * cos a' * (sin ((b - b') / 2) * sin ((b - b') / 2))).
Proof.
  pose proof (cos_half (a - a')) as H1. pose proof (cos_half (b - b')) as H2. rewrite cos_minus in H1, H2.
  set (s := sin ((a - a') / 2)) in *. set (t := sin ((b - b') / 2)) in *.
  pose proof (sin2_cos2 a) as A1. pose proof (sin2_cos2 b) as A2. pose proof (sin2_cos2 a') as A3. pose proof (sin2_cos2 b') as A4. unfold Rsqr in *.
  unfold dist2, sphere_at. cbn [px3 py3 pz3].
  replace (4 * (s * s)) with (2 * (1 - (cos a * cos a' + sin a * sin a'))) by lra.
  replace (4 * (cos a * cos a' * (t * t))) with (2 * (cos a * cos a') * (1 - (cos b * cos b' + sin b * sin b'))) by (rewrite H2; ring).
  replace ((cos b * cos a - cos b' * cos a') * (cos b * cos a - cos b' * cos a') + (sin b * cos a - sin b' * cos a') * (sin b * cos a - sin b' * cos a') + (sin a - sin a') * (sin a - sin a'))
    with (cos a * cos a * (sin b * sin b + cos b * cos b) + cos a' * cos a' * (sin b' * sin b' + cos b' * cos b') + sin a * sin a + sin a' * sin a' - 2 * (cos a * cos a' * (cos b * cos b' + sin b * sin b')) - 2 * (sin a * sin a')) by ring.
  rewrite A2, A4. lra.
Qed.
Lemma sphere_at_on a b : on_sphere (sphere_at a b).
Proof.
  unfold on_sphere, sphere_at. cbn [px3 py3 pz3]. pose proof (sin2_cos2 a) as A. pose proof (sin2_cos2 b) as B. unfold Rsqr in *.
  replace (cos b * cos a * (cos b * cos a) + sin b * cos a * (sin b * cos a) + sin a * sin a) with (cos a * cos a * (sin b * sin b + cos b * cos b) + sin a * sin a) by ring. rewrite B. lra.
Qed.
Lemma sq_abs_le a b : 0 <= b -> Rabs a <= b -> a * a <= b * b.
Proof. intros B H. rewrite <- (sqr_abs a). pose proof (Rabs_pos a). apply Rmult_le_compat; lra. Qed.
Lemma half_sq x : 4 * (sin (x / 2) * sin (x / 2)) <= x * x.
Proof.
  pose proof (sin_abs (x / 2)) as S. assert (sin (x / 2) * sin (x / 2) <= (x / 2) * (x / 2)).
  { rewrite <- (sqr_abs (x / 2)). apply sq_abs_le; [apply Rabs_pos|exact S]. } lra.
Qed.
Lemma chd_le a b r : 0 <= r -> dist2 a b <= r * r -> chd a b <= r.
Proof. intros R H. unfold chd. rewrite <- (sqrt_square r) by exact R. apply sqrt_le_1_alt. exact H. Qed.
Lemma place_lip a b a' b' : chd (sphere_at a b) (sphere_at a' b') <= Rabs (a - a') + Rabs (b - b').
Proof.
  pose proof (Rabs_pos (a - a')) as P. pose proof (Rabs_pos (b - b')) as Q. apply chd_le; [lra|]. rewrite haversine.
  pose proof (half_sq (a - a')) as H1. pose proof (half_sq (b - b')) as H2. rewrite <- (sqr_abs (a - a')) in H1. rewrite <- (sqr_abs (b - b')) in H2.
  set (s := sin ((b - b') / 2) * sin ((b - b') / 2)) in *. assert (0 <= s) by (unfold s; nra).
  assert (cos a * cos a' <= 1). { pose proof (COS_bound a). pose proof (COS_bound a'). nra. }
  assert (cos a * cos a' * s <= 1 * s) by (apply Rmult_le_compat_r; lra). nra.
Qed.
Lemma chd_parts a b : chd a b <= Rabs (px3 a - px3 b) + Rabs (py3 a - py3 b) + Rabs (pz3 a - pz3 b).
Proof.
  pose proof (Rabs_pos (px3 a - px3 b)). pose proof (Rabs_pos (py3 a - py3 b)). pose proof (Rabs_pos (pz3 a - pz3 b)).
  apply chd_le; [lra|]. unfold dist2. rewrite <- (sqr_abs (px3 a - px3 b)), <- (sqr_abs (py3 a - py3 b)), <- (sqr_abs (pz3 a - pz3 b)). nra.
Qed.

(** ** Vectors near the sphere *)
Definition org : pos := Pos 0 0 0.
Lemma chd_org v : chd org (RV v) = sqrt (sqn v).
Proof. unfold chd, dist2, org, RV, sqn. cbn [px3 py3 pz3]. f_equal. ring. Qed.
Lemma chd_org_sphere d : on_sphere d -> chd org d = 1.
Proof. intros S. unfold chd, dist2, org. cbn [px3 py3 pz3]. rewrite <- sqrt_1 at 1. f_equal. unfold on_sphere in S. rewrite <- S. ring. Qed.
Lemma dir_off v : 0 < sqn v -> chd (direction v) (RV v) = Rabs (1 - sqrt (sqn v)).
Proof.
  intros P. pose proof (sqrt_lt_R0 _ P) as Q. pose proof (sqrt_sqrt (sqn v) ltac:(lra)) as S. set (n := sqrt (sqn v)) in *.
  assert (E : dist2 (direction v) (RV v) = (1 - n) * (1 - n)).
  { unfold dist2, direction, RV. cbn [px3 py3 pz3]. fold (sqn v). fold n.
    transitivity ((X v * X v + Y v * Y v + Z v * Z v) * ((1 - n) * (1 - n)) / (n * n)); [field; lra|]. fold (sqn v). rewrite S. field. lra. }
  unfold chd. rewrite E. apply sqrt_Rsqr_abs.
Qed.
Lemma len_near v w : on_sphere w -> Rabs (sqrt (sqn v) - 1) <= chd (RV v) w.
Proof.
  intros S. pose proof (chd_tri org (RV v) w) as T1. pose proof (chd_tri org w (RV v)) as T2. rewrite (chd_sym w) in T2.
  rewrite chd_org, (chd_org_sphere w S) in *. apply Rabs_le. lra.
Qed.
Lemma dir_near v w e : on_sphere w -> chd (RV v) w <= e -> e < 1 -> 0 < sqn v /\ chd (direction v) w <= 2 * e.
Proof.
  intros S H B. pose proof (len_near v w S) as L. assert (P : 0 < sqn v).
  { apply Rnot_le_lt. intros N. rewrite (sqrt_neg_0 _ N) in L. apply Rabs_le_inv in L. lra. }
  split; [exact P|]. pose proof (chd_tri (direction v) (RV v) w) as T. rewrite dir_off in T by exact P. rewrite Rabs_minus_sym in T. lra.
Qed.

(** ** Point::from(LatLng) *)
Notation e50 := (1 / 1125899906842624). (* 2^-50 *)
Lemma e50_eq : 1 / 2 ^ 50 = e50. Proof. field. Qed.
Lemma acc50 f g : accurate f g -> forall x, finite x -> Rabs (B2R x) <= 4 -> finite (f x) /\ Rabs (B2R (f x) - g (B2R x)) <= e50.
Proof. intros A x F B. rewrite <- e50_eq. apply A; assumption. Qed.

Lemma unit_intro v : fvec v -> Rabs (sqn v - 1) <= 4 / 100000000000000 -> is_unit v = true.
Proof.
  intros FV N. apply Rabs_le_inv in N. pose proof FV as (F1 & F2 & F3).
  assert (C : Rabs (X v) <= 2 /\ Rabs (Y v) <= 2 /\ Rabs (Z v) <= 2).
  { unfold sqn in N. repeat split; apply Rabs_le; nra. }
  assert (SM : small v) by (split; [exact FV|]; change (pow2 2) with 4; intuition lra).
  destruct (norm2_small v SM) as [FN BN]. pose proof (norm2_near v FN) as NN. apply Rabs_le_inv in NN. pose proof h_tiny as HT. pose proof h_pos as HP.
  assert (FO : finite f1) by reflexivity. assert (V1 : B2R f1 = 1) by (destruct (of_int_val 1 ltac:(lia)) as [_ V]; exact V).
  unfold is_unit. pose proof (fsub_result _ _ FN FO) as RS. rewrite V1 in RS.
  assert (N1 : Rabs (B2R (norm2 v) - 1) <= 41 / 1000000000000000) by (apply Rabs_le; lra).
  destruct (result_val _ _ 1 ltac:(lia) RS) as (FD & VD & _); [change (pow2 1) with 2; lra|].
  destruct (fabs_val _ FD) as [FA VA].
  assert (FE : finite EPSILON2 /\ 49 / 1000000000000000 <= B2R EPSILON2).
  { destruct (lit_val 0x1C25C268497682 (-97) ltac:(lia) ltac:(lia)) as [F V]. split; [exact F|]. unfold EPSILON2. rewrite V. change (bpow radix2 (-97)) with (/ 158456325028528675187087900672). lra. }
  destruct FE as [FE VE]. destruct (flt_R _ _ FA FE) as [L|L]; [reflexivity|]. exfalso. rewrite VA, VD in L.
  pose proof (rnd_rel (B2R (norm2 v) - 1)) as RR. pose proof (Rabs_triang (rnd (B2R (norm2 v) - 1) - (B2R (norm2 v) - 1)) (B2R (norm2 v) - 1)) as T.
  replace (rnd (B2R (norm2 v) - 1) - (B2R (norm2 v) - 1) + (B2R (norm2 v) - 1)) with (rnd (B2R (norm2 v) - 1)) in T by ring. lra.
Qed.

Lemma valid_ll p : ll_is_valid p = true <-> finite (lat p) /\ finite (lng p) /\ Rabs (B2R (lat p)) <= pi / 2 /\ Rabs (B2R (lng p)) <= pi.
Proof.
  unfold ll_is_valid. rewrite andb_true_iff. destruct FRAC_PI_2_val as [F2 V2]. pose proof PI64_finite as FP.
  assert (K : forall (a b : f64) r, finite b -> B2R b = r -> (fle (fabs a) b = true <-> finite a /\ Rabs (B2R a) <= r)).
  { intros a b r Fb Vb. split.
    - intros H. assert (Fa : finite a). { destruct a as [s|s| |s m e B]; try reflexivity; destruct b as [[]|[]| |[] mb eb Bb]; try discriminate Fb; discriminate H. }
      split; [exact Fa|]. destruct (fabs_val a Fa) as [FA VA]. destruct (fle_R _ _ FA Fb) as [L|L]; [rewrite VA, Vb in L; exact L|discriminate].
    - intros [Fa H]. destruct (fabs_val a Fa) as [FA VA]. destruct (fle_R _ _ FA Fb) as [L|L]; [reflexivity|]. rewrite VA, Vb in L. contradiction. }
  rewrite (K _ _ _ F2 V2), (K _ _ _ FP pi_val). tauto.
Qed.

Lemma mul_near (a b : f64) r s : finite a -> finite b -> Rabs r <= 1 -> Rabs s <= 1 -> Rabs (B2R a - r) <= e50 -> Rabs (B2R b - s) <= e50 ->
  finite (fmul a b) /\ Rabs (B2R (fmul a b) - r * s) <= 24 / 10 * e50.
Proof.
  intros Fa Fb Br Bs Ea Eb.
  assert (D : Rabs (B2R a * B2R b - r * s) <= 21 / 10 * e50).
  { replace (B2R a * B2R b - r * s) with (r * (B2R b - s) + s * (B2R a - r) + (B2R a - r) * (B2R b - s)) by ring.
    eapply Rle_trans; [apply Rabs_triang|]. eapply Rle_trans; [apply Rplus_le_compat_r, Rabs_triang|]. rewrite !Rabs_mult.
    pose proof (Rabs_pos r). pose proof (Rabs_pos s). pose proof (Rabs_pos (B2R a - r)). pose proof (Rabs_pos (B2R b - s)).
    assert (Rabs r * Rabs (B2R b - s) <= 1 * e50) by (apply Rmult_le_compat; lra). assert (Rabs s * Rabs (B2R a - r) <= 1 * e50) by (apply Rmult_le_compat; lra).
    assert (Rabs (B2R a - r) * Rabs (B2R b - s) <= e50 * e50) by (apply Rmult_le_compat; lra). lra. }
  assert (BR : Rabs (r * s) <= 1). { rewrite Rabs_mult. pose proof (Rabs_pos r). pose proof (Rabs_pos s). nra. }
  pose proof (fmul_result a b Fa Fb) as R. destruct (result_near _ _ 1 ltac:(lia) R) as (F & _ & E).
  { change (pow2 1) with 2. pose proof (Rabs_triang (B2R a * B2R b - r * s) (r * s)) as T. replace (B2R a * B2R b - r * s + r * s) with (B2R a * B2R b) in T by ring. lra. }
  split; [exact F|]. change (bpow radix2 (1 - 53)) with (/ 4503599627370496) in E. apply Rabs_le_inv in D, E. apply Rabs_le. lra.
Qed.
Lemma to_point fsin fcos p : accurate fsin sin -> accurate fcos cos -> ll_is_valid p = true ->
  let v := point_of_ll fsin fcos p in fvec v /\ chd (RV v) (place p) <= 58 / 10 * e50.
Proof.
  intros AS AC V. apply valid_ll in V. destruct V as (Fa & Fo & Ba & Bo). pose proof pi_bounds as PB. cbv zeta. unfold point_of_ll.
  assert (HA : Rabs (B2R (lat p)) <= 4) by lra. assert (HO : Rabs (B2R (lng p)) <= 4) by lra.
  destruct (acc50 _ _ AS (lat p) Fa HA) as [Fs Es]. destruct (acc50 _ _ AC (lat p) Fa HA) as [Fc Ec].
  destruct (acc50 _ _ AS (lng p) Fo HO) as [Gs Ds]. destruct (acc50 _ _ AC (lng p) Fo HO) as [Gc Dc].
  assert (C1 : Rabs (cos (B2R (lat p))) <= 1) by apply Rabs_le, COS_bound. assert (C2 : Rabs (cos (B2R (lng p))) <= 1) by apply Rabs_le, COS_bound.
  assert (C3 : Rabs (sin (B2R (lng p))) <= 1) by apply Rabs_le, SIN_bound.
  destruct (mul_near _ _ _ _ Gc Fc C2 C1 Dc Ec) as [F1 E1]. destruct (mul_near _ _ _ _ Gs Fc C3 C1 Ds Ec) as [F2 E2].
  split; [exact (conj F1 (conj F2 Fs))|]. eapply Rle_trans; [apply chd_parts|]. unfold RV, place, sphere_at. cbn [px3 py3 pz3 vx vy vz]. lra.
Qed.
Lemma sqn_near v w e : on_sphere w -> chd (RV v) w <= e -> e <= 1 / 1000 -> Rabs (sqn v - 1) <= 21 / 10 * e.
Proof.
  intros S H B. pose proof (len_near v w S) as L. assert (SS : 0 <= sqn v) by (unfold sqn; nra). pose proof (sqrt_sqrt _ SS) as Q. set (n := sqrt (sqn v)) in *. rewrite <- Q.
  apply Rabs_le_inv in L. apply Rabs_le. nra.
Qed.
Theorem to_point_ok fsin fcos p : accurate fsin sin -> accurate fcos cos -> ll_is_valid p = true ->
  let v := point_of_ll fsin fcos p in is_unit v = true /\ 0 < sqn v /\ chd (direction v) (place p) <= 116 / 10 * e50.
Proof.
  intros AS AC V. destruct (to_point fsin fcos p AS AC V) as [FV C]. cbv zeta in *. pose proof (sphere_at_on (B2R (lat p)) (B2R (lng p))) as SP. fold (place p) in SP.
  destruct (dir_near _ _ _ SP C ltac:(lra)) as [P D]. split; [|split; [exact P|lra]].
  apply unit_intro; [exact FV|]. pose proof (sqn_near _ _ _ SP C ltac:(lra)). lra.
Qed.

(** ** LatLng::from(Point) *)
Lemma tri2 a b a' b' : 0 < sqrt (a * a + b * b) -> let m := sqrt (a * a + b * b) in let n := sqrt (a' * a' + b' * b') in 0 < n ->
  chd (Pos (a / m) (b / m) 0) (Pos (a' / n) (b' / n) 0) <= 2 * chd (Pos a b 0) (Pos a' b' 0) / n.
Proof.
  intros M. cbv zeta. intros Hn. set (m := sqrt (a * a + b * b)) in *. set (n := sqrt (a' * a' + b' * b')) in *.
  assert (MM : m * m = a * a + b * b) by (apply sqrt_sqrt; nra). assert (NN : n * n = a' * a' + b' * b') by (apply sqrt_sqrt; nra).
  pose proof (chd_tri org (Pos a b 0) (Pos a' b' 0)) as T1. pose proof (chd_tri org (Pos a' b' 0) (Pos a b 0)) as T2. rewrite (chd_sym (Pos a' b' 0)) in T2.
  assert (E1 : chd org (Pos a b 0) = m) by (unfold chd, dist2, org, m; cbn [px3 py3 pz3]; f_equal; ring).
  assert (E2 : chd org (Pos a' b' 0) = n) by (unfold chd, dist2, org, n; cbn [px3 py3 pz3]; f_equal; ring).
  rewrite E1, E2 in *. set (e := chd (Pos a b 0) (Pos a' b' 0)) in *.
  assert (EE : e * e = (a - a') * (a - a') + (b - b') * (b - b')). { unfold e, chd. rewrite sqrt_sqrt; unfold dist2; cbn [px3 py3 pz3]; [ring|pose proof (Rle_0_sqr (a - a')); pose proof (Rle_0_sqr (b - b')); unfold Rsqr in *; lra]. }
  assert (E0 : 0 <= e) by apply sqrt_pos.
  apply Rle_trans with (chd (Pos (a / m) (b / m) 0) (Pos (a / n) (b / n) 0) + chd (Pos (a / n) (b / n) 0) (Pos (a' / n) (b' / n) 0)); [apply chd_tri|].
  assert (Q1 : chd (Pos (a / m) (b / m) 0) (Pos (a / n) (b / n) 0) <= e / n).
  { apply chd_le; [apply Rmult_le_pos; [lra|apply Rlt_le, Rinv_0_lt_compat; lra]|]. unfold dist2; cbn [px3 py3 pz3].
    replace ((a / m - a / n) * (a / m - a / n) + (b / m - b / n) * (b / m - b / n) + (0 - 0) * (0 - 0)) with ((n - m) * (n - m) / (n * n) * ((a * a + b * b) / (m * m))) by (field; lra).
    rewrite <- MM. replace (m * m / (m * m)) with 1 by (field; lra). replace (e / n * (e / n)) with (e * e / (n * n)) by (field; lra). rewrite Rmult_1_r.
    apply Rmult_le_compat_r; [apply Rlt_le, Rinv_0_lt_compat; nra|]. apply sq_abs_le; [exact E0|]. apply Rabs_le. lra. }
  assert (Q2 : chd (Pos (a / n) (b / n) 0) (Pos (a' / n) (b' / n) 0) <= e / n).
  { apply chd_le; [apply Rmult_le_pos; [lra|apply Rlt_le, Rinv_0_lt_compat; lra]|]. unfold dist2; cbn [px3 py3 pz3].
    replace ((a / n - a' / n) * (a / n - a' / n) + (b / n - b' / n) * (b / n - b' / n) + (0 - 0) * (0 - 0)) with (((a - a') * (a - a') + (b - b') * (b - b')) / (n * n)) by (field; lra).
    rewrite <- EE. right. field. lra. }
  replace (2 * e / n) with (e / n + e / n) by (field; lra). lra.
Qed.
Lemma sqrt_step a b k c : 0 <= a -> 0 <= b -> 0 <= k -> 0 <= c -> Rabs (a * a - b * b) <= k * (b * b) + c * c -> Rabs (a - b) <= k * b + c.
Proof.
  intros A B K C H. apply Rnot_lt_le. intros L. pose proof (Rabs_pos (a - b)) as P.
  replace (a * a - b * b) with ((a - b) * (a + b)) in H by ring. rewrite Rabs_mult, (Rabs_pos_eq (a + b)) in H by lra.
  assert (D : Rabs (a - b) <= a + b) by (apply Rabs_le; lra). assert (KB : 0 <= k * b) by (apply Rmult_le_pos; assumption).
  assert (D0 : 0 < a + b) by lra.
  assert (G : (k * b + c) * (a + b) < Rabs (a - b) * (a + b)) by (apply Rmult_lt_compat_r; assumption).
  assert (G1 : k * b * b <= k * b * (a + b)) by (apply Rmult_le_compat_l; lra).
  assert (G2 : c * c <= c * (a + b)) by (apply Rmult_le_compat_l; lra). lra.
Qed.
Notation tiny := (pow2 (-500)).
Lemma tiny_small : 0 < tiny /\ tiny <= u * u /\ 20 * h <= tiny * tiny.
Proof.
  split; [apply bpow_gt_0|]. split.
  - replace (u * u) with (pow2 (-106)); [apply bpow_le; lia|]. change (-106)%Z with (-53 + -53)%Z. rewrite bpow_plus. reflexivity.
  - rewrite <- bpow_plus. change (-500 + -500)%Z with (-1000)%Z. unfold h. change (-1000)%Z with (74 + -1074)%Z. rewrite bpow_plus. pose proof (bpow_gt_0 radix2 (-1074)) as P.
    apply Rmult_le_compat_r; [lra|]. change (pow2 74) with 18889465931478580854784. lra.
Qed.

(* the distance from the axis *)
Lemma axis_dist v : fvec v -> Rabs (X v) <= 2 -> Rabs (Y v) <= 2 ->
  let l := fsqrt (fadd (fmul (vx v) (vx v)) (fmul (vy v) (vy v))) in let r := sqrt (X v * X v + Y v * Y v) in
  finite l /\ 0 <= B2R l /\ Rabs (B2R l - r) <= 5 * u * r + 3 * tiny.
Proof.
  intros (F1 & F2 & _) B1 B2. cbv zeta. destruct tiny_small as (T0 & T1 & T2). pose proof h_pos as H0. pose proof h_tiny as HT.
  destruct (mul_val _ _ 1 1 F1 F1 B1 B1 ltac:(lia)) as (G1 & E1 & C1). destruct (mul_val _ _ 1 1 F2 F2 B2 B2 ltac:(lia)) as (G2 & E2 & C2).
  destruct (add_val _ _ _ G1 G2 C1 C2 ltac:(lia)) as (G3 & E3 & C3). set (s := fadd _ _) in *.
  pose proof (rnd_rel (X v * X v)) as R1. pose proof (rnd_rel (Y v * Y v)) as R2. rewrite <- E1 in R1. rewrite <- E2 in R2.
  pose proof (rnd_rel (B2R (fmul (vx v) (vx v)) + B2R (fmul (vy v) (vy v)))) as R3. rewrite <- E3 in R3.
  assert (Q1 : 0 <= X v * X v) by nra. assert (Q2 : 0 <= Y v * Y v) by nra. rewrite (Rabs_pos_eq _ Q1) in R1. rewrite (Rabs_pos_eq _ Q2) in R2.
  assert (P1 : 0 <= B2R (fmul (vx v) (vx v))) by (rewrite E1; apply rnd_nonneg, Q1). assert (P2 : 0 <= B2R (fmul (vy v) (vy v))) by (rewrite E2; apply rnd_nonneg, Q2).
  assert (P3 : 0 <= B2R s) by (rewrite E3; apply rnd_nonneg; lra). rewrite (Rabs_pos_eq (B2R (fmul (vx v) (vx v)) + B2R (fmul (vy v) (vy v)))) in R3 by lra.
  set (m := X v * X v + Y v * Y v) in *. assert (M0 : 0 <= m) by (unfold m; lra).
  assert (D : Rabs (B2R s - m) <= 3 * u * m + 8 * h).
  { apply Rabs_le_inv in R1, R2, R3. unfold m in *. apply Rabs_le. lra. }
  destruct (fsqrt_val s G3 P3) as [Fl El]. split; [exact Fl|]. assert (PL : 0 <= B2R (fsqrt s)) by (rewrite El; apply rnd_nonneg, sqrt_pos). split; [exact PL|].
  pose proof (sqrt_sqrt _ M0) as SM. pose proof (sqrt_sqrt _ P3) as SS. pose proof (sqrt_pos m) as RM. pose proof (sqrt_pos (B2R s)) as RS. set (r := sqrt m) in *. set (q := sqrt (B2R s)) in *.
  assert (K : Rabs (q - r) <= 3 * u * r + tiny). { apply sqrt_step; try lra. rewrite SM, SS. lra. }
  pose proof (rnd_rel q) as RQ. rewrite <- El, (Rabs_pos_eq q) in RQ by lra. assert (h <= tiny) by (apply bpow_le; lia). apply Rabs_le_inv in K, RQ. apply Rabs_le. lra.
Qed.

Lemma quot_eq a m c : 0 < m -> a = m * c -> a / m = c.
Proof. intros M ->. field. lra. Qed.
Lemma sq_nonneg a : 0 <= a * a. Proof. nra. Qed.
Lemma sq_pos a : a <> 0 -> 0 < a * a. Proof. intros H. apply Rdichotomy in H. nra. Qed.
Lemma sq_zero a : a * a = 0 -> a = 0. Proof. nra. Qed.
Lemma sq_big n s k : 0 <= n -> 0 <= k -> n * n = s -> k * k <= s -> k <= n. Proof. intros. apply Rnot_lt_le. intros L. nra. Qed.
Theorem to_latlng_ok fatan2 v : accurate_atan2 fatan2 -> is_unit v = true ->
  let p := ll_of_point fatan2 v in ll_is_valid p = true /\ chd (place p) (direction v) <= 34 / 10 * e50.
Proof.
  intros A U. destruct (unit_near v U) as [FV N]. unfold KU in N. apply Rabs_le_inv in N. pose proof FV as (F1 & F2 & F3).
  assert (C : Rabs (X v) <= 2 /\ Rabs (Y v) <= 2 /\ Rabs (Z v) <= 2) by (unfold sqn in N; repeat split; apply Rabs_le; nra).
  destruct C as (C1 & C2 & C3). destruct (axis_dist v FV C1 C2) as (FL & PL & EL). set (l := fsqrt _) in *. set (r := sqrt _) in *.
  destruct tiny_small as (T0 & T1 & T2). assert (R0 : 0 <= r) by apply sqrt_pos.
  assert (RR : r * r = X v * X v + Y v * Y v) by (apply sqrt_sqrt; nra). assert (SN : sqn v = r * r + Z v * Z v) by (unfold sqn; lra).
  assert (R1 : r <= 101 / 100) by nra. assert (EL' : Rabs (B2R l - r) <= 51 / 10 * u) by lra. apply Rabs_le_inv in EL'.
  cbv zeta. unfold ll_of_point, latitude, longitude. fold l.
  destruct (A (vz v) l F3 FL) as (Fa & _ & Ha). destruct (A (vy v) (vx v) F2 F1) as (Fo & Bo & Ho).
  assert (NZ : Z v <> 0 \/ B2R l <> 0).
  { destruct (Req_dec (Z v) 0) as [E|E]; [right|left; exact E]. rewrite E in SN. assert (1 / 2 <= r) by nra. lra. }
  destruct (Ha NZ) as (Ba & t & (Bt & Et1 & Et2) & Dt). specialize (Ba PL). rewrite e50_eq in Dt.
  assert (HO : exists w, X v = r * cos w /\ Y v = r * sin w /\ Rabs (B2R (fatan2 (vy v) (vx v)) - w) <= e50).
  { destruct (Req_dec (Y v) 0) as [EY|EY]; [destruct (Req_dec (X v) 0) as [EX|EX]|].
    - exists (B2R (fatan2 (vy v) (vx v))). assert (r = 0) by (apply sq_zero; rewrite RR, EX, EY; ring). rewrite H, EX, EY. split; [ring|]. split; [ring|]. rewrite Rminus_eq_0, Rabs_R0. lra.
    - destruct (Ho (or_intror EX)) as (_ & w & (_ & W1 & W2) & Dw). rewrite e50_eq in Dw. exists w. auto.
    - destruct (Ho (or_introl EY)) as (_ & w & (_ & W1 & W2) & Dw). rewrite e50_eq in Dw. exists w. auto. }
  destruct HO as (w & W1 & W2 & Dw). split.
  - apply valid_ll. cbn [lat lng]. auto.
  - unfold place. cbn [lat lng]. set (fa := fatan2 (vz v) l) in *. set (fo := fatan2 (vy v) (vx v)) in *.
    apply Rle_trans with (chd (sphere_at (B2R fa) (B2R fo)) (sphere_at t w) + chd (sphere_at t w) (direction v)); [apply chd_tri|].
    pose proof (place_lip (B2R fa) (B2R fo) t w) as PLi.
    set (m := sqrt (B2R l * B2R l + Z v * Z v)) in *. set (n := sqrt (sqn v)).
    assert (N0 : 0 < n) by (apply sqrt_lt_R0; lra). assert (NN : n * n = sqn v) by (apply sqrt_sqrt; lra).
    assert (N1 : 99 / 100 <= n) by (apply (sq_big n (sqn v)); lra).
    assert (M0 : 0 < m). { apply sqrt_lt_R0. pose proof (sq_nonneg (B2R l)). pose proof (sq_nonneg (Z v)). destruct NZ as [K|K]; apply sq_pos in K; lra. }
    assert (DD : dist2 (sphere_at t w) (direction v) = dist2 (Pos (B2R l / m) (Z v / m) 0) (Pos (r / n) (Z v / n) 0)).
    { replace (sphere_at t w) with (Pos (cos w * (B2R l / m)) (sin w * (B2R l / m)) (Z v / m)).
      - unfold direction. fold (sqn v). fold n. rewrite W1, W2. unfold dist2. cbn [px3 py3 pz3]. pose proof (sin2_cos2 w) as SC. unfold Rsqr in SC.
        replace ((B2R l / m - r / n) * (B2R l / m - r / n)) with ((sin w * sin w + cos w * cos w) * ((B2R l / m - r / n) * (B2R l / m - r / n))) by (rewrite SC; ring). unfold Rdiv. ring.
      - unfold sphere_at. rewrite (quot_eq _ _ _ M0 Et1), (quot_eq _ _ _ M0 Et2). reflexivity. }
    assert (Q : chd (sphere_at t w) (direction v) <= 2 * Rabs (B2R l - r) / n).
    { unfold chd. rewrite DD. fold (chd (Pos (B2R l / m) (Z v / m) 0) (Pos (r / n) (Z v / n) 0)).
      assert (EN : n = sqrt (r * r + Z v * Z v)) by (unfold n; f_equal; exact SN). pose proof (tri2 (B2R l) (Z v) r (Z v) M0) as T. cbv zeta in T. fold m in T. rewrite <- EN in T. specialize (T N0).
      eapply Rle_trans; [exact T|]. right. f_equal. f_equal. unfold chd, dist2. cbn [px3 py3 pz3].
      replace ((B2R l - r) * (B2R l - r) + (Z v - Z v) * (Z v - Z v) + (0 - 0) * (0 - 0)) with (Rsqr (B2R l - r)) by (unfold Rsqr; ring). apply sqrt_Rsqr_abs. }
    assert (Q' : 2 * Rabs (B2R l - r) / n <= 2 * (51 / 10 * u) * (100 / 99)).
    { apply Rmult_le_compat; [pose proof (Rabs_pos (B2R l - r)); lra|apply Rlt_le, Rinv_0_lt_compat; lra|apply Rmult_le_compat_l; [lra|apply Rabs_le; lra]|].
      replace (100 / 99) with (/ (99 / 100)) by field. apply Rinv_le_contravar; lra. }
    lra.
Qed.
