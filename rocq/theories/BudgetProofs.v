(** How far the latitude rises along an arc of a great circle, in real numbers. *)
From Coq Require Import Reals Lra Psatz.
From Flocq Require Import Core.
From Verif Require Import AngleProofs TrigWitness PropsTrig BoundCell SegProofs.
Open Scope R_scope.

Lemma sq_le a b : 0 <= b -> a * a <= b * b -> a <= b.
Proof. intros B H. apply Rnot_lt_le. intros L. assert (b * b < a * a) by (apply Rmult_le_0_lt_compat; lra). lra. Qed.

(** The sum of the two climbs to the top of a great circle of the largest latitude [m], from
    the angles [a] and [b] on either side of it, is at most the climb over an arc of their
    sum that is centred on the equator. *)
Lemma budget_top m a b : 0 <= m <= PI / 2 -> 0 <= a -> 0 <= b -> a + b <= PI ->
  m <= (asin (sin m * cos a) + asin (sin m * cos b)) / 2 + asin (sin m * sin ((a + b) / 2)).
Proof.
  intros M A B AB. pose proof PI_tight as PT. assert (K0 : 0 <= sin m) by (apply sin_ge_0; lra). pose proof (SIN_bound m) as KB. assert (C0 : 0 <= cos m) by (apply cos_ge_0; lra).
  assert (PB : forall x, -1 <= x <= 1 -> -1 <= sin m * x <= 1). { intros x X. destruct (Rle_dec 0 x) as [L|L]; [assert (0 <= sin m * x <= 1 * 1) by (split; [apply Rmult_le_pos; lra|apply Rmult_le_compat; lra]); lra|]. assert (0 <= sin m * - x <= 1 * 1) by (split; [apply Rmult_le_pos; lra|apply Rmult_le_compat; lra]). lra. }
  set (p := asin (sin m * cos a)). set (q := asin (sin m * cos b)). assert (SP : sin p = sin m * cos a) by (apply sin_asin, PB, COS_bound). assert (SQ : sin q = sin m * cos b) by (apply sin_asin, PB, COS_bound).
  pose proof (asin_bound (sin m * cos a)) as BP. pose proof (asin_bound (sin m * cos b)) as BQ. fold p in BP. fold q in BQ.
  set (y := (p + q) / 2). set (x := (p - q) / 2). set (h := (a + b) / 2). set (g := (a - b) / 2). set (k := sin m) in *.
  assert (H0 : 0 <= h <= PI / 2) by (unfold h; lra). assert (SH : 0 <= sin h) by (apply sin_ge_0; lra). assert (CH : 0 <= cos h) by (apply cos_ge_0; lra).
  assert (E1 : sin y * cos x = k * (cos h * cos g)).
  { assert (F : sin p + sin q = 2 * (sin y * cos x)) by (replace p with (y + x) at 1 by (unfold x, y; field); replace q with (y - x) by (unfold x, y; field); rewrite sin_plus, sin_minus; ring).
    assert (G : cos a + cos b = 2 * (cos h * cos g)) by (replace a with (h + g) at 1 by (unfold h, g; field); replace b with (h - g) by (unfold h, g; field); rewrite cos_plus, cos_minus; ring).
    rewrite SP, SQ in F. replace (k * cos a + k * cos b) with (k * (cos a + cos b)) in F by ring. rewrite G in F. lra. }
  assert (E2 : cos y * sin x = - (k * (sin h * sin g))).
  { assert (F : sin p - sin q = 2 * (cos y * sin x)) by (replace p with (y + x) at 1 by (unfold x, y; field); replace q with (y - x) by (unfold x, y; field); rewrite sin_plus, sin_minus; ring).
    assert (G : cos a - cos b = - (2 * (sin h * sin g))) by (replace a with (h + g) at 1 by (unfold h, g; field); replace b with (h - g) by (unfold h, g; field); rewrite cos_plus, cos_minus; ring).
    rewrite SP, SQ in F. replace (k * cos a - k * cos b) with (k * (cos a - cos b)) in F by ring. rewrite G in F. lra. }
  assert (XB : - (PI / 2) <= x <= PI / 2) by (unfold x; lra). assert (YB : - (PI / 2) <= y <= PI / 2) by (unfold y; lra). assert (CX : 0 <= cos x) by (apply cos_ge_0; lra). assert (CY : 0 <= cos y) by (apply cos_ge_0; lra).
  assert (Y0 : 0 <= y).
  { assert (Q : - q <= p); [|unfold y; lra]. unfold p, q. rewrite <- asin_opp. assert (cos a + cos b >= 0). { replace (cos a + cos b) with (2 * (cos h * cos g)) by (replace a with (h + g) at 1 by (unfold h, g; field); replace b with (h - g) by (unfold h, g; field); rewrite cos_plus, cos_minus; ring).
      assert (0 <= cos g) by (apply cos_ge_0; unfold g; lra). assert (0 <= cos h * cos g) by (apply Rmult_le_pos; lra). lra. }
    pose proof (PB _ (COS_bound a)). pose proof (PB _ (COS_bound b)). assert (0 <= k * (cos a + cos b)) by (apply Rmult_le_pos; lra). apply asin_mono; lra. }
  assert (SY : 0 <= sin y) by (apply sin_ge_0; lra). pose proof (sin2_cos2 x) as QX. pose proof (sin2_cos2 y) as QY. pose proof (sin2_cos2 h) as QH. pose proof (sin2_cos2 g) as QG. pose proof (sin2_cos2 m) as QM. unfold Rsqr in *. fold k in QM.
  assert (YM : y <= m). { assert (p <= m /\ q <= m) as [P Q]; [|unfold y; lra]. split; [unfold p|unfold q]; rewrite <- (asin_sin m) by lra; fold k; pose proof (PB _ (COS_bound a)); pose proof (PB _ (COS_bound b)); apply asin_mono; try lra; rewrite <- (Rmult_1_r k) at 2; apply Rmult_le_compat_l; try lra; apply COS_bound. }
  set (s := sin (m - y)). assert (S0 : 0 <= s) by (apply sin_ge_0; lra). assert (SE : s = k * cos y - cos m * sin y) by (unfold s; rewrite sin_minus; reflexivity).
  assert (GOAL : s <= k * sin h).
  { apply Rnot_lt_le. intros L. set (X := cos y) in *. set (Y := sin y) in *. set (e := sin h * sin h) in *. set (f := sin g * sin g) in *.
    assert (KS0 : 0 <= k * sin h) by (apply Rmult_le_pos; lra). assert (L2 : k * k * e < s * s) by (replace (k * k * e) with (k * sin h * (k * sin h)) by (unfold e; ring); apply Rmult_le_0_lt_compat; lra).
    assert (SX : s <= k * X) by (rewrite SE; assert (0 <= cos m * Y) by (apply Rmult_le_pos; lra); lra). assert (KX : k * X <= X) by (rewrite <- (Rmult_1_l X) at 2; apply Rmult_le_compat_r; lra).
    assert (SS : s * s <= X * X) by (apply Rmult_le_compat; lra).
    assert (FE : f <= e). { unfold f, e. assert (SG : - sin h <= sin g <= sin h). { replace (- sin h) with (sin (- h)) by apply sin_neg. split; apply sin_incr_1; unfold g, h in *; lra. } destruct (Rle_dec 0 (sin g)); [apply Rmult_le_compat; lra|]. replace (sin g * sin g) with (- sin g * - sin g) by ring. apply Rmult_le_compat; lra. }
    assert (F0 : 0 <= f) by (unfold f; apply Rle_0_sqr). assert (E0 : 0 <= e) by (unfold e; apply Rle_0_sqr). assert (CE : cos h * cos h = 1 - e) by lra. assert (CF : cos g * cos g = 1 - f) by lra. pose proof (Rle_0_sqr (cos h)) as E1'. unfold Rsqr in E1'. rewrite CE in E1'.
    assert (ID : X * X * (Y * Y) = Y * Y * (k * k * e) * f + X * X * (k * k * (1 - e)) * (1 - f)).
    { transitivity ((Y * Y) * (X * sin x * (X * sin x)) + X * X * (Y * cos x * (Y * cos x))); [transitivity (X * X * (Y * Y) * (sin x * sin x + cos x * cos x)); [rewrite QX; ring|ring]|]. rewrite E1, E2. replace (k * (cos h * cos g) * (k * (cos h * cos g))) with (k * k * (cos h * cos h) * (cos g * cos g)) by ring. rewrite CE, CF. unfold e, f. ring. }
    destruct (Req_dec f 1) as [F1|F1].
    { assert (E5 : e = 1) by lra. assert (E6 : sin h = 1). { pose proof (SIN_bound h). assert (1 <= sin h); [|lra]. apply sq_le; [exact SH|]. fold e. lra. } assert (k * X <= k * 1) by (apply Rmult_le_compat_l; [lra|apply COS_bound]). rewrite E6 in L. lra. }
    assert (X2 : 0 <= X * X) by apply Rle_0_sqr. assert (Y2 : 0 <= Y * Y) by apply Rle_0_sqr.
    assert (T1 : Y * Y * (k * k * e) * f <= Y * Y * (X * X) * f) by (apply Rmult_le_compat_r; [lra|]; apply Rmult_le_compat_l; lra).
    assert (T2 : X * X * (Y * Y) <= X * X * (k * k * (1 - e))). { apply (Rmult_le_reg_r (1 - f)); [lra|]. lra. }
    assert (T3 : Y * Y * (k * k * e) <= X * X * (k * k * (1 - e))). { apply Rle_trans with (X * X * (Y * Y)); [|exact T2]. rewrite (Rmult_comm (X * X)). apply Rmult_le_compat_l; lra. }
    assert (T4 : Y * Y * (k * k * e) * e + X * X * (k * k * (1 - e)) * (1 - e) <= X * X * (Y * Y)).
    { rewrite ID. assert (0 <= (e - f) * (X * X * (k * k * (1 - e)) - Y * Y * (k * k * e))) by (apply Rmult_le_pos; lra). lra. }
    assert (YY : Y * Y = 1 - X * X) by lra. assert (T5 : k * (X * X - e) <= X * Y * cos m).
    { apply sq_le; [apply Rmult_le_pos; [apply Rmult_le_pos|]; lra|]. assert (Z1 : k * (X * X - e) * (k * (X * X - e)) = Y * Y * (k * k * e) * e + X * X * (k * k * (1 - e)) * (1 - e) - k * k * (X * X * (Y * Y))) by (rewrite YY; ring). rewrite Z1. replace (X * Y * cos m * (X * Y * cos m)) with (X * X * (Y * Y) * (cos m * cos m)) by ring. replace (cos m * cos m) with (1 - k * k) by lra. lra. }
    assert (T6 : k * X * s <= k * k * e). { assert (k * (k * (X * X - e)) <= k * (X * Y * cos m)) by (apply Rmult_le_compat_l; lra). rewrite SE. fold X Y. lra. }
    assert (T7 : s * s <= k * X * s) by (apply Rmult_le_compat_r; lra). lra. }
  assert (PK : -1 <= k * sin h <= 1) by (apply PB, SIN_bound). assert (A1 : m - y <= asin (k * sin h)). { rewrite <- (asin_sin (m - y)) by lra. fold s. apply asin_mono; lra. }
  lra.
Qed.

(** The latitudes of two points of a great circle differ by at most the climb over an arc of
    the same length that is centred on the equator. *)
Lemma budget_diff k a b : 0 <= k <= 1 -> 0 <= a - b <= PI -> let p := asin (k * cos a) in let q := asin (k * cos b) in
  Rabs (p - q) <= 2 * asin (k * sin ((a - b) / 2)).
Proof.
  intros K AB p q. pose proof PI_tight as PT.
  assert (PB : forall x, -1 <= x <= 1 -> -1 <= k * x <= 1). { intros x X. destruct (Rle_dec 0 x) as [L|L]; [assert (0 <= k * x <= 1 * 1) by (split; [apply Rmult_le_pos; lra|apply Rmult_le_compat; lra]); lra|]. assert (0 <= k * - x <= 1 * 1) by (split; [apply Rmult_le_pos; lra|apply Rmult_le_compat; lra]). lra. }
  assert (SP : sin p = k * cos a) by (apply sin_asin, PB, COS_bound). assert (SQ : sin q = k * cos b) by (apply sin_asin, PB, COS_bound). pose proof (asin_bound (k * cos a)) as BP. pose proof (asin_bound (k * cos b)) as BQ. fold p in BP. fold q in BQ.
  set (y := (p + q) / 2). set (x := (p - q) / 2). set (g := (a + b) / 2). set (h := (a - b) / 2). assert (SH : 0 <= sin h) by (apply sin_ge_0; unfold h; lra).
  assert (E1 : sin y * cos x = k * (cos h * cos g)).
  { assert (F : sin p + sin q = 2 * (sin y * cos x)) by (replace p with (y + x) at 1 by (unfold x, y; field); replace q with (y - x) by (unfold x, y; field); rewrite sin_plus, sin_minus; ring).
    assert (G : cos a + cos b = 2 * (cos h * cos g)) by (replace a with (g + h) at 1 by (unfold h, g; field); replace b with (g - h) by (unfold h, g; field); rewrite cos_plus, cos_minus; ring).
    rewrite SP, SQ in F. replace (k * cos a + k * cos b) with (k * (cos a + cos b)) in F by ring. rewrite G in F. lra. }
  assert (E2 : cos y * sin x = - (k * (sin h * sin g))).
  { assert (F : sin p - sin q = 2 * (cos y * sin x)) by (replace p with (y + x) at 1 by (unfold x, y; field); replace q with (y - x) by (unfold x, y; field); rewrite sin_plus, sin_minus; ring).
    assert (G : cos a - cos b = - (2 * (sin h * sin g))) by (replace a with (g + h) at 1 by (unfold h, g; field); replace b with (g - h) by (unfold h, g; field); rewrite cos_plus, cos_minus; ring).
    rewrite SP, SQ in F. replace (k * cos a - k * cos b) with (k * (cos a - cos b)) in F by ring. rewrite G in F. lra. }
  assert (XB : - (PI / 2) <= x <= PI / 2) by (unfold x; lra). assert (CY : 0 <= cos y) by (apply cos_ge_0; unfold y; lra).
  pose proof (sin2_cos2 x) as QX. pose proof (sin2_cos2 y) as QY. pose proof (sin2_cos2 h) as QH. pose proof (sin2_cos2 g) as QG. unfold Rsqr in *. set (c := cos y * cos y). set (z := sin x * sin x). set (P := k * k * (sin h * sin h)). set (G := sin g * sin g).
  assert (KK : k * k <= 1) by (replace 1 with (1 * 1) by ring; apply Rmult_le_compat; lra).
  assert (CZ : c * z = P * G). { unfold c, z, P, G. transitivity ((cos y * sin x) * (cos y * sin x)); [ring|]. rewrite E2. ring. }
  assert (CZ' : (1 - c) * (1 - z) = (k * k - P) * (1 - G)). { unfold c, z, P, G. transitivity ((sin y * cos x) * (sin y * cos x)); [replace (1 - cos y * cos y) with (sin y * sin y) by lra; replace (1 - sin x * sin x) with (cos x * cos x) by lra; ring|]. rewrite E1. replace (1 - sin g * sin g) with (cos g * cos g) by lra. replace (k * k - k * k * (sin h * sin h)) with (k * k * (cos h * cos h)) by (replace (cos h * cos h) with (1 - sin h * sin h) by lra; ring). ring. }
  assert (P0 : 0 <= P) by (unfold P; apply Rmult_le_pos; apply Rle_0_sqr). assert (G1 : G <= 1) by (unfold G; pose proof (Rle_0_sqr (cos g)) as W; unfold Rsqr in W; lra).
  assert (ZC : z <= c). { unfold z, c. assert (AX : Rabs (sin x) <= cos y). { assert (CA : cos y = sin (PI / 2 - Rabs y)) by (rewrite sin_shift; unfold Rabs; destruct (Rcase_abs y); [rewrite cos_neg|]; reflexivity). assert (YA : - (PI / 2) <= - Rabs y /\ Rabs y <= PI / 2 - x /\ Rabs y <= PI / 2 + x /\ 0 <= Rabs y) by (unfold Rabs, x, y; destruct Rcase_abs; lra). rewrite CA. assert (U1 : sin x <= sin (PI / 2 - Rabs y)) by (apply sin_incr_1; lra). assert (U2 : sin (- x) <= sin (PI / 2 - Rabs y)) by (apply sin_incr_1; lra). rewrite sin_neg in U2. apply Rabs_le. lra. }
    replace (sin x * sin x) with (Rabs (sin x) * Rabs (sin x)) by (unfold Rabs; destruct Rcase_abs; ring). pose proof (Rabs_pos (sin x)). apply Rmult_le_compat; lra. }
  assert (ZP : z <= P).
  { apply Rnot_lt_le. intros L. assert (W : 0 < (c - P) * (z - P)) by (apply Rmult_lt_0_compat; lra). assert (V : (c - P) * (z - P) = P * (1 - G) * (k * k - 1)). { replace ((c - P) * (z - P)) with (c * z - P * (1 + c * z - (1 - c) * (1 - z)) + P * P) by ring. rewrite CZ', CZ. ring. }
    rewrite V in W. assert (0 <= P * (1 - G) * (1 - k * k)) by (apply Rmult_le_pos; [apply Rmult_le_pos|]; lra). lra. }
  assert (KH : 0 <= k * sin h) by (apply Rmult_le_pos; lra). assert (SX : Rabs (sin x) <= k * sin h). { apply sq_le; [exact KH|]. replace (Rabs (sin x) * Rabs (sin x)) with (sin x * sin x) by (unfold Rabs; destruct Rcase_abs; ring). unfold z, P in ZP. lra. }
  apply Rabs_le_inv in SX. pose proof (PB _ (SIN_bound h)) as PH. assert (U1 : x <= asin (k * sin h)) by (rewrite <- (asin_sin x) by lra; apply asin_mono; lra). assert (U2 : - x <= asin (k * sin h)) by (rewrite <- (asin_sin (- x)) by lra; rewrite sin_neg; apply asin_mono; lra).
  apply Rabs_le. fold h. unfold x in *. lra.
Qed.

(** The latitude along the arc from the angle 0 to the angle [o] of a great circle on which the
    sine of the latitude at the angle [t] is u cos t + v sin t. *)
Lemma climb u v o t : 0 < o < PI -> 0 <= t <= o -> u * u + v * v <= 1 ->
  let k := sqrt (u * u + v * v) in let w := cos o * u + sin o * v in let z := cos t * u + sin t * v in
  asin z <= asin k /\ asin z <= (asin u + asin w) / 2 + asin (k * sin (o / 2)).
Proof.
  intros O T UV k w z. pose proof PI_tight as PT. assert (K2 : k * k = u * u + v * v) by (apply sqrt_sqrt; pose proof (Rle_0_sqr u); pose proof (Rle_0_sqr v); unfold Rsqr in *; lra). assert (K0 : 0 <= k) by apply sqrt_pos. assert (K1 : k <= 1) by (apply sq_le; lra).
  assert (AL : exists a, u = k * cos a /\ v = k * sin a).
  { destruct (Req_dec (u * u + v * v) 0) as [E|E].
    - exists 0. pose proof (Rle_0_sqr u) as U0. pose proof (Rle_0_sqr v) as V0. unfold Rsqr in *. assert (u * u = 0 /\ v * v = 0) as [A B] by lra. apply Rsqr_0_uniq in A. apply Rsqr_0_uniq in B. unfold k. rewrite E, sqrt_0, A, B. split; ring.
    - destruct (atan2_real_ok v u E) as (_ & A & B). exists (atan2_real v u). split; assumption. }
  destruct AL as (a & UA & VA). assert (FT : forall x, cos x * u + sin x * v = k * cos (x - a)) by (intros x; rewrite cos_minus, UA, VA; ring).
  assert (PB : forall x, -1 <= x <= 1 -> - k <= k * x <= k). { intros x X. assert (k * x <= k * 1) by (apply Rmult_le_compat_l; lra). assert (k * -1 <= k * x) by (apply Rmult_le_compat_l; lra). lra. }
  assert (ZB : - k <= z <= k) by (unfold z; rewrite FT; apply PB, COS_bound). assert (WB : - k <= w <= k) by (unfold w; rewrite FT; apply PB, COS_bound). assert (UB : - k <= u <= k) by (pose proof (PB _ (COS_bound a)); lra).
  assert (TOP : asin z <= asin k) by (apply asin_mono; lra). split; [exact TOP|].
  assert (DIFF : Rabs (asin w - asin u) <= 2 * asin (k * sin (o / 2))).
  { pose proof (budget_diff k (o - a) (- a) ltac:(lra) ltac:(lra)) as D. cbv zeta in D. rewrite cos_neg, <- UA in D. unfold w. rewrite FT. replace (o - a - - a) with o in D by ring. exact D. }
  apply Rabs_le_inv in DIFF. assert (OUT : z <= Rmax u w -> asin z <= (asin u + asin w) / 2 + asin (k * sin (o / 2))).
  { unfold Rmax. destruct (Rle_dec u w); intros L; [assert (asin z <= asin w) by (apply asin_mono; lra)|assert (asin z <= asin u) by (apply asin_mono; lra)]; lra. }
  destruct (Rle_dec v 0) as [V|V]; [apply OUT; pose proof (arc_before u v o O 0 t ltac:(lra) V T) as Q; cbv zeta beta in Q; fold w z in Q; lra|].
  destruct (Rle_dec 0 (cos o * v - sin o * u)) as [G|G]; [apply OUT; pose proof (arc_after u v o 0 t O ltac:(lra) ltac:(lra) T) as Q; fold w z in Q; lra|].
  destruct (arc_meets u v o O ltac:(lra)) as (x & X & FX); [cbv zeta beta; lra|]. cbv zeta beta in FX. fold k in FX.
  assert (XC : u = k * cos x /\ v = k * sin x).
  { pose proof (sin2_cos2 x) as Q. unfold Rsqr in Q. assert (D : u * sin x - v * cos x = 0). { apply Rsqr_0_uniq. unfold Rsqr. transitivity ((u * u + v * v) * (sin x * sin x + cos x * cos x) - (cos x * u + sin x * v) * (cos x * u + sin x * v)); [ring|]. rewrite Q, FX, K2. ring. }
    split; rewrite <- FX; [transitivity (u * (sin x * sin x + cos x * cos x) - sin x * (u * sin x - v * cos x)); [rewrite Q, D; ring|ring]|transitivity (v * (sin x * sin x + cos x * cos x) + cos x * (u * sin x - v * cos x)); [rewrite Q, D; ring|ring]]. }
  destruct XC as [UX VX]. pose proof (asin_bound k) as AB. assert (A0 : 0 <= asin k) by (rewrite <- asin_0; apply asin_mono; lra). pose proof (budget_top (asin k) x (o - x) ltac:(lra) ltac:(lra) ltac:(lra) ltac:(lra)) as B. rewrite sin_asin in B by lra.
  replace (x + (o - x)) with o in B by ring. rewrite <- UX in B. assert (WX : w = k * cos (o - x)) by (unfold w; rewrite UX at 1; rewrite VX, cos_minus; ring). rewrite <- WX in B. lra.
Qed.
(** Likewise downwards. *)
Lemma descent u v o t : 0 < o < PI -> 0 <= t <= o -> u * u + v * v <= 1 ->
  let k := sqrt (u * u + v * v) in let w := cos o * u + sin o * v in let z := cos t * u + sin t * v in
  - asin k <= asin z /\ (asin u + asin w) / 2 - asin (k * sin (o / 2)) <= asin z.
Proof.
  intros O T UV. cbv zeta. pose proof (climb (- u) (- v) o t O T ltac:(lra)) as C. cbv zeta in C. replace (- u * - u + - v * - v) with (u * u + v * v) in C by ring.
  replace (cos o * - u + sin o * - v) with (- (cos o * u + sin o * v)) in C by ring. replace (cos t * - u + sin t * - v) with (- (cos t * u + sin t * v)) in C by ring. rewrite !asin_opp in C. lra.
Qed.
