(** Rounding error of the determinants of triage_sign and stable_sign. *)
From Coq Require Import Reals Lra Lia.
From Flocq Require Import Core Relative Plus_error.
From Verif Require Import F64 F64Facts IntervalSpec F64Arith F64Error.
Open Scope R_scope.

(* unit roundoff, and a bound for the error of underflow *)
Notation u := (/ 9007199254740992).
Definition h : R := bpow radix2 (-1074).
Lemma h_pos : 0 < h. Proof. apply bpow_gt_0. Qed.

Lemma rnd_rel r : Rabs (rnd r - r) <= u * Rabs r + h.
Proof.
  destruct (error_N_FLT radix2 (-1074) 53 eq_refl (fun x => negb (Z.even x)) r) as (eps & eta & He & Ht & _ & E).
  unfold rnd. rewrite E. replace (r * (1 + eps) + eta - r) with (eps * r + eta) by ring.
  eapply Rle_trans; [apply Rabs_triang|]. rewrite Rabs_mult. fold h in Ht. pose proof h_pos.
  change (bpow radix2 (- (53) + 1)) with (/ 4503599627370496) in He.
  apply Rplus_le_compat; [|lra]. apply Rmult_le_compat_r; [apply Rabs_pos|lra].
Qed.
(* sums of doubles do not underflow *)
Lemma rnd_plus_rel (x y : f64) : Rabs (rnd (B2R x + B2R y) - (B2R x + B2R y)) <= u * Rabs (B2R x + B2R y).
Proof.
  destruct (FLT_plus_error_N_ex radix2 (-1074) 53 (fun x => negb (Z.even x)) (B2R x) (B2R y)) as (eps & He & E);
    try apply (generic_format_B2R 53 1024). unfold rnd. rewrite E.
  replace ((B2R x + B2R y) * (1 + eps) - (B2R x + B2R y)) with (eps * (B2R x + B2R y)) by ring.
  rewrite Rabs_mult. apply Rmult_le_compat_r; [apply Rabs_pos|].
  eapply Rle_trans; [apply He|]. unfold u_ro. change (bpow radix2 (- (53) + 1)) with (/ 4503599627370496).
  assert (A : 0 < / 2 * / 4503599627370496) by lra.
  apply Rmult_le_reg_r with (1 + / 2 * / 4503599627370496); [lra|].
  unfold Rdiv. rewrite Rmult_assoc, Rinv_l, Rmult_1_r by lra. lra.
Qed.
Lemma rnd_minus_rel (x y : f64) : Rabs (rnd (B2R x - B2R y) - (B2R x - B2R y)) <= u * Rabs (B2R x - B2R y).
Proof.
  pose proof (rnd_plus_rel x (Bopp y)) as H. rewrite B2R_Bopp in H. exact H.
Qed.

Ltac absfacts := repeat match goal with
  | H : Rabs ?x <= _ |- _ => apply Rabs_le_inv in H
  end.

(* the component of a cross product *)
Lemma cross_comp g1 g2 m1 m2 p k1 k2 :
  Rabs (m1 - g1) <= k1 -> Rabs (m2 - g2) <= k2 -> Rabs (p - (m1 - m2)) <= u * Rabs (m1 - m2) + h ->
  Rabs (p - (g1 - g2)) <= u * Rabs (g1 - g2) + (1 + u) * (k1 + k2) + h.
Proof.
  intros A B C.
  assert (D : Rabs (m1 - m2) <= Rabs (g1 - g2) + k1 + k2).
  { replace (m1 - m2) with ((g1 - g2) + ((m1 - g1) + - (m2 - g2))) by ring.
    eapply Rle_trans; [apply Rabs_triang|]. pose proof (Rabs_triang (m1 - g1) (- (m2 - g2))) as T. rewrite Rabs_Ropp in T. lra. }
  replace (p - (g1 - g2)) with ((p - (m1 - m2)) + ((m1 - g1) + - (m2 - g2))) by ring.
  eapply Rle_trans; [apply Rabs_triang|]. pose proof (Rabs_triang (m1 - g1) (- (m2 - g2))) as T. rewrite Rabs_Ropp in T. lra.
Qed.

(* one term of the dot product *)
Lemma dot_term x c p t r : 0 <= r -> Rabs (p - x) <= u * Rabs x + r -> Rabs (t - p * c) <= u * Rabs (p * c) + h ->
  Rabs (t - x * c) <= (2 * u + u * u) * Rabs (x * c) + (1 + u) * (r * Rabs c) + h.
Proof.
  intros Hr A B.
  assert (C : Rabs (p * c - x * c) <= u * Rabs (x * c) + r * Rabs c).
  { rewrite <- Rmult_minus_distr_r, Rabs_mult, (Rabs_mult x). pose proof (Rabs_pos c). 
    apply Rle_trans with ((u * Rabs x + r) * Rabs c); [apply Rmult_le_compat_r; auto|]. lra. }
  assert (D : Rabs (p * c) <= Rabs (x * c) + Rabs (p * c - x * c)).
  { replace (p * c) with (x * c + (p * c - x * c)) at 1 by ring. apply Rabs_triang. }
  replace (t - x * c) with ((t - p * c) + (p * c - x * c)) by ring.
  eapply Rle_trans; [apply Rabs_triang|]. lra.
Qed.

(* the sign of the sum is wrong by at most this much *)
Lemma sum_sign v1 v2 v3 t1 t2 t3 s b1 b2 b3 :
  Rabs (t1 - v1) <= b1 -> Rabs (t2 - v2) <= b2 -> Rabs (t3 - v3) <= b3 ->
  Rabs (s - (t1 + t2)) <= u * Rabs (t1 + t2) -> v1 + v2 + v3 <= 0 ->
  s + t3 <= / 2 * u * (Rabs v1 + Rabs v2 + Rabs v3) + (1 + u) * (b1 + b2 + b3).
Proof.
  intros A1 A2 A3 A4 N.
  assert (T : Rabs (t1 + t2) <= Rabs (v1 + v2) + b1 + b2).
  { replace (t1 + t2) with ((v1 + v2) + ((t1 - v1) + (t2 - v2))) by ring.
    eapply Rle_trans; [apply Rabs_triang|]. pose proof (Rabs_triang (t1 - v1) (t2 - v2)). lra. }
  assert (K : v1 + v2 + v3 + u * Rabs (v1 + v2) <= / 2 * u * (Rabs v1 + Rabs v2 + Rabs v3)).
  { pose proof (Rabs_triang v1 v2). set (w := Rabs v1 + Rabs v2) in *. clearbody w.
    clear - N H. generalize dependent (v1 + v2). intros v N H.
    unfold Rabs in *. destruct (Rcase_abs v), (Rcase_abs v3); lra. }
  pose proof (Rabs_pos (t1 - v1)). pose proof (Rabs_pos (t2 - v2)). pose proof (Rabs_pos (t3 - v3)).
  apply Rabs_le_inv in A1, A2, A3, A4. lra.
Qed.

(** Norms *)
Lemma sq_le a b : 0 <= b -> a * a <= b * b -> a <= b.
Proof. intros H K. apply Rnot_lt_le. intros L. assert (b * b < a * a); [|lra]. apply Rmult_le_0_lt_compat; lra. Qed.
Lemma sqr_abs a : Rabs a * Rabs a = a * a.
Proof. rewrite <- Rabs_mult. apply Rabs_pos_eq. apply Rle_0_sqr. Qed.

Lemma cauchy x1 x2 x3 c1 c2 c3 :
  (x1 * c1 + x2 * c2 + x3 * c3) * (x1 * c1 + x2 * c2 + x3 * c3) <= (x1 * x1 + x2 * x2 + x3 * x3) * (c1 * c1 + c2 * c2 + c3 * c3).
Proof.
  pose proof (Rle_0_sqr (x1 * c2 - x2 * c1)) as A. pose proof (Rle_0_sqr (x1 * c3 - x3 * c1)) as B.
  pose proof (Rle_0_sqr (x2 * c3 - x3 * c2)) as C. unfold Rsqr in *.
  apply Rminus_le. 
  replace (_ - _) with (- ((x1 * c2 - x2 * c1) * (x1 * c2 - x2 * c1) + (x1 * c3 - x3 * c1) * (x1 * c3 - x3 * c1) + (x2 * c3 - x3 * c2) * (x2 * c3 - x3 * c2))) by ring.
  lra.
Qed.
Lemma lagrange a1 a2 a3 b1 b2 b3 :
  (a2 * b3 - a3 * b2) * (a2 * b3 - a3 * b2) + (a3 * b1 - a1 * b3) * (a3 * b1 - a1 * b3) + (a1 * b2 - a2 * b1) * (a1 * b2 - a2 * b1)
  <= (a1 * a1 + a2 * a2 + a3 * a3) * (b1 * b1 + b2 * b2 + b3 * b3).
Proof.
  pose proof (Rle_0_sqr (a1 * b1 + a2 * b2 + a3 * b3)) as A. unfold Rsqr in A.
  apply Rminus_le. replace (_ - _) with (- ((a1 * b1 + a2 * b2 + a3 * b3) * (a1 * b1 + a2 * b2 + a3 * b3))) by ring. lra.
Qed.
Lemma lagrange_plus a1 a2 a3 b1 b2 b3 :
  3 * ((a2 * b3 + a3 * b2) * (a2 * b3 + a3 * b2) + (a3 * b1 + a1 * b3) * (a3 * b1 + a1 * b3) + (a1 * b2 + a2 * b1) * (a1 * b2 + a2 * b1))
  <= 4 * ((a1 * a1 + a2 * a2 + a3 * a3) * (b1 * b1 + b2 * b2 + b3 * b3)).
Proof.
  (* with w_i = a_i b_i *)
  pose proof (cauchy a1 a2 a3 b1 b2 b3) as C.
  pose proof (Rle_0_sqr (a1 * b1 - a2 * b2)) as A1. pose proof (Rle_0_sqr (a1 * b1 - a3 * b3)) as A2.
  pose proof (Rle_0_sqr (a2 * b2 - a3 * b3)) as A3. unfold Rsqr in *.
  apply Rminus_le. 
  replace (_ - _) with (((a1 * b1 + a2 * b2 + a3 * b3) * (a1 * b1 + a2 * b2 + a3 * b3) - (a1 * a1 + a2 * a2 + a3 * a3) * (b1 * b1 + b2 * b2 + b3 * b3))
     - 2 * ((a1 * b1 - a2 * b2) * (a1 * b1 - a2 * b2) + (a1 * b1 - a3 * b3) * (a1 * b1 - a3 * b3) + (a2 * b2 - a3 * b3) * (a2 * b2 - a3 * b3))) by ring.
  lra.
Qed.

Definition K23 : R := 11547006 / 10000000.

Lemma det_upper a1 a2 a3 b1 b2 b3 c1 c2 c3 m1 m1' m2 m2' m3 m3' p1 p2 p3 t1 t2 t3 s w P N :
  0 <= w <= 4 * u -> 0 <= P -> 0 <= N <= 2 ->
  (a1 * a1 + a2 * a2 + a3 * a3) * (b1 * b1 + b2 * b2 + b3 * b3) <= P * P ->
  c1 * c1 + c2 * c2 + c3 * c3 <= N * N ->
  Rabs (m1 - a2 * b3) <= w * Rabs (a2 * b3) + h -> Rabs (m1' - a3 * b2) <= w * Rabs (a3 * b2) + h ->
  Rabs (m2 - a3 * b1) <= w * Rabs (a3 * b1) + h -> Rabs (m2' - a1 * b3) <= w * Rabs (a1 * b3) + h ->
  Rabs (m3 - a1 * b2) <= w * Rabs (a1 * b2) + h -> Rabs (m3' - a2 * b1) <= w * Rabs (a2 * b1) + h ->
  Rabs (p1 - (m1 - m1')) <= u * Rabs (m1 - m1') + h ->
  Rabs (p2 - (m2 - m2')) <= u * Rabs (m2 - m2') + h ->
  Rabs (p3 - (m3 - m3')) <= u * Rabs (m3 - m3') + h ->
  Rabs (t1 - p1 * c1) <= u * Rabs (p1 * c1) + h ->
  Rabs (t2 - p2 * c2) <= u * Rabs (p2 * c2) + h ->
  Rabs (t3 - p3 * c3) <= u * Rabs (p3 * c3) + h ->
  Rabs (s - (t1 + t2)) <= u * Rabs (t1 + t2) ->
  (a2 * b3 - a3 * b2) * c1 + (a3 * b1 - a1 * b3) * c2 + (a1 * b2 - a2 * b1) * c3 <= 0 ->
  s + t3 <= (1 + / 1000000000) * (5 / 2 * u * (P * N) + w * (K23 * (P * N))) + 40 * h.
Proof.
  intros Hw HP HN Hab Hc M1 M1' M2 M2' M3 M3' P1 P2 P3 T1 T2 T3 S D.
  pose proof h_pos as Hh.
  assert (HPN : 0 <= P * N) by (apply Rmult_le_pos; lra).
  (* norms *)
  set (x1 := a2 * b3 - a3 * b2) in *. set (x2 := a3 * b1 - a1 * b3) in *. set (x3 := a1 * b2 - a2 * b1) in *.
  assert (Y : Rabs (x1 * c1) + Rabs (x2 * c2) + Rabs (x3 * c3) <= P * N).
  { apply sq_le; auto. rewrite !Rabs_mult. eapply Rle_trans; [apply cauchy|]. rewrite !sqr_abs.
    replace (P * N * (P * N)) with ((P * P) * (N * N)) by ring.
    pose proof (lagrange a1 a2 a3 b1 b2 b3) as L. fold x1 x2 x3 in L.
    pose proof (Rle_0_sqr x1). pose proof (Rle_0_sqr x2). pose proof (Rle_0_sqr x3).
    pose proof (Rle_0_sqr c1). pose proof (Rle_0_sqr c2). pose proof (Rle_0_sqr c3). unfold Rsqr in *.
    apply Rmult_le_compat; lra. }
  set (q1 := Rabs (a2 * b3) + Rabs (a3 * b2)). set (q2 := Rabs (a3 * b1) + Rabs (a1 * b3)). set (q3 := Rabs (a1 * b2) + Rabs (a2 * b1)).
  assert (Q : q1 * Rabs c1 + q2 * Rabs c2 + q3 * Rabs c3 <= K23 * (P * N)).
  { apply sq_le; [unfold K23; lra|]. eapply Rle_trans; [apply cauchy|]. rewrite !sqr_abs.
    pose proof (lagrange_plus (Rabs a1) (Rabs a2) (Rabs a3) (Rabs b1) (Rabs b2) (Rabs b3)) as L.
    rewrite !sqr_abs in L. rewrite <- !Rabs_mult in L. fold q1 q2 q3 in L.
    replace (K23 * (P * N) * (K23 * (P * N))) with ((K23 * K23 * (P * P)) * (N * N)) by ring.
    pose proof (Rle_0_sqr q1). pose proof (Rle_0_sqr q2). pose proof (Rle_0_sqr q3).
    pose proof (Rle_0_sqr c1). pose proof (Rle_0_sqr c2). pose proof (Rle_0_sqr c3). unfold Rsqr in *.
    assert (4 / 3 * (P * P) <= K23 * K23 * (P * P)).
    { apply Rmult_le_compat_r; [apply Rle_0_sqr|]. unfold K23. lra. }
    apply Rmult_le_compat; lra. }
  assert (C1 : forall c, c * c <= N * N -> Rabs c <= 2).
  { intros c Hcc. apply Rle_trans with N; [|lra]. apply sq_le; [lra|]. rewrite sqr_abs. exact Hcc. }
  pose proof (Rle_0_sqr c1) as SC1. pose proof (Rle_0_sqr c2) as SC2. pose proof (Rle_0_sqr c3) as SC3. unfold Rsqr in *.
  pose proof (C1 c1 ltac:(lra)) as B1. pose proof (C1 c2 ltac:(lra)) as B2. pose proof (C1 c3 ltac:(lra)) as B3.
  (* the terms *)
  pose proof (cross_comp _ _ _ _ _ _ _ M1 M1' P1) as X1. pose proof (cross_comp _ _ _ _ _ _ _ M2 M2' P2) as X2.
  pose proof (cross_comp _ _ _ _ _ _ _ M3 M3' P3) as X3.
  fold x1 in X1. fold x2 in X2. fold x3 in X3.
  assert (R1 : Rabs (p1 - x1) <= u * Rabs x1 + ((1 + u) * (w * q1) + 4 * h)) by (unfold q1; lra).
  assert (R2 : Rabs (p2 - x2) <= u * Rabs x2 + ((1 + u) * (w * q2) + 4 * h)) by (unfold q2; lra).
  assert (R3 : Rabs (p3 - x3) <= u * Rabs x3 + ((1 + u) * (w * q3) + 4 * h)) by (unfold q3; lra).
  clear M1 M1' M2 M2' M3 M3' X1 X2 X3 P1 P2 P3.
  assert (Q1 : 0 <= w * q1) by (apply Rmult_le_pos; [lra|unfold q1; pose proof (Rabs_pos (a2 * b3)); pose proof (Rabs_pos (a3 * b2)); lra]).
  assert (Q2 : 0 <= w * q2) by (apply Rmult_le_pos; [lra|unfold q2; pose proof (Rabs_pos (a3 * b1)); pose proof (Rabs_pos (a1 * b3)); lra]).
  assert (Q3 : 0 <= w * q3) by (apply Rmult_le_pos; [lra|unfold q3; pose proof (Rabs_pos (a1 * b2)); pose proof (Rabs_pos (a2 * b1)); lra]).
  assert (E1 : 0 <= (1 + u) * (w * q1) + 4 * h) by lra. assert (E2 : 0 <= (1 + u) * (w * q2) + 4 * h) by lra.
  assert (E3 : 0 <= (1 + u) * (w * q3) + 4 * h) by lra.
  pose proof (dot_term _ _ _ _ _ E1 R1 T1) as G1. pose proof (dot_term _ _ _ _ _ E2 R2 T2) as G2.
  pose proof (dot_term _ _ _ _ _ E3 R3 T3) as G3. clear R1 R2 R3 T1 T2 T3 E1 E2 E3.
  pose proof (sum_sign _ _ _ _ _ _ _ _ _ _ G1 G2 G3 S D) as F. clear G1 G2 G3 S D.
  (* collect *)
  assert (H1 : h * Rabs c1 <= 2 * h) by (rewrite (Rmult_comm 2); apply Rmult_le_compat_l; lra).
  assert (H2 : h * Rabs c2 <= 2 * h) by (rewrite (Rmult_comm 2); apply Rmult_le_compat_l; lra).
  assert (H3 : h * Rabs c3 <= 2 * h) by (rewrite (Rmult_comm 2); apply Rmult_le_compat_l; lra).
  assert (W : w * (q1 * Rabs c1 + q2 * Rabs c2 + q3 * Rabs c3) <= w * (K23 * (P * N))) by (apply Rmult_le_compat_l; lra).
  assert (W0 : 0 <= w * (K23 * (P * N))).
  { apply Rmult_le_pos; [lra|]. unfold K23. lra. }
  set (Z := w * (K23 * (P * N))) in *. clearbody Z.
  replace (((1 + u) * (w * q1) + 4 * h) * Rabs c1) with ((1 + u) * (w * (q1 * Rabs c1)) + 4 * (h * Rabs c1)) in F by ring.
  replace (((1 + u) * (w * q2) + 4 * h) * Rabs c2) with ((1 + u) * (w * (q2 * Rabs c2)) + 4 * (h * Rabs c2)) in F by ring.
  replace (((1 + u) * (w * q3) + 4 * h) * Rabs c3) with ((1 + u) * (w * (q3 * Rabs c3)) + 4 * (h * Rabs c3)) in F by ring.
  rewrite !Rmult_plus_distr_l in W.
  clear - F Y W W0 H1 H2 H3 Hh HPN.
  generalize dependent (w * (q1 * Rabs c1)). generalize dependent (w * (q2 * Rabs c2)). generalize dependent (w * (q3 * Rabs c3)).
  generalize dependent (h * Rabs c1). generalize dependent (h * Rabs c2). generalize dependent (h * Rabs c3).
  generalize dependent (Rabs (x1 * c1)). generalize dependent (Rabs (x2 * c2)). generalize dependent (Rabs (x3 * c3)).
  generalize dependent (P * N). generalize dependent h.
  clear - W0. intros. lra.
Qed.
