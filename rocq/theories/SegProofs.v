(** The distance of a point from an arc of a great circle, in real numbers. *)
From Coq Require Import Reals Lra Psatz.
From Flocq Require Import Core.
From Verif Require Import AngleProofs TrigWitness PropsTrig.
Open Scope R_scope.

(** A point at the place (u, v) relative to an arc from (1, 0) to the angle [o]: how close a
    point of the arc comes to the direction (u, v). *)
Section arc.
Variables (u v o : R).
Hypothesis O : 0 < o < PI.
Let f (t : R) := cos t * u + sin t * v.
Let w := f o.
Let g := cos o * v - sin o * u.
Let S0 : 0 < sin o. Proof. apply sin_gt_0; lra. Qed.

Lemma split_arc t : sin o * f t = sin (o - t) * u + sin t * w.
Proof. unfold w, f. rewrite sin_minus. ring. Qed.

(* the arc lies on the other side *)
Lemma arc_before e t : 0 <= e -> v <= e -> 0 <= t <= o -> f t <= Rmax u w + e.
Proof.
  intros E V T. pose proof (Rmax_l u w) as M1. pose proof (Rmax_r u w) as M2. assert (ST : 0 <= sin t) by (apply sin_ge_0; lra). assert (SP : 0 <= sin (o - t)) by (apply sin_ge_0; lra).
  pose proof (SIN_bound t) as SB. pose proof (COS_bound t) as CB. assert (SV : sin t * v <= e). { apply Rle_trans with (sin t * e); [apply Rmult_le_compat_l; lra|]. rewrite <- (Rmult_1_l e) at 2. apply Rmult_le_compat_r; lra. }
  assert (CC : cos o <= cos t) by (apply cos_decr_1; lra).
  destruct (Rle_dec 0 u) as [U|U].
  { assert (cos t * u <= 1 * u) by (apply Rmult_le_compat_r; lra). unfold f. lra. }
  assert (UN : u <= 0) by lra.
  destruct (Rle_dec w 0) as [W|W].
  { (* both ends on the far side *)
    assert (MX : Rmax u w <= 0) by (apply Rmax_lub; lra). assert (SS : sin o <= sin (o - t) + sin t).
    { pose proof (sin_plus (o - t) t) as Q. replace (o - t + t) with o in Q by ring. rewrite Q. pose proof (COS_bound (o - t)). assert (sin (o - t) * cos t <= sin (o - t) * 1) by (apply Rmult_le_compat_l; lra). assert (cos (o - t) * sin t <= 1 * sin t) by (apply Rmult_le_compat_r; lra). lra. }
    assert (K : f t <= Rmax u w); [|lra]. apply (Rmult_le_reg_l (sin o)); [exact S0|]. rewrite split_arc. set (m := Rmax u w) in *.
    assert (sin (o - t) * u <= sin (o - t) * m) by (apply Rmult_le_compat_l; lra). assert (sin t * w <= sin t * m) by (apply Rmult_le_compat_l; lra). assert (m * (sin (o - t) + sin t) <= m * sin o) by (apply Rmult_le_compat_neg_l; lra). lra. }
  destruct (Rle_dec (sin o) (sin t)) as [L|L].
  - assert (D : f t - w <= e).
    { unfold w, f. replace (cos t * u + sin t * v - (cos o * u + sin o * v)) with ((cos t - cos o) * u + (sin t - sin o) * v) by ring.
      assert ((cos t - cos o) * u <= 0) by (rewrite <- (Rmult_0_r (cos t - cos o)); apply Rmult_le_compat_l; lra). assert ((sin t - sin o) * v <= (sin t - sin o) * e) by (apply Rmult_le_compat_l; lra). assert ((sin t - sin o) * e <= 1 * e) by (apply Rmult_le_compat_r; lra). lra. }
    lra.
  - assert (K : f t <= w); [|lra]. apply (Rmult_le_reg_l (sin o)); [exact S0|]. rewrite split_arc. assert (sin (o - t) * u <= 0) by (rewrite <- (Rmult_0_r (sin (o - t))); apply Rmult_le_compat_l; lra). assert (sin t * w <= sin o * w) by (apply Rmult_le_compat_r; lra). lra.
Qed.
(* the direction is within the wedge of the arc *)
Lemma arc_meets : 0 <= v -> g <= 0 -> exists t, 0 <= t <= o /\ f t = sqrt (u * u + v * v).
Proof.
  intros V G. set (r := sqrt (u * u + v * v)). pose proof (Rle_0_sqr u) as U2. pose proof (Rle_0_sqr v) as V2. unfold Rsqr in *. assert (R2 : r * r = u * u + v * v) by (apply sqrt_sqrt; lra). assert (R0 : 0 <= r) by apply sqrt_pos.
  destruct (Req_dec r 0) as [Z|Z].
  { exists 0. split; [lra|]. rewrite Z in R2. assert (u * u = 0 /\ v * v = 0) as [A B] by lra. apply Rsqr_0_uniq in A. unfold f. rewrite cos_0, sin_0, A, Z. ring. }
  assert (RP : 0 < r) by lra. set (k := u / r). assert (UK : u = r * k) by (unfold k; field; lra).
  assert (KB : -1 <= k <= 1).
  { assert (Rabs u <= r) by (rewrite <- (Rabs_pos_eq r R0); apply Rsqr_le_abs_0; unfold Rsqr; lra). apply Rabs_le_inv in H. split; apply (Rmult_le_reg_l r); try lra; rewrite <- UK; lra. }
  destruct (acos_bound k) as [A0 A1]. pose proof (cos_acos k KB) as CA. set (t := acos k) in *. assert (ST : 0 <= sin t) by (apply sin_ge_0; lra).
  assert (VK : v = r * sin t).
  { apply Rsqr_inj; [exact V|apply Rmult_le_pos; lra|]. unfold Rsqr. pose proof (sin2_cos2 t) as Q. unfold Rsqr in Q. rewrite CA in Q. replace (r * sin t * (r * sin t)) with (r * r * (sin t * sin t)) by ring. replace (sin t * sin t) with (1 - k * k) by lra. rewrite UK in R2. replace (r * r * (1 - k * k)) with (r * r - r * k * (r * k)) by ring. lra. }
  exists t. split.
  - split; [exact A0|]. apply Rnot_lt_le. intros C. assert (GP : 0 < g); [|lra]. unfold g. rewrite UK, VK, <- CA. replace (cos o * (r * sin t) - sin o * (r * cos t)) with (r * sin (t - o)) by (rewrite sin_minus; ring).
    apply Rmult_lt_0_compat; [exact RP|]. destruct (Req_dec t PI) as [E|E]; apply sin_gt_0; try lra.
  - unfold f. rewrite CA. rewrite UK, VK. pose proof (sin2_cos2 t) as Q. unfold Rsqr in Q. rewrite CA in Q. replace (k * (r * k) + sin t * (r * sin t)) with (r * (sin t * sin t + k * k)) by ring. rewrite Q. ring.
Qed.
(* the largest value on the circle *)
Lemma arc_top t : f t <= sqrt (u * u + v * v).
Proof.
  pose proof (sin2_cos2 t) as Q. unfold Rsqr in Q. destruct (Rle_dec (f t) 0) as [L|L]; [pose proof (sqrt_pos (u * u + v * v)); lra|]. rewrite <- (sqrt_square (f t)) by lra. apply sqrt_le_1_alt. unfold f.
  pose proof (Rle_0_sqr (cos t * v - sin t * u)) as K. unfold Rsqr in K. apply Rle_trans with ((sin t * sin t + cos t * cos t) * (u * u + v * v)); [|rewrite Q; lra]. lra.
Qed.
(* the direction is hardly outside the wedge, before the start of the arc *)
Lemma arc_start e : 0 <= e -> - e <= v <= 0 -> g <= e -> sqrt (u * u + v * v) <= u + 5 * (e / sin o).
Proof.
  intros E V G. pose proof (SIN_bound o) as SB. pose proof (COS_bound o) as CB. set (d := e / sin o). assert (ED : e = d * sin o) by (unfold d; field; lra). assert (D0 : 0 <= d) by (apply Rmult_le_pos; [exact E|apply Rlt_le, Rinv_0_lt_compat, S0]).
  assert (DE : e <= d) by (rewrite ED; rewrite <- (Rmult_1_r d) at 2; apply Rmult_le_compat_l; lra).
  assert (T : sqrt (u * u + v * v) <= Rabs u + Rabs v).
  { rewrite <- (sqrt_square (Rabs u + Rabs v)) by (pose proof (Rabs_pos u); pose proof (Rabs_pos v); lra). apply sqrt_le_1_alt. pose proof (Rmult_le_pos _ _ (Rabs_pos u) (Rabs_pos v)) as P. pose proof (Rsqr_abs u) as A. pose proof (Rsqr_abs v) as B. unfold Rsqr in *. replace ((Rabs u + Rabs v) * (Rabs u + Rabs v)) with (Rabs u * Rabs u + Rabs v * Rabs v + 2 * (Rabs u * Rabs v)) by ring. lra. }
  rewrite (Rabs_left1 v) in T by lra. destruct (Rle_dec 0 u) as [U|U]; [rewrite Rabs_pos_eq in T by exact U; lra|]. rewrite Rabs_left1 in T by lra.
  assert (UL : - (2 * d) <= u).
  { apply (Rmult_le_reg_l (sin o)); [exact S0|]. assert (GB : - (sin o * u) <= e - cos o * v) by (unfold g in G; lra). assert (- (cos o * v) <= e). { assert (cos o * v >= - e); [|lra]. destruct (Rle_dec 0 (cos o)). - assert (cos o * - e <= cos o * v) by (apply Rmult_le_compat_l; lra). assert (cos o * e <= 1 * e) by (apply Rmult_le_compat_r; lra). lra. - assert (0 <= cos o * v) by (replace (cos o * v) with (- cos o * - v) by ring; apply Rmult_le_pos; lra). lra. }
    replace (sin o * - (2 * d)) with (- (2 * (d * sin o))) by ring. rewrite <- ED. lra. }
  lra.
Qed.
End arc.

(** The arc traversed from its end. *)
Lemma rev_at u v o t : cos (o - t) * (cos o * u + sin o * v) + sin (o - t) * (sin o * u - cos o * v) = cos t * u + sin t * v.
Proof.
  replace (cos (o - t) * (cos o * u + sin o * v) + sin (o - t) * (sin o * u - cos o * v)) with ((cos (o - t) * cos o + sin (o - t) * sin o) * u + (sin o * cos (o - t) - cos o * sin (o - t)) * v) by ring.
  rewrite <- cos_minus, <- sin_minus. replace (o - t - o) with (- t) by ring. replace (o - (o - t)) with t by ring. rewrite cos_neg. ring.
Qed.
Lemma rev_len u v o : (cos o * u + sin o * v) * (cos o * u + sin o * v) + (sin o * u - cos o * v) * (sin o * u - cos o * v) = u * u + v * v.
Proof. pose proof (sin2_cos2 o) as Q. unfold Rsqr in Q. transitivity ((sin o * sin o + cos o * cos o) * (u * u + v * v)); [ring|rewrite Q; ring]. Qed.
Lemma arc_after u v o e t : 0 < o < PI -> 0 <= e -> - e <= cos o * v - sin o * u -> 0 <= t <= o -> cos t * u + sin t * v <= Rmax u (cos o * u + sin o * v) + e.
Proof.
  intros O E V T. rewrite <- (rev_at u v o t). pose proof (arc_before (cos o * u + sin o * v) (sin o * u - cos o * v) o O e (o - t) E ltac:(lra) ltac:(lra)) as A.
  cbv zeta beta in A. pose proof (rev_at u v o 0) as R. rewrite Rminus_0_r, cos_0, sin_0 in R. rewrite R, Rmax_comm in A. replace (1 * u + 0 * v) with u in A by ring. exact A.
Qed.
(** A direction hardly outside the wedge is hardly farther from the arc than from the circle. *)
Lemma arc_near u v o e : 0 < o < PI -> 0 <= e -> - e <= v -> cos o * v - sin o * u <= e -> exists t, 0 <= t <= o /\ sqrt (u * u + v * v) <= cos t * u + sin t * v + 5 * (e / sin o).
Proof.
  intros O E V G. assert (S0 : 0 < sin o) by (apply sin_gt_0; lra). assert (D0 : 0 <= e / sin o) by (apply Rmult_le_pos; [exact E|apply Rlt_le, Rinv_0_lt_compat, S0]).
  destruct (Rle_dec v 0) as [VN|VN].
  { exists 0. split; [lra|]. rewrite cos_0, sin_0. pose proof (arc_start u v o O e E ltac:(lra) G). lra. }
  destruct (Rle_dec (cos o * v - sin o * u) 0) as [GN|GN].
  { destruct (arc_meets u v o O ltac:(lra) GN) as (t & T & H). exists t. split; [exact T|]. rewrite H. lra. }
  exists o. split; [lra|]. pose proof (arc_start (cos o * u + sin o * v) (sin o * u - cos o * v) o O e E ltac:(lra)) as A. rewrite rev_len in A. apply A.
  replace (cos o * (sin o * u - cos o * v) - sin o * (cos o * u + sin o * v)) with (- ((sin o * sin o + cos o * cos o) * v)) by ring. pose proof (sin2_cos2 o) as Q. unfold Rsqr in Q. rewrite Q. lra.
Qed.
(** The planar test: the angle at an end of the arc is not acute. *)
Lemma planar_start u v o e : 0 < o < PI -> 0 <= e -> u * u + v * v <= 1 -> 1 - cos o - e <= u - (cos o * u + sin o * v) -> v <= e / sin o.
Proof.
  intros O E C H. assert (S0 : 0 < sin o) by (apply sin_gt_0; lra). pose proof (COS_bound o) as CB. pose proof (Rle_0_sqr v) as V2. unfold Rsqr in V2. assert (U : u <= 1). { apply Rnot_lt_le. intros K. assert (1 * 1 < u * u) by (apply Rmult_le_0_lt_compat; lra). lra. }
  assert ((u - 1) * (1 - cos o) <= 0). { replace ((u - 1) * (1 - cos o)) with (- ((1 - u) * (1 - cos o))) by ring. assert (0 <= (1 - u) * (1 - cos o)) by (apply Rmult_le_pos; lra). lra. }
  apply (Rmult_le_reg_r (sin o)); [exact S0|]. unfold Rdiv. rewrite Rmult_assoc, Rinv_l by lra. lra.
Qed.
Lemma planar_end u v o e : 0 < o < PI -> 0 <= e -> u * u + v * v <= 1 -> 1 - cos o - e <= (cos o * u + sin o * v) - u -> - (e / sin o) <= cos o * v - sin o * u.
Proof.
  intros O E C H. pose proof (planar_start (cos o * u + sin o * v) (sin o * u - cos o * v) o e O E) as A. rewrite rev_len in A. specialize (A C). pose proof (rev_at u v o 0) as R. rewrite Rminus_0_r, cos_0, sin_0 in R. rewrite R in A. specialize (A ltac:(lra)). lra.
Qed.
(** The nearest end of an arc is not opposite the point. *)
Lemma ends_near u v o : 0 < o < PI -> u * u + v * v <= 1 -> - (1 - sin o * sin o / 8) <= Rmax u (cos o * u + sin o * v).
Proof.
  intros O C. set (w := cos o * u + sin o * v). pose proof (Rmax_l u w) as M1. pose proof (Rmax_r u w) as M2. set (m := Rmax u w) in *. apply Rnot_lt_le. intros L.
  pose proof (SIN_bound o) as SB. assert (S0 : 0 < sin o) by (apply sin_gt_0; lra). pose proof (COS_bound o) as CB. pose proof (sin2_cos2 o) as Q. unfold Rsqr in Q.
  assert (W : (u + w) * (u + w) <= 2 * (1 + cos o)).
  { assert (A : (u + w) * (u + w) <= ((1 + cos o) * (1 + cos o) + sin o * sin o) * (u * u + v * v)). { unfold w. pose proof (Rle_0_sqr ((1 + cos o) * v - sin o * u)) as K. unfold Rsqr in K. lra. }
    replace ((1 + cos o) * (1 + cos o) + sin o * sin o) with (2 * (1 + cos o)) in A by lra. apply Rle_trans with (2 * (1 + cos o) * (u * u + v * v)); [exact A|]. rewrite <- (Rmult_1_r (2 * (1 + cos o))) at 2. apply Rmult_le_compat_l; lra. }
  set (q := sin o * sin o) in *. assert (Q0 : 0 < q) by (apply Rmult_lt_0_compat; exact S0). assert (Q1 : q <= 1) by (pose proof (Rle_0_sqr (cos o)) as CC; unfold Rsqr in CC; lra).
  assert (B : 2 * (1 - q / 8) * (2 * (1 - q / 8)) <= (u + w) * (u + w)). { replace ((u + w) * (u + w)) with (- (u + w) * - (u + w)) by ring. apply Rmult_le_compat; lra. }
  assert (D : cos o <= 1 - q / 2). { apply Rnot_lt_le. intros K. assert ((1 - q / 2) * (1 - q / 2) < cos o * cos o) by (apply Rmult_le_0_lt_compat; lra). assert (0 <= q * q) by (apply Rmult_le_pos; lra). lra. }
  assert (0 < q * q) by (apply Rmult_lt_0_compat; lra). lra.
Qed.
(** Angles from their cosines. *)
Lemma cos_gap a b c : 0 <= a <= PI -> 0 <= b <= PI -> cos b - cos a <= c -> 0 <= c -> a - b <= 2 * sqrt (2 * c).
Proof.
  intros A B H C. pose proof PI_RGT_0 as PP. pose proof (sqrt_pos (2 * c)) as SP. destruct (Rle_dec a b) as [L|L]; [lra|].
  rewrite form2 in H. replace ((b - a) / 2) with (- ((a - b) / 2)) in H by field. rewrite sin_neg in H. set (d := (a - b) / 2) in *. set (s := (b + a) / 2) in *.
  assert (D : 0 < d <= PI / 2) by (unfold d; lra). assert (SD : 0 <= sin d) by (apply sin_ge_0; lra).
  assert (LE : sin d <= sin s). { destruct (Rle_dec s (PI / 2)) as [K|K]; [apply sin_incr_1; unfold d, s in *; lra|]. rewrite <- (sin_PI_x s). apply sin_incr_1; unfold d, s in *; lra. }
  assert (D2 : sin d * sin d <= c / 2). { assert (sin d * sin d <= sin s * sin d) by (apply Rmult_le_compat_r; lra). lra. }
  pose proof PI_4 as P4. pose proof (sin_half d) as DD. specialize (DD ltac:(split; [lra|]; pose proof PI_tight; lra)).
  assert (SQ : sin d <= sqrt (2 * c) / 2). { apply Rnot_lt_le. intros K. assert (sqrt (2 * c) / 2 * (sqrt (2 * c) / 2) < sin d * sin d) by (apply Rmult_le_0_lt_compat; lra). pose proof (sqrt_sqrt (2 * c) ltac:(lra)). lra. }
  replace (a - b) with (2 * d) by (unfold d; field). lra.
Qed.
