(** The greatest distance of the points of one meridian arc from another: the real function
    behind the Hausdorff distances of rectangles. *)
From Coq Require Import ZArith Reals Lra Lia Psatz Bool List Classical.
From Flocq Require Import Core.
From Verif Require Import Base Spec F64 F64Facts IntervalSpec CircleSpec RectSpec F64Arith F64Error F64Neg R1Model R1Proofs S1Model S1Proofs S1Ops VectorModel AngleModel AngleProofs ExpandProofs CircleProofs PropsInterval PropsCircle
  RectModel RectProofs PropsRect PropsRect2 CapSpec CapModel StuvError ChordProofs CapError PredicatesError PredicatesFloat PredicatesSound PredicatesStable PredicatesProofs NormProofs PropsNorm CapEdgeFloat CapEdgeMain RegionModel RegionSpec PropsRegion TrigModel TrigSpec TrigProofs TrigWitness PropsTrig PropsCap PropsCap2 PropsDist CellLattice
  BoundModel BoundSpec BoundProofs BoundCell BoundFace PropsBound PropsBound2 CrossProofs PointModel PointSpec PropsPoint Near PropsFrame2 PropsCap3 SegModel SegProofs SegFloat PropsSeg BudgetProofs BounderModel BounderSpec BounderFloat BounderLng RectDistModel RectDistProofs PropsRectDist.
Import ListNotations.
Open Scope R_scope.

(* the cosine of the angle from latitude f to latitude g on a meridian whose longitude differs by acos c *)
Definition val (c f g : R) : R := cos f * cos g * c + sin f * sin g.

Lemma rise P Q f0 f : 0 <= P -> - (PI / 2) <= f0 -> f0 <= f -> f <= PI / 2 -> 0 < Q * cos f - P * sin f -> P * cos f0 + Q * sin f0 <= P * cos f + Q * sin f.
Proof.
  intros HP L1 L2 L3 D. pose proof PI_RGT_0 as PG. assert (CF : 0 <= cos f) by (apply cos_ge_0; lra).
  assert (K : 0 <= P * cos f + Q * sin f -> P * cos f0 + Q * sin f0 <= P * cos f + Q * sin f).
  { intros H. assert (E : P * cos f0 + Q * sin f0 = (P * cos f + Q * sin f) * cos (f - f0) - (Q * cos f - P * sin f) * sin (f - f0)).
    { rewrite cos_minus, sin_minus. pose proof (sin2_cos2 f) as S. unfold Rsqr in S. transitivity ((P * cos f0 + Q * sin f0) * (sin f * sin f + cos f * cos f)); [rewrite S; ring|ring]. }
    rewrite E. assert (0 <= sin (f - f0)) by (apply sin_ge_0; lra). pose proof (COS_bound (f - f0)) as CB. assert ((P * cos f + Q * sin f) * cos (f - f0) <= (P * cos f + Q * sin f) * 1) by (apply Rmult_le_compat_l; lra). assert (0 <= (Q * cos f - P * sin f) * sin (f - f0)) by (apply Rmult_le_pos; lra). lra. }
  destruct (Rle_dec f 0) as [F|F].
  - assert (SF : sin f <= 0) by (rewrite <- (Ropp_involutive f), sin_neg; assert (0 <= sin (- f)) by (apply sin_ge_0; lra); lra). destruct (Rle_dec 0 Q) as [HQ|HQ].
    + assert (A : cos f0 <= cos f). { rewrite <- (cos_neg f0), <- (cos_neg f). apply cos_decr_1; lra. } assert (B : sin f0 <= sin f) by (apply sin_incr_1; lra). assert (P * cos f0 <= P * cos f) by (apply Rmult_le_compat_l; lra). assert (Q * sin f0 <= Q * sin f) by (apply Rmult_le_compat_l; lra). lra.
    + apply K. assert (0 <= P * cos f) by (apply Rmult_le_pos; lra). assert (0 <= - Q * - sin f) by (apply Rmult_le_pos; lra). lra.
  - assert (SF : 0 <= sin f) by (apply sin_ge_0; lra). assert (HQ : 0 < Q). { apply Rnot_le_lt. intros HQ. assert (0 <= - Q * cos f) by (apply Rmult_le_pos; lra). assert (0 <= P * sin f) by (apply Rmult_le_pos; lra). lra. }
    apply K. assert (0 <= P * cos f) by (apply Rmult_le_pos; lra). assert (0 <= Q * sin f) by (apply Rmult_le_pos; lra). lra.
Qed.
Lemma fall P Q f f1 : 0 <= P -> - (PI / 2) <= f -> f <= f1 -> f1 <= PI / 2 -> Q * cos f - P * sin f < 0 -> P * cos f1 + Q * sin f1 <= P * cos f + Q * sin f.
Proof.
  intros HP L1 L2 L3 D. pose proof (rise P (- Q) (- f1) (- f) HP ltac:(lra) ltac:(lra) ltac:(lra)) as K. rewrite !cos_neg, !sin_neg in K. lra.
Qed.
Lemma crest c f g : 0 <= c <= 1 -> 0 < cos f -> 0 <= cos g -> sin g * cos f = cos g * c * sin f -> 0 <= val c f g /\ val c f g * val c f g = 1 - cos g * cos g * (1 - c * c).
Proof.
  intros C CF CG E. unfold val. pose proof (sin2_cos2 f) as S. pose proof (sin2_cos2 g) as SG. unfold Rsqr in *. split.
  - assert (A : 0 <= cos f * (cos f * cos g * c + sin f * sin g)).
    { replace (cos f * (cos f * cos g * c + sin f * sin g)) with (cos f * cos f * (cos g * c) + sin f * (sin g * cos f)) by ring. rewrite E. replace (cos f * cos f * (cos g * c) + sin f * (cos g * c * sin f)) with (cos g * c * (sin f * sin f + cos f * cos f)) by ring. rewrite S. assert (0 <= cos g * c) by (apply Rmult_le_pos; lra). lra. }
    apply (Rmult_le_reg_l (cos f)); lra.
  - assert (Q : (cos f * cos g * c + sin f * sin g) * (cos f * cos g * c + sin f * sin g) + (sin g * cos f - cos g * c * sin f) * (sin g * cos f - cos g * c * sin f) = (sin f * sin f + cos f * cos f) * (cos g * c * (cos g * c) + sin g * sin g)) by ring. rewrite E, S in Q. lra.
Qed.
Lemma val_max c f g : val c f g * val c f g <= 1 - cos g * cos g * (1 - c * c).
Proof.
  unfold val. pose proof (sin2_cos2 f) as S. pose proof (sin2_cos2 g) as SG. unfold Rsqr in *. pose proof (Rle_0_sqr (sin g * cos f - cos g * c * sin f)) as N. unfold Rsqr in N.
  assert (Q : (cos f * cos g * c + sin f * sin g) * (cos f * cos g * c + sin f * sin g) + (sin g * cos f - cos g * c * sin f) * (sin g * cos f - cos g * c * sin f) = (sin f * sin f + cos f * cos f) * (cos g * c * (cos g * c) + sin g * sin g)) by ring. rewrite S in Q. lra.
Qed.
Lemma le_of_sq x y : 0 <= y -> x * x <= y * y -> x <= y.
Proof. intros Y L. apply Rnot_lt_le. intros H. assert (y * y < x * x) by (apply Rmult_le_0_lt_compat; lra). lra. Qed.

(* two ends at least as near as m, seen from latitudes of one sign: so is everything between *)
Lemma hill c m f0 f f1 g0 g1 : 0 <= c <= 1 -> - (PI / 2) <= f0 -> f0 <= f -> f <= f1 -> f1 <= PI / 2 -> - (PI / 2) <= g0 <= PI / 2 -> - (PI / 2) <= g1 <= PI / 2 ->
  (0 <= g0 /\ 0 <= g1) \/ (g0 <= 0 /\ g1 <= 0) -> m <= val c f0 g0 -> m <= val c f1 g1 -> exists g, Rmin g0 g1 <= g <= Rmax g0 g1 /\ m <= val c f g.
Proof.
  intros C B0 B1 B2 B3 G0 G1 SG M0 M1. pose proof PI_RGT_0 as PG.
  assert (E0 : Rmin g0 g1 <= g0 <= Rmax g0 g1) by (split; [apply Rmin_l|apply Rmax_l]). assert (E1 : Rmin g0 g1 <= g1 <= Rmax g0 g1) by (split; [apply Rmin_r|apply Rmax_r]).
  destruct (Rle_lt_or_eq_dec f0 f B1) as [L0|<-]; [|exists g0; split; assumption]. destruct (Rle_lt_or_eq_dec f f1 B2) as [L1| ->]; [|exists g1; split; assumption].
  assert (CF : 0 < cos f) by (apply cos_gt_0; lra). assert (C0 : 0 <= cos g0) by (apply cos_ge_0; lra). assert (C1 : 0 <= cos g1) by (apply cos_ge_0; lra).
  assert (VE : forall x g, val c x g = cos g * c * cos x + sin g * sin x) by (intros; unfold val; ring).
  destruct (Rlt_dec 0 (sin g0 * cos f - cos g0 * c * sin f)) as [D0|D0].
  { exists g0. split; [exact E0|]. eapply Rle_trans; [exact M0|]. rewrite !VE. apply rise; try lra. apply Rmult_le_pos; lra. }
  destruct (Rlt_dec (sin g1 * cos f - cos g1 * c * sin f) 0) as [D1|D1].
  { exists g1. split; [exact E1|]. eapply Rle_trans; [exact M1|]. rewrite !VE. apply fall; try lra. apply Rmult_le_pos; lra. }
  set (t := atan (c * tan f)). destruct (atan_bound (c * tan f)) as [T1 T2]. fold t in T1, T2. assert (CT : 0 < cos t) by (apply cos_gt_0; lra).
  assert (TE : sin t * cos f = cos t * c * sin f). { assert (TT : tan t = c * tan f) by apply tan_atan. unfold tan in TT. apply (Rmult_eq_reg_r (/ (cos t * cos f))); [|apply Rinv_neq_0_compat; assert (0 < cos t * cos f) by (apply Rmult_lt_0_compat; lra); lra]. replace (sin t * cos f * / (cos t * cos f)) with (sin t / cos t) by (field; lra). rewrite TT. field. lra. }
  assert (KK : forall g, (sin g * cos f - cos g * c * sin f) * cos t = cos f * sin (g - t)). { intros g. rewrite sin_minus. replace ((sin g * cos f - cos g * c * sin f) * cos t) with (sin g * cos f * cos t - cos g * (cos t * c * sin f)) by ring. rewrite <- TE. ring. }
  assert (A0 : g0 <= t). { apply Rnot_lt_le. intros H. assert (0 < sin (g0 - t)) by (apply sin_gt_0; lra). assert (0 < cos f * sin (g0 - t)) by (apply Rmult_lt_0_compat; lra). rewrite <- KK in H1. assert (0 <= - (sin g0 * cos f - cos g0 * c * sin f) * cos t) by (apply Rmult_le_pos; lra). lra. }
  assert (A1 : t <= g1). { apply Rnot_lt_le. intros H. assert (0 < sin (t - g1)) by (apply sin_gt_0; lra). assert (0 < cos f * sin (t - g1)) by (apply Rmult_lt_0_compat; lra). replace (t - g1) with (- (g1 - t)) in H1 by ring. rewrite sin_neg in H1. pose proof (KK g1) as K1. assert (0 <= (sin g1 * cos f - cos g1 * c * sin f) * cos t) by (apply Rmult_le_pos; lra). lra. }
  exists t. split; [lra|]. destruct (crest c f t C CF ltac:(lra) TE) as [V0 VV].
  assert (SQ : forall x g, 0 <= cos g -> cos t <= cos g -> val c x g <= val c f t).
  { intros x g CG L. apply le_of_sq; [exact V0|]. rewrite VV. eapply Rle_trans; [apply val_max|]. assert (cos t * cos t <= cos g * cos g) by (apply Rmult_le_compat; lra). assert (c * c <= 1 * 1) by (apply Rmult_le_compat; lra). assert (cos t * cos t * (1 - c * c) <= cos g * cos g * (1 - c * c)) by (apply Rmult_le_compat_r; lra). lra. }
  destruct SG as [[S0 S1]|[S0 S1]].
  - eapply Rle_trans; [exact M0|]. apply SQ; [lra|]. apply cos_decr_1; lra.
  - eapply Rle_trans; [exact M1|]. apply SQ; [lra|]. rewrite <- (cos_neg t), <- (cos_neg g1). apply cos_decr_1; lra.
Qed.
(* the same for latitudes of both signs, if the equator is near enough where both arcs cross it *)
Lemma hills c m f0 f f1 s n g0 g1 : 0 <= c <= 1 -> - (PI / 2) <= f0 -> f0 <= f -> f <= f1 -> f1 <= PI / 2 -> - (PI / 2) <= s -> n <= PI / 2 -> s <= g0 <= n -> s <= g1 <= n ->
  m <= val c f0 g0 -> m <= val c f1 g1 -> (f0 <= 0 <= f1 -> s <= 0 <= n -> m <= c) -> exists g, s <= g <= n /\ m <= val c f g.
Proof.
  intros C B0 B1 B2 B3 S N G0 G1 M0 M1 EQ. pose proof PI_RGT_0 as PG.
  assert (UP : forall x g, 0 <= x <= PI / 2 -> s <= g <= n -> s <= 0 <= n -> val c x g <= val c x (Rmax g 0)).
  { intros x g X G O. unfold Rmax. destruct Rle_dec as [L|L]; [|lra]. unfold val. rewrite cos_0, sin_0. assert (0 <= cos x) by (apply cos_ge_0; lra). assert (0 <= sin x) by (apply sin_ge_0; lra). assert (sin g <= 0) by (rewrite <- (Ropp_involutive g), sin_neg; assert (0 <= sin (- g)) by (apply sin_ge_0; lra); lra). pose proof (COS_bound g) as CB. assert (0 <= cos x * c) by (apply Rmult_le_pos; lra). assert (cos x * c * cos g <= cos x * c * 1) by (apply Rmult_le_compat_l; lra). assert (0 <= sin x * - sin g) by (apply Rmult_le_pos; lra). lra. }
  assert (DN : forall x g, - (PI / 2) <= x <= 0 -> s <= g <= n -> s <= 0 <= n -> val c x g <= val c x (Rmin g 0)).
  { intros x g X G O. unfold Rmin. destruct Rle_dec as [L|L]; [lra|]. unfold val. rewrite cos_0, sin_0. assert (0 <= cos x) by (apply cos_ge_0; lra). assert (sin x <= 0) by (rewrite <- (Ropp_involutive x), sin_neg; assert (0 <= sin (- x)) by (apply sin_ge_0; lra); lra). assert (0 <= sin g) by (apply sin_ge_0; lra). pose proof (COS_bound g) as CB. assert (0 <= cos x * c) by (apply Rmult_le_pos; lra). assert (cos x * c * cos g <= cos x * c * 1) by (apply Rmult_le_compat_l; lra). assert (0 <= - sin x * sin g) by (apply Rmult_le_pos; lra). lra. }
  assert (FIN : forall a b, s <= a <= n -> s <= b <= n -> forall g, Rmin a b <= g <= Rmax a b -> s <= g <= n). { intros a b A B g. unfold Rmin, Rmax. destruct Rle_dec; lra. }
  assert (VO : val c 0 0 = c) by (unfold val; rewrite cos_0, sin_0; ring).
  assert (ONE : ((0 <= g0 /\ 0 <= g1) \/ (g0 <= 0 /\ g1 <= 0)) \/ s <= 0 <= n) by lra. destruct ONE as [SG|O].
  { destruct (hill c m f0 f f1 g0 g1 C B0 B1 B2 B3 ltac:(lra) ltac:(lra) SG M0 M1) as (g & G & V). exists g. split; [apply (FIN g0 g1); assumption|exact V]. }
  assert (PX : forall g, s <= g <= n -> s <= Rmax g 0 <= n /\ 0 <= Rmax g 0) by (intros g G; unfold Rmax; destruct Rle_dec; lra). assert (PN : forall g, s <= g <= n -> s <= Rmin g 0 <= n /\ Rmin g 0 <= 0) by (intros g G; unfold Rmin; destruct Rle_dec; lra).
  destruct (Rle_dec 0 f) as [F|F].
  - destruct (PX g1 G1) as [X1 Y1]. pose proof (UP f1 g1 ltac:(lra) G1 O) as U1. destruct (Rle_dec 0 f0) as [F0|F0].
    + destruct (PX g0 G0) as [X0 Y0]. pose proof (UP f0 g0 ltac:(lra) G0 O) as U0. destruct (hill c m f0 f f1 (Rmax g0 0) (Rmax g1 0) C B0 B1 B2 B3 ltac:(lra) ltac:(lra) ltac:(left; lra) ltac:(lra) ltac:(lra)) as (g & G & V). exists g. split; [exact (FIN _ _ X0 X1 g G)|exact V].
    + destruct (hill c m 0 f f1 0 (Rmax g1 0) C ltac:(lra) F B2 B3 ltac:(lra) ltac:(lra) ltac:(left; lra) ltac:(rewrite VO; apply EQ; lra) ltac:(lra)) as (g & G & V). exists g. split; [exact (FIN _ _ O X1 g G)|exact V].
  - destruct (PN g0 G0) as [X0 Y0]. pose proof (DN f0 g0 ltac:(lra) G0 O) as U0. destruct (Rle_dec f1 0) as [F1|F1].
    + destruct (PN g1 G1) as [X1 Y1]. pose proof (DN f1 g1 ltac:(lra) G1 O) as U1. destruct (hill c m f0 f f1 (Rmin g0 0) (Rmin g1 0) C B0 B1 B2 B3 ltac:(lra) ltac:(lra) ltac:(right; lra) ltac:(lra) ltac:(lra)) as (g & G & V). exists g. split; [exact (FIN _ _ X0 X1 g G)|exact V].
    + destruct (hill c m f0 f 0 (Rmin g0 0) 0 C B0 B1 ltac:(lra) ltac:(lra) ltac:(lra) ltac:(lra) ltac:(right; lra) ltac:(lra) ltac:(rewrite VO; apply EQ; lra)) as (g & G & V). exists g. split; [exact (FIN _ _ X0 O g G)|exact V].
Qed.
