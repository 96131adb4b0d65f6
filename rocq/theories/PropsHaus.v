(** C142: Hausdorff distances of rectangles. *)
From Coq Require Import ZArith Reals Lra Lia Psatz Bool List Classical.
From Flocq Require Import Core.
From Verif Require Import Base Spec F64 F64Facts IntervalSpec CircleSpec RectSpec F64Arith F64Error F64Neg R1Model R1Proofs S1Model S1Proofs S1Ops VectorModel AngleModel AngleProofs ExpandProofs CircleProofs PropsInterval PropsCircle
  RectModel RectProofs PropsRect PropsRect2 CapSpec CapModel StuvError ChordProofs CapError PredicatesError PredicatesFloat PredicatesSound PredicatesStable PredicatesProofs NormProofs PropsNorm CapEdgeFloat CapEdgeMain RegionModel RegionSpec PropsRegion TrigModel TrigSpec TrigProofs TrigWitness PropsTrig PropsCap PropsCap2 PropsDist CellLattice
  BoundModel BoundSpec BoundProofs BoundCell BoundFace PropsBound PropsBound2 CrossProofs PointModel PointSpec PropsPoint Near PropsFrame2 PropsCap3 SegModel SegProofs SegFloat PropsSeg BudgetProofs BounderModel BounderSpec BounderFloat BounderLng RectDistModel RectDistProofs PropsRectDist MiscModel PropsMisc HausProofs HausModel.
Import ListNotations.
Open Scope R_scope.

Lemma angle_le4 a b a' c e s : on_sphere a -> on_sphere b -> on_sphere a' -> on_sphere c -> rdot a' c <= rdot a b + e -> 0 <= s -> 8 * e <= s * s -> angle_between a b <= angle_between a' c + s.
Proof.
  intros A B A' C L S E. destruct (angle_trig a b A B) as (O1 & C1 & _). destruct (angle_trig a' c A' C) as (O2 & C2 & _). cbv zeta in *. set (x := angle_between a b) in *. set (y := angle_between a' c) in *.
  pose proof (COS_bound x) as X1. pose proof (COS_bound y) as Y1. pose proof (asin_rise (cos x) (cos y) e s ltac:(lra) ltac:(lra) ltac:(lra) S E) as K.
  assert (AC : forall w, 0 <= w <= PI -> asin (cos w) = PI / 2 - w) by (intros w W; rewrite <- sin_shift; apply asin_sin; lra). rewrite !AC in K by lra. lra.
Qed.
Lemma sphere_val f a g b : rdot (sphere_at f a) (sphere_at g b) = val (cos (a - b)) f g.
Proof. rewrite haversine_dot. reflexivity. Qed.
Lemma val_mono c c' e f g : - (PI / 2) <= f <= PI / 2 -> - (PI / 2) <= g <= PI / 2 -> 0 <= e -> c <= c' + e -> val c f g <= val c' f g + e.
Proof.
  intros F G E L. unfold val. assert (0 <= cos f) by (apply cos_ge_0; lra). assert (0 <= cos g) by (apply cos_ge_0; lra). pose proof (COS_bound f). pose proof (COS_bound g).
  assert (0 <= cos f * cos g <= 1) by (split; [apply Rmult_le_pos; lra|]; replace 1 with (1 * 1) by ring; apply Rmult_le_compat; lra). assert (cos f * cos g * c <= cos f * cos g * (c' + e)) by (apply Rmult_le_compat_l; lra). assert (cos f * cos g * e <= 1 * e) by (apply Rmult_le_compat_r; lra). lra.
Qed.
Lemma turns (k : BinInt.Z) : Rabs (2 * pi * IZR k) <= 12 -> Rabs (IZR k) <= 8.
Proof. intros H. pose proof pi_bounds as PB. rewrite Rabs_mult, (Rabs_pos_eq (2 * pi)) in H by lra. apply Rnot_lt_le. intros L. assert (6 * 8 < 2 * pi * Rabs (IZR k)) by (apply Rmult_gt_0_lt_compat; lra). lra. Qed.
Lemma cos_of_abs x : cos (Rabs x) = cos x.
Proof. unfold Rabs. destruct Rcase_abs; [apply cos_neg|reflexivity]. Qed.
Lemma near_lng i t r : Rabs t <= PI -> 0 <= r <= 2 -> CircleSpec.within (circ i) r t -> exists s, circ i s /\ Rabs s <= PI /\ cos r <= cos (t - s) + 1 / 2 ^ 48.
Proof.
  intros T R (s0 & I & k & K). destruct (reduce s0) as (j & J). pose proof pi_PI as PP. pose proof PI_tight as PT. set (s := s0 + 2 * pi * IZR j) in *. exists s. split; [apply arc_shift; exact I|]. split; [apply Rabs_le; lra|].
  assert (E : t - s = (t + 2 * pi * IZR k - s0) + 2 * pi * IZR (- k - j)) by (unfold s; rewrite minus_IZR, opp_IZR; ring). set (y := t + 2 * pi * IZR k - s0) in *. apply Rabs_le_inv in T. assert (KB : Rabs (IZR (- k - j)) <= 8). { apply turns. replace (2 * pi * IZR (- k - j)) with (t - s - y) by lra. apply Rabs_le_inv in K. apply Rabs_le. lra. }
  pose proof (cos_turn _ _ _ E KB) as C. apply Rabs_le_inv in C. assert (Y : cos r <= cos y). { rewrite <- (cos_of_abs y). pose proof (Rabs_pos y). apply cos_decr_1; lra. } lra.
Qed.
Lemma far_lng i t h : Rabs t <= PI -> 0 <= h <= PI -> (forall r, r < h - 16 * PropsCircle.tiny -> ~ CircleSpec.within (circ i) r t) -> forall s, circ i s -> Rabs s <= PI -> cos (t - s) <= cos h + 1 / 2 ^ 46.
Proof.
  intros T H FAR s I S. rewrite PropsCircle.tiny_eq in FAR. destruct (reduce (t - s)) as (k & K). pose proof pi_PI as PP. pose proof PI_tight as PT. set (y := t - s + 2 * pi * IZR k) in *. apply Rabs_le_inv in T, S.
  assert (KB : Rabs (IZR (- k)) <= 8). { apply turns. rewrite opp_IZR. replace (2 * pi * - IZR k) with (t - s - y) by (unfold y; ring). apply Rabs_le. lra. }
  pose proof (cos_turn (t - s) y (- k) ltac:(unfold y; rewrite opp_IZR; ring) KB) as C. apply Rabs_le_inv in C.
  assert (Y : h - 16 * ulp1 <= Rabs y). { apply Rnot_lt_le. intros L. apply (FAR (Rabs y) L). exists s. split; [exact I|]. exists k. right. f_equal. unfold y. ring. }
  set (h' := Rmax 0 (h - 16 * ulp1)). assert (H' : 0 <= h' <= Rabs y /\ h' <= PI /\ Rabs (h - h') <= 16 * ulp1). { pose proof (Rabs_pos y). unfold h', Rmax. destruct Rle_dec; (split; [lra|]); (split; [lra|]); apply Rabs_le; lra. } destruct H' as (H1 & H2 & H3).
  assert (YP : Rabs y <= PI) by (apply Rabs_le; lra). assert (CY : cos y <= cos h') by (rewrite <- (cos_of_abs y); apply cos_decr_1; lra). pose proof (cos_lip h' h) as L. rewrite (Rabs_minus_sym h' h) in L. apply Rabs_le_inv in L. lra.
Qed.

(* the computed distance of a position from an arc of a meridian *)
Lemma seg_meridian fsin fcos fasin p lo hi l : accurate fsin sin -> accurate fcos cos -> accurate_asin fasin -> okp p -> okp (LL lo l) -> okp (LL hi l) -> 1 / 1000 <= B2R hi - B2R lo <= PI - 1 / 1000 ->
  let d := distance_from_segment fasin (point_of_ll fsin fcos p) (point_of_ll fsin fcos (LL lo l)) (point_of_ll fsin fcos (LL hi l)) in
  finite d /\ (exists g, B2R lo <= g <= B2R hi /\ Rabs (B2R d - angle_between (place p) (sphere_at g (B2R l))) <= 1 / 2 ^ 12) /\
  (forall g, B2R lo <= g <= B2R hi -> B2R d <= angle_between (place p) (sphere_at g (B2R l)) + 1 / 2 ^ 12).
Proof.
  intros AS AC AA HP HL HH HT d. pose proof pi_PI as PP. pose proof PI_tight as PT. assert (SP : on_sphere (place p)) by apply place_on. pose proof HL as (_ & _ & RL & _). pose proof HH as (_ & _ & RH & _). cbn [lat lng] in RL, RH. set (s := B2R lo) in *. set (n := B2R hi) in *.
  destruct (C102_point fsin fcos p AS AC (proj1 (okp_ll p) HP)) as (UX & SX & NX). destruct (C102_point fsin fcos (LL lo l) AS AC (proj1 (okp_ll _) HL)) as (UA & SA & NA). destruct (C102_point fsin fcos (LL hi l) AS AC (proj1 (okp_ll _) HH)) as (UB & SB & NB). cbv zeta in *. rewrite apart_chd in NX, NA, NB. change (place (LL lo l)) with (sphere_at s (B2R l)) in NA. change (place (LL hi l)) with (sphere_at n (B2R l)) in NB. unfold d. clear d.
  set (x := point_of_ll fsin fcos p) in *. set (a := point_of_ll fsin fcos (LL lo l)) in *. set (b := point_of_ll fsin fcos (LL hi l)) in *. set (X := direction x) in *. set (A := direction a) in *. set (B := direction b) in *.
  assert (SH : 1 / 2 ^ 10 <= sin (n - s)) by (apply sin_mid; lra).
  destruct (edge_near A B s n (B2R l) SA SB NA NB ltac:(lra) ltac:(lra) ltac:(lra) SH) as (OO & SO & EN). cbv zeta in OO, SO, EN. set (o := angle_between A B) in *.
  destruct (C135_distance_partial fasin x a b AA UX UA UB ltac:(fold A B o; lra)) as (FD & (t & T & ET) & MT). cbv zeta in *. fold X A B o in T, ET, MT. split; [exact FD|].
  set (dd := B2R (distance_from_segment fasin x a b)) in *. assert (EE : 1 / 2 ^ 18 / sqrt (sin o) <= 1 / 2 ^ 18 * 50).
  { unfold Rdiv at 1. apply Rmult_le_compat_l; [lra|]. assert (1 / 50 <= sqrt (sin o)) by (apply sqrt_ge; lra). replace 50 with (/ (1 / 50)) by field. apply Rinv_le_contravar; lra. }
  set (e := 1 / 2 ^ 18 / sqrt (sin o)) in *. clearbody e. apply Rabs_le_inv in OO, ET.
  assert (XP : forall q, on_sphere q -> Rabs (angle_between X q - angle_between (place p) q) <= 1 / 2 ^ 45) by (intros q Sq; rewrite (angle_sym X q), (angle_sym (place p) q); eapply Rle_trans; [apply (angle_near q X (place p) _ Sq SX SP NX)|lra]).
  split.
  - set (t' := Rmin t (n - s)). assert (T' : 0 <= t' <= n - s /\ Rabs (t - t') <= 1 / 2 ^ 43) by (unfold t', Rmin; destruct Rle_dec; (split; [lra|apply Rabs_le; lra])). destruct T' as [T1 T2].
    exists (s + t'). split; [lra|].
    destruct (EN t) as [S1' N1]. pose proof (place_lip (s + t) (B2R l) (s + t') (B2R l)) as PL. replace (B2R l - B2R l) with 0 in PL by ring. rewrite Rabs_R0 in PL. replace (s + t - (s + t')) with (t - t') in PL by ring. pose proof (chd_tri (along A B t) (sphere_at (s + t) (B2R l)) (sphere_at (s + t') (B2R l))) as TR.
    pose proof (angle_near X (along A B t) (sphere_at (s + t') (B2R l)) (1 / 2 ^ 19) SX S1' (sphere_at_on _ _) ltac:(lra)) as K1. pose proof (XP (sphere_at (s + t') (B2R l)) (sphere_at_on _ _)) as K2. apply Rabs_le_inv in K1, K2. apply Rabs_le. lra.
  - intros g GB. set (t0 := Rmin (g - s) o). assert (T0 : 0 <= t0 <= o /\ Rabs (t0 - (g - s)) <= 1 / 2 ^ 43) by (assert (0 <= o) by lra; unfold t0, Rmin; destruct Rle_dec; (split; [lra|apply Rabs_le; lra])). destruct T0 as [T1 T2].
    pose proof (MT t0 T1) as M. destruct (EN t0) as [S1' N1]. pose proof (place_lip (s + t0) (B2R l) g (B2R l)) as PL. replace (B2R l - B2R l) with 0 in PL by ring. rewrite Rabs_R0 in PL. replace (s + t0 - g) with (t0 - (g - s)) in PL by ring. pose proof (chd_tri (along A B t0) (sphere_at (s + t0) (B2R l)) (sphere_at g (B2R l))) as TR.
    pose proof (angle_near X (along A B t0) (sphere_at g (B2R l)) (1 / 2 ^ 19) SX S1' (sphere_at_on _ _) ltac:(lra)) as K1. pose proof (XP (sphere_at g (B2R l)) (sphere_at_on _ _)) as K2. apply Rabs_le_inv in K1, K2. lra.
Qed.

(* [d] is the directed Hausdorff distance of the sets of points [S] and [T], up to [e] *)
Definition hausdorff_within (e : R) (S T : CapSpec.pos -> Prop) (d : R) : Prop :=
  (forall p, S p -> exists q, T q /\ angle_between p q <= d + e) /\ (exists p, S p /\ forall q, T q -> d - e <= angle_between p q).

(** Between rectangles for which every longitude of the first is less than a quarter turn away
    from one of the second, directed_hausdorff_distance is the directed Hausdorff distance up to 2^-11: if
    the second covers the longitudes of the first, or else if its height is between 1/1000 and
    pi - 1/1000.  (Missing: rectangles farther apart in longitude, flat and tall ones.) *)
Theorem C142_directed_partial : forall fsin fcos fasin fatan2 r o, accurate fsin sin -> accurate fcos cos -> accurate_asin fasin -> okz r -> okz o -> ~ void (zset r) -> ~ void (zset o) ->
  (forall t, circ (rlng r) t -> CircleSpec.within (circ (rlng o)) (pi / 2 - 1 / 2 ^ 40) t) ->
  subset (circ (rlng r)) (circ (rlng o)) \/ 1 / 1000 <= B2R (hi1 (rlat o)) - B2R (lo1 (rlat o)) <= PI - 1 / 1000 ->
  exists d, rect_hausdorff fsin fcos fasin fatan2 r o = Some d /\ finite d /\ hausdorff_within (1 / 2 ^ 11) (points_of r) (points_of o) (B2R d).
Proof.
  intros fsin fcos fasin fatan2 r o AS AC AA Vr Vo Nr No NEAR OK. pose proof pi_PI as PP. pose proof PI_tight as PT. pose proof pi_bounds as PB.
  destruct (okz_ends r Vr Nr) as (FH & LE & HB & NW & SL). pose proof Vr as (FL & _ & _). destruct (okz_ends o Vo No) as (FH' & LE' & HB' & NW' & SL'). pose proof Vo as (FL' & _ & _).
  unfold rect_hausdorff. replace (rect_is_empty r) with false by (symmetry; destruct (rect_is_empty r) eqn:E; [elim Nr; apply (C93_predicates r r Vr Vr), E|reflexivity]). replace (rect_is_empty o) with false by (symmetry; destruct (rect_is_empty o) eqn:E; [elim No; apply (C93_predicates o o Vo Vo), E|reflexivity]).
  destruct (C91_hausdorff (rlng r) (rlng o) (okz_lng r Vr) (okz_lng o Vo) NW NW') as (FG & G0 & GU & (t1 & IT1 & GL)). cbv zeta in FG, G0, GU, GL. pose proof (C91_hausdorff_empty (rlng r) (rlng o) (okz_lng r Vr) (okz_lng o Vo)) as (_ & _ & SUB). set (l := s1_hausdorff (rlng r) (rlng o)) in *.
  assert (G1 : B2R l <= pi / 2). { apply Rnot_lt_le. intros H. apply (GL (pi / 2 - 1 / 2 ^ 40)); [rewrite PropsCircle.tiny_eq; lra|]. apply NEAR, IT1. }
  assert (TT : exists t, circ (rlng r) t /\ Rabs t <= PI /\ forall s, circ (rlng o) s -> Rabs s <= PI -> cos (t - s) <= cos (B2R l) + 1 / 2 ^ 46).
  { destruct (reduce t1) as (k & K). exists (t1 + 2 * pi * IZR k). split; [apply arc_shift; exact IT1|]. assert (BT : Rabs (t1 + 2 * pi * IZR k) <= PI) by (apply Rabs_le; lra). split; [exact BT|]. apply far_lng; [exact BT|lra|]. intros x X (s & Is & j & J). apply (GL x X). exists s. split; [exact Is|]. exists (k + j)%Z. rewrite plus_IZR. replace (t1 + 2 * pi * (IZR k + IZR j) - s) with (t1 + 2 * pi * IZR k + 2 * pi * IZR j - s) by ring. exact J. }
  assert (UU : forall t, circ (rlng r) t -> Rabs t <= PI -> exists s, circ (rlng o) s /\ Rabs s <= PI /\ cos (B2R l) <= cos (t - s) + 1 / 2 ^ 46).
  { intros t It Bt. destruct (near_lng (rlng o) t (B2R l + 16 * PropsCircle.tiny) Bt) as (s & Is & Bs & C); [rewrite PropsCircle.tiny_eq; lra|apply GU, It|]. exists s. split; [exact Is|]. split; [exact Bs|]. pose proof (cos_lip (B2R l) (B2R l + 16 * PropsCircle.tiny)) as L. rewrite PropsCircle.tiny_eq in *. replace (B2R l - (B2R l + 16 * ulp1)) with (- (16 * ulp1)) in L by ring. rewrite Rabs_Ropp, (Rabs_pos_eq (16 * ulp1)) in L by lra. apply Rabs_le_inv in L. lra. }
  clear GU GL IT1 NEAR t1. destruct TT as (tf & ITf & Btf & FAR).
  set (s0 := B2R (lo1 (rlat r))) in *. set (n0 := B2R (hi1 (rlat r))) in *. set (s := B2R (lo1 (rlat o))) in *. set (n := B2R (hi1 (rlat o))) in *. set (c := cos (B2R l)) in *.
  assert (ZR : forall x y, zset r (x, y) <-> (s0 <= x <= n0) /\ circ (rlng r) y) by (intros x y; unfold zone; cbn [fst snd]; rewrite SL; fold s0 n0; tauto).
  assert (ZO : forall x y, zset o (x, y) <-> (s <= x <= n) /\ circ (rlng o) y) by (intros x y; unfold zone; cbn [fst snd]; rewrite SL'; fold s n; tauto).
  assert (UPPER : forall d m, (forall f, s0 <= f <= n0 -> exists g, s <= g <= n /\ angle_between (sphere_at f 0) (sphere_at g (B2R l)) <= d + m) -> forall p, points_of r p -> exists q, points_of o q /\ angle_between p q <= d + m + 1 / 2 ^ 21).
  { intros d m H p (f & t & Z & BT & ->). apply ZR in Z. destruct Z as [BF IT]. destruct (H f BF) as (g & BG & A). destruct (UU t IT BT) as (y & IY & BY & CY). exists (sphere_at g y). split; [exists g, y; split; [apply ZO; split; assumption|]; split; [exact BY|reflexivity]|].
    eapply Rle_trans; [apply (angle_le4 _ _ (sphere_at f 0) (sphere_at g (B2R l)) (1 / 2 ^ 46) (1 / 2 ^ 21)); try apply sphere_at_on; [|lra|lra]|lra]. rewrite !sphere_val. apply val_mono; [lra|lra|lra|]. rewrite Rminus_0_l, cos_neg. exact CY. }
  assert (LOWER : forall f d m, s0 <= f <= n0 -> (forall g, s <= g <= n -> d <= angle_between (sphere_at f 0) (sphere_at g (B2R l)) + m) -> exists p, points_of r p /\ forall q, points_of o q -> d - (m + 1 / 2 ^ 21) <= angle_between p q).
  { intros f d m BF H. exists (sphere_at f tf). split; [exists f, tf; split; [apply ZR; split; assumption|]; split; [exact Btf|reflexivity]|]. intros q (g & y & Z & BY & ->). apply ZO in Z. destruct Z as [BG IY].
    pose proof (H g BG) as HG. assert (K : angle_between (sphere_at f 0) (sphere_at g (B2R l)) <= angle_between (sphere_at f tf) (sphere_at g y) + 1 / 2 ^ 21); [|lra].
    apply (angle_le4 _ _ _ _ (1 / 2 ^ 46)); try apply sphere_at_on; [|lra|lra]. rewrite !sphere_val. apply val_mono; [lra|lra|lra|]. rewrite Rminus_0_l, cos_neg. apply FAR; assumption. }
  destruct f0_val as [F0 V0]. assert (FPI : finite PI64) by reflexivity. destruct FRAC_PI_2_val as [FF VF]. unfold hausdorff_helper.
  assert (R0 : fle f0 l && fle l PI64 = true) by (apply andb_true_iff; split; [destruct (fle_R f0 l F0 FG) as [L|L]; [reflexivity|rewrite V0 in L; lra]|destruct (fle_R l PI64 FG FPI) as [L|L]; [reflexivity|change (B2R PI64) with IntervalSpec.pi in L; lra]]). rewrite R0. cbn [negb].
  destruct (feq l f0) eqn:EQ.
  - (* the second rectangle has the longitudes of the first *)
    assert (LZ : B2R l = 0) by (rewrite <- V0; apply feq_val; assumption).
    destruct (C138_hausdorff (rlat r) (rlat o) FL FH FL' FH') as (_ & _ & HH). cbv zeta in HH. unfold inside in HH. fold s0 n0 s n in HH.
    destruct HH as (H & RH & HU & (f & BF & HL)); [intros V; apply (V s0); lra|intros V; apply (V s); lra|]. exists (r1_hausdorff (rlat r) (rlat o)). split; [reflexivity|].
    assert (H0 : 0 <= H) by (destruct (HU s0 ltac:(lra)) as (g & _ & E); pose proof (Rabs_pos (s0 - g)); lra). assert (H1 : H <= 16 / 5) by (pose proof (HL s ltac:(lra)) as K; assert (Rabs (f - s) <= 16 / 5) by (apply Rabs_le; lra); lra).
    destruct (result_val _ _ 2 ltac:(lia) RH) as (FD & VD & _). { change (pow2 2) with 4. rewrite Rabs_pos_eq; lra. } split; [exact FD|]. pose proof (PredicatesError.rnd_rel H) as RR. rewrite <- VD in RR. rewrite (Rabs_pos_eq H H0) in RR. pose proof h_tiny as HT. apply Rabs_le_inv in RR. set (d := B2R (r1_hausdorff (rlat r) (rlat o))) in *.
    assert (AG : forall x g, s0 <= x <= n0 -> s <= g <= n -> angle_between (sphere_at x 0) (sphere_at g (B2R l)) = Rabs (x - g)) by (intros x g BX BG; rewrite LZ; apply meridian_angle; lra).
    split.
    + intros pt Pp. destruct (UPPER d (1 / 2 ^ 50)) with (p := pt) as (q & Q & A); [|exact Pp|exists q; split; [exact Q|lra]]. intros x BX. destruct (HU x BX) as (g & BG & A). exists g. split; [exact BG|]. rewrite AG by assumption. lra.
    + destruct (LOWER f d (1 / 2 ^ 50) BF) as (p & Pp & A). { intros g BG. rewrite AG by assumption. pose proof (HL g BG). lra. } exists p. split; [exact Pp|]. intros q Q. pose proof (A q Q). lra.
  - assert (HT : 1 / 1000 <= n - s <= PI - 1 / 1000). { destruct OK as [OK|OK]; [|exact OK]. exfalso. pose proof (SUB OK) as Z. assert (feq l f0 = true); [|congruence]. unfold feq. rewrite Beqb_correct by assumption. apply Req_bool_true. lra. }
    replace (fle l FRAC_PI_2) with true by (destruct (fle_R l FRAC_PI_2 FG FF) as [L|L]; [reflexivity|rewrite VF in L; lra]).
    assert (OA : forall x, finite x -> s0 <= B2R x <= n0 -> okp (LL x f0)) by (intros x Fx Bx; split; [exact Fx|]; split; [exact F0|]; cbn [lat lng]; rewrite V0; lra). assert (OB : forall x, finite x -> s <= B2R x <= n -> okp (LL x l)) by (intros x Fx Bx; split; [exact Fx|]; split; [exact FG|]; cbn [lat lng]; lra).
    destruct (seg_meridian fsin fcos fasin (LL (lo1 (rlat r)) f0) (lo1 (rlat o)) (hi1 (rlat o)) l AS AC AA (OA _ FL ltac:(fold s0; lra)) (OB _ FL' ltac:(fold s; lra)) (OB _ FH' ltac:(fold n; lra)) HT) as (FD0 & (g0 & BG0 & DG0) & DL0). destruct (seg_meridian fsin fcos fasin (LL (hi1 (rlat r)) f0) (lo1 (rlat o)) (hi1 (rlat o)) l AS AC AA (OA _ FH ltac:(fold n0; lra)) (OB _ FL' ltac:(fold s; lra)) (OB _ FH' ltac:(fold n; lra)) HT) as (FD1 & (g1 & BG1 & DG1) & DL1). cbv zeta in *.
    set (d0 := distance_from_segment fasin (point_of_ll fsin fcos (LL (lo1 (rlat r)) f0)) _ _) in *. set (d1 := distance_from_segment fasin (point_of_ll fsin fcos (LL (hi1 (rlat r)) f0)) _ _) in *.
    assert (P0 : place (LL (lo1 (rlat r)) f0) = sphere_at s0 0) by (unfold place; cbn [lat lng]; rewrite V0; reflexivity). assert (P1 : place (LL (hi1 (rlat r)) f0) = sphere_at n0 0) by (unfold place; cbn [lat lng]; rewrite V0; reflexivity). rewrite P0 in DG0, DL0. rewrite P1 in DG1, DL1. fold s n in BG0, BG1, DL0, DL1. apply Rabs_le_inv in DG0, DG1.
    destruct (max_val d0 d1 FD0 FD1) as [FM VM]. destruct (max_val (angle_max d0 d1) l FM FG) as [FM' VM'].
    assert (CB : 0 <= c <= 1) by (split; [apply cos_ge_0; lra|apply COS_bound]).
    assert (LA : angle_between (sphere_at 0 0) (sphere_at 0 (B2R l)) = B2R l). { destruct (angle_trig (sphere_at 0 0) (sphere_at 0 (B2R l)) (sphere_at_on _ _) (sphere_at_on _ _)) as (O & CO & _). cbv zeta in O, CO. apply cos_inj; [lra|lra|]. rewrite CO, sphere_val, Rminus_0_l, cos_neg. unfold val. rewrite cos_0, sin_0. ring. }
    assert (CT : forall k, finite (lo1 k) -> finite (hi1 k) -> r1_contains k f0 = true <-> B2R (lo1 k) <= 0 <= B2R (hi1 k)). { clear - V0 F0. intros k Fl Fh. unfold r1_contains. rewrite <- V0. destruct (fle_R (lo1 k) f0 Fl F0); destruct (fle_R f0 (hi1 k) F0 Fh); cbn; split; intros; try discriminate; try reflexivity; lra. }
    pose proof (CT _ FL FH) as CA. pose proof (CT _ FL' FH') as CB'. fold s0 n0 in CA. fold s n in CB'. set (eqr := r1_contains (rlat r) f0 && r1_contains (rlat o) f0) in *.
    assert (ER : eqr = true <-> (s0 <= 0 <= n0) /\ (s <= 0 <= n)) by (unfold eqr; rewrite andb_true_iff, CA, CB'; tauto).
    exists (if eqr then angle_max (angle_max d0 d1) l else angle_max d0 d1). split; [reflexivity|]. set (d := if eqr then angle_max (angle_max d0 d1) l else angle_max d0 d1). assert (FD : finite d) by (unfold d; destruct eqr; assumption). split; [exact FD|].
    assert (GE0 : B2R d0 <= B2R d) by (unfold d; destruct eqr; rewrite ?VM', VM; unfold Rmax; repeat destruct Rle_dec; lra). assert (GE1 : B2R d1 <= B2R d) by (unfold d; destruct eqr; rewrite ?VM', VM; unfold Rmax; repeat destruct Rle_dec; lra). assert (GE2 : eqr = true -> B2R l <= B2R d) by (intros E; unfold d; rewrite E, VM'; apply Rmax_r).
    split.
    + intros pt Pp. destruct (UPPER (B2R d) (1 / 2 ^ 12 + 1 / 2 ^ 20)) with (p := pt) as (q & Q & A); [|exact Pp|exists q; split; [exact Q|lra]].
      intros f BF. set (m0 := Rmin (val c s0 g0) (val c n0 g1)). set (m := if eqr then Rmin m0 c else m0).
      assert (M0 : m <= val c s0 g0) by (unfold m, m0, Rmin; destruct eqr; repeat destruct Rle_dec; lra). assert (M1 : m <= val c n0 g1) by (unfold m, m0, Rmin; destruct eqr; repeat destruct Rle_dec; lra). assert (M2 : s0 <= 0 <= n0 -> s <= 0 <= n -> m <= c) by (intros E1 E2; unfold m; rewrite (proj2 ER (conj E1 E2)); apply Rmin_r).
      destruct (hills c m s0 f n0 s n g0 g1 CB ltac:(lra) ltac:(lra) ltac:(lra) ltac:(lra) ltac:(lra) ltac:(lra) BG0 BG1 M0 M1 M2) as (g & BG & MV). exists g. split; [exact BG|].
      assert (AB : forall a b, on_sphere a -> on_sphere b -> rdot a b <= val c f g -> angle_between (sphere_at f 0) (sphere_at g (B2R l)) <= angle_between a b + 1 / 2 ^ 20). { intros a b Sa Sb L. apply (angle_le4 _ _ _ _ 0); try apply sphere_at_on; try assumption; [|lra|lra]. rewrite sphere_val, Rminus_0_l, cos_neg. fold c. lra. }
      assert (ME : m = val c s0 g0 \/ m = val c n0 g1 \/ (eqr = true /\ m = c)) by (unfold m, m0, Rmin; destruct eqr; repeat destruct Rle_dec; auto).
      destruct ME as [ME|[ME|[EE ME]]].
      * pose proof (AB (sphere_at s0 0) (sphere_at g0 (B2R l)) (sphere_at_on _ _) (sphere_at_on _ _) ltac:(rewrite sphere_val, Rminus_0_l, cos_neg; fold c; lra)). lra.
      * pose proof (AB (sphere_at n0 0) (sphere_at g1 (B2R l)) (sphere_at_on _ _) (sphere_at_on _ _) ltac:(rewrite sphere_val, Rminus_0_l, cos_neg; fold c; lra)). lra.
      * pose proof (AB (sphere_at 0 0) (sphere_at 0 (B2R l)) (sphere_at_on _ _) (sphere_at_on _ _) ltac:(rewrite sphere_val, Rminus_0_l, cos_neg; fold c; unfold val at 1; rewrite cos_0, sin_0; lra)). pose proof (GE2 EE). lra.
    + assert (DE : B2R d = B2R d0 \/ B2R d = B2R d1 \/ (eqr = true /\ B2R d = B2R l)) by (unfold d; destruct eqr; rewrite ?VM', VM; unfold Rmax; repeat destruct Rle_dec; auto).
      assert (K : exists f, s0 <= f <= n0 /\ forall g, s <= g <= n -> B2R d <= angle_between (sphere_at f 0) (sphere_at g (B2R l)) + 1 / 2 ^ 12).
      { destruct DE as [DE|[DE|[EE DE]]].
        - exists s0. split; [lra|]. intros g BG. rewrite DE. apply DL0, BG.
        - exists n0. split; [lra|]. intros g BG. rewrite DE. apply DL1, BG.
        - apply ER in EE. destruct EE as [EE _]. exists 0. split; [exact EE|]. intros g BG. rewrite DE, <- LA at 1. eapply Rle_trans; [apply (angle_le4 _ _ (sphere_at 0 0) (sphere_at g (B2R l)) 0 (1 / 2 ^ 20)); try apply sphere_at_on; [|lra|lra]|lra].
          rewrite !sphere_val, Rminus_0_l, cos_neg. fold c. unfold val. rewrite cos_0, sin_0. pose proof (COS_bound g) as CG. assert (cos g * c <= 1 * c) by (apply Rmult_le_compat_r; lra). lra. }
      destruct K as (f & BF & K). destruct (LOWER f (B2R d) (1 / 2 ^ 12) BF K) as (p & Pp & A). exists p. split; [exact Pp|]. intros q Q. pose proof (A q Q). lra.
Qed.
Print Assumptions C142_directed_partial.

(** With an empty rectangle the distance is 0, or pi if only the second is empty. *)
Theorem C142_empty : forall fsin fcos fasin fatan2 r o, okz r -> okz o ->
  (void (zset r) -> rect_hausdorff fsin fcos fasin fatan2 r o = Some f0) /\
  (~ void (zset r) -> void (zset o) -> rect_hausdorff fsin fcos fasin fatan2 r o = Some PI64).
Proof.
  intros fsin fcos fasin fatan2 r o Vr Vo. destruct (C93_predicates r r Vr Vr) as (Er & _). destruct (C93_predicates o o Vo Vo) as (Eo & _). unfold rect_hausdorff. split.
  - intros V. apply Er in V. rewrite V. reflexivity.
  - intros N V. apply Eo in V. rewrite V. destruct (rect_is_empty r) eqn:E; [elim N; apply Er; reflexivity|reflexivity].
Qed.
Print Assumptions C142_empty.

(* the longitudes of [o] are less than a quarter turn from those of [r], and [o] covers them or
   is neither flat nor tall *)
Definition reaches (r o : rect) : Prop := (forall t, circ (rlng r) t -> CircleSpec.within (circ (rlng o)) (pi / 2 - 1 / 2 ^ 40) t) /\
  (subset (circ (rlng r)) (circ (rlng o)) \/ 1 / 1000 <= B2R (hi1 (rlat o)) - B2R (lo1 (rlat o)) <= PI - 1 / 1000).
(** hausdorff_distance is the larger of the distances in both directions, in either order: every
    point of each rectangle is that close to a point of the other, and a point of one of them is no
    closer than that to any point of the other. *)
Theorem C142_symmetric_partial : forall fsin fcos fasin fatan2 r o, accurate fsin sin -> accurate fcos cos -> accurate_asin fasin -> okz r -> okz o -> ~ void (zset r) -> ~ void (zset o) -> reaches r o -> reaches o r ->
  exists d d', rect_hausdorff_both fsin fcos fasin fatan2 r o = Some d /\ rect_hausdorff_both fsin fcos fasin fatan2 o r = Some d' /\ finite d /\ finite d' /\ B2R d = B2R d' /\
  (forall p, points_of r p -> exists q, points_of o q /\ angle_between p q <= B2R d + 1 / 2 ^ 11) /\ (forall p, points_of o p -> exists q, points_of r q /\ angle_between p q <= B2R d + 1 / 2 ^ 11) /\
  ((exists p, points_of r p /\ forall q, points_of o q -> B2R d - 1 / 2 ^ 11 <= angle_between p q) \/ (exists p, points_of o p /\ forall q, points_of r q -> B2R d - 1 / 2 ^ 11 <= angle_between p q)).
Proof.
  intros fsin fcos fasin fatan2 r o AS AC AA Vr Vo Nr No [R1' R2'] [O1 O2]. destruct (C142_directed_partial fsin fcos fasin fatan2 r o AS AC AA Vr Vo Nr No R1' R2') as (x & Ex & Fx & Ux & Lx). destruct (C142_directed_partial fsin fcos fasin fatan2 o r AS AC AA Vo Vr No Nr O1 O2) as (y & Ey & Fy & Uy & Ly).
  destruct (max_val x y Fx Fy) as [FM VM]. destruct (max_val y x Fy Fx) as [FM' VM']. unfold rect_hausdorff_both. rewrite Ex, Ey. eexists. eexists. split; [reflexivity|]. split; [reflexivity|]. split; [exact FM|]. split; [exact FM'|]. rewrite VM, VM'. split; [apply Rmax_comm|]. pose proof (Rmax_l (B2R x) (B2R y)). pose proof (Rmax_r (B2R x) (B2R y)).
  split; [intros p Pp; destruct (Ux p Pp) as (q & Q & A); exists q; split; [exact Q|lra]|]. split; [intros p Pp; destruct (Uy p Pp) as (q & Q & A); exists q; split; [exact Q|lra]|].
  unfold Rmax. destruct Rle_dec; [right; exact Ly|left; exact Lx].
Qed.
Print Assumptions C142_symmetric_partial.

Example C142_hyps : accurate cut_sin sin /\ accurate cut_cos cos /\ accurate_asin cut_asin /\ exists r o e, okz r /\ okz o /\ okz e /\ ~ void (zset r) /\ ~ void (zset o) /\ void (zset e) /\ reaches r o /\ reaches o r /\ ~ subset (circ (rlng r)) (circ (rlng o)).
Proof.
  split; [exact cut_sin_ok|]. split; [exact cut_cos_ok|]. split; [exact cut_asin_ok|].
  set (r := Rect (R1 f0 f1) (S1 f0 f1)). set (o := Rect (R1 (of_int (-1)) fhalf) (S1 f0 fhalf)). exists r, o, rect_empty.
  assert (Vr : okz r) by (apply rect_is_valid_spec; vm_compute; reflexivity). assert (Vo : okz o) by (apply rect_is_valid_spec; vm_compute; reflexivity). assert (Ve : okz rect_empty) by (apply rect_is_valid_spec; vm_compute; reflexivity).
  pose proof PI_tight as PT. pose proof pi_bounds as PB. destruct f0_val as [_ V0]. destruct f1_val as [_ V1]. destruct (of_int_val (-1) ltac:(lia)) as [_ V2]. assert (V3 : B2R fhalf = 1 / 2) by (rewrite (proj2 StuvError.fhalf_val); lra).
  assert (CR : forall t, circ (rlng r) t <-> exists k : BinInt.Z, 0 <= t + 2 * pi * IZR k <= 1). { intros t. unfold arc, arc_end, r; cbn [rlng slo shi]. rewrite V0, V1. destruct Rle_dec; [|lra]. split; [intros [_ K]; exact K|intros K; split; [intros [X _]; lra|exact K]]. }
  assert (CO : forall t, circ (rlng o) t <-> exists k : BinInt.Z, 0 <= t + 2 * pi * IZR k <= 1 / 2). { intros t. unfold arc, arc_end, o; cbn [rlng slo shi]. rewrite V0, V3. destruct Rle_dec; [|lra]. split; [intros [_ K]; exact K|intros K; split; [intros [X _]; lra|exact K]]. }
  split; [exact Vr|]. split; [exact Vo|]. split; [exact Ve|]. split; [intros E; apply (C93_predicates r r Vr Vr) in E; vm_compute in E; discriminate|]. split; [intros E; apply (C93_predicates o o Vo Vo) in E; vm_compute in E; discriminate|]. split; [apply (C93_predicates rect_empty rect_empty Ve Ve); vm_compute; reflexivity|].
  assert (SUB : subset (circ (rlng o)) (circ (rlng r))) by (intros t T; apply CO in T; apply CR; destruct T as (k & K); exists k; lra).
  split; [split|split; [split|]].
  - intros t T. apply CR in T. destruct T as (k & K). exists (Rmin (t + 2 * pi * IZR k) (1 / 2)). split; [apply CO; exists 0%Z; rewrite Rmult_0_r, Rplus_0_r; unfold Rmin; destruct Rle_dec; lra|]. exists k. unfold Rmin. destruct Rle_dec; rewrite Rabs_pos_eq; lra.
  - right. unfold o; cbn [rlat lo1 hi1]. rewrite V2, V3. lra.
  - intros t T. exists t. split; [apply SUB, T|]. exists 0%Z. replace (t + 2 * pi * 0 - t) with 0 by ring. rewrite Rabs_R0. lra.
  - left. exact SUB.
  - intros S. assert (T : circ (rlng o) 1) by (apply S, CR; exists 0%Z; lra). apply CO in T. destruct T as (k & K). assert (KZ : (k <= -1 \/ k = 0 \/ 1 <= k)%Z) by lia. destruct KZ as [KZ|[-> |KZ]]; [|lra|]; apply IZR_le in KZ.
    + assert (2 * pi * IZR k <= 2 * pi * -1) by (apply Rmult_le_compat_l; lra). lra.
    + assert (2 * pi * 1 <= 2 * pi * IZR k) by (apply Rmult_le_compat_l; lra). lra.
Qed.
