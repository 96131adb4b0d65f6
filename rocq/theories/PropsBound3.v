(** C124: bounding caps of rectangles. *)
From Coq Require Import ZArith Reals Lra Lia Psatz Bool List Classical.
From Flocq Require Import Core.
From Verif Require Import Base Spec F64 F64Facts IntervalSpec CircleSpec RectSpec F64Arith F64Error F64Neg R1Model R1Proofs S1Model S1Proofs S1Ops VectorModel AngleModel AngleProofs ExpandProofs CircleProofs PropsInterval PropsCircle
  RectModel RectProofs PropsRect PropsRect2 PropsCorner CapSpec CapModel StuvError ChordProofs CapError CapProofs PropsCap
  PredicatesError PredicatesFloat PredicatesSound PredicatesStable PredicatesProofs CapEdgeFloat CapEdgeMain RegionModel RegionSpec PropsRegion CoverProofs TrigModel TrigSpec TrigProofs TrigWitness PropsTrig PropsCap2 PropsDist
  CellLattice BoundModel BoundSpec BoundProofs BoundCell BoundFace PropsBound PropsBound2.
Open Scope R_scope.
Notation lat := AngleModel.lat.
Notation lng := AngleModel.lng.

(** ** The farthest points of a rectangle from its centre are corners *)
(* a combination of sine and cosine, the cosine's part not negative, has its least value
   over an interval of latitudes at an end *)
Lemma wave_min A B s n t : 0 <= B -> - (PI / 2) <= s -> s <= t -> t <= n -> n <= PI / 2 ->
  Rmin (A * sin s + B * cos s) (A * sin n + B * cos n) <= A * sin t + B * cos t.
Proof.
  intros HB S1 S2 S3 S4. pose proof PI_tight as PT. set (R := sqrt (A * A + B * B)). assert (R0 : 0 <= R) by apply sqrt_pos. assert (RR : R * R = A * A + B * B) by (apply sqrt_sqrt; nra).
  destruct (Rle_lt_or_eq_dec 0 R R0) as [RP|RZ].
  2:{ rewrite <- RZ in RR. assert (A = 0) by nra. assert (B = 0) by nra. subst A B. rewrite !Rmult_0_l, !Rplus_0_l. unfold Rmin. destruct Rle_dec; lra. }
  set (z := asin (A / R)). pose proof (asin_bound (A / R)) as ZB. fold z in ZB.
  assert (AR : -1 <= A / R <= 1). { assert (-R <= A <= R) by (split; nra). split; apply (Rmult_le_reg_r R); try lra; unfold Rdiv; rewrite Rmult_assoc, Rinv_l; lra. }
  assert (ES : A = R * sin z). { unfold z. rewrite sin_asin by exact AR. field. lra. }
  assert (EC : B = R * cos z). { assert (C0 : 0 <= cos z) by (apply cos_ge_0; lra). pose proof (sin2_cos2 z) as Q. unfold Rsqr in Q. apply Rsqr_inj; [exact HB|apply Rmult_le_pos; lra|]. unfold Rsqr.
    replace (R * cos z * (R * cos z)) with (R * R * (cos z * cos z)) by ring. replace (cos z * cos z) with (1 - sin z * sin z) by lra. replace (R * R * (1 - sin z * sin z)) with (R * R - (R * sin z) * (R * sin z)) by ring. rewrite <- ES, RR. ring. }
  assert (W : forall x, A * sin x + B * cos x = R * cos (x - z)). { intros x. rewrite cos_minus. rewrite ES at 1. rewrite EC at 1. ring. }
  rewrite !W. destruct (Rle_dec t z) as [C|C].
  - eapply Rle_trans; [apply Rmin_l|]. apply Rmult_le_compat_l; [lra|]. rewrite <- (cos_neg (s - z)), <- (cos_neg (t - z)). apply cos_decr_1; lra.
  - eapply Rle_trans; [apply Rmin_r|]. apply Rmult_le_compat_l; [lra|]. apply cos_decr_1; lra.
Qed.
Lemma dist_wave f l t m : dist2 (sphere_at f l) (sphere_at t m) = 2 - 2 * (sin f * sin t + cos f * cos (m - l) * cos t).
Proof.
  unfold dist2, sphere_at. cbn [px3 py3 pz3]. rewrite cos_minus. pose proof (sin2_cos2 f) as Q1. pose proof (sin2_cos2 t) as Q2. pose proof (sin2_cos2 m) as Q3. pose proof (sin2_cos2 l) as Q4. unfold Rsqr in *.
  set (sf := sin f) in *. set (cf := cos f) in *. set (st := sin t) in *. set (ct := cos t) in *. set (sm := sin m) in *. set (cm := cos m) in *. set (sl := sin l) in *. set (cl := cos l) in *.
  transitivity ((sf * sf + (sl * sl + cl * cl) * (cf * cf)) + (st * st + (sm * sm + cm * cm) * (ct * ct)) - 2 * (sf * st + cf * (cm * cl + sm * sl) * ct)); [ring|].
  rewrite Q3, Q4, !Rmult_1_l, Q1, Q2. ring.
Qed.
Lemma far_corners f l s n t m D : - (PI / 2) <= s -> s <= t -> t <= n -> n <= PI / 2 -> - (PI / 2) <= f <= PI / 2 -> Rabs (m - l) <= D -> D <= PI / 2 ->
  chd (sphere_at f l) (sphere_at t m) <= Rmax (chd (sphere_at f l) (sphere_at s (l - D))) (chd (sphere_at f l) (sphere_at n (l + D))).
Proof.
  intros S1 S2 S3 S4 F M DP. pose proof PI_tight as PT. pose proof (Rabs_pos (m - l)) as M0.
  assert (CA : forall x, cos (Rabs x) = cos x) by (intros x; unfold Rabs; destruct Rcase_abs; [apply cos_neg|reflexivity]).
  assert (CM : cos D <= cos (m - l)) by (rewrite <- (CA (m - l)); apply cos_decr_1; lra). assert (CD : 0 <= cos D) by (apply cos_ge_0; lra). assert (CF : 0 <= cos f) by (apply cos_ge_0; lra). assert (CT : 0 <= cos t) by (apply cos_ge_0; lra).
  pose proof (wave_min (sin f) (cos f * cos D) s n t ltac:(apply Rmult_le_pos; assumption) S1 S2 S3 S4) as W.
  assert (UP : cos f * cos D * cos t <= cos f * cos (m - l) * cos t) by (apply Rmult_le_compat_r; [exact CT|apply Rmult_le_compat_l; assumption]).
  unfold chd. rewrite !dist_wave. replace (l - D - l) with (- D) by ring. replace (l + D - l) with D by ring. rewrite cos_neg.
  revert W. unfold Rmin. destruct Rle_dec as [L|L]; intros W; [eapply Rle_trans; [|apply Rmax_l]|eapply Rle_trans; [|apply Rmax_r]]; apply sqrt_le_1_alt; lra.
Qed.
(* the same when the half width is a little more than a quarter turn *)
Lemma far_corners' f l s n t m D e : - (PI / 2) <= s -> s <= t -> t <= n -> n <= PI / 2 -> - (PI / 2) <= f <= PI / 2 -> Rabs (m - l) <= D -> 0 <= e -> D <= PI / 2 + e ->
  chd (sphere_at f l) (sphere_at t m) <= Rmax (chd (sphere_at f l) (sphere_at s (l - D))) (chd (sphere_at f l) (sphere_at n (l + D))) + 2 * e.
Proof.
  intros S1 S2 S3 S4 F M E DP. pose proof PI_tight as PT. set (D' := Rmin D (PI / 2)). set (m' := l + Rmax (- D') (Rmin (m - l) D')).
  assert (D1 : 0 <= D' <= PI / 2 /\ Rabs (D - D') <= e). { pose proof (Rabs_pos (m - l)). unfold D', Rmin. destruct Rle_dec; split; try lra; apply Rabs_le; lra. } destruct D1 as [D1 D2].
  assert (M1 : Rabs (m' - l) <= D' /\ Rabs (m - m') <= e). { apply Rabs_le_inv in M, D2. unfold m', Rmax, Rmin. repeat destruct Rle_dec; split; apply Rabs_le; lra. } destruct M1 as [M1 M2].
  pose proof (far_corners f l s n t m' D' S1 S2 S3 S4 F M1 ltac:(lra)) as K.
  pose proof (place_lip t m t m') as P1. pose proof (place_lip s (l - D') s (l - D)) as P2. pose proof (place_lip n (l + D') n (l + D)) as P3.
  replace (t - t) with 0 in P1 by ring. replace (s - s) with 0 in P2 by ring. replace (n - n) with 0 in P3 by ring. rewrite Rabs_R0 in *.
  replace (l - D' - (l - D)) with (D - D') in P2 by ring. replace (l + D' - (l + D)) with (- (D - D')) in P3 by ring. rewrite Rabs_Ropp in P3.
  pose proof (chd_tri (sphere_at f l) (sphere_at t m') (sphere_at t m)) as T1. rewrite (chd_sym (sphere_at t m')) in T1.
  pose proof (chd_tri (sphere_at f l) (sphere_at s (l - D)) (sphere_at s (l - D'))) as T2. rewrite (chd_sym (sphere_at s (l - D))) in T2.
  pose proof (chd_tri (sphere_at f l) (sphere_at n (l + D)) (sphere_at n (l + D'))) as T3. rewrite (chd_sym (sphere_at n (l + D))) in T3.
  revert K. unfold Rmax. repeat destruct Rle_dec; lra.
Qed.
(** ** Distances measured by a chord angle *)
Lemma dist2_pos a b : 0 <= dist2 a b.
Proof. unfold dist2. pose proof (Rle_0_sqr (px3 a - px3 b)). pose proof (Rle_0_sqr (py3 a - py3 b)). pose proof (Rle_0_sqr (pz3 a - pz3 b)). unfold Rsqr in *. lra. Qed.
Lemma chord_reach v w : vbound v -> vbound w -> (1 - 8 * u) * chd (RV v) (RV w) - 1 / 2 ^ 60 <= sqrt (B2R (chordangle v w)) \/ 2 <= sqrt (B2R (chordangle v w)).
Proof.
  intros V W'. destruct (norm2_sub v w V W') as [F [N _]]. destruct c4_val as [F4 V4]. unfold chordangle. destruct (fmin_R c4 _ F4 F) as [_ ->]. rewrite V4.
  assert (HT : h <= bpow radix2 (-200)) by (apply bpow_le; lia). change (bpow radix2 (-200)) with (/ 1606938044258990275541962092341162602522202993782792835301376) in HT. pose proof h_pos as HP.
  assert (DD : d2 v w = chd (RV v) (RV w) * chd (RV v) (RV w)). { unfold chd. rewrite sqrt_sqrt; [reflexivity|]. apply dist2_pos. }
  set (D := chd (RV v) (RV w)) in *. assert (D0 : 0 <= D) by apply sqrt_pos. rewrite DD in N. set (N2 := B2R (norm2 (vsub v w))) in *. unfold Rmin. destruct (Rle_dec 4 N2) as [C|C]; [right; replace 4 with (2 * 2) by ring; rewrite sqrt_square; lra|left].
  destruct (Rle_dec ((1 - 8 * u) * D) (1 / 2 ^ 60)) as [L|L]; [pose proof (sqrt_pos N2); lra|]. set (E := (1 - 8 * u) * D) in *.
  rewrite <- (sqrt_square (E - 1 / 2 ^ 60)) by lra. apply sqrt_le_1_alt. replace ((E - 1 / 2 ^ 60) * (E - 1 / 2 ^ 60)) with (E * E - 1 / 2 ^ 60 * (E - 1 / 2 ^ 60) - 1 / 2 ^ 60 * E) by ring.
  assert (1 / 2 ^ 60 * (1 / 2 ^ 60) <= 1 / 2 ^ 60 * E) by (apply Rmult_le_compat_l; lra). assert (0 <= 1 / 2 ^ 60 * (E - 1 / 2 ^ 60)) by (apply Rmult_le_pos; lra).
  assert (EE : E * E <= (1 - 7 * u) * (D * D)). { unfold E. replace ((1 - 8 * u) * D * ((1 - 8 * u) * D)) with ((1 - 8 * u) * (1 - 8 * u) * (D * D)) by ring. apply Rmult_le_compat_r; [nra|lra]. }
  lra.
Qed.
(* the straight distance to the point of another position is no more than the root of the radius *)
Lemma reach_place fsin fcos p q (rad : f64) : accurate fsin sin -> accurate fcos cos -> ll_is_valid p = true -> ll_is_valid q = true -> finite rad ->
  B2R (chordangle (point_of_ll fsin fcos p) (point_of_ll fsin fcos q)) <= B2R rad -> chd (place p) (place q) <= sqrt (B2R rad) + 14 * e50.
Proof.
  intros AS AC Vp Vq F L. destruct (to_point fsin fcos p AS AC Vp) as [FV D1]. destruct (to_point fsin fcos q AS AC Vq) as [FW D2]. destruct (to_point_ok fsin fcos p AS AC Vp) as (U1 & _). destruct (to_point_ok fsin fcos q AS AC Vq) as (U2 & _). cbv zeta in *.
  set (v := point_of_ll fsin fcos p) in *. set (w := point_of_ll fsin fcos q) in *. apply sqrt_le_1_alt in L. destruct (chd_range _ _ (place_on p) (place_on q)) as (R1 & _).
  destruct (chord_reach v w (unit_vbound v U1) (unit_vbound w U2)) as [C|C]; [|lra].
  pose proof (chd_tri (place p) (RV v) (place q)) as T1. pose proof (chd_tri (RV v) (RV w) (place q)) as T2. rewrite (chd_sym (place p) (RV v)) in T1.
  pose proof (chd_tri (RV v) (place p) (RV w)) as T3. pose proof (chd_tri (place p) (place q) (RV w)) as T4. rewrite (chd_sym (place q) (RV w)) in T4. lra.
Qed.

(** ** The width of a rectangle for which a cap around its centre is tried *)
Lemma narrow_width (i : s1) : valid_arc (slo i) (shi i) -> fge (fremainder (fsub (shi i) (slo i)) TWOPI) f0 && flt (fsub (shi i) (slo i)) TWOPI = true -> arc_length (slo i) (shi i) <= pi + 8 / 2 ^ 52.
Proof.
  intros V H. apply andb_true_iff in H as [H1 H2]. destruct V as (FL & FH & B1 & B2 & _). pose proof pi_num as PN.
  pose proof (fsub_result _ _ FH FL) as R. destruct (half3 _ _ R) as (FX & VX & EX); [apply Rabs_le; lra|]. set (x := fsub (shi i) (slo i)) in *. pose proof TWOPI_val as [FT VT].
  destruct (fremainder_spec x TWOPI FX FT ltac:(rewrite VT; lra)) as (Fr & n & E & Q1 & _ & _). rewrite VT in *. destruct (flt_R x TWOPI FX FT) as [XT|]; [|discriminate H2]. rewrite VT in XT. rewrite (Rabs_pos_eq (2 * pi)) in Q1 by lra. set (rm := fremainder x TWOPI) in *.
  unfold fge in H1. destruct (fle_R f0 rm eq_refl Fr) as [K|]; [|discriminate H1]. change (B2R f0) with 0 in K. rewrite Rabs_pos_eq in Q1 by exact K.
  unfold arc_length, arc_end. destruct Rle_dec as [C|C].
  - apply Rnot_lt_le. intros L. assert (N : (1 <= n)%Z). { apply Z.lt_pred_le, lt_IZR. simpl. apply (Rmult_lt_reg_r (2 * pi)); lra. } apply IZR_le in N. assert (2 * pi <= IZR n * (2 * pi)) by (apply (Rmult_le_compat_r (2 * pi)) in N; lra). lra.
  - assert (X0 : B2R x < 0) by (rewrite VX; apply fsub_sign; auto; lra). assert (N : (n <= -1)%Z). { enough (n < 0)%Z by lia. apply lt_IZR. apply (Rmult_lt_reg_r (2 * pi)); lra. } apply IZR_le in N. assert (IZR n * (2 * pi) <= -1 * (2 * pi)) by (apply Rmult_le_compat_r; lra). lra.
Qed.

(** ** Any point of the rectangle is no further from the centre than a corner *)
Lemma far_rect fsin fcos r (rad : f64) d : accurate fsin sin -> accurate fcos cos -> okz r -> ~ void (zset r) -> finite rad ->
  arc_length (slo (rlng r)) (shi (rlng r)) <= pi + 8 / 2 ^ 52 ->
  (let c := point_of_ll fsin fcos (rect_center r) in B2R (chordangle c (point_of_ll fsin fcos (rect_lo r))) <= B2R rad /\ B2R (chordangle c (point_of_ll fsin fcos (rect_hi r))) <= B2R rad) ->
  in_rect r d -> chd (place (rect_center r)) d <= sqrt (B2R rad) + 40 * e50.
Proof.
  intros AS AC V N F NW [K1 K2] D. pose proof pi_PI as PP. pose proof PI_tight as PT. destruct (okz_ends r V N) as (FH & B1 & B2 & NV & SL). destruct (C93_corners r V N) as [CK _].
  pose proof (proj1 (CK 0%Z)) as O1. pose proof (proj1 (CK 2%Z)) as O2. fold (rect_lo r) in O1. fold (rect_hi r) in O2. destruct (C95_center_size r V N) as (OC & _ & _ & (k & EK) & _).
  pose proof (proj1 (okp_ll _) OC) as VC. pose proof (reach_place _ _ _ _ rad AS AC VC (proj1 (okp_ll _) O1) F K1) as R1. pose proof (reach_place _ _ _ _ rad AS AC VC (proj1 (okp_ll _) O2) F K2) as R2.
  destruct O1 as (_ & _ & _ & G1). destruct O2 as (_ & _ & _ & G2). destruct OC as (_ & _ & G3 & G4).
  assert (P1 : place (rect_lo r) = sphere_at (B2R (lo1 (rlat r))) (B2R (slo (rlng r)))) by reflexivity. assert (P2 : place (rect_hi r) = sphere_at (B2R (hi1 (rlat r))) (B2R (shi (rlng r)))) by reflexivity.
  change (B2R (lng (rect_lo r))) with (B2R (slo (rlng r))) in G1. change (B2R (lng (rect_hi r))) with (B2R (shi (rlng r))) in G2.
  set (c := rect_center r) in *. set (s := B2R (lo1 (rlat r))) in *. set (n := B2R (hi1 (rlat r))) in *. set (w := B2R (slo (rlng r))) in *. set (e := B2R (shi (rlng r))) in *.
  destruct D as (p & t & [Z1 Z2] & TB & ED). cbn [fst snd] in Z1, Z2. assert (PB : s <= p <= n) by (apply SL; exact Z1). destruct Z2 as [_ (j & J)].
  unfold arc_length in *. fold w e in NW, EK, J. set (E := arc_end w e) in *. set (l := w + (E - w) / 2) in *.
  (* turns of the double pi and of the number pi *)
  assert (TURN : forall a x (i : BinInt.Z), Rabs (2 * pi * IZR i) <= 13 -> chd (sphere_at a x) (sphere_at a (x + 2 * pi * IZR i)) <= 4 * e50).
  { intros a x i I. assert (IB : Rabs (IZR i) < 3). { rewrite Rabs_mult, (Rabs_pos_eq (2 * pi)) in I by (rewrite pi_num; lra). apply (Rmult_lt_reg_l (2 * pi)); [rewrite pi_num; lra|]. apply Rle_lt_trans with 13; [exact I|rewrite pi_num; lra]. }
    rewrite <- (sphere_turn a (x + 2 * pi * IZR i) (- i)). eapply Rle_trans; [apply place_lip|]. replace (a - a) with 0 by ring. rewrite Rabs_R0, opp_IZR.
    replace (x - (x + 2 * pi * IZR i + 2 * PI * - IZR i)) with (2 * (PI - pi) * IZR i) by ring. rewrite Rabs_mult, (Rabs_pos_eq (2 * (PI - pi))) by lra.
    apply Rle_trans with (0 + 2 * (1 / 2 ^ 52) * 3); [apply Rplus_le_compat_l, Rmult_le_compat; try apply Rabs_pos; lra|lra]. }
  apply Rabs_le_inv in EK, TB.
  assert (LE : w <= E /\ (E = e \/ E = e + 2 * pi)) by (unfold E, arc_end; destruct Rle_dec; split; auto; lra). destruct LE as [WE EE].
  assert (C1 : chd (place c) (sphere_at (B2R (lat c)) l) <= 5 * e50).
  { pose proof (TURN (B2R (lat c)) (B2R (lng c)) k ltac:(apply Rabs_le; unfold l in *; lra)) as T. pose proof (place_lip (B2R (lat c)) (B2R (lng c) + 2 * pi * IZR k) (B2R (lat c)) l) as L. replace (B2R (lat c) - B2R (lat c)) with 0 in L by ring. rewrite Rabs_R0 in L.
    assert (Rabs (B2R (lng c) + 2 * pi * IZR k - l) <= 1 / 2 ^ 50) by (apply Rabs_le; unfold l in *; lra).
    pose proof (chd_tri (place c) (sphere_at (B2R (lat c)) (B2R (lng c) + 2 * pi * IZR k)) (sphere_at (B2R (lat c)) l)) as T2. unfold place in *. lra. }
  assert (C2 : chd d (sphere_at p (t + 2 * pi * IZR j)) <= 4 * e50) by (rewrite ED; apply TURN, Rabs_le; lra).
  assert (C3 : chd (place (rect_hi r)) (sphere_at n E) <= 4 * e50). { rewrite P2. destruct EE as [-> | ->]; [pose proof (TURN n e 0%Z ltac:(rewrite Rmult_0_r, Rabs_R0; lra)) as T; rewrite Rmult_0_r, Rplus_0_r in T; exact T|]. pose proof (TURN n e 1%Z ltac:(apply Rabs_le; lra)) as T. rewrite Rmult_1_r in T. exact T. }
  pose proof (far_corners' (B2R (lat c)) l s n p (t + 2 * pi * IZR j) ((E - w) / 2) (1 / 2 ^ 50)) as FC.
  replace (l - (E - w) / 2) with w in FC by (unfold l; lra). replace (l + (E - w) / 2) with E in FC by (unfold l; lra).
  specialize (FC ltac:(lra) ltac:(lra) ltac:(lra) ltac:(lra) ltac:(lra) ltac:(apply Rabs_le; unfold l; lra) ltac:(lra) ltac:(lra)).
  pose proof (chd_tri (place c) (sphere_at (B2R (lat c)) l) d) as T1. pose proof (chd_tri (sphere_at (B2R (lat c)) l) (sphere_at p (t + 2 * pi * IZR j)) d) as T2. rewrite (chd_sym (sphere_at p _) d) in T2.
  pose proof (chd_tri (sphere_at (B2R (lat c)) l) (place c) (place (rect_lo r))) as T3. rewrite (chd_sym _ (place c)) in T3. pose proof (chd_tri (sphere_at (B2R (lat c)) l) (place c) (sphere_at n E)) as T4. rewrite (chd_sym _ (place c)) in T4. pose proof (chd_tri (place c) (place (rect_hi r)) (sphere_at n E)) as T5.
  rewrite P1 in *. revert FC. unfold Rmax. destruct Rle_dec; lra.
Qed.

(** ** The cap around a pole *)
Lemma pole_dir : direction (VectorModel.normalize (Vec f0 f0 f1)) = NORTH /\ is_unit (VectorModel.normalize (Vec f0 f0 f1)) = true /\
  direction (VectorModel.normalize (Vec f0 f0 (fneg f1))) = SOUTH /\ is_unit (VectorModel.normalize (Vec f0 f0 (fneg f1))) = true.
Proof.
  assert (N : forall z v s, B2R z = s -> feq (vx v) f0 && feq (vy v) f0 && feq (vz v) z = true -> finite z -> fvec v -> s = 1 \/ s = -1 -> direction v = Pos 0 0 s).
  { intros z v s E H Fz (F1 & F2 & F3) S. apply andb_true_iff in H as [H H3]. apply andb_true_iff in H as [H1 H2]. apply feq_B2R in H1, H2, H3; auto; try reflexivity. unfold direction. rewrite H1, H2, H3, E. change (B2R f0) with 0.
    replace (0 * 0 + 0 * 0 + s * s) with 1 by (destruct S as [-> | ->]; ring). rewrite sqrt_1. f_equal; field. }
  destruct f1_val as [F1 V1]. destruct (fneg_val f1 F1) as [F2 V2]. rewrite V1 in V2.
  split; [apply (N f1); [exact V1|vm_compute; reflexivity|exact F1|repeat split; vm_compute; reflexivity|left; reflexivity]|]. split; [vm_compute; reflexivity|].
  split; [apply (N (fneg f1)); [lra|vm_compute; reflexivity|exact F2|repeat split; vm_compute; reflexivity|right; reflexivity]|vm_compute; reflexivity].
Qed.
(* the distance of a parallel from a pole *)
Lemma pole_chd s p l : s = 1 \/ s = -1 -> - (PI / 2) <= p <= PI / 2 -> chd (Pos 0 0 s) (sphere_at p l) = 2 * sin ((PI / 2 - s * p) / 2).
Proof.
  intros S P. pose proof PI_tight as PT. assert (A : 0 <= PI / 2 - s * p <= PI) by (destruct S as [-> | ->]; lra). assert (S0 : 0 <= sin ((PI / 2 - s * p) / 2)) by (apply sin_ge_0; lra). rewrite <- (sqrt_square (2 * sin ((PI / 2 - s * p) / 2))) by lra.
  unfold chd. f_equal. pose proof (cos_half (PI / 2 - s * p)) as H. set (k := sin ((PI / 2 - s * p) / 2)) in *. rewrite cos_shift in H. assert (H' : sin (s * p) = s * sin p). { destruct S as [-> | ->]; [rewrite !Rmult_1_l; reflexivity|]. replace (-1 * p) with (- p) by ring. rewrite sin_neg. ring. } rewrite H' in H.
  unfold dist2, sphere_at. cbn [px3 py3 pz3]. pose proof (sin2_cos2 p) as Q1. pose proof (sin2_cos2 l) as Q2. unfold Rsqr in *. set (sp := sin p) in *. set (cp := cos p) in *. set (sl := sin l) in *. set (cl := cos l) in *.
  transitivity ((sl * sl + cl * cl) * (cp * cp) + sp * sp - 2 * (s * sp) + s * s); [ring|]. rewrite Q2. assert (s * s = 1) by (destruct S as [-> | ->]; ring). lra.
Qed.
Lemma pole_cap_spec fsin r (z a : f64) s : accurate_sin fsin -> okz r -> ~ void (zset r) ->
  s = 1 /\ z = f1 /\ a = fsub (fdiv PI64 f2) (lo1 (rlat r)) \/ s = -1 /\ z = fneg f1 /\ a = fadd (fdiv PI64 f2) (hi1 (rlat r)) ->
  let c := cap_from_center_angle fsin (VectorModel.normalize (Vec f0 f0 z)) a in
  valid_cap c /\ 0 <= B2R (radius c) /\ direction (center c) = Pos 0 0 s /\
  Rabs (sqrt (B2R (radius c)) - 2 * sin ((PI / 2 + (if Rle_dec s 0 then B2R (hi1 (rlat r)) else - B2R (lo1 (rlat r)))) / 2)) <= 20 * e50 /\
  (forall d, in_rect r d -> chd (direction (center c)) d <= sqrt (B2R (radius c)) + 20 * e50).
Proof.
  intros AS V N HS. cbv zeta. pose proof pi_PI as PP. pose proof PI_tight as PT. destruct (okz_ends r V N) as (FH & B1 & B2 & NV & SL). pose proof V as (FL & _). pose proof FRAC_PI_2_val as [FF VF].
  assert (EF : finite (fdiv PI64 f2) /\ B2R (fdiv PI64 f2) = pi / 2) by (split; [vm_compute; reflexivity|]; rewrite <- VF; apply feq_B2R; try (vm_compute; reflexivity)). destruct EF as [FQ VQ].
  destruct pole_dir as (D1 & U1 & D2 & U2). set (n := B2R (hi1 (rlat r))) in *. set (o := B2R (lo1 (rlat r))) in *.
  set (x := if Rle_dec s 0 then n else - o). assert (SS : s = 1 \/ s = -1) by (destruct HS as [[-> _]|[-> _]]; auto).
  assert (XE : s = 1 /\ x = - o \/ s = -1 /\ x = n) by (unfold x; destruct HS as [[-> _]|[-> _]]; destruct Rle_dec; auto; lra).
  clearbody x. assert (XB : - (pi / 2) <= x <= pi / 2) by (destruct XE as [[_ ->]|[_ ->]]; lra).
  assert (FA : finite a /\ 0 <= B2R a /\ Rabs (B2R a - (pi / 2 + x)) <= ulp1).
  { assert (R : result a (pi / 2 + x)). { destruct HS as [(-> & _ & ->)|(-> & _ & ->)]; destruct XE as [[Q ->]|[Q ->]]; try lra; [pose proof (fsub_result _ _ FQ FL) as R|pose proof (fadd_result _ _ FQ FH) as R]; rewrite VQ in R; exact R. }
    destruct (half2 _ _ R) as (F & VA & E); [apply Rabs_le; lra|]. split; [exact F|]. split; [rewrite VA; apply (rnd_lower f0); [reflexivity|lra]|apply Rabs_le; lra]. }
  destruct FA as (FA & A0 & EA). apply Rabs_le_inv in EA.
  assert (UD : is_unit (VectorModel.normalize (Vec f0 f0 z)) = true /\ direction (VectorModel.normalize (Vec f0 f0 z)) = Pos 0 0 s) by (destruct HS as [(-> & -> & _)|(-> & -> & _)]; auto). destruct UD as [UC DC].
  destruct (C113_of_angle fsin a AS FA A0) as (Fr & Br & Er). cbv zeta in *. unfold cap_from_center_angle. cbn [center radius]. set (rr := chord_of_angle fsin a) in *. set (t := Rmin PI (B2R a)) in *.
  assert (T : 0 <= t <= PI) by (unfold t, Rmin; destruct Rle_dec; lra). destruct (half_pos t T) as [S0 _]. pose proof (SIN_bound (t / 2)) as [_ S1].
  assert (TX : Rabs (t / 2 - (PI / 2 + x) / 2) <= 1 / 2 ^ 52) by (apply Rabs_le; unfold t, Rmin; destruct Rle_dec; lra). pose proof (sin_lip (t / 2) ((PI / 2 + x) / 2)) as SLp.
  set (S := sin (t / 2)) in *. assert (EC : chord t = 2 * S * (2 * S)) by (unfold chord, S; ring). rewrite EC in Er.
  assert (Q1 : Rabs (sqrt (B2R rr) - sqrt (2 * S * (2 * S))) <= 1 / 2 ^ 47 * sqrt (2 * S * (2 * S)) + pow2 (-450)).
  { apply sqrt_err; [lra|apply Rmult_le_pos; lra|lra|apply bpow_ge_0|]. rewrite <- bpow_plus. exact Er. }
  rewrite sqrt_square in Q1 by lra. assert (P4 : pow2 (-450) <= 1 / 2 ^ 60). { apply Rle_trans with (pow2 (-60)); [apply bpow_le; lia|]. change (pow2 (-60)) with (/ 1152921504606846976). lra. }
  assert (Q2 : Rabs (sqrt (B2R rr) - 2 * sin ((PI / 2 + x) / 2)) <= 20 * e50). { apply Rabs_le_inv in Q1. assert (SE : Rabs (S - sin ((PI / 2 + x) / 2)) <= 1 / 2 ^ 52) by lra. apply Rabs_le_inv in SE. apply Rabs_le. lra. }
  split. { split; [|exact Fr]. unfold cap_is_valid. cbn [center radius]. rewrite UC. cbn [andb]. destruct c4_val as [F4 V4]. unfold STRAIGHT. destruct (fle_R rr c4 Fr F4) as [|K]; [reflexivity|]. lra. }
  split; [lra|]. split; [exact DC|]. split; [exact Q2|].
  intros d (p & l & [Z1 _] & _ & ED). cbn [fst] in Z1. assert (PB : o <= p <= n) by (apply SL; exact Z1). rewrite DC, ED, pole_chd by (auto; lra).
  assert (M : sin ((PI / 2 - s * p) / 2) <= sin ((PI / 2 + x) / 2)) by (apply sin_incr_1; destruct XE as [[-> E]|[-> E]]; lra). apply Rabs_le_inv in Q2. lra.
Qed.
(* when the cap around the centre is tried *)
Lemma narrow_tried (i : s1) : valid_arc (slo i) (shi i) -> arc_length (slo i) (shi i) <= pi - 8 / 2 ^ 52 -> fge (fremainder (fsub (shi i) (slo i)) TWOPI) f0 && flt (fsub (shi i) (slo i)) TWOPI = true.
Proof.
  intros (FL & FH & B1 & B2 & _) L. pose proof pi_num as PN.
  pose proof (fsub_result _ _ FH FL) as R. destruct (half3 _ _ R) as (FX & VX & EX); [apply Rabs_le; lra|]. set (x := fsub (shi i) (slo i)) in *. pose proof TWOPI_val as [FT VT].
  destruct (rem_turn2 x FX) as (Fr & Br & (n & En) & Es). set (rm := fremainder x TWOPI) in *. unfold fge. destruct (fneg_val TWOPI FT) as [FN VN]. rewrite VT in VN.
  assert (XL : - (2 * pi) <= B2R x) by (rewrite VX, <- VN; apply (rnd_lower (fneg TWOPI)); [reflexivity|lra]).
  assert (G : 0 <= B2R rm /\ B2R x < 2 * pi).
  { revert L. unfold arc_length, arc_end. destruct Rle_dec as [C|C]; intros L.
    - assert (0 <= B2R x) by (rewrite VX; apply (rnd_lower f0); [reflexivity|change (B2R f0) with 0; lra]). rewrite Es by lra. lra.
    - assert (N1 : (n < 0)%Z). { apply lt_IZR. apply (Rmult_lt_reg_l (2 * pi)); lra. } assert (IZR n <= -1) by (apply IZR_le; lia). assert (2 * pi * IZR n <= 2 * pi * -1) by (apply Rmult_le_compat_l; lra). lra. }
  destruct (fle_R f0 rm eq_refl Fr) as [_|K]; [|change (B2R f0) with 0 in K; lra]. destruct (flt_R x TWOPI FX FT) as [_|K]; [reflexivity|lra].
Qed.
Lemma chord_reach_up v w : vbound v -> vbound w -> sqrt (B2R (chordangle v w)) <= (1 + 8 * u) * chd (RV v) (RV w) + 1 / 2 ^ 60.
Proof.
  intros V W'. destruct (norm2_sub v w V W') as [F [_ N]]. destruct c4_val as [F4 V4]. unfold chordangle. destruct (fmin_R c4 _ F4 F) as [_ ->]. rewrite V4.
  assert (HT : h <= bpow radix2 (-200)) by (apply bpow_le; lia). change (bpow radix2 (-200)) with (/ 1606938044258990275541962092341162602522202993782792835301376) in HT. pose proof h_pos as HP.
  assert (DD : d2 v w = chd (RV v) (RV w) * chd (RV v) (RV w)). { unfold chd. rewrite sqrt_sqrt; [reflexivity|]. apply dist2_pos. }
  set (D := chd (RV v) (RV w)) in *. assert (D0 : 0 <= D) by apply sqrt_pos. rewrite DD in N. set (N2 := B2R (norm2 (vsub v w))) in *. set (E := (1 + 8 * u) * D) in *. assert (E0 : 0 <= E) by (unfold E; lra).
  rewrite <- (sqrt_square (E + 1 / 2 ^ 60)) by lra. apply sqrt_le_1_alt. eapply Rle_trans; [apply Rmin_r|]. eapply Rle_trans; [exact N|]. replace ((E + 1 / 2 ^ 60) * (E + 1 / 2 ^ 60)) with (E * E + 2 * (1 / 2 ^ 60 * E) + 1 / 2 ^ 60 * (1 / 2 ^ 60)) by ring.
  assert (0 <= 1 / 2 ^ 60 * E) by (apply Rmult_le_pos; lra).
  assert (EE : (1 + 8 * u) * (D * D) <= E * E). { unfold E. replace ((1 + 8 * u) * D * ((1 + 8 * u) * D)) with ((1 + 8 * u) * (1 + 8 * u) * (D * D)) by ring. apply Rmult_le_compat_r; [nra|lra]. }
  lra.
Qed.
Lemma reach_place_up fsin fcos p q : accurate fsin sin -> accurate fcos cos -> ll_is_valid p = true -> ll_is_valid q = true ->
  sqrt (B2R (chordangle (point_of_ll fsin fcos p) (point_of_ll fsin fcos q))) <= chd (place p) (place q) + 14 * e50.
Proof.
  intros AS AC Vp Vq. destruct (to_point fsin fcos p AS AC Vp) as [FV D1]. destruct (to_point fsin fcos q AS AC Vq) as [FW D2]. destruct (to_point_ok fsin fcos p AS AC Vp) as (U1 & _). destruct (to_point_ok fsin fcos q AS AC Vq) as (U2 & _). cbv zeta in *.
  set (v := point_of_ll fsin fcos p) in *. set (w := point_of_ll fsin fcos q) in *. destruct (chd_range _ _ (place_on p) (place_on q)) as (R1 & _).
  pose proof (chord_reach_up v w (unit_vbound v U1) (unit_vbound w U2)) as C.
  pose proof (chd_tri (RV v) (place p) (RV w)) as T3. pose proof (chd_tri (place p) (place q) (RV w)) as T4. rewrite (chd_sym (place q) (RV w)) in T4. lra.
Qed.

Lemma mu_tiny : mu <= 1 / 2 ^ 200.
Proof. apply Rle_trans with (pow2 (-200)); [apply bpow_le; lia|]. change (pow2 (-200)) with (/ 1606938044258990275541962092341162602522202993782792835301376). lra. Qed.
(** ** C124 *)
(* how far the cap around the centre of [r] through its corners reaches *)
Definition corner_reach (r : rect) : R := Rmax (apart (place (rect_center r)) (place (rect_lo r))) (apart (place (rect_center r)) (place (rect_hi r))).

(** C124: the bounding cap of a rectangle is empty exactly when the rectangle is.  Otherwise
    it is a valid cap, every point of the rectangle is in it up to 2^-44, it reaches no
    further than the cap around the nearer pole, and for rectangles of at most half a turn
    no further than the cap around the centre of the rectangle through its corners. *)
Theorem C124_rect_cap_bound : forall fsin fcos r, accurate fsin sin -> accurate fcos cos -> accurate_sin fsin -> okz r ->
  let c := rect_cap_bound fsin fcos r in
  (cap_is_empty c = true <-> void (zset r)) /\
  (~ void (zset r) -> valid_cap c /\
     (forall d, in_rect r d -> apart (direction (center c)) d <= sqrt (B2R (radius c)) + 1 / 2 ^ 44) /\
     sqrt (B2R (radius c)) <= 2 * sin ((PI / 2 + Rmin (B2R (hi1 (rlat r))) (- B2R (lo1 (rlat r)))) / 2) + 1 / 2 ^ 44 /\
     (arc_length (slo (rlng r)) (shi (rlng r)) <= pi - 1 / 2 ^ 49 -> sqrt (B2R (radius c)) <= corner_reach r + 1 / 2 ^ 44)).
Proof.
  intros fsin fcos r AS AC A2 V. cbv zeta. pose proof (C93_predicates _ _ V V) as (PE & _).
  destruct (classic (void (zset r))) as [N|N].
  { split; [|intros K; elim K; exact N]. unfold rect_cap_bound. rewrite (proj2 PE N). split; [intros _; exact N|intros _; vm_compute; reflexivity]. }
  assert (NE : rect_is_empty r = false). { destruct (rect_is_empty r) eqn:E; [elim N; apply PE; reflexivity|reflexivity]. }
  enough (G : let c := rect_cap_bound fsin fcos r in 0 <= B2R (radius c) /\ valid_cap c /\
     (forall d, in_rect r d -> chd (direction (center c)) d <= sqrt (B2R (radius c)) + 1 / 2 ^ 44) /\
     sqrt (B2R (radius c)) <= 2 * sin ((PI / 2 + Rmin (B2R (hi1 (rlat r))) (- B2R (lo1 (rlat r)))) / 2) + 1 / 2 ^ 44 /\
     (arc_length (slo (rlng r)) (shi (rlng r)) <= pi - 1 / 2 ^ 49 -> sqrt (B2R (radius c)) <= corner_reach r + 1 / 2 ^ 44)).
  { cbv zeta in G. destruct G as (G0 & G1 & G2). split; [|intros _; split; [exact G1|exact G2]]. split; [|intros K; elim (N K)].
    destruct (valid_cap_facts _ G1) as (_ & _ & FR & _). unfold cap_is_empty. destruct (flt_R (radius (rect_cap_bound fsin fcos r)) f0 FR eq_refl) as [K|K]; [change (B2R f0) with 0 in K; lra|discriminate]. }
  unfold rect_cap_bound. rewrite NE. destruct (okz_ends r V N) as (FH & B1 & B2 & NV & SL). pose proof V as (FL & _). pose proof (okz_lng r V) as VA.
  assert (PC : exists z a s, (if flt (fadd (hi1 (rlat r)) (lo1 (rlat r))) f0 then (fneg f1, fadd (fdiv PI64 f2) (hi1 (rlat r))) else (f1, fsub (fdiv PI64 f2) (lo1 (rlat r)))) = (z, a) /\
    (s = 1 /\ z = f1 /\ a = fsub (fdiv PI64 f2) (lo1 (rlat r)) \/ s = -1 /\ z = fneg f1 /\ a = fadd (fdiv PI64 f2) (hi1 (rlat r))) /\
    (if Rle_dec s 0 then B2R (hi1 (rlat r)) else - B2R (lo1 (rlat r))) = Rmin (B2R (hi1 (rlat r))) (- B2R (lo1 (rlat r)))).
  { pose proof (fadd_result _ _ FH FL) as R. pose proof pi_bounds. destruct (half2 _ _ R) as (FS & VS & _); [apply Rabs_le; lra|].
    assert (SG : rnd (B2R (hi1 (rlat r)) + B2R (lo1 (rlat r))) < 0 <-> B2R (hi1 (rlat r)) + B2R (lo1 (rlat r)) < 0). { destruct (fneg_val _ FL) as [FN VN]. pose proof (fsub_sign _ _ FH FN) as Q. rewrite VN in Q. replace (B2R (hi1 (rlat r)) - - B2R (lo1 (rlat r))) with (B2R (hi1 (rlat r)) + B2R (lo1 (rlat r))) in Q by ring. rewrite Q. split; lra. }
    destruct (flt_R (fadd (hi1 (rlat r)) (lo1 (rlat r))) f0 FS eq_refl) as [K|K]; rewrite VS in K; change (B2R f0) with 0 in K.
    - apply SG in K. exists (fneg f1), (fadd (fdiv PI64 f2) (hi1 (rlat r))), (-1). split; [reflexivity|]. split; [right; auto|]. unfold Rmin. repeat destruct Rle_dec; lra.
    - assert (~ B2R (hi1 (rlat r)) + B2R (lo1 (rlat r)) < 0) by (intros Q; apply SG in Q; lra). exists f1, (fsub (fdiv PI64 f2) (lo1 (rlat r))), 1. split; [reflexivity|]. split; [left; auto|]. unfold Rmin. repeat destruct Rle_dec; lra. }
  destruct PC as (z & a & s & -> & HS & XM). destruct (pole_cap_spec fsin r z a s A2 V N HS) as (PV & P0 & PD & PR & PA). rewrite XM in PR. set (pc := cap_from_center_angle fsin _ a) in *. apply Rabs_le_inv in PR.
  set (H := 2 * sin _) in *. assert (PB : forall d, in_rect r d -> chd (direction (center pc)) d <= sqrt (B2R (radius pc)) + 1 / 2 ^ 44) by (intros d D; specialize (PA d D); lra).
  change (fmul f2 PI64) with TWOPI. set (flags := fge _ f0 && flt _ TWOPI). destruct flags eqn:FE; unfold flags in FE; clear flags.
  2:{ cbv zeta. split; [exact P0|]. split; [exact PV|]. split; [exact PB|]. split; [lra|]. intros L. rewrite (narrow_tried (rlng r) VA) in FE; [discriminate FE|lra]. }
  pose proof (narrow_width (rlng r) VA FE) as NW. destruct (C93_corners r V N) as [CK _]. pose proof (proj1 (CK 0%Z)) as O1. pose proof (proj1 (CK 2%Z)) as O2. fold (rect_lo r) in O1. fold (rect_hi r) in O2. destruct (C95_center_size r V N) as (OC & _).
  apply okp_ll in O1, O2, OC. set (c := point_of_ll fsin fcos (rect_center r)). set (lo := point_of_ll fsin fcos (rect_lo r)). set (hi := point_of_ll fsin fcos (rect_hi r)). destruct (to_point_ok fsin fcos _ AS AC OC) as (UC & _ & DC). fold c in UC, DC.
  destruct (chordangle_range c lo) as [Fa Ba]. destruct (chordangle_range c hi) as [Fb Bb].
  assert (MC : exists rad, cap_add_point (cap_add_point (cap_from_point c) lo) hi = Cap c rad /\ finite rad /\ B2R rad = Rmax (B2R (chordangle c hi)) (B2R (chordangle c lo))).
  { unfold cap_add_point, cap_from_point, cap_is_empty. cbn [center radius]. change (flt f0 f0) with false. cbv iota. cbn [center radius]. destruct (fmax_R (chordangle c lo) f0 Fa eq_refl) as [F1 V1]. change (B2R f0) with 0 in V1. rewrite (Rmax_left _ 0) in V1 by lra.
    destruct (flt_R (fmax (chordangle c lo) f0) f0 F1 eq_refl) as [K|_]; [change (B2R f0) with 0 in K; lra|]. destruct (fmax_R (chordangle c hi) _ Fb F1) as [F2 V2]. rewrite V1 in V2. eexists. split; [reflexivity|]. split; [exact F2|exact V2]. }
  destruct MC as (rad & EM & FR & VR). cbv zeta. rewrite EM. pose proof (Rmax_l (B2R (chordangle c hi)) (B2R (chordangle c lo))) as M1. pose proof (Rmax_r (B2R (chordangle c hi)) (B2R (chordangle c lo))) as M2. assert (M3 : Rmax (B2R (chordangle c hi)) (B2R (chordangle c lo)) <= 4) by (apply Rmax_lub; lra). rewrite <- VR in M1, M2, M3.
  assert (MV : valid_cap (Cap c rad)). { split; [|exact FR]. unfold cap_is_valid. cbn [center radius]. rewrite UC. cbn [andb]. destruct c4_val as [F4 V4]. unfold STRAIGHT. destruct (fle_R rad c4 FR F4) as [|K]; [reflexivity|]. lra. }
  assert (MB : forall d, in_rect r d -> chd (direction c) d <= sqrt (B2R rad) + 1 / 2 ^ 44).
  { intros d D. pose proof (far_rect fsin fcos r rad d AS AC V N FR NW (conj M2 M1) D) as Q. pose proof (chd_tri (direction c) (place (rect_center r)) d) as T. lra. }
  assert (MR : sqrt (B2R rad) <= corner_reach r + 14 * e50).
  { pose proof (reach_place_up _ _ _ _ AS AC OC O1) as Q1. pose proof (reach_place_up _ _ _ _ AS AC OC O2) as Q2. fold c lo in Q1. fold c hi in Q2. unfold corner_reach. change apart with chd. rewrite VR. apply (Rmax_case (B2R (chordangle c hi)) (B2R (chordangle c lo)) (fun x => sqrt x <= _)).
    - pose proof (Rmax_r (chd (place (rect_center r)) (place (rect_lo r))) (chd (place (rect_center r)) (place (rect_hi r)))). lra.
    - pose proof (Rmax_l (chd (place (rect_center r)) (place (rect_lo r))) (chd (place (rect_center r)) (place (rect_hi r)))). lra. }
  destruct (valid_cap_facts _ PV) as (_ & _ & FP & BP). unfold cap_height. cbn [radius]. destruct (half_mu rad FR) as (F1 & V1 & E1); [apply Rabs_le; lra|]. destruct (half_mu (radius pc) FP) as (F2 & V2 & E2); [apply Rabs_le; lra|].
  destruct (flt_R (fmul fhalf rad) (fmul fhalf (radius pc)) F1 F2) as [C|C]; cbn [center radius].
  - assert (RL : B2R rad <= B2R (radius pc)). { apply Rnot_lt_le. intros K. rewrite V1, V2 in C. assert (rnd (/ 2 * B2R (radius pc)) <= rnd (/ 2 * B2R rad)) by (apply rnd_le; lra). lra. }
    apply sqrt_le_1_alt in RL. split; [lra|]. split; [exact MV|]. split; [exact MB|]. split; [lra|]. intros _. lra.
  - split; [exact P0|]. split; [exact PV|]. split; [exact PB|]. split; [lra|]. intros _. apply Rabs_le_inv in E1, E2.
    assert (RL : B2R (radius pc) <= (sqrt (B2R rad) + 1 / 2 ^ 60) * (sqrt (B2R rad) + 1 / 2 ^ 60)). { pose proof (sqrt_pos (B2R rad)). pose proof (sqrt_sqrt (B2R rad) ltac:(lra)) as Q. pose proof mu_tiny as MT. assert (0 <= sqrt (B2R rad) * (1 / 2 ^ 60)) by (apply Rmult_le_pos; lra). lra. }
    apply sqrt_le_1_alt in RL. rewrite sqrt_square in RL by (pose proof (sqrt_pos (B2R rad)); lra). lra.
Qed.
Print Assumptions C124_rect_cap_bound.
Lemma near_sin_ok' : accurate near_sin sin.
Proof.
  intros x F B. destruct (near_sin_ok x F B) as (F' & _ & _). split; [exact F'|]. unfold near_sin in *. set (s := sin (B2R x)) in *. assert (BS : Rabs s <= 1) by (apply Rabs_le, SIN_bound). destruct (of_real_val s BS) as [_ V]. rewrite V.
  eapply Rle_trans; [apply rnd_rel|]. pose proof (Rabs_pos s). assert (L : h <= pow2 (-60)) by (apply bpow_le; lia). change (pow2 (-60)) with (/ 1152921504606846976) in L. lra.
Qed.
Example C124_hyps : let r := Rect (R1 f0 f1) (S1 f1 f2) in
  accurate near_sin sin /\ accurate cut_cos cos /\ accurate_sin near_sin /\ okz r /\ ~ void (zset r) /\ (exists d, in_rect r d) /\ arc_length (slo (rlng r)) (shi (rlng r)) <= pi - 1 / 2 ^ 49.
Proof.
  cbv zeta. set (r := Rect (R1 f0 f1) (S1 f1 f2)). assert (V : okz r) by (apply rect_is_valid_spec; vm_compute; reflexivity). assert (N : ~ void (zset r)) by (intros E; apply (C93_predicates r r V V) in E; vm_compute in E; discriminate).
  split; [exact near_sin_ok'|]. split; [exact cut_cos_ok|]. split; [exact near_sin_ok|]. split; [exact V|]. split; [exact N|]. destruct f1_val as [F1 V1]. destruct f2_val as [F2 V2]. pose proof pi_num as PN.
  split.
  - exists (sphere_at 0 1), 0, 1. destruct (okz_ends r V N) as (_ & _ & _ & _ & SL). assert (L0 : B2R (lo1 (rlat r)) = 0) by reflexivity. assert (L1 : B2R (hi1 (rlat r)) = 1) by exact V1. split; [|split; [|reflexivity]].
    + split; [cbn [fst]; apply SL; lra|]. unfold r, arc, arc_end. cbn [rlng slo shi fst snd]. rewrite V1, V2. split; [intros [Q _]; lra|]. exists 0%Z. destruct Rle_dec; lra.
    + pose proof PI_tight. rewrite Rabs_pos_eq; lra.
  - unfold r, arc_length, arc_end. cbn [rlng slo shi]. rewrite V1, V2. destruct Rle_dec; lra.
Qed.
