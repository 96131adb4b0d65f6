(** C123: bounding rectangles of caps. *)
From Coq Require Import ZArith Reals Lra Lia Psatz Bool List Classical.
From Flocq Require Import Core.
From Verif Require Import Base Spec F64 F64Facts IntervalSpec CircleSpec RectSpec F64Arith F64Error F64Neg R1Model R1Proofs S1Model S1Proofs S1Ops VectorModel AngleModel AngleProofs ExpandProofs CircleProofs PropsInterval PropsCircle
  RectModel RectProofs PropsRect PropsRect2 CapSpec CapModel StuvError ChordProofs CapError CapProofs PropsCap
  PredicatesError PredicatesFloat PredicatesSound PredicatesStable PredicatesProofs CapEdgeFloat CapEdgeMain RegionModel RegionSpec PropsRegion CoverProofs TrigModel TrigSpec TrigProofs TrigWitness PropsTrig PropsCap2 PropsDist
  CellLattice BoundModel BoundSpec BoundProofs BoundCell BoundFace PropsBound.
Open Scope R_scope.
Notation lat := AngleModel.lat.
Notation lng := AngleModel.lng.

(** ** Sine and its inverse *)
Lemma asin_gap x y : 0 <= x -> x <= y -> y <= 1 -> let d := asin y - asin x in 0 <= d /\ y - x <= d /\ d * d <= 8 * (y - x) /\ (y <= 19 / 20 -> d <= 7 * (y - x)).
Proof.
  intros X XY Y. cbv zeta. pose proof PI_tight as PT. set (a := asin y). set (b := asin x). pose proof (asin_bound y) as AB. pose proof (asin_bound x) as BB. fold a in AB. fold b in BB.
  assert (BA : b <= a) by (apply asin_mono; lra). assert (B0 : 0 <= b) by (unfold b; rewrite <- asin_0; apply asin_mono; lra).
  assert (SX : sin b = x) by (apply sin_asin; lra). assert (SY : sin a = y) by (apply sin_asin; lra).
  assert (E : y - x = 2 * cos ((a + b) / 2) * sin ((a - b) / 2)) by (rewrite <- SX, <- SY; apply form4).
  set (d := a - b) in *. assert (D0 : 0 <= d) by (unfold d; lra). assert (S2 : d / 4 <= sin (d / 2)) by (pose proof (sin_half (d / 2) ltac:(unfold d in *; lra)); lra).
  assert (S3 : sin (d / 2) <= d / 2) by (destruct (Req_dec d 0) as [->|N]; [replace (0 / 2) with 0 by field; rewrite sin_0; lra|left; apply sin_lt_x; lra]).
  split; [exact D0|]. split; [|split].
  - rewrite E. pose proof (COS_bound ((a + b) / 2)) as CB. apply Rle_trans with (2 * 1 * sin (d / 2)); [apply Rmult_le_compat_r; lra|lra].
  - assert (C : sin (d / 2) <= cos ((a + b) / 2)). { rewrite <- sin_shift. apply sin_incr_1; unfold d; lra. } rewrite E. assert (d / 4 * (d / 4) <= cos ((a + b) / 2) * sin (d / 2)) by (apply Rmult_le_compat; lra). lra.
  - intros Y9. assert (CA : 3 / 10 <= cos a). { unfold a. rewrite cos_asin by lra. replace (3 / 10) with (sqrt (3 / 10 * (3 / 10))) by (apply sqrt_square; lra). apply sqrt_le_1_alt. unfold Rsqr. nra. }
    assert (CM : 3 / 10 <= cos ((a + b) / 2)) by (apply Rle_trans with (cos a); [exact CA|]; apply cos_decr_1; lra). rewrite E. assert (3 / 10 * (d / 4) <= cos ((a + b) / 2) * sin (d / 2)) by (apply Rmult_le_compat; lra). lra.
Qed.
(* every point of the sphere has a latitude and a longitude *)
Lemma sphere_ll d : on_sphere d -> exists p l, - (PI / 2) <= p <= PI / 2 /\ d = sphere_at p l.
Proof.
  intros SD.
  assert (PL : exists l, px3 d = sqrt (flat d) * cos l /\ py3 d = sqrt (flat d) * sin l).
  { destruct (Rle_lt_or_eq_dec 0 (flat d)) as [FW|FW]; [unfold flat; nra| |].
    - assert (NW : 0 < sqrt (flat d)) by (apply sqrt_lt_R0; exact FW). assert (EW : sqrt (flat d) * sqrt (flat d) = flat d) by (apply sqrt_sqrt; lra).
      destruct (Rle_dec 0 (py3 d)) as [C|C].
      + destruct (turn_to 1 0 (px3 d) (py3 d) 1 (sqrt (flat d)) 0) as (a & _ & H1 & H2 & _); try (rewrite ?cos_0, ?sin_0; lra); try exact NW; try exact EW. exists a. auto.
      + destruct (turn_to (-1) 0 (px3 d) (py3 d) 1 (sqrt (flat d)) PI) as (a & _ & H1 & H2 & _); try (rewrite ?cos_PI, ?sin_PI; lra); try exact NW; try exact EW. exists a. auto.
    - exists 0. rewrite <- FW, sqrt_0. unfold flat in FW. assert (X0 : px3 d = 0) by nra. assert (Y0 : py3 d = 0) by nra. rewrite X0, Y0. split; ring. }
  destruct PL as (l & L1 & L2). exists (asin (pz3 d / len3 d)), l. split; [apply asin_bound|]. apply (sphere_of d d 1 l SD); try lra.
Qed.
Lemma lat_gap p l q m : - (PI / 2) <= p <= PI / 2 -> - (PI / 2) <= q <= PI / 2 -> 2 * sin (Rabs (p - q) / 2) <= chd (sphere_at p l) (sphere_at q m).
Proof.
  intros P Q. pose proof PI_tight as PT. unfold chd. rewrite haversine. assert (C1 : 0 <= cos p) by (apply cos_ge_0; lra). assert (C2 : 0 <= cos q) by (apply cos_ge_0; lra).
  assert (AB : 0 <= Rabs (p - q) <= PI) by (split; [apply Rabs_pos|apply Rabs_le; lra]). assert (S0 : 0 <= sin (Rabs (p - q) / 2)) by (apply sin_ge_0; lra).
  rewrite <- (sqrt_square (2 * sin (Rabs (p - q) / 2))) by lra. apply sqrt_le_1_alt.
  assert (SQ : sin (Rabs (p - q) / 2) * sin (Rabs (p - q) / 2) = sin ((p - q) / 2) * sin ((p - q) / 2)).
  { unfold Rabs. destruct Rcase_abs; [|reflexivity]. replace (- (p - q) / 2) with (- ((p - q) / 2)) by field. rewrite sin_neg. ring. }
  assert (0 <= cos p * cos q * (sin ((l - m) / 2) * sin ((l - m) / 2))). { apply Rmult_le_pos; [apply Rmult_le_pos; assumption|]. apply Rle_0_sqr. }
  replace (2 * sin (Rabs (p - q) / 2) * (2 * sin (Rabs (p - q) / 2))) with (4 * (sin (Rabs (p - q) / 2) * sin (Rabs (p - q) / 2))) by ring. rewrite SQ. lra.
Qed.

(** ** The latitudes of a cap *)
Lemma cap_lat fatan2 fasin c : accurate_atan2 fatan2 -> accurate_asin fasin -> valid_cap c -> 0 <= B2R (radius c) ->
  let p := latitude fatan2 (center c) in let a := chord_to_angle fasin (radius c) in
  finite p /\ Rabs (B2R p) <= pi / 2 /\ finite a /\ 0 - 1 / 2 ^ 49 <= B2R a <= PI + 1 / 2 ^ 49 /\
  (forall q l, - (PI / 2) <= q <= PI / 2 -> apart (direction (center c)) (sphere_at q l) <= sqrt (B2R (radius c)) ->
     Rabs (B2R p - q) <= B2R a + 1 / 2 ^ 21 /\ (B2R (radius c) <= 7 / 2 -> Rabs (B2R p - q) <= B2R a + 1 / 2 ^ 44)) /\
  (forall s : R, s = 1 \/ s = -1 -> apart (direction (center c)) (sphere_at (s * (PI / 2)) 0) >= sqrt (B2R (radius c)) + 1 / 2 ^ 45 -> Rabs (B2R p - s * (PI / 2)) >= B2R a + 1 / 2 ^ 48) /\
  (forall s : R, s = 1 \/ s = -1 -> apart (direction (center c)) (sphere_at (s * (PI / 2)) 0) <= sqrt (B2R (radius c)) - 1 / 2 ^ 45 -> Rabs (B2R p - s * (PI / 2)) <= B2R a - 1 / 2 ^ 48).
Proof.
  intros A AS V R0. cbv zeta. destruct (valid_cap_facts c V) as (U & FC & FR & R4). destruct (to_latlng_ok fatan2 (center c) A U) as [Vp D]. set (ll := ll_of_point fatan2 (center c)) in *.
  pose proof Vp as Vp'. apply okp_ll in Vp'. destruct Vp' as (F1 & F2 & B1 & B2). assert (EL : lat ll = latitude fatan2 (center c)) by reflexivity. set (p := latitude fatan2 (center c)) in *. rewrite EL in *.
  destruct (rad_near fasin (radius c) AS FR ltac:(lra)) as (x & X & Dx & FA & DA). set (a := chord_to_angle fasin (radius c)) in *. set (r := B2R (radius c)) in *.
  apply Rabs_le_inv in Dx, DA. pose proof PI_tight as PT. pose proof pi_PI as PP. pose proof (asin_bound x) as XB. assert (X0 : 0 <= asin x) by (rewrite <- asin_0; apply asin_mono; lra).
  split; [exact F1|]. split; [apply Rabs_le; lra|]. split; [exact FA|]. split; [lra|].
  assert (PL : place ll = sphere_at (B2R p) (B2R (lng ll))) by (unfold place; rewrite EL; reflexivity).
  (* the poles have no longitude *)
  assert (POLE : forall s m, s = 1 \/ s = -1 -> chd (sphere_at (B2R p) m) (sphere_at (s * (PI / 2)) 0) = 2 * sin (Rabs (B2R p - s * (PI / 2)) / 2)).
  { intros s m Hs. unfold chd. rewrite haversine. assert (C0 : cos (s * (PI / 2)) = 0). { destruct Hs as [-> | ->]; [rewrite Rmult_1_l; apply cos_PI2|]. replace (-1 * (PI / 2)) with (- (PI / 2)) by ring. rewrite cos_neg. apply cos_PI2. }
    rewrite C0. assert (AB : 0 <= Rabs (B2R p - s * (PI / 2)) <= PI) by (split; [apply Rabs_pos|apply Rabs_le; destruct Hs; subst s; lra]). assert (S0 : 0 <= sin (Rabs (B2R p - s * (PI / 2)) / 2)) by (apply sin_ge_0; lra).
    rewrite <- (sqrt_square (2 * sin (Rabs (B2R p - s * (PI / 2)) / 2))) by lra. f_equal.
    assert (SQ : forall w, sin (Rabs w / 2) * sin (Rabs w / 2) = sin (w / 2) * sin (w / 2)). { intros w. unfold Rabs. destruct Rcase_abs; [|reflexivity]. replace (- w / 2) with (- (w / 2)) by field. rewrite sin_neg. ring. }
    pose proof (SQ (B2R p - s * (PI / 2))) as Q. set (k := sin (Rabs _ / 2)) in *. set (k' := sin ((B2R p - _) / 2)) in *. replace (2 * k * (2 * k)) with (4 * (k * k)) by ring. rewrite Q. ring. }
  split; [|split].
  - intros q l Q DQ. pose proof (lat_gap (B2R p) (B2R (lng ll)) q l ltac:(lra) Q) as G. rewrite <- PL in G. pose proof (chd_tri (place ll) (direction (center c)) (sphere_at q l)) as T. change (apart (direction (center c)) (sphere_at q l)) with (chd (direction (center c)) (sphere_at q l)) in DQ.
    set (h := Rabs (B2R p - q) / 2) in *. assert (H0 : 0 <= h <= PI / 2) by (unfold h; split; [pose proof (Rabs_pos (B2R p - q)); lra|]; assert (Rabs (B2R p - q) <= PI) by (apply Rabs_le; lra); lra).
    assert (HH : Rabs (B2R p - q) = 2 * h) by (unfold h; lra). rewrite HH. set (y := Rmin 1 (x + 1 / 2 ^ 48)). assert (YB : x <= y /\ y <= 1 /\ y <= x + 1 / 2 ^ 48) by (unfold y, Rmin; destruct Rle_dec; lra).
    assert (SH : sin h <= y). { pose proof (SIN_bound h). unfold y, Rmin. destruct Rle_dec; lra. }
    assert (HY : h <= asin y). { rewrite <- (asin_sin h) by lra. pose proof (sin_ge_0 h ltac:(lra) ltac:(lra)). apply asin_mono; lra. }
    destruct (asin_gap x y ltac:(lra) ltac:(lra) ltac:(lra)) as (G0 & G1 & G2 & G3). set (g := asin y - asin x) in *. split.
    + assert (g <= 3 / 4 / 2 ^ 22). { apply Rnot_lt_le. intros L. assert (3 / 4 / 2 ^ 22 * (3 / 4 / 2 ^ 22) < g * g) by (apply Rmult_le_0_lt_compat; lra). lra. } unfold g in *. lra.
    + intros R7. assert (SR : sqrt r <= 15 / 8). { rewrite <- (sqrt_square (15 / 8)) by lra. apply sqrt_le_1_alt. lra. } specialize (G3 ltac:(lra)). unfold g in *. lra.
  - intros s Hs DS. pose proof (POLE s (B2R (lng ll)) Hs) as PO. rewrite <- PL in PO. change (apart (direction (center c)) (sphere_at (s * (PI / 2)) 0)) with (chd (direction (center c)) (sphere_at (s * (PI / 2)) 0)) in DS. pose proof (chd_tri (direction (center c)) (place ll) (sphere_at (s * (PI / 2)) 0)) as T. rewrite (chd_sym (direction (center c)) (place ll)) in T.
    set (h := Rabs (B2R p - s * (PI / 2)) / 2) in *. assert (H0 : 0 <= h <= PI / 2) by (unfold h; split; [pose proof (Rabs_pos (B2R p - s * (PI / 2))); lra|]; assert (Rabs (B2R p - s * (PI / 2)) <= PI) by (apply Rabs_le; destruct Hs; subst s; lra); lra).
    assert (HH : Rabs (B2R p - s * (PI / 2)) = 2 * h) by (unfold h; lra). rewrite HH. pose proof (SIN_bound h) as SB. destruct (asin_gap x (sin h) ltac:(lra) ltac:(lra) ltac:(lra)) as (_ & G1 & _). rewrite asin_sin in G1 by lra. lra.
  - intros s Hs DS. pose proof (POLE s (B2R (lng ll)) Hs) as PO. rewrite <- PL in PO. change (apart (direction (center c)) (sphere_at (s * (PI / 2)) 0)) with (chd (direction (center c)) (sphere_at (s * (PI / 2)) 0)) in DS. pose proof (chd_tri (place ll) (direction (center c)) (sphere_at (s * (PI / 2)) 0)) as T.
    set (h := Rabs (B2R p - s * (PI / 2)) / 2) in *. assert (H0 : 0 <= h <= PI / 2) by (unfold h; split; [pose proof (Rabs_pos (B2R p - s * (PI / 2))); lra|]; assert (Rabs (B2R p - s * (PI / 2)) <= PI) by (apply Rabs_le; destruct Hs; subst s; lra); lra).
    assert (HH : Rabs (B2R p - s * (PI / 2)) = 2 * h) by (unfold h; lra). rewrite HH. pose proof (SIN_bound h) as SB. pose proof (sin_ge_0 h ltac:(lra) ltac:(lra)) as SG. destruct (asin_gap (sin h) x ltac:(lra) ltac:(lra) ltac:(lra)) as (_ & G1 & _). rewrite asin_sin in G1 by lra. lra.
Qed.

(** ** C123 The bounding rectangle of a cap
    Promised: it contains the cap.  Proved for caps around the north pole that do not reach
    the south pole; for the others it is false. *)
Definition NORTH : CapSpec.pos := Pos 0 0 1.
Definition SOUTH : CapSpec.pos := Pos 0 0 (-1).
Lemma north_at : sphere_at (1 * (PI / 2)) 0 = NORTH.
Proof. unfold sphere_at, NORTH. rewrite Rmult_1_l, cos_PI2, sin_PI2, !Rmult_0_r. reflexivity. Qed.
Lemma south_at : sphere_at (-1 * (PI / 2)) 0 = SOUTH.
Proof. unfold sphere_at, SOUTH. replace (-1 * (PI / 2)) with (- (PI / 2)) by ring. rewrite cos_neg, sin_neg, cos_PI2, sin_PI2, !Rmult_0_r. reflexivity. Qed.

Theorem C123_cap_rect_bound_partial : forall fsin fcos fatan2 fasin c, accurate_atan2 fatan2 -> accurate_asin fasin -> valid_cap c -> 0 <= B2R (radius c) ->
  apart (direction (center c)) NORTH <= sqrt (B2R (radius c)) - 1 / 2 ^ 45 -> apart (direction (center c)) SOUTH >= sqrt (B2R (radius c)) + 1 / 2 ^ 45 ->
  let r := cap_rect_bound fsin fcos fatan2 fasin c in
  rect_is_valid r = true /\
  forall d, in_disc (center c) (B2R (radius c)) d -> near_rectangle r (1 / 2 ^ 20) d /\ (B2R (radius c) <= 7 / 2 -> near_rectangle r (1 / 2 ^ 43) d).
Proof.
  intros fsin fcos fatan2 fasin c A AS V R0 HN HS. cbv zeta. destruct (cap_lat fatan2 fasin c A AS V R0) as (FP & BP & FA & BA & IN & OUT & INP). cbv zeta in *. destruct (valid_cap_facts c V) as (U & FC & FR & R4).
  set (p := latitude fatan2 (center c)) in *. set (a := chord_to_angle fasin (radius c)) in *. pose proof pi_PI as PP. pose proof PI_tight as PT. apply Rabs_le_inv in BP.
  rewrite <- north_at in HN. rewrite <- south_at in HS. apply (INP 1 (or_introl eq_refl)) in HN. apply (OUT (-1) (or_intror eq_refl)) in HS.
  rewrite Rabs_left1 in HN by lra. rewrite Rabs_pos_eq in HS by lra.
  destruct (half3 _ _ (fsub_result _ _ FP FA) ltac:(apply Rabs_le; lra)) as (FL & _ & EL). destruct (half3 _ _ (fadd_result _ _ FP FA) ltac:(apply Rabs_le; lra)) as (FH & _ & EH).
  destruct FRAC_PI_2_val as [F2 V2]. unfold FRAC_PI_2 in *. assert (FM : finite (fdiv PI64 (of_int (-2)))) by (vm_compute; reflexivity).
  assert (VM : B2R (fdiv PI64 (of_int (-2))) = - (pi / 2)). { destruct half_neg as [FN VN]. rewrite <- VN. apply feq_B2R; [exact FM|exact FN|vm_compute; reflexivity]. }
  unfold cap_rect_bound. fold p a. assert (cap_is_empty c = false) as ->. { unfold cap_is_empty. destruct (flt_R (radius c) f0 FR eq_refl) as [K|K]; [change (B2R f0) with 0 in K; lra|reflexivity]. }
  assert (flt (fsub p a) (fdiv PI64 (of_int (-2))) = false) as ->. { destruct (flt_R _ _ FL FM) as [K|K]; [exfalso; lra|reflexivity]. }
  assert (fgt (fadd p a) (fdiv PI64 f2) = true) as ->. { unfold fgt. destruct (flt_R _ _ F2 FH) as [K|K]; [reflexivity|exfalso; lra]. }
  cbn [orb negb]. set (r := Rect _ _). pose proof FULL_valid as VJ. assert (NV : ~ void (circ s1_FULL)) by (intros H; apply (H 0), Arc_FULL).
  assert (BT : forall q, between (fsub p a) (fdiv PI64 f2) (Fin q) <-> B2R (fsub p a) <= q <= pi / 2). { intros q. unfold between. rewrite (ev_fin _ FL), (ev_fin _ F2), V2. reflexivity. }
  assert (OK : okz r).
  { unfold valid_zone, r. cbn [rlat rlng lo1 hi1]. split; [exact FL|]. split; [apply finite_number, F2|]. split; [lra|]. split; [rewrite (ev_fin _ F2), V2; cbn [ele]; lra|]. split; [exact VJ|].
    split; intros H; exfalso; [apply (H (Fin (pi / 2))), BT; lra|apply NV, H]. }
  split; [apply rect_is_valid_spec; exact OK|]. intros d [SD DD]. destruct (sphere_ll d SD) as (q & l & Q & ED).
  assert (DC : apart (direction (center c)) (sphere_at q l) <= sqrt (B2R (radius c))). { rewrite <- ED. unfold apart. apply sqrt_le_1_alt. exact DD. }
  destruct (IN q l Q DC) as [I1 I2].
  assert (G : forall e, 1 / 2 ^ 44 <= e -> Rabs (B2R p - q) <= B2R a + e -> near_rectangle r (e + 1 / 2 ^ 45) d).
  { intros e He I. apply Rabs_le_inv in I. assert (exists q', B2R (fsub p a) <= q' <= pi / 2 /\ Rabs (q' - q) <= e + 4 * ulp1) as (q' & Q1 & Q2).
    { destruct (Rle_dec q (B2R (fsub p a))) as [C|C]; [exists (B2R (fsub p a)); split; [lra|apply Rabs_le; lra]|]. destruct (Rle_dec q (pi / 2)) as [C'|C']; [exists q; split; [lra|rewrite Rminus_eq_0, Rabs_R0; lra]|exists (pi / 2); split; [lra|apply Rabs_le; lra]]. }
    apply (near_more r (e + 4 * ulp1 + ulp1)); [lra|]. apply (near_rect r d q l _ _ q' OK ED (proj2 (BT q') Q1) Q2). exact (full_lng l). }
  split; [|intros R7].
  - apply (near_more r (1 / 2 ^ 21 + 1 / 2 ^ 45)); [lra|]. apply G; [lra|exact I1].
  - apply (near_more r (1 / 2 ^ 44 + 1 / 2 ^ 45)); [lra|]. apply G; [lra|apply I2, R7].
Qed.
Print Assumptions C123_cap_rect_bound_partial.

(* the rectangle of a cap around the south pole is empty *)
Theorem C123_south_refuted : forall fsin fcos fatan2 fasin c, accurate_atan2 fatan2 -> accurate_asin fasin -> valid_cap c -> 0 <= B2R (radius c) ->
  apart (direction (center c)) SOUTH <= sqrt (B2R (radius c)) - 1 / 2 ^ 45 -> apart (direction (center c)) NORTH >= sqrt (B2R (radius c)) + 1 / 2 ^ 45 ->
  forall d, ~ in_rect (cap_rect_bound fsin fcos fatan2 fasin c) d.
Proof.
  intros fsin fcos fatan2 fasin c A AS V R0 HS HN. destruct (cap_lat fatan2 fasin c A AS V R0) as (FP & BP & FA & BA & IN & OUT & INP). cbv zeta in *. destruct (valid_cap_facts c V) as (U & FC & FR & R4).
  set (p := latitude fatan2 (center c)) in *. set (a := chord_to_angle fasin (radius c)) in *. pose proof pi_PI as PP. pose proof PI_tight as PT. apply Rabs_le_inv in BP.
  rewrite <- north_at in HN. rewrite <- south_at in HS. apply (OUT 1 (or_introl eq_refl)) in HN. apply (INP (-1) (or_intror eq_refl)) in HS.
  rewrite Rabs_left1 in HN by lra. rewrite Rabs_pos_eq in HS by lra.
  destruct (half3 _ _ (fsub_result _ _ FP FA) ltac:(apply Rabs_le; lra)) as (FL & _ & EL). destruct (half3 _ _ (fadd_result _ _ FP FA) ltac:(apply Rabs_le; lra)) as (FH & _ & EH).
  destruct FRAC_PI_2_val as [F2 V2]. unfold FRAC_PI_2 in *. assert (FM : finite (fdiv PI64 (of_int (-2)))) by (vm_compute; reflexivity).
  assert (VM : B2R (fdiv PI64 (of_int (-2))) = - (pi / 2)). { destruct half_neg as [FN VN]. rewrite <- VN. apply feq_B2R; [exact FM|exact FN|vm_compute; reflexivity]. }
  unfold cap_rect_bound. fold p a. assert (cap_is_empty c = false) as ->. { unfold cap_is_empty. destruct (flt_R (radius c) f0 FR eq_refl) as [K|K]; [change (B2R f0) with 0 in K; lra|reflexivity]. }
  assert (flt (fsub p a) (fdiv PI64 (of_int (-2))) = true) as ->. { destruct (flt_R _ _ FL FM) as [K|K]; [reflexivity|exfalso; lra]. }
  assert (fgt (fadd p a) (fdiv PI64 f2) = false) as ->. { unfold fgt. destruct (flt_R _ _ F2 FH) as [K|K]; [exfalso; lra|reflexivity]. }
  intros d (q & t & ([Z1 Z2] & _) & _). cbn [rlat lo1 hi1 fst] in Z1, Z2. rewrite (ev_fin _ F2), V2 in Z1. rewrite (ev_fin _ FH) in Z2. cbn [ele] in Z1, Z2. lra.
Qed.
Print Assumptions C123_south_refuted.

(* the rectangle of a cap around both poles, such as the full cap, is the north pole *)
Theorem C123_both_refuted : forall fsin fcos fatan2 fasin c, accurate_atan2 fatan2 -> accurate_asin fasin -> valid_cap c -> 0 <= B2R (radius c) ->
  apart (direction (center c)) SOUTH <= sqrt (B2R (radius c)) - 1 / 2 ^ 45 -> apart (direction (center c)) NORTH <= sqrt (B2R (radius c)) - 1 / 2 ^ 45 ->
  forall d, in_rect (cap_rect_bound fsin fcos fatan2 fasin c) d -> apart d NORTH <= 1 / 2 ^ 52.
Proof.
  intros fsin fcos fatan2 fasin c A AS V R0 HS HN. destruct (cap_lat fatan2 fasin c A AS V R0) as (FP & BP & FA & BA & IN & OUT & INP). cbv zeta in *. destruct (valid_cap_facts c V) as (U & FC & FR & R4).
  set (p := latitude fatan2 (center c)) in *. set (a := chord_to_angle fasin (radius c)) in *. pose proof pi_PI as PP. pose proof PI_tight as PT. apply Rabs_le_inv in BP.
  rewrite <- north_at in HN. rewrite <- south_at in HS. apply (INP 1 (or_introl eq_refl)) in HN. apply (INP (-1) (or_intror eq_refl)) in HS.
  rewrite Rabs_left1 in HN by lra. rewrite Rabs_pos_eq in HS by lra.
  destruct (half3 _ _ (fsub_result _ _ FP FA) ltac:(apply Rabs_le; lra)) as (FL & _ & EL). destruct (half3 _ _ (fadd_result _ _ FP FA) ltac:(apply Rabs_le; lra)) as (FH & _ & EH).
  destruct FRAC_PI_2_val as [F2 V2]. unfold FRAC_PI_2 in *. assert (FM : finite (fdiv PI64 (of_int (-2)))) by (vm_compute; reflexivity).
  assert (VM : B2R (fdiv PI64 (of_int (-2))) = - (pi / 2)). { destruct half_neg as [FN VN]. rewrite <- VN. apply feq_B2R; [exact FM|exact FN|vm_compute; reflexivity]. }
  unfold cap_rect_bound. fold p a. assert (cap_is_empty c = false) as ->. { unfold cap_is_empty. destruct (flt_R (radius c) f0 FR eq_refl) as [K|K]; [change (B2R f0) with 0 in K; lra|reflexivity]. }
  assert (flt (fsub p a) (fdiv PI64 (of_int (-2))) = true) as ->. { destruct (flt_R _ _ FL FM) as [K|K]; [reflexivity|exfalso; lra]. }
  assert (fgt (fadd p a) (fdiv PI64 f2) = true) as ->. { unfold fgt. destruct (flt_R _ _ F2 FH) as [K|K]; [reflexivity|exfalso; lra]. }
  intros d (q & t & ([Z1 Z2] & _) & _ & E). cbn [rlat lo1 hi1 fst] in Z1, Z2. rewrite (ev_fin _ F2), V2 in Z1, Z2. cbn [ele] in Z1, Z2. subst d.
  assert (N : NORTH = sphere_at (PI / 2) t). { unfold NORTH, sphere_at. rewrite cos_PI2, sin_PI2, !Rmult_0_r. reflexivity. }
  rewrite N. change (apart ?x ?y) with (chd x y). eapply Rle_trans; [apply place_lip|]. rewrite Rminus_eq_0, Rabs_R0. assert (Rabs (q - PI / 2) <= ulp1) by (apply Rabs_le; lra). lra.
Qed.
Print Assumptions C123_both_refuted.

(* the rectangle of a cap around neither pole can be much too narrow *)
Theorem C123_narrow_refuted : exists c d, valid_cap c /\ in_disc (center c) (B2R (radius c)) d /\
  forall fsin fcos fatan2 fasin, accurate fsin sin -> accurate fcos cos -> accurate_atan2 fatan2 -> accurate_asin fasin ->
  ~ near_rectangle (cap_rect_bound fsin fcos fatan2 fasin c) (1 / 100) d.
Proof.
  set (w := lit 5902958103587057 (-59)). destruct (lit_val 5902958103587057 (-59) ltac:(lia) ltac:(lia)) as [Fw Vw]. fold w in Fw, Vw. change (bpow radix2 (-59)) with (/ 576460752303423488) in Vw.
  set (c := Cap CENTER_POINT w). pose proof PI_tight as PT. pose proof pi_PI as PP.
  assert (V : valid_cap c) by (split; [vm_compute; reflexivity|exact Fw]). assert (R0 : 0 <= B2R (radius c)) by (unfold c; cbn [radius]; lra).
  assert (DC : direction (center c) = sphere_at 0 0).
  { unfold direction, sphere_at, c, CENTER_POINT. cbn [center vx vy vz]. destruct f1_val as [_ V1]. rewrite V1. change (B2R f0) with 0. replace (1 * 1 + 0 * 0 + 0 * 0) with (1 * 1) by ring. rewrite sqrt_square by lra. rewrite cos_0, sin_0. f_equal; field. }
  exists c, (sphere_at 0 (5 / 100)). split; [exact V|]. split.
  { split; [apply sphere_at_on|]. rewrite DC. pose proof (place_lip 0 0 0 (5 / 100)) as PL. rewrite Rminus_eq_0, Rabs_R0, Rabs_left in PL by lra. destruct (chd_range _ _ (sphere_at_on 0 0) (sphere_at_on 0 (5 / 100))) as (C1 & C2 & _). rewrite <- C2.
    apply Rle_trans with (5 / 100 * (5 / 100)); [apply Rmult_le_compat; lra|]. unfold c. cbn [radius]. lra. }
  intros fsin fcos fatan2 fasin AS AC A AI. destruct (cap_lat fatan2 fasin c A AI V R0) as (FP & BP & FA & BA & IN & OUT & INP). cbv zeta in *.
  set (p := latitude fatan2 (center c)) in *. set (a := chord_to_angle fasin (radius c)) in *. apply Rabs_le_inv in BP.
  assert (SQ : sqrt (B2R (radius c)) <= 2 / 10). { rewrite <- (sqrt_square (2 / 10)) by lra. apply sqrt_le_1_alt. unfold c. cbn [radius]. lra. }
  assert (PD : forall s, s = 1 \/ s = -1 -> apart (direction (center c)) (sphere_at (s * (PI / 2)) 0) >= 1).
  { intros s Hs. rewrite DC. unfold apart. rewrite haversine. rewrite cos_0. apply Rle_ge. rewrite <- sqrt_1 at 1. apply sqrt_le_1_alt.
    assert (SC : sin ((0 - s * (PI / 2)) / 2) * sin ((0 - s * (PI / 2)) / 2) = 1 / 2).
    { pose proof (cos_2a_sin ((0 - s * (PI / 2)) / 2)) as C2. replace (2 * ((0 - s * (PI / 2)) / 2)) with (- (s * (PI / 2))) in C2 by field. rewrite cos_neg in C2. assert (C0 : cos (s * (PI / 2)) = 0). { destruct Hs as [-> | ->]; [rewrite Rmult_1_l; apply cos_PI2|]. replace (-1 * (PI / 2)) with (- (PI / 2)) by ring. rewrite cos_neg. apply cos_PI2. } lra. }
    rewrite SC. assert (C0 : cos (s * (PI / 2)) = 0). { destruct Hs as [-> | ->]; [rewrite Rmult_1_l; apply cos_PI2|]. replace (-1 * (PI / 2)) with (- (PI / 2)) by ring. rewrite cos_neg. apply cos_PI2. } rewrite C0. lra. }
  pose proof (OUT 1 (or_introl eq_refl) ltac:(pose proof (PD 1 (or_introl eq_refl)); lra)) as HN. pose proof (OUT (-1) (or_intror eq_refl) ltac:(pose proof (PD (-1) (or_intror eq_refl)); lra)) as HS.
  rewrite Rabs_left1 in HN by lra. rewrite Rabs_pos_eq in HS by lra.
  destruct (half3 _ _ (fsub_result _ _ FP FA) ltac:(apply Rabs_le; lra)) as (FL & _ & EL). destruct (half3 _ _ (fadd_result _ _ FP FA) ltac:(apply Rabs_le; lra)) as (FH & _ & EH).
  destruct FRAC_PI_2_val as [F2 V2]. unfold FRAC_PI_2 in *. assert (FM : finite (fdiv PI64 (of_int (-2)))) by (vm_compute; reflexivity).
  assert (VM : B2R (fdiv PI64 (of_int (-2))) = - (pi / 2)). { destruct half_neg as [FN VN]. rewrite <- VN. apply feq_B2R; [exact FM|exact FN|vm_compute; reflexivity]. }
  (* the centre *)
  assert (P0 : Rabs (B2R p) <= 1 / 2 ^ 40).
  { destruct (valid_cap_facts c V) as (U & _). destruct (to_latlng_ok fatan2 (center c) A U) as [_ D]. unfold place in D. rewrite DC in D. change (lat (ll_of_point fatan2 (center c))) with p in D.
    pose proof (lat_gap (B2R p) (B2R (lng (ll_of_point fatan2 (center c)))) 0 0 ltac:(lra) ltac:(lra)) as G. rewrite Rminus_0_r in G. assert (AB : 0 <= Rabs (B2R p) <= PI / 2) by (split; [apply Rabs_pos|apply Rabs_le; lra]). pose proof (sin_half (Rabs (B2R p) / 2) ltac:(lra)). lra. }
  destruct (longitude_ok fatan2 (center c) 0 1 A ltac:(repeat split) ltac:(lra)) as [LA (k & DL)].
  { rewrite cos_0. unfold c, CENTER_POINT. cbn [center vx]. destruct f1_val as [_ V1]. rewrite V1. ring. }
  { rewrite sin_0. unfold c, CENTER_POINT. cbn [center vy]. change (B2R f0) with 0. ring. }
  set (g := longitude fatan2 (center c)) in *. destruct LA as [Fg Bg]. apply Rabs_le_inv in DL.
  assert (K0 : k = 0%Z). { assert (-1 < IZR k < 1) by (split; apply (Rmult_lt_reg_r (2 * PI)); lra). assert (-1 < k < 1)%Z by (split; apply lt_IZR; lra). lia. } subst k. rewrite Rmult_0_r in DL.
  (* the width *)
  destruct (AS w Fw) as [Fs Ds]; [rewrite Vw; rewrite Rabs_pos_eq; lra|]. destruct (AC p FP) as [Fc Dc]; [apply Rabs_le; lra|]. apply Rabs_le_inv in Ds, Dc, P0.
  assert (S1 : 0 < sin (B2R w) < 1025 / 100000). { rewrite Vw. split; [apply sin_gt_0; lra|]. pose proof (sin_lt_x (5902958103587057 * / 576460752303423488) ltac:(lra)). lra. }
  assert (S2 : B2R w / 2 <= sin (B2R w)) by (apply sin_half; rewrite Vw; lra).
  assert (C1 : 99 / 100 <= cos (B2R p) <= 1). { pose proof (COS_bound (B2R p)). split; [|lra]. pose proof (sin2_cos2 (B2R p)) as Q. unfold Rsqr in Q. assert (Rabs (sin (B2R p)) <= 1 / 2 ^ 40) by (eapply Rle_trans; [apply sin_abs|apply Rabs_le; lra]). assert (0 <= cos (B2R p)) by (apply cos_ge_0; lra). assert (HS2 : sin (B2R p) * sin (B2R p) <= 1 / 2 ^ 40 * (1 / 2 ^ 40)) by (apply sq_abs_le; [lra|assumption]). apply Rnot_lt_le. intros L. assert (cos (B2R p) * cos (B2R p) <= 99 / 100 * (99 / 100)) by (apply Rmult_le_compat; lra). lra. }
  assert (Q0 : 4 / 1000 <= B2R (fsin w) / B2R (fcos p) <= 1036 / 100000).
  { split; [apply (Rmult_le_reg_r (B2R (fcos p))); [lra|]; unfold Rdiv at 2; rewrite Rmult_assoc, Rinv_l by lra; lra|]. apply (Rmult_le_reg_r (B2R (fcos p))); [lra|]. unfold Rdiv at 1. rewrite Rmult_assoc, Rinv_l by lra. lra. }
  destruct (half2 _ _ (fdiv_result _ _ Fs Fc ltac:(lra)) ltac:(apply Rabs_le; lra)) as (Fq & Vq & Eq). set (q := fdiv (fsin w) (fcos p)) in *.
  assert (Q1 : 0 <= B2R q) by (rewrite Vq; apply rnd_nonneg; lra). destruct (AI q Fq ltac:(lra)) as [Fa Da]. apply Rabs_le_inv in Da.
  pose proof (asin_ge (B2R q) ltac:(lra)) as A1.
  assert (A0 : 0 <= asin (B2R q) <= 21 / 1000).
  { assert (X0 : 0 <= asin (B2R q)) by (rewrite <- asin_0; apply asin_mono; lra). split; [exact X0|]. pose proof (asin_bound (B2R q)) as AB. pose proof (sin_half (asin (B2R q)) ltac:(lra)) as SH. rewrite sin_asin in SH by lra. lra. }
  set (aa := fasin q) in *.
  destruct (half2 _ _ (fsub_result _ _ Fg Fa) ltac:(apply Rabs_le; lra)) as (F3 & _ & E3). destruct (half2 _ _ (fadd_result _ _ Fg Fa) ltac:(apply Rabs_le; lra)) as (F4 & _ & E4).
  destruct (rem_turn _ F3) as (F5 & _ & _ & V5). specialize (V5 ltac:(lra)). destruct (rem_turn _ F4) as (F6 & _ & _ & V6). specialize (V6 ltac:(lra)).
  unfold cap_rect_bound. fold p a g. change (radius c) with w. fold a. assert (cap_is_empty c = false) as -> by (vm_compute; reflexivity).
  assert (flt (fsub p a) (fdiv PI64 (of_int (-2))) = false) as ->. { destruct (flt_R _ _ FL FM) as [K|K]; [exfalso; lra|reflexivity]. }
  assert (fgt (fadd p a) (fdiv PI64 f2) = false) as ->. { unfold fgt. destruct (flt_R _ _ F2 FH) as [K|K]; [exfalso; lra|reflexivity]. }
  cbn [orb negb]. assert (fle (fsin w) (fcos p) = true) as ->. { destruct (fle_R _ _ Fs Fc) as [K|K]; [reflexivity|exfalso; lra]. }
  fold q aa. intros (d' & (q' & t & [_ HK] & T & E) & D). destruct HK as [_ [k Hk]]. cbn [rlng slo shi snd] in Hk. rewrite V5, V6 in Hk. apply Rabs_le_inv in T.
  assert (AE : arc_end (B2R (fsub g aa)) (B2R (fadd g aa)) <= 22 / 1000). { unfold arc_end. destruct Rle_dec; lra. }
  assert (K0 : k = 0%Z). { assert (-1 < IZR k < 1) by (split; apply (Rmult_lt_reg_r (2 * pi)); lra). assert (-1 < k < 1)%Z by (split; apply lt_IZR; lra). lia. } subst k. rewrite Rmult_0_r, Rplus_0_r in Hk.
  (* the meridian at t is far from 5/100 *)
  assert (SD : 14 / 1000 <= sin (5 / 100 - t)) by (pose proof (sin_half (5 / 100 - t) ltac:(lra)); lra).
  subst d'. change (apart ?x ?y) with (chd x y) in D. destruct (chd_range _ _ (sphere_at_on 0 (5 / 100)) (sphere_at_on q' t)) as (C2 & C3 & _). set (z := chd _ _) in *. clearbody z. unfold dist2, sphere_at in C3. cbn [px3 py3 pz3] in C3. rewrite cos_0, sin_0, !Rmult_1_r in C3. rewrite sin_minus in SD.
  set (x := cos (5 / 100)) in *. set (y := sin (5 / 100)) in *. set (m := cos t) in *. set (n := sin t) in *. set (f := cos q') in *. set (h := sin q') in *.
  pose proof (sin2_cos2 t) as Q. unfold Rsqr in Q. fold m n in Q.
  assert (CS : (y * m - x * n) * (y * m - x * n) <= z * z).
  { rewrite C3. replace (y * m - x * n) with ((y - n * f) * m - (x - m * f) * n) by ring. set (e1 := x - m * f). set (e2 := y - n * f).
    apply Rle_trans with ((e1 * e1 + e2 * e2) * (n * n + m * m)). { pose proof (Rle_0_sqr (e2 * n + e1 * m)) as SQ'. unfold Rsqr in SQ'. lra. } rewrite Q. pose proof (Rle_0_sqr (0 - h)) as SQ'. unfold Rsqr in SQ'. lra. }
  assert (14 / 1000 * (14 / 1000) <= (y * m - x * n) * (y * m - x * n)) by (apply Rmult_le_compat; lra). assert (z * z <= 1 / 100 * (1 / 100)) by (apply Rmult_le_compat; lra). lra.
Qed.
Print Assumptions C123_narrow_refuted.

(* The hypotheses are met: the caps of radius 60 degrees around the poles and the full cap.
   The rectangle of the latter does not contain the centre of the cap. *)
Lemma pole_dist (z : f64) s : B2R z = s -> s = 1 \/ s = -1 -> direction (Vec f0 f0 z) = Pos 0 0 s.
Proof.
  intros E Hs. unfold direction. cbn [vx vy vz]. rewrite E. change (B2R f0) with 0. replace (0 * 0 + 0 * 0 + s * s) with 1 by (destruct Hs as [-> | ->]; ring). rewrite sqrt_1. f_equal; field.
Qed.
Example C123_hyps : let n := Cap (Vec f0 f0 f1) f1 in let s := Cap (Vec f0 f0 (of_int (-1))) f1 in
  (valid_cap n /\ 0 <= B2R (radius n) /\ apart (direction (center n)) NORTH <= sqrt (B2R (radius n)) - 1 / 2 ^ 45 /\ apart (direction (center n)) SOUTH >= sqrt (B2R (radius n)) + 1 / 2 ^ 45) /\
  (valid_cap s /\ 0 <= B2R (radius s) /\ apart (direction (center s)) SOUTH <= sqrt (B2R (radius s)) - 1 / 2 ^ 45 /\ apart (direction (center s)) NORTH >= sqrt (B2R (radius s)) + 1 / 2 ^ 45) /\
  (valid_cap cap_full /\ apart (direction (center cap_full)) SOUTH <= sqrt (B2R (radius cap_full)) - 1 / 2 ^ 45 /\ apart (direction (center cap_full)) NORTH <= sqrt (B2R (radius cap_full)) - 1 / 2 ^ 45).
Proof.
  cbv zeta. cbn [center radius]. destruct f1_val as [F1 V1]. destruct (of_int_val (-1) ltac:(lia)) as [Fm Vm]. destruct c4_val as [F4 V4].
  rewrite (pole_dist f1 1) by auto. rewrite (pole_dist (of_int (-1)) (-1)) by auto. rewrite V1, sqrt_1.
  assert (Z0 : forall s, apart (Pos 0 0 s) (Pos 0 0 s) = 0). { intros s. unfold apart, dist2. cbn [px3 py3 pz3]. replace ((0 - 0) * (0 - 0) + (0 - 0) * (0 - 0) + (s - s) * (s - s)) with 0 by ring. apply sqrt_0. }
  assert (Z2 : apart (Pos 0 0 1) (Pos 0 0 (-1)) = 2 /\ apart (Pos 0 0 (-1)) (Pos 0 0 1) = 2). { unfold apart, dist2. cbn [px3 py3 pz3]. split; (replace (_ + _ + _) with (2 * 2) by ring; apply sqrt_square; lra). }
  unfold NORTH, SOUTH. rewrite !Z0. destruct Z2 as [-> ->].
  split; [split; [split; [vm_compute; reflexivity|exact F1]|lra]|]. split; [split; [split; [vm_compute; reflexivity|exact F1]|lra]|]. split; [split; [vm_compute; reflexivity|exact F4]|].
  change (radius cap_full) with c4. rewrite V4. replace 4 with (2 * 2) by ring. rewrite sqrt_square by lra.
  assert (DC : direction (center cap_full) = Pos 1 0 0). { unfold direction. cbn [cap_full center CENTER_POINT vx vy vz]. rewrite V1. change (B2R f0) with 0. replace (1 * 1 + 0 * 0 + 0 * 0) with 1 by ring. rewrite sqrt_1. f_equal; field. }
  rewrite DC. assert (S2 : sqrt 2 <= 3 / 2). { rewrite <- (sqrt_square (3 / 2)) by lra. apply sqrt_le_1_alt. lra. }
  unfold apart, dist2. cbn [px3 py3 pz3]. split; replace (_ + _ + _) with 2 by ring; lra.
Qed.
