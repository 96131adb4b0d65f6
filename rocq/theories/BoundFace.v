(** The bounding rectangles of the six faces, and of all cells. *)
From Coq Require Import ZArith Reals Lra Lia Psatz Bool List Classical.
From Flocq Require Import Core.
From Verif Require Import Base Spec F64 F64Facts IntervalSpec CircleSpec RectSpec F64Arith F64Error F64Neg R1Model R1Proofs S1Model S1Proofs S1Ops VectorModel StuvModel AngleModel AngleProofs ExpandProofs CircleProofs PropsInterval PropsCircle
  RectModel RectProofs PropsRect PropsRect2 CapSpec CapModel StuvError CellIdModel HilbertModel HilbertSpec HilbertGeom CellSpec CellModel CellLattice CellProofs CellPoint CellVertex ChordProofs CapError CapCell
  PredicatesError PredicatesFloat PredicatesSound PredicatesStable PredicatesProofs CapEdgeFloat CapEdgeMain RegionSpec CoverProofs TrigModel TrigSpec TrigProofs TrigWitness PropsTrig PropsCap2 PropsDist
  BoundModel BoundSpec BoundProofs BoundCell.
Import ListNotations.
Open Scope R_scope.
Notation lat := AngleModel.lat.
Notation lng := AngleModel.lng.

Lemma eq_lng w : -1 <= w <= 1 -> - (PI / 4) <= atan w <= PI / 4 /\ 1 = sqrt (1 + w * w) * cos (atan w) /\ w = sqrt (1 + w * w) * sin (atan w).
Proof.
  intros B. assert (S : 0 < sqrt (1 + w * w)) by (apply sqrt_lt_R0; nra). split.
  - split.
    + rewrite <- atan_1, <- atan_opp. destruct (Req_dec (-1) w) as [<-|N]; [replace (- (1)) with (-1) by ring; lra|]. left. apply atan_increasing. lra.
    + rewrite <- atan_1. destruct (Req_dec 1 w) as [<-|N]; [lra|]. left. apply atan_increasing. lra.
  - rewrite cos_atan, sin_atan. unfold Rsqr. split; field; lra.
Qed.
Lemma quarter_lat w z : -1 <= z <= 1 -> let n := sqrt (1 + w * w + z * z) in - (PI / 4) <= asin (z / n) <= PI / 4.
Proof.
  intros B. cbv zeta. set (n := sqrt _). pose proof PI_tight as PT. assert (N : 0 < n) by (apply sqrt_lt_R0; nra). assert (NN : n * n = 1 + w * w + z * z) by (apply sqrt_sqrt; nra).
  assert (Q : sqrt 2 * sqrt 2 = 2) by (apply sqrt_sqrt; lra). assert (P : 0 < sqrt 2) by (apply sqrt_lt_R0; lra).
  assert (K : forall y, 0 <= y <= 1 -> y * y = z * z -> y / n <= sin (PI / 4)). { intros y Y E. rewrite sin_PI4. apply quot_le; try lra. nra. }
  pose proof (SIN_bound (PI / 4)) as SB. assert (R : asin (sin (PI / 4)) = PI / 4) by (apply asin_sin; lra).
  assert (H : - sin (PI / 4) <= z / n <= sin (PI / 4)).
  { destruct (Rle_dec 0 z) as [C|C].
    - split; [|apply K; lra]. assert (0 <= z / n) by (apply Rmult_le_pos; [lra|apply Rlt_le, Rinv_0_lt_compat, N]). assert (0 <= sin (PI / 4)) by (apply sin_ge_0; lra). lra.
    - split; [pose proof (K (- z) ltac:(lra) ltac:(ring)) as K1; unfold Rdiv in *; lra|]. assert (0 <= - z / n) by (apply Rmult_le_pos; [lra|apply Rlt_le, Rinv_0_lt_compat, N]). assert (0 <= sin (PI / 4)) by (apply sin_ge_0; lra). unfold Rdiv in *. lra. }
  split.
  - rewrite <- R at 1. rewrite <- asin_opp. apply asin_mono; lra.
  - rewrite <- R. apply asin_mono; lra.
Qed.
Lemma reduce_PI a : exists k : BinInt.Z, - PI <= a + 2 * PI * IZR k <= PI.
Proof.
  pose proof PI_tight as PT. exists (Int_part ((PI - a) / (2 * PI))). destruct (base_Int_part ((PI - a) / (2 * PI))) as [L U]. set (q := (PI - a) / (2 * PI)) in *. set (z := IZR (Int_part q)) in *.
  assert (E : 2 * PI * q = PI - a) by (unfold q; field; lra). assert (2 * PI * z <= 2 * PI * q) by (apply Rmult_le_compat_l; lra). assert (2 * PI * (q - 1) <= 2 * PI * z) by (apply Rmult_le_compat_l; lra). lra.
Qed.
Lemma full_lng l : exists t (n : BinInt.Z), circ s1_FULL t /\ Rabs t <= pi /\ Rabs (t - l - 2 * PI * IZR n) <= ulp1.
Proof.
  destruct (reduce_PI l) as [k K]. pose proof pi_PI as PP. pose proof pi_bounds as PB. set (a := l + 2 * PI * IZR k) in *.
  destruct (Rle_dec a (- pi)) as [C|C]; [|destruct (Rle_dec a pi) as [C'|C']].
  - exists (- pi), k. split; [apply Arc_FULL|]. split; apply Rabs_le; unfold a in *; lra.
  - exists a, k. split; [apply Arc_FULL|]. split; apply Rabs_le; unfold a in *; lra.
  - exists pi, k. split; [apply Arc_FULL|]. split; apply Rabs_le; unfold a in *; lra.
Qed.
Lemma arc_clamp J a b l e : Valid J -> nonempty J -> a <= l <= b -> 0 <= e -> Rabs (B2R (slo J) - a) <= e -> Rabs (B2R (slo J) + span J - b) <= e ->
  exists t (n : BinInt.Z), circ J t /\ Rabs t <= pi /\ Rabs (t - l - 2 * PI * IZR n) <= e + 2 * ulp1.
Proof.
  intros V N L E A B. pose proof (span_range J V N) as SR. pose proof pi_PI as PP. apply Rabs_le_inv in A, B.
  assert (M : exists t, B2R (slo J) <= t <= B2R (slo J) + span J /\ Rabs (t - l) <= e).
  { destruct (Rle_dec l (B2R (slo J))) as [C|C]; [|destruct (Rle_dec l (B2R (slo J) + span J)) as [C'|C']].
    - exists (B2R (slo J)). split; [lra|]. apply Rabs_le. lra.
    - exists l. split; [lra|]. apply Rabs_le. lra.
    - exists (B2R (slo J) + span J). split; [lra|]. apply Rabs_le. lra. }
  destruct M as (t & T & D). pose proof V as (_ & _ & VL & _). apply Rabs_le_inv in D. pose proof pi_bounds as PB. destruct (Rle_dec t pi) as [C|C].
  - exists t, 0%Z. split; [apply arc_span; [exact N|exists 0%Z; lra]|]. split; apply Rabs_le; lra.
  - exists (t - 2 * pi), (- 1)%Z. split; [apply arc_span; [exact N|exists 1%Z; lra]|]. split; apply Rabs_le; lra.
Qed.

(** ** Constants *)
Lemma PI_4_val : finite PI_4 /\ B2R PI_4 = pi / 4.
Proof.
  assert (F : finite PI_4) by (vm_compute; reflexivity). split; [exact F|]. destruct (lit_val 7074237752028440 (-53) ltac:(lia) ltac:(lia)) as [FL VL].
  rewrite (feq_B2R PI_4 (lit 7074237752028440 (-53)) F FL ltac:(vm_compute; reflexivity)), VL, pi_num. change (bpow radix2 (-53)) with (/ 9007199254740992). lra.
Qed.
Lemma mPI_4_val : finite (fneg PI_4) /\ B2R (fneg PI_4) = - (pi / 4).
Proof. destruct PI_4_val as [F V]. destruct (fneg_val PI_4 F) as [Fn Vn]. split; [exact Fn|]. rewrite Vn, V. reflexivity. Qed.
Lemma three_val : finite (fmul (of_int 3) PI_4) /\ Rabs (B2R (fmul (of_int 3) PI_4) - 3 * pi / 4) <= ulp1.
Proof.
  destruct PI_4_val as [F V]. destruct (of_int_val 3 ltac:(lia)) as [F3 V3]. pose proof pi_bounds as PB. pose proof (fmul_result _ _ F3 F) as R. rewrite V3, V in R.
  destruct (half2 _ _ R ltac:(apply Rabs_le; lra)) as (FR & _ & E). split; [exact FR|]. apply Rabs_le. lra.
Qed.
Lemma mthree_val : finite (fmul (of_int (-3)) PI_4) /\ Rabs (B2R (fmul (of_int (-3)) PI_4) + 3 * pi / 4) <= ulp1.
Proof.
  destruct PI_4_val as [F V]. destruct (of_int_val (-3) ltac:(lia)) as [F3 V3]. pose proof pi_bounds as PB. pose proof (fmul_result _ _ F3 F) as R. rewrite V3, V in R.
  destruct (half2 _ _ R ltac:(apply Rabs_le; lra)) as (FR & _ & E). split; [exact FR|]. apply Rabs_le. lra.
Qed.
Lemma new_plain a b : angle a -> angle b -> - pi < B2R a -> - pi < B2R b -> s1_new a b = S1 a b.
Proof.
  intros [Fa Ra] [Fb Rb] A B. assert (FM : finite (fneg PI64)) by reflexivity. unfold s1_new.
  destruct (feq_R a (fneg PI64) Fa FM) as [E|_]; [rewrite mpi_val in E; lra|]. destruct (feq_R b (fneg PI64) Fb FM) as [E|_]; [rewrite mpi_val in E; lra|]. reflexivity.
Qed.

(** ** The faces around the equator *)
Lemma eps_val : finite DBL_EPSILON /\ B2R DBL_EPSILON = ulp1.
Proof. destruct (lit_val 1 (-52) ltac:(lia) ltac:(lia)) as [F V]. split; [exact F|]. unfold DBL_EPSILON. rewrite V. change (bpow radix2 (-52)) with ulp1. lra. Qed.
Lemma grow_face r : okz r -> ~ void (zset r) -> ~ seam (rlng r) -> okz (rect_expanded r (LL DBL_EPSILON f0)) /\ subset (zset r) (zset (rect_expanded r (LL DBL_EPSILON f0))).
Proof.
  intros V N S. destruct eps_val as [FE VE]. destruct f0_val as [F0 V0]. destruct (okz_ends r V N) as (_ & _ & _ & NW & _). apply grow_sub; auto; cbn [lat lng]; [lra|].
  destruct (C88_expanded_partial (rlng r) f0 (okz_lng r V) NW S F0 ltac:(lra)) as (_ & W & _). exact W.
Qed.
Lemma equator_face a b c f : angle a -> angle b -> - pi < B2R a -> - pi < B2R b -> Rabs (B2R a - (c - PI / 4)) <= 3 * ulp1 -> Rabs (arc_end (B2R a) (B2R b) - (c + PI / 4)) <= 3 * ulp1 ->
  (forall x y, -1 <= x <= 1 -> -1 <= y <= 1 -> exists w z, -1 <= w <= 1 /\ -1 <= z <= 1 /\ px3 (face_pos f x y) = cos c * 1 - sin c * w /\ py3 (face_pos f x y) = sin c * 1 + cos c * w /\ pz3 (face_pos f x y) = z) ->
  let r := rect_expanded (Rect (R1 (fneg PI_4) PI_4) (s1_new a b)) (LL DBL_EPSILON f0) in
  okz r /\ forall d, in_patch f (-1) 1 (-1) 1 d -> near_area (lo1 (rlat r)) (hi1 (rlat r)) (slo (rlng r)) (shi (rlng r)) (104 * u) d.
Proof.
  intros Ha Hb La Lb DA DB FP. cbv zeta. rewrite (new_plain a b Ha Hb La Lb). set (r0 := Rect (R1 (fneg PI_4) PI_4) (S1 a b)). pose proof pi_bounds as PB. pose proof pi_PI as PP.
  destruct PI_4_val as [FP4 VP4]. destruct mPI_4_val as [FM4 VM4]. pose proof Ha as [Fa Ra]. pose proof Hb as [Fb Rb].
  assert (VJ : Valid (S1 a b)). { unfold Valid, valid_arc. cbn [slo shi]. repeat split; lra || assumption. }
  assert (SPN : span (S1 a b) = arc_end (B2R a) (B2R b) - B2R a) by reflexivity. apply Rabs_le_inv in DA, DB.
  assert (NJ : nonempty (S1 a b)) by (unfold nonempty; cbn [slo shi]; lra). assert (NV : ~ void (circ (S1 a b))) by (apply not_void; assumption).
  assert (BT : forall p, between (fneg PI_4) PI_4 (Fin p) <-> - (pi / 4) <= p <= pi / 4). { intros p. unfold between. rewrite (ev_fin _ FM4), (ev_fin _ FP4), VM4, VP4. reflexivity. }
  assert (OK : okz r0).
  { unfold valid_zone, r0. cbn [rlat rlng lo1 hi1]. split; [exact FM4|]. split; [apply finite_number, FP4|]. split; [lra|]. split; [rewrite (ev_fin _ FP4); cbn [ele]; lra|]. split; [exact VJ|].
    split; intros H; exfalso; [apply (H (Fin 0)), BT; lra|apply NV, H]. }
  assert (NZ : ~ void (zset r0)). { intros H. apply (zset_void r0 OK) in H. apply (H (Fin 0)), BT. lra. }
  assert (SM : ~ seam (rlng r0)). { unfold seam, r0. cbn [rlng slo shi]. rewrite tiny_eq. intros [H1 H2]. unfold arc_end in DB. destruct Rle_dec; lra. }
  destruct (grow_face r0 OK NZ SM) as [OK1 SUB]. split; [exact OK1|]. intros d (SD & x & y & t & Hx & Hy & T & E1 & E2 & E3). apply (near_sub _ _ _ _ SUB).
  destruct (FP x y Hx Hy) as (w & z & Hw & Hz & P1 & P2 & P3). set (p := face_pos f x y) in *. destruct (eq_lng w Hw) as (LB & L1 & L2).
  assert (FL : flat p = 1 + w * w). { unfold flat. rewrite P1, P2. pose proof (sin2_cos2 c) as Q. unfold Rsqr in Q. transitivity ((sin c * sin c + cos c * cos c) * (1 + w * w)); [ring|rewrite Q; ring]. }
  assert (G1 : px3 p = sqrt (flat p) * cos (c + atan w)). { rewrite FL, cos_plus, P1. rewrite L2 at 1. rewrite L1 at 1. ring. }
  assert (G2 : py3 p = sqrt (flat p) * sin (c + atan w)). { rewrite FL, sin_plus, P2. rewrite L2 at 1. rewrite L1 at 1. ring. }
  pose proof (sphere_of p d t (c + atan w) SD T E1 E2 E3 G1 G2) as ED. unfold len3 in ED. rewrite FL, P3 in ED. pose proof (quarter_lat w z Hz) as QL. cbv zeta in QL. set (ph := asin _) in *.
  destruct (clamp_mid (- (pi / 4)) (pi / 4) (- (PI / 4)) (PI / 4) ph ulp1 ltac:(apply Rabs_le; lra) ltac:(apply Rabs_le; lra) (or_intror QL)) as (q & Q1 & Q2).
  rewrite Rmin_left, Rmax_right in Q1 by lra.
  replace (104 * u) with (ulp1 + 51 * ulp1) by lra. apply (near_rect r0 d ph (c + atan w) _ _ q OK ED (proj2 (BT q) Q1) Q2).
  destruct (arc_clamp (S1 a b) (c - PI / 4) (c + PI / 4) (c + atan w) (3 * ulp1) VJ NJ ltac:(lra) ltac:(lra)) as (s & n & H1 & H2 & H3); [apply Rabs_le; cbn [slo]; lra|rewrite SPN; apply Rabs_le; cbn [slo]; lra|].
  exists s, n. split; [exact H1|]. split; [exact H2|]. lra.
Qed.

(** ** The faces at the poles *)
Lemma asin_lip x y : 0 <= x <= 4 / 5 -> 0 <= y <= 4 / 5 -> Rabs (asin x - asin y) <= 4 * Rabs (x - y).
Proof.
  intros HX HY. pose proof PI_tight as PT. set (a := asin x). set (b := asin y). pose proof (asin_bound x) as AB. pose proof (asin_bound y) as BB. fold a in AB. fold b in BB.
  assert (A0 : 0 <= a) by (unfold a; rewrite <- asin_0; apply asin_mono; lra). assert (B0 : 0 <= b) by (unfold b; rewrite <- asin_0; apply asin_mono; lra).
  assert (SX : sin a = x) by (apply sin_asin; lra). assert (SY : sin b = y) by (apply sin_asin; lra).
  assert (C : forall s z, s = asin z -> 0 <= z <= 4 / 5 -> 3 / 5 <= cos s). { intros s z -> Hz. rewrite cos_asin by lra. replace (3 / 5) with (sqrt (3 / 5 * (3 / 5))) by (apply sqrt_square; lra). apply sqrt_le_1_alt. unfold Rsqr. nra. }
  pose proof (C a x eq_refl HX) as CA. pose proof (C b y eq_refl HY) as CB.
  assert (CM : 3 / 5 <= cos ((a + b) / 2)). { destruct (Rle_dec a b) as [H|H]; [apply Rle_trans with (cos b)|apply Rle_trans with (cos a)]; try assumption; apply cos_decr_1; lra. }
  assert (E : x - y = 2 * cos ((a + b) / 2) * sin ((a - b) / 2)) by (rewrite <- SX, <- SY; apply form4).
  assert (S2 : Rabs (sin ((a - b) / 2)) <= 5 / 6 * Rabs (x - y)). { rewrite E, Rabs_mult, (Rabs_pos_eq (2 * cos ((a + b) / 2))) by lra. pose proof (Rabs_pos (sin ((a - b) / 2))). nra. }
  assert (H : Rabs ((a - b) / 2) <= 2 * (5 / 6 * Rabs (x - y))) by (apply sin_small; [apply Rabs_le; lra|exact S2]).
  unfold Rdiv in H. rewrite Rabs_mult, (Rabs_pos_eq (/ 2)) in H by lra. pose proof (Rabs_pos (x - y)). lra.
Qed.
Lemma third_val : finite (fsqrt (fdiv f1 (of_int 3))) /\ 0 <= B2R (fsqrt (fdiv f1 (of_int 3))) <= 4 / 5 /\ Rabs (B2R (fsqrt (fdiv f1 (of_int 3))) - sqrt (1 / 3)) <= ulp1.
Proof.
  set (s := fsqrt (fdiv f1 (of_int 3))). assert (F : finite s) by (vm_compute; reflexivity). split; [exact F|].
  destruct (lit_val 2600154457184654 (-52) ltac:(lia) ltac:(lia)) as [F1 V1]. destruct (lit_val 2600154457184655 (-52) ltac:(lia) ltac:(lia)) as [F2 V2]. change (bpow radix2 (-52)) with (/ 4503599627370496) in *.
  assert (L : fle (lit 2600154457184654 (-52)) s = true) by (vm_compute; reflexivity). assert (U : fle s (lit 2600154457184655 (-52)) = true) by (vm_compute; reflexivity).
  destruct (fle_R _ _ F1 F) as [L'|]; [|discriminate]. destruct (fle_R _ _ F F2) as [U'|]; [|discriminate]. rewrite V1 in L'. rewrite V2 in U'.
  assert (Q1 : 2600154457184654 * / 4503599627370496 <= sqrt (1 / 3)). { rewrite <- (sqrt_square (2600154457184654 * / 4503599627370496)) by lra. apply sqrt_le_1_alt. lra. }
  assert (Q2 : sqrt (1 / 3) <= 2600154457184655 * / 4503599627370496). { rewrite <- (sqrt_square (2600154457184655 * / 4503599627370496)) by lra. apply sqrt_le_1_alt. lra. }
  split; [lra|]. apply Rabs_le. lra.
Qed.
Lemma pole_lat fasin : accurate_asin fasin -> finite (POLE_MIN_LAT fasin) /\ 0 <= B2R (POLE_MIN_LAT fasin) <= 1 /\ Rabs (B2R (POLE_MIN_LAT fasin) - asin (sqrt (1 / 3))) <= 12 * ulp1.
Proof.
  intros A. destruct third_val as (F & B & D). destruct (A _ F ltac:(lra)) as [FA DA]. rewrite e50_eq in DA. unfold POLE_MIN_LAT. set (s := fsqrt (fdiv f1 (of_int 3))) in *.
  assert (S3 : 1 / 2 <= sqrt (1 / 3) <= 4 / 5). { split; [rewrite <- (sqrt_square (1 / 2)) by lra|rewrite <- (sqrt_square (4 / 5)) by lra]; apply sqrt_le_1_alt; lra. }
  pose proof (asin_lip (B2R s) (sqrt (1 / 3)) B ltac:(lra)) as AL. set (g := asin (sqrt (1 / 3))) in *.
  assert (G : 1 / 2 <= g <= 7 / 8).
  { split; [unfold g; pose proof (asin_ge (sqrt (1 / 3)) ltac:(lra)); lra|]. pose proof PI_tight as PT.
    assert (PI4 : g <= PI / 4); [|lra]. rewrite <- (asin_sin (PI / 4)) by lra. pose proof (SIN_bound (PI / 4)). apply asin_mono; try lra. rewrite sin_PI4.
    assert (Q : sqrt 2 * sqrt 2 = 2) by (apply sqrt_sqrt; lra). assert (P : 0 < sqrt 2) by (apply sqrt_lt_R0; lra). assert (sqrt 2 <= 3 / 2) by nra.
    apply Rle_trans with (2 / 3); [rewrite <- (sqrt_square (2 / 3)) by lra; apply sqrt_le_1_alt; lra|]. apply (Rmult_le_reg_r (sqrt 2)); [exact P|]. unfold Rdiv at 2. rewrite Rmult_assoc, Rinv_l by lra. lra. }
  assert (EM : feq (fmul fhalf DBL_EPSILON) (lit 1 (-53)) = true) by (vm_compute; reflexivity). destruct (lit_val 1 (-53) ltac:(lia) ltac:(lia)) as [FH VH]. change (bpow radix2 (-53)) with (/ 9007199254740992) in VH.
  assert (FM : finite (fmul fhalf DBL_EPSILON)) by (vm_compute; reflexivity). pose proof (feq_B2R _ _ FM FH EM) as VM. rewrite VH in VM.
  apply Rabs_le_inv in D, DA, AL. pose proof (Rabs_le _ _ D) as D'. assert (AL' : 4 * Rabs (B2R s - sqrt (1 / 3)) <= 4 * ulp1) by lra.
  pose proof (fsub_result _ _ FA FM) as RS. destruct (half2 _ _ RS ltac:(apply Rabs_le; lra)) as (FR & _ & ER). split; [exact FR|]. rewrite VM in ER. split; [lra|]. apply Rabs_le. lra.
Qed.
Lemma pole_face fasin f (neg : bool) : accurate_asin fasin -> f = (if neg then 5%Z else 2%Z) ->
  exists lo hi : f64, face_rect fasin f = Some (Rect (R1 lo hi) s1_FULL) /\
  let r := rect_expanded (Rect (R1 lo hi) s1_FULL) (LL DBL_EPSILON f0) in
  okz r /\ forall d, in_patch f (-1) 1 (-1) 1 d -> near_area (lo1 (rlat r)) (hi1 (rlat r)) (slo (rlng r)) (shi (rlng r)) (104 * u) d.
Proof.
  intros A Ef. destruct (pole_lat fasin A) as (FP & BP & DP). set (P := POLE_MIN_LAT fasin) in *. pose proof pi_bounds as PB. pose proof pi_PI as PP. destruct FRAC_PI_2_val as [FH VH]. destruct half_neg as [FN VN]. unfold FRAC_PI_2 in *.
  destruct (of_int_val (-1) ltac:(lia)) as [F1 V1]. pose proof (fmul_result _ _ F1 FP) as RM. rewrite V1 in RM. destruct (half2 _ _ RM ltac:(apply Rabs_le; lra)) as (FMP & _ & EMP).
  set (lo := if neg then fdiv (fneg PI64) f2 else P). set (hi := if neg then fmul (of_int (-1)) P else fdiv PI64 f2). exists lo, hi.
  split; [subst f; unfold lo, hi, P, face_rect; destruct neg; reflexivity|]. cbv zeta. set (r0 := Rect (R1 lo hi) s1_FULL). set (g := asin (sqrt (1 / 3))) in *. apply Rabs_le_inv in DP.
  assert (Fl : finite lo) by (unfold lo; destruct neg; assumption). assert (Fh : finite hi) by (unfold hi; destruct neg; assumption).
  assert (LH : - (pi / 2) <= B2R lo /\ B2R lo <= B2R hi /\ B2R hi <= pi / 2). { unfold lo, hi. destruct neg; lra. }
  assert (BT : forall p, between lo hi (Fin p) <-> B2R lo <= p <= B2R hi). { intros p. unfold between. rewrite (ev_fin _ Fl), (ev_fin _ Fh). reflexivity. }
  pose proof FULL_valid as VJ. assert (NV : ~ void (circ s1_FULL)) by (intros H; apply (H 0), Arc_FULL).
  assert (OK : okz r0).
  { unfold valid_zone, r0. cbn [rlat rlng lo1 hi1]. split; [exact Fl|]. split; [apply finite_number, Fh|]. split; [lra|]. split; [rewrite (ev_fin _ Fh); cbn [ele]; lra|]. split; [exact VJ|].
    split; intros H; exfalso; [apply (H (Fin (B2R lo))), BT; lra|apply NV, H]. }
  assert (NZ : ~ void (zset r0)). { intros H. apply (zset_void r0 OK) in H. apply (H (Fin (B2R lo))), BT. lra. }
  assert (SM : ~ seam (rlng r0)). { unfold seam, r0. cbn [rlng slo shi s1_FULL]. rewrite mpi_val. lra. }
  destruct (grow_face r0 OK NZ SM) as [OK1 SUB]. split; [exact OK1|]. intros d (SD & x & y & t & Hx & Hy & T & E1 & E2 & E3). apply (near_sub _ _ _ _ SUB).
  set (p := face_pos f x y) in *. set (z := if neg then -1 else 1). assert (Pz : pz3 p = z) by (unfold p, z; subst f; destruct neg; reflexivity). assert (FL : flat p = x * x + y * y) by (unfold p, flat; subst f; destruct neg; unfold face_pos; cbn [Z.eqb Pos.eqb px3 py3]; ring).
  assert (PL : exists l, px3 p = sqrt (flat p) * cos l /\ py3 p = sqrt (flat p) * sin l).
  { destruct (Rle_lt_or_eq_dec 0 (flat p)) as [FW|FW]; [unfold flat; nra| |].
    - assert (NW : 0 < sqrt (flat p)) by (apply sqrt_lt_R0; exact FW). assert (EW : sqrt (flat p) * sqrt (flat p) = flat p) by (apply sqrt_sqrt; lra).
      destruct (Rle_dec 0 (py3 p)) as [C|C].
      + destruct (turn_to 1 0 (px3 p) (py3 p) 1 (sqrt (flat p)) 0) as (a & _ & H1 & H2 & _); try (rewrite ?cos_0, ?sin_0; lra); try exact NW; try exact EW. exists a. auto.
      + destruct (turn_to (-1) 0 (px3 p) (py3 p) 1 (sqrt (flat p)) PI) as (a & _ & H1 & H2 & _); try (rewrite ?cos_PI, ?sin_PI; lra); try exact NW; try exact EW. exists a. auto.
    - exists 0. rewrite <- FW, sqrt_0. unfold flat in FW. assert (px3 p = 0 /\ py3 p = 0) as [-> ->] by nra. split; ring. }
  destruct PL as (l & L1 & L2). pose proof (sphere_of p d t l SD T E1 E2 E3 L1 L2) as ED. unfold len3 in ED. rewrite FL, Pz in ED.
  set (n := sqrt (x * x + y * y + z * z)) in *. assert (ZZ : z * z = 1) by (unfold z; destruct neg; ring). assert (N1 : 1 <= n) by (unfold n; rewrite <- sqrt_1 at 1; apply sqrt_le_1_alt; nra). assert (NN : n * n = x * x + y * y + 1) by (unfold n; rewrite sqrt_sqrt; nra).
  assert (S3 : sqrt (1 / 3) * sqrt (1 / 3) = 1 / 3) by (apply sqrt_sqrt; lra). pose proof (sqrt_pos (1 / 3)) as S0.
  assert (IQ : sqrt (1 / 3) <= 1 / n <= 1). { split; [|apply (Rmult_le_reg_r n); [lra|]; unfold Rdiv; rewrite Rmult_assoc, Rinv_l; lra]. replace (sqrt (1 / 3)) with (sqrt (1 / 3) / 1) by field. assert (X2 : x * x <= 1) by nra. assert (Y2 : y * y <= 1) by nra. apply quot_le; [lra|lra|exact S0|lra|]. rewrite S3, NN. lra. }
  set (k := asin (1 / n)). assert (KG : g <= k) by (apply asin_mono; lra). pose proof (asin_bound (1 / n)) as KB. fold k in KB.
  assert (PH : asin (z / n) = if neg then - k else k). { unfold z, k. destruct neg; [|reflexivity]. rewrite <- asin_opp. f_equal. unfold Rdiv. ring. }
  rewrite PH in ED. set (ph := if neg then - k else k) in *.
  assert (Q : exists q, B2R lo <= q <= B2R hi /\ Rabs (q - ph) <= 20 * ulp1).
  { destruct (Rle_dec ph (B2R lo)) as [C|C]; [|destruct (Rle_dec ph (B2R hi)) as [C'|C']].
    - exists (B2R lo). split; [lra|]. apply Rabs_le. unfold lo, ph in *. destruct neg; lra.
    - exists ph. split; [lra|]. rewrite Rminus_eq_0, Rabs_R0. lra.
    - exists (B2R hi). split; [lra|]. apply Rabs_le. unfold hi, ph in *. destruct neg; lra. }
  destruct Q as (q & Q1 & Q2). replace (104 * u) with (20 * ulp1 + 32 * ulp1) by lra. apply (near_rect r0 d ph l _ _ q OK ED (proj2 (BT q) Q1) Q2).
  destruct (full_lng l) as (s & m & H1 & H2 & H3). exists s, m. split; [exact H1|]. split; [exact H2|]. lra.
Qed.

(** ** All cells *)
Lemma top_rect fatan2 fasin c : accurate_asin fasin -> wf c -> lv c = 0%Z -> exists r, cell_rect_bound fatan2 fasin (cell_of c) = Some r /\ okz r /\
  forall d, patch (cell_of c) d -> near_area (lo1 (rlat r)) (hi1 (rlat r)) (slo (rlng r)) (shi (rlng r)) (104 * u) d.
Proof.
  intros A W LV. pose proof (face_of_range c W) as Hf. destruct (sq_aligned c W) as ((_ & P & D1 & D2 & B1 & B2 & B3 & B4) & F & S). rewrite LV in S. change (side 0) with (2 ^ 30)%Z in S.
  assert (I0 : sq_i (sq c) = 0%Z) by lia. assert (J0 : sq_j (sq c) = 0%Z) by lia. destruct uvl_ends as (U0 & U1 & _).
  assert (PT : forall d, patch (cell_of c) d -> in_patch (face_of c) (-1) 1 (-1) 1 d).
  { intros d. unfold patch, cell_of, uvrect. cbn [c_face c_uv rx ry lo1 hi1]. rewrite I0, J0, S. change (2 * 0)%Z with 0%Z. change (2 * (0 + 2 ^ 30))%Z with (2 ^ 31)%Z. rewrite U0, U1. auto. }
  unfold cell_rect_bound. cbn [cell_of c_level c_face]. rewrite LV. cbn [Z.gtb Z.compare].
  destruct PI_4_val as [FP4 VP4]. destruct mPI_4_val as [FM4 VM4]. destruct three_val as [F3 V3]. destruct mthree_val as [Fm3 Vm3]. apply Rabs_le_inv in V3, Vm3. pose proof pi_bounds as PB. pose proof pi_PI as PP.
  assert (EQ : forall a b k f, face_of c = f -> face_rect fasin f = Some (Rect (R1 (fneg PI_4) PI_4) (s1_new a b)) ->
     angle a -> angle b -> - pi < B2R a -> - pi < B2R b -> Rabs (B2R a - (k - PI / 4)) <= 3 * ulp1 -> Rabs (arc_end (B2R a) (B2R b) - (k + PI / 4)) <= 3 * ulp1 ->
     (forall x y, -1 <= x <= 1 -> -1 <= y <= 1 -> exists w z, -1 <= w <= 1 /\ -1 <= z <= 1 /\ px3 (face_pos f x y) = cos k * 1 - sin k * w /\ py3 (face_pos f x y) = sin k * 1 + cos k * w /\ pz3 (face_pos f x y) = z) ->
     exists r, (let* b := face_rect fasin (face_of c) in Some (rect_expanded b (LL DBL_EPSILON f0))) = Some r /\ okz r /\
     forall d, patch (cell_of c) d -> near_area (lo1 (rlat r)) (hi1 (rlat r)) (slo (rlng r)) (shi (rlng r)) (104 * u) d).
  { intros a b k f Ef Er Ha Hb La Lb DA DB FP. rewrite Ef, Er. destruct (equator_face a b k f Ha Hb La Lb DA DB FP) as [OK H]. eexists. split; [reflexivity|]. split; [exact OK|]. intros d Hd. apply H. rewrite <- Ef. apply PT, Hd. }
  assert (PO : forall f (neg : bool), face_of c = f -> f = (if neg then 5%Z else 2%Z) -> exists r, (let* b := face_rect fasin (face_of c) in Some (rect_expanded b (LL DBL_EPSILON f0))) = Some r /\ okz r /\
     forall d, patch (cell_of c) d -> near_area (lo1 (rlat r)) (hi1 (rlat r)) (slo (rlng r)) (shi (rlng r)) (104 * u) d).
  { intros f neg Ef En. destruct (pole_face fasin f neg A En) as (lo & hi & Er & OK & H). rewrite Ef, Er. eexists. split; [reflexivity|]. split; [exact OK|]. intros d Hd. apply H. rewrite <- Ef. apply PT, Hd. }
  destruct (face_zero_cases (face_of c) Hf) as [E | [E | [E | [E | [E | E]]]]].
  - apply (EQ (fneg PI_4) PI_4 0 0%Z E eq_refl); try (split; [assumption|lra]); try lra.
    + rewrite VM4. apply Rabs_le. lra.
    + rewrite VM4, VP4. unfold arc_end. destruct Rle_dec; apply Rabs_le; lra.
    + intros x y Hx Hy. exists x, y. rewrite cos_0, sin_0. unfold face_pos. cbn [Z.eqb Pos.eqb px3 py3 pz3]. repeat split; lra.
  - apply (EQ PI_4 (fmul (of_int 3) PI_4) (PI / 2) 1%Z E eq_refl); try (split; [assumption|lra]); try lra.
    + rewrite VP4. apply Rabs_le. lra.
    + rewrite VP4. unfold arc_end. destruct Rle_dec; apply Rabs_le; lra.
    + intros x y Hx Hy. exists x, y. rewrite cos_PI2, sin_PI2. unfold face_pos. cbn [Z.eqb Pos.eqb px3 py3 pz3]. repeat split; lra.
  - apply (PO 2%Z false E eq_refl).
  - apply (EQ (fmul (of_int 3) PI_4) (fmul (of_int (-3)) PI_4) PI 3%Z E eq_refl); try (split; [assumption|lra]); try lra.
    + apply Rabs_le. lra.
    + unfold arc_end. destruct Rle_dec; apply Rabs_le; lra.
    + intros x y Hx Hy. exists y, (- x). rewrite cos_PI, sin_PI. unfold face_pos. cbn [Z.eqb Pos.eqb px3 py3 pz3]. repeat split; lra.
  - apply (EQ (fmul (of_int (-3)) PI_4) (fneg PI_4) (- (PI / 2)) 4%Z E eq_refl); try (split; [assumption|lra]); try lra.
    + apply Rabs_le. lra.
    + rewrite VM4. unfold arc_end. destruct Rle_dec; apply Rabs_le; lra.
    + intros x y Hx Hy. exists y, (- x). rewrite cos_neg, sin_neg, cos_PI2, sin_PI2. unfold face_pos. cbn [Z.eqb Pos.eqb px3 py3 pz3]. repeat split; lra.
  - apply (PO 5%Z true E eq_refl).
Qed.
Theorem cell_rect_ok fatan2 fasin c : accurate_atan2 fatan2 -> accurate_asin fasin -> wf c -> exists r, cell_rect_bound fatan2 fasin (cell_of c) = Some r /\ okz r /\
  forall d, patch (cell_of c) d -> near_area (lo1 (rlat r)) (hi1 (rlat r)) (slo (rlng r)) (shi (rlng r)) (104 * u) d.
Proof.
  intros A B W. destruct (Z.eq_dec (lv c) 0) as [E|E]; [apply top_rect; assumption|]. pose proof W as [LV _]. apply lower_rect; [assumption|assumption|lia].
Qed.
